(** Properties C105-C106: what the conditional SMC chain forgets (fbs/samplers/csmc/csmc.py). *)
From Verif Require Import CsmcErgodic Demo.
From Coq Require Import Lra Lia.
Open Scope R_scope.

(** ** C105: the indices of the reference path carry no information *)
Theorem C105_path_law_ignores_reference_indices :
  forall (U V : Type) (udef : U) (vdef : V) init initll trans translp lik cres m0 lG0 M lg r,
  (cres = cmultinomial \/ cres = ckilling) ->
  model_ok init initll trans lik cres m0 lG0 M lg r ->
  shapes_ok init initll trans translp lik cres ->
  forall k k' us bs bs' vs ts nsamples f,
  vs <> [] -> length ts = length vs -> length us = length vs ->
  length bs = length vs -> Forall (fun b => (b < nsamples + 1)%nat) bs ->
  length bs' = length vs -> Forall (fun b => (b < nsamples + 1)%nat) bs' ->
  law (csmc_kernel udef vdef init initll trans translp lik cres k us bs vs ts nsamples false) (fun res => f (fst res)) =
  law (csmc_kernel udef vdef init initll trans translp lik cres k' us bs' vs ts nsamples false) (fun res => f (fst res)).
Proof.
  intros U V udef vdef init initll trans translp lik cres m0 lG0 M lg r [->| ->] Hmo Hsh k k' us bs bs' vs ts nsamples f Hv Ht Hu Hb Hb1 Hb' Hb1'.
  - exact (path_law_forgets_indices udef vdef _ _ _ _ _ _ m0 lG0 M lg r Hmo Hsh _ _ phi_multinomial_law exch_multinomial
      vs ts nsamples Hv Ht k k' us bs bs' f (conj Hu (conj Hb Hb1)) (conj Hu (conj Hb' Hb1'))).
  - exact (path_law_forgets_indices udef vdef _ _ _ _ _ _ m0 lG0 M lg r Hmo Hsh _ _ phi_killing_law exch_killing
      vs ts nsamples Hv Ht k k' us bs bs' f (conj Hu (conj Hb Hb1)) (conj Hu (conj Hb' Hb1'))).
Qed.
Print Assumptions C105_path_law_ignores_reference_indices.

Example C105_example : forall k,
  let step bs := law (csmc_kernel false false demo_init demo_initll demo_trans demo_translp demo_lik ckilling k [true; false] bs [true; true] [0; 1] 2 false)
                   (fun res => if nth 1 (fst res) false then 1 else 0) in
  step [0; 0]%nat = step [2; 1]%nat.
Proof.
  intros k. cbv zeta. apply (C105_path_law_ignores_reference_indices _ _ false false _ _ _ _ _ ckilling _ _ _ _ _ (or_intror eq_refl)
    (demo_model ckilling _ exact_ckilling) (demo_shapes ckilling ckilling_safe) k k [true; false] [0; 0]%nat [2; 1]%nat [true; true] [0; 1] 2
    (fun p => if nth 1 p false then 1 else 0)); try reflexivity; try discriminate; repeat constructor.
Qed.

(** ** C106: from every start the chain of kernels approaches the smoothing law geometrically fast *)
Theorem C106_chain_converges :
  forall (U V : Type) (udef : U) (vdef : V) init initll trans translp lik cres m0 lG0 M lg r kappa,
  ((cres = cmultinomial /\ kappa = fun n => INR n) \/ (cres = ckilling /\ kappa = fun n => INR n - 1 + 2 / INR (S n))) ->
  model_ok init initll trans lik cres m0 lG0 M lg r ->
  shapes_ok init initll trans translp lik cres ->
  forall vs ts nsamples G G0, vs <> [] -> length ts = length vs -> (0 < nsamples)%nat ->
  (forall v vp t u, exp (lg v vp t u) <= G) -> (forall v v' u, exp (lG0 v v' u) <= G0) ->
  let pi := fk_measure m0 (lG0 (nth 0 vs vdef) (nth 1 vs vdef)) (fk_of M lg (step_data vs ts)) in
  let Z := E pi (fun _ => 1) in
  let N := INR (nsamples + 1) in
  let delta := INR nsamples / (N * G0) * (kappa nsamples / (N * G)) ^ (length vs - 1) * Z in
  0 < delta <= 1 /\
  forall k n us bs f a b,
    length us = length vs -> length bs = length vs -> Forall (fun b => (b < nsamples + 1)%nat) bs ->
    (forall p, length p = length vs -> a <= f p <= b) ->
    Rabs (law (csmc_chain udef vdef init initll trans translp lik cres k 0 n us bs vs ts nsamples) (fun res => f (fst res)) - E pi f / Z)
      <= (1 - delta) ^ n * (b - a).
Proof.
  intros U V udef vdef init initll trans translp lik cres m0 lG0 M lg r kappa Hc Hmo Hsh vs ts nsamples G G0 Hv Ht Hns HG HG0 pi Z N delta.
  assert (Hd : delta = CsmcErgodic.delta vdef m0 lG0 M lg kappa vs ts nsamples G G0)
    by (unfold delta, CsmcErgodic.delta, minor; now replace (nsamples + 1 - 1)%nat with nsamples by lia).
  destruct Hc as [[-> ->]|[-> ->]]; rewrite Hd; (split;
    [|intros k n us bs f a b Hu Hb Hb1 Hf]).
  - exact (delta_bounds udef vdef _ _ _ _ _ _ m0 lG0 M lg r Hmo Hsh _ _ phi_multinomial_law exch_multinomial vs ts nsamples Hv Ht G G0 HG HG0 Hns).
  - exact (chain_converges udef vdef _ _ _ _ _ _ m0 lG0 M lg r Hmo Hsh _ _ phi_multinomial_law exch_multinomial vs ts nsamples Hv Ht G G0 HG HG0 Hns
      k n us bs f a b (conj Hu (conj Hb Hb1)) Hf).
  - exact (delta_bounds udef vdef _ _ _ _ _ _ m0 lG0 M lg r Hmo Hsh _ _ phi_killing_law exch_killing vs ts nsamples Hv Ht G G0 HG HG0 Hns).
  - exact (chain_converges udef vdef _ _ _ _ _ _ m0 lG0 M lg r Hmo Hsh _ _ phi_killing_law exch_killing vs ts nsamples Hv Ht G G0 HG HG0 Hns
      k n us bs f a b (conj Hu (conj Hb Hb1)) Hf).
Qed.
Print Assumptions C106_chain_converges.

(** uniformly over the starting paths, indices and keys, the expectation converges *)
Theorem C106_chain_limit :
  forall (U V : Type) (udef : U) (vdef : V) init initll trans translp lik cres m0 lG0 M lg r,
  (cres = cmultinomial \/ cres = ckilling) ->
  model_ok init initll trans lik cres m0 lG0 M lg r ->
  shapes_ok init initll trans translp lik cres ->
  forall vs ts nsamples G G0 f a b, vs <> [] -> length ts = length vs -> (0 < nsamples)%nat ->
  (forall v vp t u, exp (lg v vp t u) <= G) -> (forall v v' u, exp (lG0 v v' u) <= G0) ->
  (forall p, length p = length vs -> a <= f p <= b) ->
  let pi := fk_measure m0 (lG0 (nth 0 vs vdef) (nth 1 vs vdef)) (fk_of M lg (step_data vs ts)) in
  forall eps, 0 < eps -> exists n0, forall n k us bs, (n0 <= n)%nat ->
    length us = length vs -> length bs = length vs -> Forall (fun b => (b < nsamples + 1)%nat) bs ->
    Rabs (law (csmc_chain udef vdef init initll trans translp lik cres k 0 n us bs vs ts nsamples) (fun res => f (fst res))
          - E pi f / E pi (fun _ => 1)) < eps.
Proof.
  intros U V udef vdef init initll trans translp lik cres m0 lG0 M lg r Hc Hmo Hsh vs ts nsamples G G0 f a b Hv Ht Hns HG HG0 Hf pi eps Heps.
  assert (Hk : exists kappa, (cres = cmultinomial /\ kappa = fun n => INR n) \/ (cres = ckilling /\ kappa = fun n => INR n - 1 + 2 / INR (S n)))
    by (destruct Hc; eexists; [left|right]; split; try assumption; reflexivity).
  destruct Hk as [kappa Hk].
  destruct (C106_chain_converges U V udef vdef _ _ _ translp _ cres m0 lG0 M lg r kappa Hk Hmo Hsh vs ts nsamples G G0 Hv Ht Hns HG HG0) as [Hd Hb].
  set (d := INR nsamples / _ * _ * _) in Hd, Hb. fold pi in d, Hb.
  assert (Hab : 0 <= b - a) by (pose proof (Hf (repeat udef (length vs)) (repeat_length _ _)); lra).
  destruct (pow_lt_1_zero (1 - d) ltac:(rewrite Rabs_pos_eq; lra) (eps / (b - a + 1)) ltac:(apply Rdiv_lt_0_compat; lra)) as [n0 Hn0].
  exists n0. intros n k us bs Hn Hu Hbs Hb1. eapply Rle_lt_trans; [apply (Hb k n us bs f a b Hu Hbs Hb1 Hf)|].
  specialize (Hn0 n ltac:(lia)). rewrite Rabs_pos_eq in Hn0 by (apply pow_le; lra).
  apply Rle_lt_trans with ((1 - d) ^ n * (b - a + 1)); [apply Rmult_le_compat_l; [apply pow_le; lra|lra]|].
  apply (Rmult_lt_compat_r (b - a + 1)) in Hn0; [|lra]. replace (eps / (b - a + 1) * (b - a + 1)) with eps in Hn0 by (field; lra). lra.
Qed.
Print Assumptions C106_chain_limit.

Lemma demo_G : (forall v vp t u, exp (demo_lg v vp t u) <= 3) /\ (forall v v' u, exp (demo_lG0 v v' u) <= 2).
Proof. split; intros; unfold demo_lg, demo_lG0; destruct (eqb _ _); rewrite ?exp_0, ?exp_ln by lra; lra. Qed.

(** with three particles and the killing scheme: rate 127/162, and P(last state is true) = 19/28 *)
Example C106_example : forall k n us bs,
  length us = 2%nat -> length bs = 2%nat -> Forall (fun b => (b < 3)%nat) bs ->
  Rabs (law (csmc_chain false false demo_init demo_initll demo_trans demo_translp demo_lik ckilling k 0 n us bs [true; true] [0; 1] 2)
     (fun res => if nth 1 (fst res) false then 1 else 0) - 19/28) <= (127/162) ^ n.
Proof.
  intros k n us bs Hu Hb Hb1.
  destruct (C106_chain_converges _ _ false false _ _ _ _ _ ckilling _ _ _ _ _ _ (or_intror (conj eq_refl eq_refl))
    (demo_model ckilling _ exact_ckilling) (demo_shapes ckilling ckilling_safe) [true; true] [0; 1] 2 3 2 ltac:(discriminate) eq_refl ltac:(lia)
    (proj1 demo_G) (proj2 demo_G)) as [_ H].
  assert (HS : forall Q, E (fk_measure coin (demo_lG0 true true) (fk_of demo_M demo_lg (step_data [true; true] [0; 1]))) Q =
    3/8 * Q [false; false] + 1/8 * Q [false; true] + 3/4 * Q [true; false] + 9/4 * Q [true; true]).
  { intros Q. unfold fk_measure. rewrite E_dbind. unfold coin. unfold E at 1. cbn [map fst snd Rsum].
    rewrite !E_dscale, !E_dmap. cbn [step_data fk_of map fk_path]. rewrite !E_dscale, !E_dbind.
    unfold demo_M, sticky, demo_lg, demo_lG0. cbn [eqb negb]. rewrite exp_0, !exp_ln by lra. unfold E. cbn [map fst snd Rsum dmap dret]. lra. }
  specialize (H k n us bs (fun p => if nth 1 p false then 1 else 0) 0 1 Hu Hb Hb1 ltac:(intros p _; cbv beta; destruct (nth 1 p false); lra)).
  cbn [nth] in H. rewrite !HS in H. cbn [nth length Nat.sub Nat.add pow] in H.
  match type of H with Rabs (?x - ?y) <= _ => replace y with (19/28) in H by lra end.
  match type of H with _ <= (1 - ?d) ^ n * _ => replace (1 - d) with (127/162) in H by (cbn [INR]; lra) end.
  lra.
Qed.
