(** Properties C09-C12: conditional SMC (fbs/samplers/csmc/csmc.py). *)
From Verif Require Import CsmcBackward CsmcBackwardOk.
Open Scope R_scope.

(** ** C09: the forward pass never loses the reference *)
Theorem C09_forward_pass_keeps_reference :
  forall (U V : Type) (udef : U) (vdef : V) init initll trans translp lik cres,
  shapes_ok init initll trans translp lik cres ->
  forall k us_star bs_star vs ts nsamples keys As lws uss,
  us_star <> [] -> length bs_star = length us_star -> length vs = length us_star -> length ts = length us_star ->
  Forall (fun b => (b < nsamples + 1)%nat) bs_star ->
  runs (forward_pass udef vdef init initll trans lik cres k us_star bs_star vs ts nsamples) keys (As, lws, uss) ->
  let K := (length us_star - 1)%nat in
  (length As = K /\ length lws = (K + 1)%nat /\ length uss = (K + 1)%nat) /\
  (forall j lw, nth_error lws j = Some lw -> length lw = (nsamples + 1)%nat /\ Rsum (map exp lw) = 1) /\
  (forall j A, nth_error As j = Some A -> length A = (nsamples + 1)%nat /\ Forall (fun a => (a < nsamples + 1)%nat) A) /\
  (forall j us, nth_error uss j = Some us -> length us = (nsamples + 1)%nat) /\
  (forall j, (j <= K)%nat -> nth_error (nth j uss []) (nth j bs_star 0%nat) = nth_error us_star j) /\
  (forall j, (j < K)%nat -> nth (nth (S j) bs_star 0%nat) (nth j As []) 0%nat = nth j bs_star 0%nat).
Proof.
  intros U V udef vdef init initll trans translp lik cres Hsh k us_star bs_star vs ts nsamples keys As lws uss H1 H2 H3 H4 H5 Hr K.
  destruct (forward_pass_safe udef vdef _ _ _ _ _ _ Hsh k us_star bs_star vs ts nsamples H1 H2 H3 H4 H5 keys _ Hr)
    as (A1 & A2 & A3 & A4 & A5 & A6 & A7 & A8).
  rewrite Forall_forall in A4, A5, A6. fold K in A1, A2, A3, A7, A8.
  split; [lia|]. split; [|split; [|split; [|split]]]; auto.
  - intros j lw Hj. apply A4. eapply nth_error_In; eauto.
  - intros j A Hj. apply A5. eapply nth_error_In; eauto.
  - intros j us Hj. apply A6. eapply nth_error_In; eauto.
Qed.
Print Assumptions C09_forward_pass_keeps_reference.

(** the two conditional schemes of the library meet the hypothesis on [cond_resampling] *)
Theorem C09_library_schemes : forall k w i j, weights_ok w -> (i < length w)%nat -> (j < length w)%nat ->
  safe (cmultinomial k w i j true) (fun A => valid_indices (length w) A /\ nth j A 0%nat = i) /\
  safe (ckilling k w i j true) (fun A => valid_indices (length w) A /\ nth j A 0%nat = i).
Proof. intros; split; [now apply cmultinomial_safe|now apply ckilling_safe]. Qed.
Print Assumptions C09_library_schemes.

Example C09_example : forall keys As lws uss,
  runs (forward_pass false false demo_init demo_initll demo_trans demo_lik ckilling [] [true; false; true] [1%nat; 0%nat; 2%nat]
          [true; true; false] [0; 1; 2] 2) keys (As, lws, uss) ->
  length As = 2%nat /\ nth_error (nth 2 uss []) 2 = Some true /\ nth 2 (nth 1 As []) 7%nat = 0%nat.
Proof.
  intros keys As lws uss Hr.
  apply (C09_forward_pass_keeps_reference _ _ _ _ _ _ _ _ _ _ (demo_shapes ckilling ckilling_safe)) in Hr;
    [|discriminate|reflexivity|reflexivity|reflexivity|repeat constructor].
  destruct Hr as ((H1 & _ & _) & _ & H3 & _ & H5 & H6).
  cbn in H1. split; [exact H1|]. split; [exact (H5 2%nat ltac:(simpl; lia))|].
  pose proof (H6 1%nat ltac:(simpl; lia)) as H. cbn [nth] in H. refine (eq_trans _ H). apply nth_indep.
  destruct As as [|A0 [|A1 [|]]]; try discriminate. destruct (H3 1%nat A1 eq_refl) as [Hl _]. cbn [nth]. lia.
Qed.

(** ** C10: the returned pair is a genuine path through the particle system *)
Theorem C10_returns_genuine_path :
  forall (U V : Type) (udef : U) (vdef : V) init initll trans translp lik cres,
  shapes_ok init initll trans translp lik cres ->
  forall k us_star bs_star vs ts nsamples backward keys path idx,
  us_star <> [] -> length bs_star = length us_star -> length vs = length us_star -> length ts = length us_star ->
  Forall (fun b => (b < nsamples + 1)%nat) bs_star ->
  runs (csmc_kernel udef vdef init initll trans translp lik cres k us_star bs_star vs ts nsamples backward) keys (path, idx) ->
  length path = length us_star /\ length idx = length us_star /\ Forall (fun b => (b < nsamples + 1)%nat) idx /\
  exists keys1 As lws uss,
    runs (forward_pass udef vdef init initll trans lik cres (split_key k 0) us_star bs_star vs ts nsamples) keys1 (As, lws, uss) /\
    (forall j, (j < length us_star)%nat -> nth_error (nth j uss []) (nth j idx 0%nat) = nth_error path j) /\
    (backward = false -> forall j, (S j < length us_star)%nat -> nth j idx 0%nat = nth (nth (S j) idx 0%nat) (nth j As []) 0%nat).
Proof.
  intros U V udef vdef init initll trans translp lik cres Hsh k us_star bs_star vs ts nsamples backward keys path idx H1 H2 H3 H4 H5 Hr.
  destruct (csmc_kernel_path udef vdef _ _ _ _ _ _ Hsh k us_star bs_star vs ts nsamples backward keys _ H1 H2 H3 H4 H5 Hr)
    as (tr1 & As & lws & uss & Hf & (A1 & A2 & A3 & A4 & A5 & A6 & _) & (P1 & P2 & P3 & P4 & P5)).
  assert (Hl : length uss = length us_star) by (destruct us_star; [easy|simpl in *; lia]).
  rewrite Hl in *. split; [exact P1|]. split; [exact P2|]. split.
  - apply Forall_forall. intros b Hb. apply (In_nth _ _ 0%nat) in Hb. destruct Hb as (j & Hj & <-).
    assert (Hj' : (j < length us_star)%nat) by lia. specialize (P3 j Hj').
    rewrite Forall_forall in A6. rewrite (A6 (nth j uss [])) in P3; [exact P3|]. apply nth_In. lia.
  - exists tr1, As, lws, uss. split; [exact Hf|]. split; [exact P4|].
    intros ->. apply P5. reflexivity.
Qed.
Print Assumptions C10_returns_genuine_path.

Example C10_example : forall keys path idx,
  runs (csmc_kernel false false demo_init demo_initll demo_trans demo_translp demo_lik cmultinomial [] [true; false] [1%nat; 0%nat]
          [true; true] [0; 1] 1 true) keys (path, idx) ->
  length path = 2%nat /\ Forall (fun b => (b < 2)%nat) idx.
Proof.
  intros keys path idx Hr.
  apply (C10_returns_genuine_path _ _ _ _ _ _ _ _ _ _ (demo_shapes cmultinomial cmultinomial_safe)) in Hr;
    [|discriminate|reflexivity|reflexivity|reflexivity|repeat constructor].
  destruct Hr as (H1 & _ & H3 & _). auto.
Qed.

(** ** C11: invariance (and reversibility) of the tracing variant *)

(** [exact_cres cres r] is the property established for both library schemes in C07. *)
Theorem C11_library_schemes_exact :
  exact_cres cmultinomial multinomial_dist /\ exact_cres ckilling rolled_killing_dist.
Proof. split; [exact exact_cmultinomial|exact exact_ckilling]. Qed.
Print Assumptions C11_library_schemes_exact.

Theorem C11_csmc_reversible :
  forall (U V : Type) (udef : U) (vdef : V) init initll trans translp lik cres m0 lG0 M lg r,
  model_ok init initll trans lik cres m0 lG0 M lg r ->
  shapes_ok init initll trans translp lik cres ->
  forall k vs ts nsamples f h, vs <> [] -> length ts = length vs ->
  let pi := fk_measure m0 (lG0 (nth 0 vs vdef) (nth 1 vs vdef)) (fk_of M lg (step_data vs ts)) in
  let step us bs := law (csmc_kernel udef vdef init initll trans translp lik cres k us bs vs ts nsamples false) in
  E pi (fun us => E (unif_indices (nsamples + 1) (length vs)) (fun bs => h (us, bs) * step us bs f)) =
  E pi (fun us => E (unif_indices (nsamples + 1) (length vs)) (fun bs => f (us, bs) * step us bs h)).
Proof.
  intros U V udef vdef init initll trans translp lik cres m0 lG0 M lg r Hmo Hsh k vs ts nsamples f h Hv Ht pi step.
  exact (csmc_trace_reversible udef vdef init initll trans translp lik cres m0 lG0 M lg r Hmo Hsh k vs ts nsamples f h Hv Ht).
Qed.
Print Assumptions C11_csmc_reversible.

Theorem C11_csmc_invariant :
  forall (U V : Type) (udef : U) (vdef : V) init initll trans translp lik cres m0 lG0 M lg r,
  model_ok init initll trans lik cres m0 lG0 M lg r ->
  shapes_ok init initll trans translp lik cres ->
  forall k vs ts nsamples f, vs <> [] -> length ts = length vs ->
  let pi := fk_measure m0 (lG0 (nth 0 vs vdef) (nth 1 vs vdef)) (fk_of M lg (step_data vs ts)) in
  E pi (fun us => E (unif_indices (nsamples + 1) (length vs)) (fun bs =>
      law (csmc_kernel udef vdef init initll trans translp lik cres k us bs vs ts nsamples false) f)) =
  E pi (fun us => E (unif_indices (nsamples + 1) (length vs)) (fun bs => f (us, bs))).
Proof.
  intros U V udef vdef init initll trans translp lik cres m0 lG0 M lg r Hmo Hsh k vs ts nsamples f Hv Ht pi.
  exact (csmc_trace_invariant udef vdef init initll trans translp lik cres m0 lG0 M lg r Hmo Hsh k vs ts nsamples f Hv Ht).
Qed.
Print Assumptions C11_csmc_invariant.

(** the specification measure is what it should be: two steps written out *)
Example C11_spec_example : forall Q,
  E (fk_measure coin (demo_lG0 true true) (fk_of demo_M demo_lg (step_data [true; true] [0; 1]))) Q =
  3/8 * Q [false; false] + 1/8 * Q [false; true] + 3/4 * Q [true; false] + 9/4 * Q [true; true].
Proof.
  intros Q. unfold fk_measure. rewrite E_dbind. unfold coin. unfold E at 1. cbn [map fst snd Rsum].
  rewrite !E_dscale, !E_dmap. cbn [step_data fk_of map fk_path]. rewrite !E_dscale, !E_dbind.
  unfold demo_M, sticky, demo_lg, demo_lG0. cbn [eqb negb]. rewrite exp_0, !exp_ln by lra. unfold E. cbn [map fst snd Rsum dmap dret]. lra.
Qed.

Example C11_example :
  E (fk_measure coin (demo_lG0 true true) (fk_of demo_M demo_lg (step_data [true; true] [0; 1]))) (fun us =>
     E (unif_indices 3 2) (fun bs =>
       law (csmc_kernel false false demo_init demo_initll demo_trans demo_translp demo_lik ckilling [] us bs [true; true] [0; 1] 2 false)
         (fun pi => if nth 1 (fst pi) false then 1 else 0))) = 19/8.
Proof.
  refine (eq_trans (C11_csmc_invariant _ _ false false _ _ _ _ _ _ _ _ _ _ _ (demo_model ckilling _ exact_ckilling)
     (demo_shapes ckilling ckilling_safe) [] [true; true] [0; 1] 2 _ ltac:(discriminate) eq_refl) _).
  cbn [nth]. rewrite C11_spec_example. cbn [fst nth].
  rewrite !E_const by (apply is_prob_dseq, Forall_repeat, is_prob_dunif; lia). lra.
Qed.

(** ** C12: with backward sampling the kernel does not preserve the smoothing law.
    The backward weights use p(u_{k+1} | u_k) but not the likelihood p(v_{k+1} | u_k, v_k), so the statement fails
    even for a model satisfying every hypothesis of C11, with the true transition log-density supplied. *)
Theorem C12_backward_sampling_invariant_refuted :
  exists (init : key -> nat -> prog (list bool)) initll trans translp lik m0 lG0 M lg,
    model_ok init initll trans lik cmultinomial m0 lG0 M lg multinomial_dist /\
    shapes_ok init initll trans translp lik cmultinomial /\
    (forall x us v t, translp x us v t = map (fun u => ln (E (M v t u) (fun y => if eqb x y then 1 else 0))) us) /\
    exists (vs : list bool) ts nsamples f, vs <> [] /\ length ts = length vs /\
    let pi := fk_measure m0 (lG0 (nth 0 vs false) (nth 1 vs false)) (fk_of M lg (step_data vs ts)) in
    E pi (fun us => E (unif_indices (nsamples + 1) (length vs)) (fun bs =>
        law (csmc_kernel false false init initll trans translp lik cmultinomial [] us bs vs ts nsamples true) f)) <>
    E pi (fun us => E (unif_indices (nsamples + 1) (length vs)) (fun bs => f (us, bs))).
Proof.
  exists demo_init, flat_initll, flat_trans, flat_translp, demo_lik, coin, flat_lG0, flat_M, demo_lg.
  split; [exact (flat_model cmultinomial _ exact_cmultinomial)|].
  split; [exact (flat_shapes cmultinomial cmultinomial_safe)|].
  split.
  - intros x us v t. unfold flat_translp, flat_M, coin, E. apply map_ext. intros u.
    destruct x; cbn [eqb map fst snd Rsum]; f_equal; lra.
  - exists [true; true], [0; 1], 1%nat, first_state.
    split; [discriminate|]. split; [reflexivity|]. cbv zeta.
    destruct backward_sampling_not_invariant as [H1 H2]. unfold smoothing in H1, H2. cbn [length Nat.add].
    cbn [nth] in *. rewrite H1, H2. lra.
Qed.
Print Assumptions C12_backward_sampling_invariant_refuted.

(** What does hold: when the likelihoods after the first step do not depend on the particle, resampling is multinomial, and
    [transition_logpdf] is the log of a density of the transition kernel, the kernel with backward sampling is reversible with
    respect to the smoothing law (uniform ancestor indices), and so preserves it. *)
Theorem C12_backward_sampling_reversible_partial :
  forall (U V : Type) (udef : U) (vdef : V) init initll trans translp lik cres m0 lG0 M lg lp,
  model_ok init initll trans lik cres m0 lG0 M lg multinomial_dist ->
  shapes_ok init initll trans translp lik cres ->
  (forall v vp t u u', lg v vp t u = lg v vp t u') ->
  (forall y us v t, translp y us v t = map (fun u => lp v t u y) us) ->
  (forall v t, exists mu : dist U, forall u f, E (M v t u) f = E mu (fun y => exp (lp v t u y) * f y)) ->
  forall k vs ts nsamples f h, vs <> [] -> length ts = length vs ->
  let pi := fk_measure m0 (lG0 (nth 0 vs vdef) (nth 1 vs vdef)) (fk_of M lg (step_data vs ts)) in
  let step us bs := law (csmc_kernel udef vdef init initll trans translp lik cres k us bs vs ts nsamples true) in
  E pi (fun us => E (unif_indices (nsamples + 1) (length vs)) (fun bs => h (us, bs) * step us bs f)) =
  E pi (fun us => E (unif_indices (nsamples + 1) (length vs)) (fun bs => f (us, bs) * step us bs h)).
Proof.
  intros U V udef vdef init initll trans translp lik cres m0 lG0 M lg lp Hmo Hsh Hc Hlp Hd k vs ts nsamples f h Hv Ht pi step.
  rewrite (const_lik lg udef Hc) in Hmo. unfold pi. rewrite (const_lik lg udef Hc).
  exact (csmc_back_reversible udef vdef init initll trans translp lik cres m0 lG0 M (fun v vp t => lg v vp t udef) Hmo Hsh lp Hlp Hd k vs ts nsamples f h Hv Ht).
Qed.
Print Assumptions C12_backward_sampling_reversible_partial.

Theorem C12_backward_sampling_invariant_partial :
  forall (U V : Type) (udef : U) (vdef : V) init initll trans translp lik cres m0 lG0 M lg lp,
  model_ok init initll trans lik cres m0 lG0 M lg multinomial_dist ->
  shapes_ok init initll trans translp lik cres ->
  (forall v vp t u u', lg v vp t u = lg v vp t u') ->
  (forall y us v t, translp y us v t = map (fun u => lp v t u y) us) ->
  (forall v t, exists mu : dist U, forall u f, E (M v t u) f = E mu (fun y => exp (lp v t u y) * f y)) ->
  forall k vs ts nsamples f, vs <> [] -> length ts = length vs ->
  let pi := fk_measure m0 (lG0 (nth 0 vs vdef) (nth 1 vs vdef)) (fk_of M lg (step_data vs ts)) in
  E pi (fun us => E (unif_indices (nsamples + 1) (length vs)) (fun bs =>
      law (csmc_kernel udef vdef init initll trans translp lik cres k us bs vs ts nsamples true) f)) =
  E pi (fun us => E (unif_indices (nsamples + 1) (length vs)) (fun bs => f (us, bs))).
Proof.
  intros U V udef vdef init initll trans translp lik cres m0 lG0 M lg lp Hmo Hsh Hc Hlp Hd k vs ts nsamples f Hv Ht pi.
  rewrite (const_lik lg udef Hc) in Hmo. unfold pi. rewrite (const_lik lg udef Hc).
  exact (csmc_back_invariant udef vdef init initll trans translp lik cres m0 lG0 M (fun v vp t => lg v vp t udef) Hmo Hsh lp Hlp Hd k vs ts nsamples f Hv Ht).
Qed.
Print Assumptions C12_backward_sampling_invariant_partial.

(** three observations, an informative first likelihood, sticky transitions, a later likelihood that sees only the observations *)
Definition obs_lg (v v' : bool) (t : R) (u : bool) : R := if eqb v v' then ln 5 else 0.
Definition obs_lik (v : bool) (us : list bool) (v' : bool) (t : R) : list R := map (obs_lg v v' t) us.

Example C12_example :
  E (fk_measure coin (demo_lG0 true true) (fk_of demo_M obs_lg (step_data [true; true; false] [0; 1; 2]))) (fun us =>
     E (unif_indices 3 3) (fun bs =>
       law (csmc_kernel false false demo_init demo_initll demo_trans demo_translp obs_lik cmultinomial [] us bs [true; true; false] [0; 1; 2] 2 true)
         (fun pi => if nth 2 (fst pi) false then 1 else 0))) = 65/16.
Proof.
  refine (eq_trans (C12_backward_sampling_invariant_partial bool bool false false demo_init demo_initll demo_trans demo_translp obs_lik cmultinomial
     coin demo_lG0 demo_M obs_lg (fun _ _ u y => if eqb y u then ln (3/4) else ln (1/4)) _ _ _ _ _ [] [true; true; false] [0; 1; 2] 2 _ ltac:(discriminate) eq_refl) _).
  - destruct (demo_model cmultinomial _ exact_cmultinomial) as []. constructor; try assumption. intros. reflexivity.
  - destruct (demo_shapes cmultinomial cmultinomial_safe) as []. constructor; try assumption. intros. unfold obs_lik. apply map_length.
  - reflexivity.
  - intros y us v t. unfold demo_translp. apply map_ext. intros u. reflexivity.
  - intros v t. exists [(1, false); (1, true)]. intros u f. unfold demo_M, sticky, E. destruct u; cbn [map fst snd Rsum eqb negb]; rewrite !exp_ln by lra; ring.
  - cbn [nth]. cbn [Nat.add length]. rewrite (E_ext' _ _ (fun us => if nth 2 us false then 1 else 0)).
    2:{ intros us. cbn [fst]. apply E_const. apply is_prob_dseq, Forall_repeat, is_prob_dunif. lia. }
    unfold fk_measure. rewrite E_dbind. unfold coin. unfold E at 1. cbn [map fst snd Rsum].
    rewrite !E_dscale, !E_dmap. cbn [step_data fk_of map fk_path]. rewrite !E_dscale, !E_dbind.
    unfold demo_M, sticky, obs_lg, demo_lG0. cbn [eqb negb]. rewrite exp_0, !exp_ln by lra.
    unfold E. cbn [map fst snd Rsum dmap dret dbind dscale flat_map app nth eqb negb fk_path]. rewrite ?exp_0. lra.
Qed.
