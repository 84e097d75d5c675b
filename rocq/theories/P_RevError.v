(** Property C131: the conditional samplers inherit the error of the learnt reverse dynamics. *)
From Coquelicot Require Import Coquelicot.
From Coq Require Import Reals List Bool Lia Lra.
From Verif Require Import Base Dist Prog Smc CsmcProofs SmcProofs Pmcmc FilterSlot Demo GibbsDemo Pinsker RevError.
Import ListNotations.
Open Scope R_scope.

(** Averaged over the observation paths, the normalised measure targeted by the filter differs from the true law of the hidden path by at
    most the accumulated divergence of the model from the true reverse process. *)
Theorem C131_filter_target_error :
  forall (U V : Type) (vdef : V) (P0 : dist V) (k0 : V -> dist U) (p : R -> U -> V -> dist (U * V))
    (m0 : V -> dist U) (M : V -> R -> U -> dist U) (lg : V -> V -> R -> U -> R) veq r0 rt,
  is_prob P0 -> (forall v, is_prob (k0 v)) -> (forall t u v, is_prob (p t u v)) -> (forall v, is_prob (m0 v)) -> density_ratio k0 p m0 M lg veq r0 rt ->
  forall (ts : list R) (P : dist (list V)) (K : list V -> dist (list U)), ts <> [] -> disintegrates P0 k0 p ts P K ->
  forall (phi : list U -> R) B, (forall us, Rabs (phi us) <= B) ->
  E P (fun vs => (E (K vs) phi - E (filter_target vdef M lg m0 vs ts) phi / E (filter_target vdef M lg m0 vs ts) (fun _ => 1)) ^ 2) <= 2 * B ^ 2 * model_error P0 k0 p r0 rt ts.
Proof. exact @filter_error. Qed.

(** The whole experiment with killing resampling: averaged over the observation, the law of the reported sample is off by the error of the
    reverse dynamics plus the Monte Carlo error. *)
Theorem C131_conditional_sampler_error :
  forall (U V : Type) (udef : U) (vdef : V) (P0 : dist V) (k0 : V -> dist U) (p : R -> U -> V -> dist (U * V)) trans meas
    (m0 : V -> dist U) (M : V -> R -> U -> dist U) (lg : V -> V -> R -> U -> R) veq r0 rt,
  is_prob P0 -> (forall v, is_prob (k0 v)) -> (forall t u v, is_prob (p t u v)) -> (forall v, is_prob (m0 v)) -> density_ratio k0 p m0 M lg veq r0 rt ->
  filter_ok trans meas killing M lg ->
  forall (ts : list R) (D0 : dist V) (PF : V -> dist (list V)) (K : list V -> dist (list U)) (post : V -> dist U),
  ts <> [] -> is_prob D0 -> reverses P0 k0 p vdef ts D0 PF K post udef ->
  forall (init : key -> V -> nat -> prog (list U)) (fwd : V -> key -> prog (list V)) n, (0 < n)%nat ->
  (forall k v n, denotes (init k v n) (dseq (repeat (m0 v) n))) -> (forall y k, In y (map snd D0) -> denotes (fwd y k) (PF y)) ->
  forall phi B G z k, 0 < z -> 0 <= G ->
  (forall y ys, In y (map snd D0) -> In ys (map snd (PF y)) -> z <= E (filter_target vdef M lg m0 (rev ys) ts) (fun _ => 1) /\
     forall v vp t, In (v, vp, t) (step_data (rev ys) ts) -> forall u, exp (lg v vp t u) <= G) ->
  (forall u, Rabs (phi u) <= B) ->
  E D0 (fun y => Rabs (law (conditional_sampler udef vdef trans meas killing (fwd y) ts init n k) phi - E (post y) phi))
  <= sqrt (2 * B ^ 2 * model_error P0 k0 p r0 rt ts) + sqrt (/ INR n * ((2 * INR (length ts - 1) + 1) * G ^ (2 * (length ts - 1)) * B ^ 2 / z ^ 2)).
Proof.
  intros U V udef vdef P0 k0 p trans meas m0 M lg veq r0 rt HP0 Hk0 Hp Hm0 HD Hfo ts D0 PF K post Hts HD0 HR init fwd n Hn Hinit Hfwd phi B G z k Hz HG Hb HB.
  apply (experiment_error udef vdef P0 k0 p trans meas killing m0 M lg veq r0 rt HP0 Hk0 Hp Hm0 HD ts D0 PF K post Hts HD0 HR Hfo killing_consistent killing_dist); try assumption.
  - intros. now apply killing_denotes.
  - intros w A. apply killing_dist_valid.
  - exact killing_equivariant.
  - intros y ys Hy Hys. destruct (Hb y ys Hy Hys) as [H1 H2]. split; [|exact H1]. apply Forall_forall. intros [[v vp] t] Hin u. now apply (H2 v vp t).
Qed.
Print Assumptions C131_filter_target_error.
Print Assumptions C131_conditional_sampler_error.

(** ** Example: the hidden state keeps its value with probability 3/4; the next observation shows it with probability 3/5, the model says 3/4 *)
Definition rx_p (t : R) (u v : bool) : dist (bool * bool) := [(9/20, (u, u)); (3/20, (negb u, u)); (6/20, (u, negb u)); (2/20, (negb u, negb u))].
Definition rx_rt (t : R) (u v : bool) (z : bool * bool) : R := if eqb (snd z) u then 5/4 else 5/8.
Definition rx_PF (y : bool) : dist (list bool) := [(1/2, [y; false]); (1/2, [y; true])].
Definition rx_K (vs : list bool) : dist (list bool) :=
  let y := nth 1 vs false in [(9/20, [y; y]); (3/20, [y; negb y]); (6/20, [negb y; negb y]); (2/20, [negb y; y])].
Definition rx_post (y : bool) : dist bool := [(11/20, y); (9/20, negb y)].
Definition rx_fwd (y : bool) (k : key) : prog (list bool) := b <- fin_draws false k 0 [coin] ;; Ret [y; nth 0 b false].
Lemma rx_ratio : density_ratio (fun _ => coin) rx_p (fun _ => coin) demo_M gd_lg bool_dec (fun _ _ => 1) rx_rt.
Proof.
  constructor.
  - intros; lra.
  - intros t u v [u' v']. unfold rx_rt. destruct (eqb _ _); lra.
  - intros v F. apply E_ext'. intros; ring.
  - intros t u v v' F. unfold gd_lg, rx_p, demo_M, sticky, rx_rt. rewrite !E_cons, !E_nil. destruct u, v'; cbn [eqb negb snd fst bool_dec bool_rect bool_rec sumbool_rect sumbool_rec]; rewrite exp_ln by lra; cbn; lra.
  - intros t u v. unfold rx_p, rx_rt. rewrite !E_cons, E_nil. destruct u; cbn; lra.
Qed.
Lemma rx_reverses : reverses coin (fun _ => coin) rx_p false [0; 1] coin rx_PF rx_K rx_post false.
Proof.
  constructor.
  - repeat constructor; cbn; lra.
  - intros y _. split; [repeat constructor; cbn; lra|]. split; [repeat constructor; cbn; lra|]. unfold rx_PF. rewrite !E_cons, E_nil. lra.
  - intros y ys _ [<-|[<-|[]]]; split; reflexivity.
  - intros y ys _ _. split; [repeat constructor; cbn; lra|]. unfold rx_K. rewrite !E_cons, E_nil. lra.
  - intros F. unfold E, joint_path, reverse_path, rx_PF, rx_K, rx_p, coin, dbind, dmap, dret. cbn. lra.
  - intros g phi. unfold E, joint_path, reverse_path, rx_post, rx_p, coin, dbind, dmap, dret. cbn. lra.
Qed.
Lemma rx_error : model_error coin (fun _ => coin) rx_p (fun _ _ => 1) rx_rt [0; 1] = - (3 / 5 * ln (5 / 4) + 2 / 5 * ln (5 / 8)).
Proof. unfold E, model_error, joint_path, reverse_path, rx_rt, rx_p, coin, dbind, dmap, dret. cbn. rewrite ln_1. lra. Qed.
Example C131_example : forall k,
  E coin (fun y => Rabs (law (conditional_sampler false false demo_trans gd_lik killing (rx_fwd y) [0; 1] (fun k _ n => demo_init k n) (Z.to_nat 1000000) k) b2r - E (rx_post y) b2r))
  <= sqrt (2 * - (3 / 5 * ln (5 / 4) + 2 / 5 * ln (5 / 8))) + 1 / 200.
Proof.
  intros k. assert (Hn : INR (Z.to_nat 1000000) = 1000000) by (rewrite INR_IZR_INZ, Z2Nat.id by lia; reflexivity).
  assert (Hfo : filter_ok demo_trans gd_lik killing demo_M gd_lg).
  { constructor; [intros; apply sticky_prob|intros; apply fin_draws_denotes|reflexivity|exact (cr_good _ killing_consistent)]. }
  assert (Hpr : forall t u v, is_prob (rx_p t u v)) by (intros; split; [repeat constructor; cbn; lra|unfold rx_p; rewrite !E_cons, E_nil; lra]).
  eapply Rle_trans; [apply (C131_conditional_sampler_error bool bool false false coin (fun _ => coin) rx_p demo_trans gd_lik (fun _ => coin) demo_M gd_lg bool_dec (fun _ _ => 1) rx_rt
    coin_prob (fun _ => coin_prob) Hpr (fun _ => coin_prob) rx_ratio Hfo [0; 1] coin rx_PF rx_K rx_post ltac:(discriminate) coin_prob rx_reverses
    (fun k _ n => demo_init k n) rx_fwd (Z.to_nat 1000000) ltac:(lia)) with (B := 1) (G := 3/4) (z := 1/2)|].
  - intros. apply fin_draws_denotes.
  - intros y k' _ F. unfold rx_fwd. rewrite law_bind. rewrite (fin_draws_denotes false k' [coin] 0 _). unfold E, rx_PF, coin. cbn. lra.
  - lra.
  - lra.
  - intros y ys _ Hys. split.
    + change (fun _ : list bool => 1) with (fun p : list bool => (fun _ : bool => 1) (last p false)). rewrite (filter_target_final false).
      destruct Hys as [<-|[<-|[]]]; destruct y; cbn [snd rev app step_data nth]; unfold coin; rewrite !E_cons, !E_nil, !fk_final_cons; unfold gd_lg, demo_M, sticky; cbn [eqb]; rewrite !exp_ln by lra; unfold fk_final, E; cbn; lra.
    + intros v vp t _ u. unfold gd_lg. destruct (eqb v u); rewrite exp_ln by lra; lra.
  - intros u. destruct u; cbn [b2r]; [rewrite Rabs_R1|rewrite Rabs_R0]; lra.
  - rewrite rx_error, Hn. change (length [0; 1]%R - 1)%nat with 1%nat. cbn [INR]. apply Rplus_le_compat.
    + right. f_equal. ring.
    + rewrite <- (sqrt_pow2 (1/200)) by lra. apply sqrt_le_1_alt. cbn [Nat.mul Nat.add pow]. lra.
Qed.
