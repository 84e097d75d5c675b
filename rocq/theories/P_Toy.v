(** Properties of the experiment scripts experiments/toy/*.py and experiments/sb/*.py. *)
From Coquelicot Require Import Coquelicot.
From Coq Require Import Reals List Lia Lra.
From Verif Require Sde SdeProofs SdeMore Prog Resampling Smc SmcProofs Pmcmc Demo ToyPmcmc.
From Verif Require Import Base Dist Mat MatMore Expm Lti Cholesky GaussDiv GaussCond GaussSB GaussSBMore Toy ToyCond ToyMore ToyKf ToyRef.
Import ListNotations.
Open Scope R_scope.

(** ** C62 *)
(** [standard d law]: a law with mean zero and identity covariance.  [row_draw m L z = m + z @ L],
    [col_draw m L z = m + L @ z]; [cholesky d C L]: L lower triangular with L L^T = C. *)
Theorem C62_column_draw : forall d m C L law, cholesky d C L -> standard d law ->
  has_mean d (dmap (col_draw d m L) law) m /\ has_cov d (dmap (col_draw d m L) law) m C.
Proof.
  intros d m C L law (_ & _ & HC) Hl. destruct (col_draw_moments d m L law Hl) as [A B]. split; [exact A|].
  intros i j Hi Hj. rewrite (B i j Hi Hj). now apply HC.
Qed.
Print Assumptions C62_column_draw.

(** the row form has the right mean and total variance, ... *)
Theorem C62_row_draw_partial : forall d m C L law, cholesky d C L -> standard d law ->
  has_mean d (dmap (row_draw d m L) law) m /\ has_cov d (dmap (row_draw d m L) law) m (mmul d (mtr L) L) /\
  mtrace d (mmul d (mtr L) L) = mtrace d C.
Proof.
  intros d m C L law HC Hl. destruct (row_draw_moments d m L law Hl) as [A B]. split; [exact A|]. split; [exact B|]. now apply row_draw_trace.
Qed.
Print Assumptions C62_row_draw_partial.

(** ... but the right covariance for diagonal covariances only, *)
Theorem C62_row_draw_iff_refuted : forall d m C L law, cholesky d C L -> standard d law ->
  (has_cov d (dmap (row_draw d m L) law) m C <-> forall i j, (i < d)%nat -> (j < d)%nat -> i <> j -> C i j = 0).
Proof. exact row_draw_iff. Qed.
Print Assumptions C62_row_draw_iff_refuted.

(** so never in the scripts, with their kernel and two or more grid points. *)
Theorem C62_scripts_refuted : forall d sde sigma ell s2 T m y m_ cov_ L law, (2 <= d)%nat -> 0 < sigma -> 0 < ell ->
  SdeProofs.sde_defined sde -> 0 < T -> SdeProofs.noisy_between sde 0 T -> 0 < s2 ->
  ref_moments d m (fwd_cov sde (joint_cov d (cov_fn sigma ell (zs_grid d) (zs_grid d)) s2) T) y m_ cov_ -> cholesky d cov_ L -> standard d law ->
  ~ has_cov d (dmap (row_draw d m_ L) law) m_ cov_.
Proof. exact toy_scripts_ref_draw_wrong. Qed.
Print Assumptions C62_scripts_refuted.

Theorem C62_scripts_defined : forall d sde sigma ell s2 T m y, 0 < sigma -> 0 < ell ->
  SdeProofs.sde_defined sde -> 0 < T -> SdeProofs.noisy_between sde 0 T -> 0 < s2 ->
  exists m_ cov_ L, ref_moments d m (fwd_cov sde (joint_cov d (cov_fn sigma ell (zs_grid d) (zs_grid d)) s2) T) y m_ cov_ /\ cholesky d cov_ L.
Proof. exact toy_ref_exists. Qed.
Print Assumptions C62_scripts_defined.

(** the default configuration of the scripts: d = 10, unit kernel, obs_var 0.1, T = 1 *)
Example C62_example : exists m_ cov_ L law,
  ref_moments 10 (fun _ => 0) (fwd_cov (Sde.ConstSDE (- (1 / 2)) 1) (joint_cov 10 (cov_fn 1 1 (zs_grid 10) (zs_grid 10)) (1 / 10)) 1) (fun _ => 0) m_ cov_ /\
  cholesky 10 cov_ L /\ standard 10 law /\ ~ has_cov 10 (dmap (row_draw 10 m_ L) law) m_ cov_ /\ has_cov 10 (dmap (col_draw 10 m_ L) law) m_ cov_.
Proof.
  assert (SdeProofs.sde_defined (Sde.ConstSDE (- (1 / 2)) 1)) by (cbn; lra). assert (SdeProofs.noisy_between (Sde.ConstSDE (- (1 / 2)) 1) 0 1) by (cbn; lra).
  destruct (C62_scripts_defined 10 (Sde.ConstSDE (- (1 / 2)) 1) 1 1 (1 / 10) 1 (fun _ => 0) (fun _ => 0)) as (m_ & cov_ & L & H1 & H2); try lra; try assumption.
  destruct (standard_exists 10) as [law Hl]; [lia|]. exists m_, cov_, L, law. repeat (split; [assumption|]). split.
  - eapply (C62_scripts_refuted 10 (Sde.ConstSDE (- (1 / 2)) 1) 1 1 (1 / 10) 1); try eassumption; try lra; lia.
  - now apply (C62_column_draw 10 m_ cov_ L law).
Qed.

(** ** C61 *)
(** exp of MINUS the value handed over is an unbiased estimate of the likelihood of the filtered path *)
Theorem C61_negated_value_partial : forall (U V : Type) (udef : U) (vdef : V) trans meas res M lg, SmcProofs.filter_ok trans meas res M lg ->
  (forall w k, w <> [] -> Prog.safe (res w k) (fun A => length A = length w)) ->
  forall (m0 : V -> dist U) ref, (forall v, is_prob (m0 v)) -> (forall k v n, Prog.denotes (ref k v n) (dseq (repeat (m0 v) n))) ->
  (forall k v n, Prog.safe (ref k v n) (fun l => length l = n)) ->
  forall fwd_ys (P : dist (list V)), is_prob P -> (forall k, Prog.denotes (fwd_ys k) P) ->
  forall k ts n, (0 < n)%nat ->
  Prog.law (ToyPmcmc.pmcmc_init udef vdef trans meas res fwd_ys ref k ts n) (fun s => exp (- snd (fst s))) =
  E P (fun path_y => E (Pmcmc.filter_target vdef M lg m0 (rev path_y) ts) (fun _ => 1)).
Proof. exact @ToyPmcmc.init_estimate. Qed.
Print Assumptions C61_negated_value_partial.

(** The hypotheses hold for stratified resampling and states that do not move, with likelihood 1/2: the expectation is 1/2. *)
Example C61_instance : forall k n, (0 < n)%nat ->
  Prog.law (ToyPmcmc.pmcmc_init false true ToyPmcmc.still (ToyPmcmc.flat_meas ToyPmcmc.half_lik) Resampling.stratified ToyPmcmc.two_paths_draw
    (fun k _ n => Demo.demo_init k n) k [0; 1] n) (fun s => exp (- snd (fst s))) = 1 / 2.
Proof. exact ToyPmcmc.half_estimate. Qed.

(** with likelihood 1/2 for every particle, path and observation, every first step is accepted with
    probability 1/4; with the sign changed, 1 *)
Theorem C61_refuted : forall n which k k', (0 < n)%nat ->
  Prog.safe (ToyPmcmc.init_then_step false true ToyPmcmc.still (ToyPmcmc.flat_meas ToyPmcmc.half_lik) Resampling.stratified ToyPmcmc.two_paths_draw
    (fun k _ n => Demo.demo_init k n) k k' [0; 1] n which (fun k _ => ToyPmcmc.two_paths_draw k))
    (fun r => Smc.acceptance_prob (snd r) = 1 / 4).
Proof. exact ToyPmcmc.sign_refuted. Qed.
Print Assumptions C61_refuted.

Theorem C61_right_sign : forall n which k x0 ys, (0 < n)%nat ->
  Prog.safe (Smc.pmcmc_kernel false true ToyPmcmc.still (ToyPmcmc.flat_meas ToyPmcmc.half_lik) Resampling.stratified k x0 (ln (1 / 2)) ys [0; 1]
    (fun k _ => ToyPmcmc.two_paths_draw k) (fun k _ n => Demo.demo_init k n) n which)
    (fun r => Smc.acceptance_prob (snd r) = 1).
Proof. exact ToyPmcmc.sign_fixed. Qed.
Print Assumptions C61_right_sign.

(** in general, for likelihoods that do not depend on the particle ([path_ll]: log-likelihood of a path), the two log-likelihoods are added *)
Theorem C61_first_acceptance_refuted : forall (U V : Type) (udef : U) (vdef : V) trans (lc : V -> V -> R -> R) res ref,
  (forall us v t k, Prog.safe (trans us v t k) (fun l => length l = length us)) ->
  (forall w k, w <> [] -> Prog.safe (res w k) (fun A => length A = length w)) ->
  (forall k v n, Prog.safe (ref k v n) (fun l => length l = n)) ->
  forall fwd_ys k k' ts n which propose, (0 < n)%nat ->
  Prog.safe (ToyPmcmc.init_then_step udef vdef trans (ToyPmcmc.flat_meas lc) res fwd_ys ref k k' ts n which propose)
    (fun r => exists path_y prop_ys, Smc.acceptance_prob (snd r) = Rmin 1 (exp (ToyPmcmc.path_ll lc (rev prop_ys) ts + ToyPmcmc.path_ll lc (rev path_y) ts))).
Proof. exact @ToyPmcmc.flat_first_acceptance. Qed.
Print Assumptions C61_first_acceptance_refuted.

(** ** C84 *)
(** [filter_state s]: the log-likelihood and the particle of s come from a filter run on the path of s. *)
Theorem C84_gp_pmcmc_refuted : forall n k, (0 < n)%nat -> exists tr x e,
  Prog.runs (ToyPmcmc.pmcmc_init false true ToyPmcmc.still (ToyPmcmc.flat_meas ToyPmcmc.path_lik) Resampling.stratified ToyPmcmc.two_paths_draw (fun k _ n => Demo.demo_init k n) k [0; 1] n) tr (x, e, [true; true]) /\
  ~ ToyPmcmc.filter_state false true ToyPmcmc.still (ToyPmcmc.flat_meas ToyPmcmc.path_lik) Resampling.stratified (fun k _ n => Demo.demo_init k n) [0; 1] n (x, e, [true; true]) /\
  ~ ToyPmcmc.filter_state false true ToyPmcmc.still (ToyPmcmc.flat_meas ToyPmcmc.path_lik) Resampling.stratified (fun k _ n => Demo.demo_init k n) [0; 1] n (x, - e, [true; true]).
Proof. exact ToyPmcmc.path_refuted. Qed.
Print Assumptions C84_gp_pmcmc_refuted.

Theorem C84_images_refuted : forall n k, (0 < n)%nat ->
  Prog.safe (ToyPmcmc.img_init false ToyPmcmc.two_paths_draw k)
    (fun s => ~ ToyPmcmc.filter_state false true ToyPmcmc.still (ToyPmcmc.flat_meas ToyPmcmc.path_lik) Resampling.stratified (fun k _ n => Demo.demo_init k n) [0; 1] n s).
Proof. exact ToyPmcmc.img_refuted. Qed.
Print Assumptions C84_images_refuted.

(** ** C85 *)
(** [gauss_logpdf d m C x lp]: lp is the log density at x of the Gaussian with moments (m, C).  The
    moments computed from a joint law (m, C) of (u, v) are those of u given v: chain rule. *)
Theorem C85_conditioning : forall d m C v u m_ cov_ lp lv lu, ref_moments d m C v m_ cov_ ->
  gauss_logpdf (2 * d) (vswap d m) (mswap d C) (vcat d v u) lp ->
  gauss_logpdf d (vhi d m) (m_hh d C) v lv -> gauss_logpdf d m_ cov_ u lu -> lp = lv + lu.
Proof. exact ref_moments_exact. Qed.
Print Assumptions C85_conditioning.

Theorem C85_defined : forall d m C v, symmetric (2 * d) C -> posdef (2 * d) C ->
  exists m_ cov_, ref_moments d m C v m_ cov_ /\ symmetric d cov_ /\ posdef d cov_ /\
  forall u, exists lp lv lu, gauss_logpdf (2 * d) (vswap d m) (mswap d C) (vcat d v u) lp /\
     gauss_logpdf d (vhi d m) (m_hh d C) v lv /\ gauss_logpdf d m_ cov_ u lu.
Proof. exact ref_moments_total. Qed.
Print Assumptions C85_defined.

Example C85_instance : let C := fun i j : nat => if andb (Nat.eqb i 0) (Nat.eqb j 0) then 2 else 1 in symmetric (2 * 1) C /\ posdef (2 * 1) C.
Proof.
  intros C. split.
  - intros i j _ _. unfold mtr, C. now rewrite Bool.andb_comm.
  - intros x Hx. unfold quad, mvec, C. cbn. set (a := x 0%nat). set (b := x 1%nat).
    assert (Hab : a <> 0 \/ b <> 0).
    { destruct (Req_dec a 0) as [Ha|Ha]; [|now left]. right. intros Hb. apply Hx. intros i Hi. destruct i as [|[|i]]; [exact Ha|exact Hb|cbn in Hi; lia]. }
    match goal with |- 0 < ?e => replace e with (a ^ 2 + (a + b) ^ 2) by ring end. destruct (Req_dec a 0) as [Ha|Ha]; [|pose proof (pow2_ge_0 (a + b)); assert (0 < a ^ 2) by (apply pow2_gt_0; exact Ha); lra].
    rewrite Ha. destruct Hab as [?|Hb]; [now destruct H|]. assert (0 < b ^ 2) by (apply pow2_gt_0; exact Hb). lra.
Qed.

(** the closed form GP regression is the same conditional law, for the joint law of (f, f + noise) *)
Theorem C85_gp_regression : forall d C inv s2 y0, symmetric d C -> psd d C -> 0 < s2 ->
  let D := madd C (mscale s2 mid) in meq d (mmul d (inv D) D) mid -> meq d (mmul d D (inv D)) mid ->
  ref_moments d (fun _ => 0) (joint_cov d C s2) y0 (gp_mean d C inv s2 y0) (gp_cov d C inv s2).
Proof. exact gp_is_conditional. Qed.
Print Assumptions C85_gp_regression.

(** ** C86 *)
Theorem C86_kernel : forall d sigma ell z, 0 < sigma -> 0 < ell -> (forall i j, (i < j)%nat -> (j < d)%nat -> z i < z j) ->
  symmetric d (cov_fn sigma ell z z) /\ posdef d (cov_fn sigma ell z z).
Proof. exact cov_fn_posdef. Qed.
Print Assumptions C86_kernel.
Theorem C86_grid : forall d i j, (i < j)%nat -> (j < d)%nat -> zs_grid d i < zs_grid d j.
Proof. exact zs_grid_increasing. Qed.
Print Assumptions C86_grid.
Theorem C86_joint : forall d C s2, symmetric d C -> posdef d C -> 0 < s2 -> symmetric (2 * d) (joint_cov d C s2) /\ posdef (2 * d) (joint_cov d C s2).
Proof. exact joint_cov_posdef. Qed.
Print Assumptions C86_joint.
Theorem C86_forward : forall d sde C t, SdeProofs.sde_defined sde -> 0 < t -> SdeProofs.noisy_between sde 0 t -> symmetric d C -> psd d C ->
  symmetric d (fwd_cov sde C t) /\ posdef d (fwd_cov sde C t).
Proof. intros. split; [now apply fwd_cov_symmetric|now apply fwd_cov_posdef]. Qed.
Print Assumptions C86_forward.
(** the factor itself, in closed form *)
Theorem C86_kernel_factor : forall d sigma ell z, 0 < sigma -> 0 < ell -> (forall i j, (i < j)%nat -> (j < d)%nat -> z i < z j) ->
  cholesky d (cov_fn sigma ell z z) (ou_chol sigma ell z).
Proof. exact cov_fn_cholesky. Qed.
Print Assumptions C86_kernel_factor.

(** C85 and C86 on the default configuration of the scripts *)
Example C86_example : forall y, exists m_ cov_,
  ref_moments 10 (fun _ => 0) (fwd_cov (Sde.ConstSDE (- (1 / 2)) 1) (joint_cov 10 (cov_fn 1 1 (zs_grid 10) (zs_grid 10)) (1 / 10)) 1) y m_ cov_ /\ posdef 10 cov_.
Proof.
  intros y. destruct (C86_kernel 10 1 1 (zs_grid 10) Rlt_0_1 Rlt_0_1 (C86_grid 10)) as [A B]. destruct (C86_joint 10 _ (1 / 10) A B) as [C D]; [lra|].
  destruct (C86_forward 20 (Sde.ConstSDE (- (1 / 2)) 1) _ 1 ltac:(cbn; lra) Rlt_0_1 ltac:(cbn; lra) C (posdef_psd _ _ D)) as [E F].
  destruct (C85_defined 10 (fun _ => 0) _ y E F) as (m_ & cov_ & G & _ & H & _). now exists m_, cov_.
Qed.

(** ** C87 *)
(** [affine_moments d m P b sig t]: the drift b is affine in the state and m, P satisfy at t the mean
    and covariance equations of dX = b(X, t) dt + sig dW. *)
Theorem C87_forward : forall d sde m C t, SdeProofs.sde_defined sde -> SdeProofs.nonneg_noise sde t ->
  affine_moments d (fwd_mean sde m) (fwd_cov sde C) (vdrift sde) (Sde.dispersion sde t) t.
Proof. exact forward_moments. Qed.
Print Assumptions C87_forward.
Theorem C87_gp_reverse : forall d sde T m C inv t, SdeProofs.sde_defined sde -> SdeProofs.nonneg_noise sde (T - t) -> symmetric d C ->
  inverse_at d (fwd_cov sde C) inv (T - t) ->
  affine_moments d (fun u => fwd_mean sde m (T - u)) (fun u => fwd_cov sde C (T - u))
    (reverse_drift d (vdrift sde) (Sde.dispersion sde) T (fwd_mean sde m) (fwd_cov sde C) inv) (Sde.dispersion sde (T - t)) t.
Proof. exact toy_reverse. Qed.
Print Assumptions C87_gp_reverse.
Theorem C87_sb_reverse : forall d m0 c0 m1 c1 sig C inv T t, symmetric d c0 -> symmetric d c1 ->
  inverse_at d (marginal_cov c0 c1 sig C) inv (T - t) ->
  affine_moments d (fun u => marginal_mean m0 m1 (T - u)) (fun u => marginal_cov c0 c1 sig C (T - u))
    (reverse_drift d (sb_drift d m0 c0 m1 c1 sig C inv) (fun _ => sig) T (marginal_mean m0 m1) (marginal_cov c0 c1 sig C) inv) sig t.
Proof. exact sb_reverse. Qed.
Print Assumptions C87_sb_reverse.

Example C87_example : inverse_at 2 (fwd_cov kf_sde kf_joint) inv2 (1 - 0) /\
  affine_moments 2 (fun u => fwd_mean kf_sde (fun _ => 3) (1 - u)) (fun u => fwd_cov kf_sde kf_joint (1 - u))
    (reverse_drift 2 (vdrift kf_sde) (Sde.dispersion kf_sde) 1 (fwd_mean kf_sde (fun _ => 3)) (fwd_cov kf_sde kf_joint) inv2) 1 0.
Proof.
  assert (H : inverse_at 2 (fwd_cov kf_sde kf_joint) inv2 (1 - 0)) by (replace (1 - 0) with 1 by ring; exact kf_inverse).
  split; [exact H|]. apply (C87_gp_reverse 2 kf_sde 1 (fun _ => 3) kf_joint inv2 0); [cbn; lra|cbn; lra| |exact H].
  destruct (C86_joint 1 (cov_fn 1 1 (zs_grid 1) (zs_grid 1)) 1) as [J _]; [apply C86_kernel; try lra; apply C86_grid|apply C86_kernel; try lra; apply C86_grid|lra|exact J].
Qed.

(** ** C88 *)
(** [csgm_drift ... r]: the drift of gp_csgm.py (prior score plus the gradient of log p(y | x_t)).  It is the
    reverse drift with the score of the forward process started from the posterior. *)
Theorem C88_conditional_drift : forall d sde T m C inv s2 y0 u t r, symmetric d C ->
  inverse_at d (fwd_cov sde C) inv (T - t) ->
  meq d (mmul d (inv (madd C (mscale s2 mid))) (madd C (mscale s2 mid))) mid ->
  inverse_at d (fwd_cov sde (gp_cov d C inv s2)) inv (T - t) ->
  csgm_drift d sde T m C inv s2 y0 u t r ->
  veq d r (reverse_drift d (vdrift sde) (Sde.dispersion sde) T (fwd_mean sde (post_mean d m C inv s2 y0)) (fwd_cov sde (gp_cov d C inv s2)) inv u t).
Proof. exact csgm_drift_exact. Qed.
Print Assumptions C88_conditional_drift.
Theorem C88_drift_defined : forall d sde T m C inv s2 y0 u t,
  let F := fst (Sde.FQ sde (T - t) 0) in let S := csgm_cond_cov d F C (inv (fwd_cov sde C (T - t))) s2 in
  symmetric d S -> posdef d S -> exists r, csgm_drift d sde T m C inv s2 y0 u t r.
Proof. exact csgm_drift_total. Qed.
Print Assumptions C88_drift_defined.
Theorem C88_reference_moments : forall d sde T m C inv s2 y0,
  veq d (csgm_ref_mean d sde T m C inv s2 y0) (fwd_mean sde (post_mean d m C inv s2 y0) T) /\
  meq d (csgm_ref_cov d sde T C inv s2) (fwd_cov sde (gp_cov d C inv s2) T).
Proof. exact csgm_ref_exact. Qed.
Print Assumptions C88_reference_moments.
Example C88_example : forall s, 0 <= s -> exists r, csgm_drift 1 ou_sde s (fun _ => 0) mid inv1 1 (fun _ => 1) (fun _ => 2) 0 r /\
  symmetric 1 mid /\ inverse_at 1 (fwd_cov ou_sde mid) inv1 (s - 0) /\
  meq 1 (mmul 1 (inv1 (madd mid (mscale 1 mid))) (madd mid (mscale 1 mid))) mid /\
  inverse_at 1 (fwd_cov ou_sde (gp_cov 1 mid inv1 1)) inv1 (s - 0).
Proof. exact csgm_scalar. Qed.

(** ** C89 *)
(** the reference draw of gp_csgm.py multiplies by the covariance itself: covariance C^2 *)
Theorem C89_draw_covariance : forall d m C law, symmetric d C -> standard d law ->
  has_mean d (dmap (csgm_ref_draw d m C) law) m /\ has_cov d (dmap (csgm_ref_draw d m C) law) m (mmul d C C).
Proof. exact csgm_ref_draw_cov. Qed.
Print Assumptions C89_draw_covariance.
Theorem C89_refuted : forall d m C law, symmetric d C -> posdef d C -> standard d law ->
  (has_cov d (dmap (csgm_ref_draw d m C) law) m C <-> meq d C mid).
Proof. exact csgm_ref_draw_iff. Qed.
Print Assumptions C89_refuted.
Example C89_example : exists law, standard 2 law /\ ~ has_cov 2 (dmap (csgm_ref_draw 2 (fun _ => 0) (mscale 2 mid)) law) (fun _ => 0) (mscale 2 mid).
Proof.
  destruct (standard_exists 2) as [law Hl]; [lia|]. exists law. split; [exact Hl|]. intros H.
  assert (P : posdef 2 (mscale 2 mid)).
  { intros x Hx. rewrite quad_scale, quad_mid. pose proof (posdef_shift 2 mid 0 2) as K. specialize (K ltac:(lra) ltac:(lra)).
    assert (PM : psd 2 mid) by (intros y; rewrite quad_mid; unfold dot; cbn; nra).
    specialize (K PM x Hx). rewrite quad_add, !quad_scale, quad_mid in K. lra. }
  pose proof (proj1 (C89_refuted 2 (fun _ => 0) (mscale 2 mid) law (symmetric_scale 2 2 mid (symmetric_mid 2)) P Hl) H 0%nat 0%nat ltac:(lia) ltac:(lia)) as E.
  unfold mscale, mid in E. cbn in E. lra.
Qed.

(** ** C90 *)
(** [euler_mean], [euler_cov]: moments of one Euler step of the reverse process of (u, v) *)
Theorem C90_densities_factor : forall d rd b dt u v t u' v' lp, 0 < dt -> 0 < b t ->
  gauss_logpdf (2 * d) (euler_mean rd dt (vcat d u v) t) (euler_cov b dt t) (vcat d u' v') lp ->
  lp = transition_logpdf d rd b dt u' u v t + likelihood_logpdf d rd b dt v' u v t.
Proof. exact euler_density. Qed.
Print Assumptions C90_densities_factor.
Theorem C90_transition_density : forall d rd b dt u v t u', 0 < dt -> 0 < b t ->
  gauss_logpdf d (fun i => u i + rd_u d rd u v t i * dt) (mscale ((sqrt dt * b t) ^ 2) mid) u' (transition_logpdf d rd b dt u' u v t).
Proof. exact transition_density. Qed.
Print Assumptions C90_transition_density.
Theorem C90_transition_draw : forall d rd b dt u v t law, 0 <= dt -> standard d law ->
  let m := fun i => u i + rd_u d rd u v t i * dt in
  has_mean d (dmap (transition_draw d rd b dt u v t) law) m /\
  has_cov d (dmap (transition_draw d rd b dt u v t) law) m (mscale ((sqrt dt * b t) ^ 2) mid).
Proof. exact transition_draw_moments. Qed.
Print Assumptions C90_transition_draw.
Example C90_example : exists lp, gauss_logpdf 2 (euler_mean kf_rd (1 / 2) (vcat 1 (fun _ => 1) (fun _ => 2)) 0) (euler_cov (fun _ => 1) (1 / 2) 0) (vcat 1 (fun _ => 3) (fun _ => 4)) lp /\
  lp = transition_logpdf 1 kf_rd (fun _ => 1) (1 / 2) (fun _ => 3) (fun _ => 1) (fun _ => 2) 0 + likelihood_logpdf 1 kf_rd (fun _ => 1) (1 / 2) (fun _ => 4) (fun _ => 1) (fun _ => 2) 0.
Proof.
  eexists. split; [|eapply (C90_densities_factor 1 kf_rd (fun _ => 1) (1 / 2) (fun _ => 1) (fun _ => 2) 0 (fun _ => 3) (fun _ => 4)); [lra|lra|]].
  - eapply gauss_logpdf_transport; [reflexivity| |reflexivity|apply (gauss_logpdf_iso 2 _ (sqrt (1 / 2))); apply sqrt_lt_R0; lra].
    intros i j _ _. unfold euler_cov, mscale. rewrite pow2_sqrt by lra. ring.
  - eapply gauss_logpdf_transport; [reflexivity| |reflexivity|apply (gauss_logpdf_iso 2 _ (sqrt (1 / 2))); apply sqrt_lt_R0; lra].
    intros i j _ _. unfold euler_cov, mscale. rewrite pow2_sqrt by lra. ring.
Qed.

(** ** C91 *)
(** First step of the filter of gp_kf.py on the scalar configuration (d = 1, unit variances, T = 1, two steps), from
    the exact reference law at v = 0, next observation 1: the exact Euler filter has mean < 0.3, the script > 0.5. *)
Theorem C91_refuted : exists vf mf' vf' m' v',
  ref_moments 1 (fwd_mean kf_sde (fun _ => 0) 1) (fwd_cov kf_sde kf_joint 1) (fun _ => 0) (fun _ => 0) vf /\
  kf_step 1 kf_rd (fun t => Sde.dispersion kf_sde (1 - t)) (1 / 2) (fun _ => 1) (fun _ => 0) 0 (fun _ => 0) vf mf' vf' /\
  exact_step 1 kf_rd (fun t => Sde.dispersion kf_sde (1 - t)) (1 / 2) (fun _ => 1) (fun _ => 0) 0 (fun _ => 0) vf m' v' /\
  m' 0%nat < 3 / 10 /\ 1 / 2 < mf' 0%nat.
Proof. eexists. exact gp_kf_not_exact. Qed.
Print Assumptions C91_refuted.
