(** Property C104: the twisting functions of the twisted experiments. *)
From Coquelicot Require Import Coquelicot.
From Coq Require Import Reals List Lia Lra.
From Verif Require Sde SdeProofs.
From Verif Require Import Base Mat MatMore GaussSBMore Toy ToyRef ToyMore TwistedGp.
Import ListNotations.
Open Scope R_scope.

(** gp_twisted.py 56-62, with T = 1 *)
Definition gp_sde (sde : Sde.linear_sde) : Prop := sde = Sde.ConstSDE (- (1/2)) 1 \/ sde = Sde.LinSDE (2/100) 4 0 1.
(** inpainting_twisted.py 67-74, supr_twisted.py likewise; T is a parameter there *)
Definition img_sde (T : R) (sde : Sde.linear_sde) : Prop := sde = Sde.ConstSDE (- (1/2)) 1 \/ sde = Sde.LinSDE (2/100) 5 0 T.

Lemma gp_sde_ok sde : gp_sde sde -> SdeProofs.sde_defined sde /\ stationary_at sde 0.
Proof.
  intros [ ->| ->]; split; cbn; try lra; unfold stationary_at; cbn [Sde.drift_coef Sde.dispersion].
  - split; lra.
  - assert (E : Sde.beta (2/100) 4 0 1 0 = 2/100) by (unfold Sde.beta; field). rewrite E. split.
    + cbn [pow]. rewrite Rmult_1_r, sqrt_sqrt by lra. lra.
    + apply Rgt_not_eq, sqrt_lt_R0. lra.
Qed.

Lemma gp_cov_ok d ell : 0 < ell -> symmetric d (cov_fn 1 ell (zs_grid d) (zs_grid d)) /\ posdef d (cov_fn 1 ell (zs_grid d) (zs_grid d)).
Proof. intros H. exact (cov_fn_posdef d 1 ell (zs_grid d) Rlt_0_1 H (zs_grid_increasing d)). Qed.

Theorem C104_guided_drift : forall d sde T dt s2 C inv u t y, 0 < s2 ->
  (exists r, reverse_cond_drift d sde T dt s2 C inv u t y r) /\
  forall r, reverse_cond_drift d sde T dt s2 C inv u t y r ->
    veq d r (vadd (gp_reverse_drift d sde T C inv u t) (vscale (Sde.dispersion sde (T - t) ^ 2)
      (vscale (/ s2) (mvec d (mtr (denoise_mat sde T dt C inv t)) (vsub y (mvec d (denoise_mat sde T dt C inv t) u)))))).
Proof. intros d sde T dt s2 C inv u t y Hs. exact (conj (reverse_cond_drift_total d sde T dt s2 C inv Hs u t y) (reverse_cond_drift_form d sde T dt s2 C inv Hs u t y)). Qed.
Theorem C104_denoising_linear : forall d sde T dt C inv u t, veq d (denoising_estimate d sde T dt C inv u t) (mvec d (denoise_mat sde T dt C inv t) u).
Proof. intros d sde T dt C inv u t i Hi. exact (denoise_lin d sde T dt C inv u t i Hi). Qed.

(** the final twisting function is not proportional to the likelihood of the observation *)
Theorem C104_final_twisting_refuted : forall d ell sde dt s2 inv y, (0 < d)%nat -> 0 < ell -> gp_sde sde -> dt <> 0 -> 0 < s2 ->
  let C := cov_fn 1 ell (zs_grid d) (zs_grid d) in inverse_at d (fwd_cov sde C) inv 0 -> ~ veq d (mvec d C y) (vscale 2 y) ->
  ~ exists c, forall u, twisting_logpdf d sde 1 dt s2 C inv y u 1 = c + observation_loglik d s2 y u.
Proof.
  intros d ell sde dt s2 inv y Hd Hell Hsde Hdt Hs C Hinv Hy [c Hc]. destruct (gp_sde_ok sde Hsde) as [H1 H2].
  destruct (final_twist_wrong d sde 1 dt s2 C inv Hs H1 H2 Hinv (proj1 (gp_cov_ok d ell Hell)) Hdt y Hy) as [u Hu].
  apply Hu. rewrite !Hc. ring.
Qed.
Theorem C104_final_twisting_data : forall d ell, (0 < d)%nat -> exists y, ~ veq d (mvec d (cov_fn 1 ell (zs_grid d) (zs_grid d)) y) (vscale 2 y).
Proof. intros d ell Hd. eexists. exact (gp_cov_e0 d ell (zs_grid d) Hd). Qed.
Theorem C104_inverse_exists : forall d ell sde, 0 < ell -> gp_sde sde -> exists inv, inverse_at d (fwd_cov sde (cov_fn 1 ell (zs_grid d) (zs_grid d))) inv 0.
Proof.
  intros d ell sde Hell Hsde. destruct (gp_sde_ok sde Hsde) as [H1 _].
  set (C := cov_fn 1 ell (zs_grid d) (zs_grid d)).
  destruct (ToyCond.posdef_inverse d C (proj1 (gp_cov_ok d ell Hell)) (proj2 (gp_cov_ok d ell Hell))) as (Pi & P1 & P2 & _).
  exists (fun _ => Pi). split.
  - rewrite <- P1. apply mmul_proper; [reflexivity|now apply fwd_cov_0].
  - rewrite <- P2. apply mmul_proper; [now apply fwd_cov_0|reflexivity].
Qed.

(** the denoising estimate is not the conditional mean of the clean state, F C (F^2 C + Q)^-1 u: one grid point *)
Theorem C104_denoising_mean_refuted : forall dt s ell u, 0 < dt < 1 -> s = 0 \/ 2 * dt <= s -> 0 < ell -> u 0%nat <> 0 ->
  let sde := Sde.ConstSDE (- (1/2)) 1 in let C := cov_fn 1 ell (zs_grid 1) (zs_grid 1) in
  denoising_estimate 1 sde 1 dt C inv1 u (1 - s) 0%nat <> fst (Sde.FQ sde s 0) * C 0%nat 0%nat / fwd_cov sde C s 0%nat 0%nat * u 0%nat.
Proof.
  intros dt s ell u Hdt Hs Hell Hu sde C.
  assert (HC : C 0%nat 0%nat = 1).
  { unfold C, cov_fn. rewrite Rminus_diag_eq, Rabs_R0 by reflexivity. replace (- 0 / ell) with 0 by (unfold Rdiv; ring). rewrite exp_0. ring. }
  assert (HP : fwd_cov sde C s 0%nat 0%nat = 1).
  { unfold fwd_cov, madd, mscale, mid, sde. rewrite HC, (stationary_FQ_const s). cbn [Nat.eqb]. ring. }
  unfold denoising_estimate. rewrite gp_reverse_drift_lin. replace (1 - (1 - s)) with s by ring.
  unfold mvec, inv1. cbn [seq map Rsum]. rewrite HP, HC. unfold sde. cbn [Sde.drift_coef Sde.dispersion Sde.FQ fst].
  intros E. assert (E2 : (1 - dt / 2) * u 0%nat = exp (- (1/2) * (s - 0)) * u 0%nat) by (etransitivity; [|etransitivity; [exact E|]]; field).
  apply Rmult_eq_reg_r in E2; [|exact Hu]. destruct Hs as [ ->|Hs].
  - rewrite Rminus_0_r, Rmult_0_r, exp_0 in E2. lra.
  - assert (B : exp (- (1/2) * (s - 0)) <= / (1 + dt)).
    { apply Rle_trans with (exp (- dt)); [destruct (Req_dec (- (1/2) * (s - 0)) (- dt)) as [ ->|]; [lra|left; apply exp_increasing; lra]|].
      rewrite exp_Ropp. apply Rinv_le_contravar; [lra|]. left. apply exp_ineq1. lra. }
    assert (/ (1 + dt) < 1 - dt / 2); [|lra]. apply (Rmult_lt_reg_l (1 + dt)); [lra|]. rewrite Rinv_r by lra. nra.
Qed.

(** the variance of the images' twisting function exceeds the conditional variance, and even the variance of the data *)
Theorem C104_image_variance_refuted : forall T sde v s, img_sde T sde -> 0 < T -> 0 <= s -> 0 < v < 1 ->
  denoised_variance (fst (Sde.FQ sde s 0)) (snd (Sde.FQ sde s 0)) v < v <= image_twist_var sde v s.
Proof.
  intros T sde v s Hsde HT Hs Hv. unfold image_twist_var. apply image_twist_too_wide; [exact Hv| |].
  - destruct Hsde as [ ->| ->]; cbn [Sde.FQ fst]; (split; [apply exp_pos|]).
    + apply Rle_trans with (exp 0); [|rewrite exp_0; lra]. destruct Hs as [Hs|<-]; [left; apply exp_increasing; lra|right; f_equal; lra].
    + assert (B : 0 <= Sde.beta_integral (2/100) 5 0 T s 0).
      { unfold Sde.beta_integral. apply Rmult_le_pos; [lra|]. apply Rplus_le_le_0_compat.
        - apply Rmult_le_pos; [left; apply Rdiv_lt_0_compat; lra|lra].
        - left. apply Rdiv_lt_0_compat; lra. }
      apply Rle_trans with (exp 0); [|rewrite exp_0; lra]. destruct (Req_dec (Sde.beta_integral (2/100) 5 0 T s 0) 0) as [Q|Q]; [right; f_equal; rewrite Q; lra|left; apply exp_increasing; lra].
  - destruct Hsde as [ ->| ->]; [apply stationary_FQ_const|apply stationary_FQ_lin].
Qed.
Print Assumptions C104_guided_drift.
Print Assumptions C104_denoising_linear.
Print Assumptions C104_final_twisting_refuted.
Print Assumptions C104_final_twisting_data.
Print Assumptions C104_inverse_exists.
Print Assumptions C104_denoising_mean_refuted.
Print Assumptions C104_image_variance_refuted.

(** the setting of the script with one grid point: 200 steps, unit noise *)
Example C104_example : ~ exists c, forall u,
  twisting_logpdf 1 (Sde.ConstSDE (- (1/2)) 1) 1 (1/200) 1 (cov_fn 1 1 (zs_grid 1) (zs_grid 1)) inv1 (fun _ => 3) u 1 = c + observation_loglik 1 1 (fun _ => 3) u.
Proof.
  assert (HC : cov_fn 1 1 (zs_grid 1) (zs_grid 1) 0%nat 0%nat = 1).
  { unfold cov_fn. rewrite Rminus_diag_eq, Rabs_R0 by reflexivity. replace (- 0 / 1) with 0 by field. rewrite exp_0. ring. }
  apply (C104_final_twisting_refuted 1 1); try lra; try lia; [now left| |].
  - assert (H : fwd_cov (Sde.ConstSDE (- (1/2)) 1) (cov_fn 1 1 (zs_grid 1) (zs_grid 1)) 0 0%nat 0%nat <> 0).
    { rewrite (fwd_cov_0 1 _ _) by (cbn; lra || lia). rewrite HC. lra. }
    destruct (inv1_inverse _ H). now split.
  - intros H. specialize (H 0%nat ltac:(lia)). unfold mvec, vscale in H. cbn [seq map Rsum] in H. rewrite HC in H. lra.
Qed.
Example C104_example_images : image_twist_var (Sde.ConstSDE (- (1/2)) 1) (6/100) 0 = 6/100 /\ denoised_variance 1 0 (6/100) = 0.
Proof. unfold image_twist_var. rewrite SdeProofs.FQ_id by (cbn; lra). cbn [fst snd]. unfold denoised_variance. split; field. Qed.
