(** experiments/toy/gp_twisted.py and the twisting functions of experiments/imgs/{inpainting,supr}_twisted.py:
    twisting functions, guided drift, and the target that they define. *)
From Coquelicot Require Import Coquelicot.
From Coq Require Import Reals List Lia Lra Morphisms Setoid.
From Verif Require Sde SdeProofs SdeMore.
From Verif Require Import Base Dist Mat MatMore GaussDiv GaussSB GaussSBMore Cholesky Toy ToyCond ToyMore ToyRef.
Import ListNotations.
Open Scope R_scope.

(** ** Model *)
Section Gp.
  Variables (d : nat) (sde : Sde.linear_sde) (T dt obs_var : R) (C : mat) (inv : mat -> mat).

  (** gp_twisted.py 66-68 (the prior mean is zero), 71-74, 82-83 *)
  Definition gp_reverse_drift (u : vec) (t : R) : vec :=
    reverse_drift d (vdrift sde) (Sde.dispersion sde) T (fwd_mean sde (fun _ => 0)) (fwd_cov sde C) inv u t.
  (** gp_twisted.py 113-115: [u + reverse_drift(u, t) * dt]; sum of [norm.logpdf] over the entries *)
  Definition denoising_estimate (u : vec) (t : R) : vec := fun i => u i + gp_reverse_drift u t i * dt.
  Definition twisting_logpdf (y u : vec) (t : R) : R :=
    Rsum (map (fun i => Sde.norm_logpdf (y i) (denoising_estimate u t i) (sqrt obs_var)) (seq 0 d)).
  (** gp_twisted.py 86-88; [jax.grad] as a relation *)
  Definition reverse_cond_drift (u : vec) (t : R) (y r : vec) : Prop :=
    exists g, is_grad d (fun x => twisting_logpdf y x t) u g /\
      veq d r (vadd (vscale (-(1)) (vdrift sde u (T - t)))
                 (vscale (Sde.dispersion sde (T - t) ^ 2) (vadd (score d (fwd_mean sde (fun _ => 0)) (fwd_cov sde C) inv u (T - t)) g))).
  (** gp_twisted.py 100-104: Euler step of the reverse process *)
  Definition transition_logpdf (u u_prev : vec) (t : R) : R :=
    Rsum (map (fun i => Sde.norm_logpdf (u i) (u_prev i + gp_reverse_drift u_prev t i * dt) (sqrt dt * Sde.dispersion sde (T - t))) (seq 0 d)).
  (** gp_twisted.py 126-129, for the drift [r] of [reverse_cond_drift] *)
  Definition prop_logpdf (r u u_prev : vec) (t : R) : R :=
    Rsum (map (fun i => Sde.norm_logpdf (u i) (u_prev i + r i * dt) (sqrt dt * Sde.dispersion sde (T - t))) (seq 0 d)).

  (** ** Specification *)
  (** log density of the observations y = u + noise of variance obs_var *)
  Definition observation_loglik (y u : vec) : R := Rsum (map (fun i => SdeProofs.gauss_logpdf (u i) obs_var (y i)) (seq 0 d)).
End Gp.

(** the twisting function of the image scripts for one pixel channel (inpainting_twisted.py 121-125, supr_twisted.py 122-126):
    [est] is the denoising estimate, [data_variance] the constant 0.06 *)
Definition image_twist_var (sde : Sde.linear_sde) (data_variance s : R) : R :=
  fst (Sde.FQ sde s 0) ^ 2 * data_variance + snd (Sde.FQ sde s 0).
Definition image_twist (sde : Sde.linear_sde) (data_variance s y est : R) : R := Sde.norm_logpdf y est (sqrt (image_twist_var sde data_variance s)).
(** Specification: x_0 of variance [v] and x_s = F x_0 + noise of variance Q; the conditional variance of x_0 given x_s
    is v - Cov(x_0, x_s)^2 / Var(x_s) *)
Definition denoised_variance (F Q v : R) : R := v - (F * v) ^ 2 / (F ^ 2 * v + Q).

(** ** Proofs *)
Lemma Rsum_map_minus {A} (f g : A -> R) l : Rsum (map (fun x => f x - g x) l) = Rsum (map f l) - Rsum (map g l).
Proof. induction l as [|a l IH]; cbn [map Rsum]; [ring|]. rewrite IH. ring. Qed.
Definition stationary_at (sde : Sde.linear_sde) (t : R) : Prop :=
  Sde.drift_coef sde t = - (Sde.dispersion sde t ^ 2 / 2) /\ Sde.dispersion sde t <> 0.

Lemma FQ_same sde t : SdeProofs.sde_defined sde -> fst (Sde.FQ sde t t) = 1 /\ snd (Sde.FQ sde t t) = 0.
Proof. intros H. now rewrite (SdeProofs.FQ_id sde t H). Qed.
Lemma fwd_cov_0 d sde C : SdeProofs.sde_defined sde -> meq d (fwd_cov sde C 0) C.
Proof.
  intros H. destruct (FQ_same sde 0 H) as [EF EQ]. intros i j _ _. unfold fwd_cov, madd, mscale. rewrite EF, EQ. ring.
Qed.

Section GpProofs.
  Variables (d : nat) (sde : Sde.linear_sde) (T dt s2 : R) (C : mat) (inv : mat -> mat).
  Hypothesis Hs2 : 0 < s2.

  (** the matrix of the denoising estimate *)
  Definition denoise_mat (t : R) : mat :=
    msub (mscale (1 - dt * Sde.drift_coef sde (T - t)) mid) (mscale (dt * Sde.dispersion sde (T - t) ^ 2) (inv (fwd_cov sde C (T - t)))).

  Lemma gp_reverse_drift_lin u t i : gp_reverse_drift d sde T C inv u t i =
    - Sde.drift_coef sde (T - t) * u i - Sde.dispersion sde (T - t) ^ 2 * mvec d (inv (fwd_cov sde C (T - t))) u i.
  Proof.
    unfold gp_reverse_drift, reverse_drift, score, vdrift, fwd_mean, vadd, vscale.
    replace (mvec d (inv (fwd_cov sde C (T - t))) (vsub u (fun _ => fst (Sde.FQ sde (T - t) 0) * 0)) i) with (mvec d (inv (fwd_cov sde C (T - t))) u i); [ring|].
    unfold mvec. apply Rsum_map_ext. intros k _. unfold vsub. ring.
  Qed.

  Lemma denoise_lin u t i : (i < d)%nat -> denoising_estimate d sde T dt C inv u t i = mvec d (denoise_mat t) u i.
  Proof.
    intros Hi. unfold denoising_estimate, denoise_mat. rewrite gp_reverse_drift_lin, mvec_sub_l, !mvec_scale_l, (mvec_id d u i Hi). ring.
  Qed.

  Lemma mvec_upd A x i h k : (i < d)%nat -> mvec d A (fun j => if Nat.eqb j i then h else x j) k = mvec d A x k + A k i * (h - x i).
  Proof.
    intros Hi. unfold mvec.
    transitivity (Rsum (map (fun j => A k j * x j + (if Nat.eqb j i then A k i * (h - x i) else 0)) (seq 0 d))).
    - apply Rsum_map_ext. intros j _. destruct (Nat.eqb_spec j i) as [ ->|]; ring.
    - rewrite Rsum_map_plus. f_equal. rewrite (Rsum_map_ext _ (fun j => A k i * (h - x i) * (if Nat.eqb j i then 1 else 0))).
      + rewrite Rsum_map_mult_l. replace (Rsum (map (fun j => if Nat.eqb j i then 1 else 0) (seq 0 d))) with 1; [ring|].
        refine (eq_trans (eq_sym (mvec_id d (fun _ => 1) i Hi)) _). unfold mvec, mid. apply Rsum_map_ext. intros j _. rewrite (Nat.eqb_sym i j). destruct (Nat.eqb j i); ring.
      + intros j _. destruct (Nat.eqb j i); ring.
  Qed.

  Definition twist_grad (y u : vec) (t : R) : vec :=
    vscale (/ s2) (mvec d (mtr (denoise_mat t)) (vsub y (mvec d (denoise_mat t) u))).

  Lemma twisting_is_grad y u t : is_grad d (fun x => twisting_logpdf d sde T dt s2 C inv y x t) u (twist_grad y u t).
  Proof.
    intros i Hi. set (J := denoise_mat t).
    apply (is_derive_ext (fun h => Rsum (map (fun k => SdeProofs.gauss_logpdf (mvec d J u k + J k i * (h - u i)) s2 (y k)) (seq 0 d)))).
    { intros h. unfold twisting_logpdf. match goal with |- @eq _ ?a ?b => change (@eq R a b) end. apply Rsum_map_ext. intros k Hk. apply in_seq in Hk.
      rewrite denoise_lin, SdeProofs.norm_logpdf_sqrt by (assumption || lia). fold J. now rewrite mvec_upd. }
    evar_last.
    - apply (is_derive_Rsum_map (fun k h => SdeProofs.gauss_logpdf (mvec d J u k + J k i * (h - u i)) s2 (y k)) (fun k => / s2 * (J k i * (y k - mvec d J u k)))).
      intros k _. unfold SdeProofs.gauss_logpdf. auto_derive; [exact I|]. field. lra.
    - unfold twist_grad, vscale. fold J. rewrite Rsum_map_mult_l. f_equal.
  Qed.

  Lemma reverse_cond_drift_total u t y : exists r, reverse_cond_drift d sde T dt s2 C inv u t y r.
  Proof. eexists. exists (twist_grad y u t). split; [apply twisting_is_grad|reflexivity]. Qed.

  Lemma reverse_cond_drift_form u t y r : reverse_cond_drift d sde T dt s2 C inv u t y r ->
    veq d r (vadd (gp_reverse_drift d sde T C inv u t) (vscale (Sde.dispersion sde (T - t) ^ 2) (twist_grad y u t))).
  Proof.
    intros (g & Hg & Hr) i Hi. rewrite (Hr i Hi). unfold vadd at 1 2 3, vscale at 2 3.
    rewrite <- (is_grad_unique d _ u _ _ (twisting_is_grad y u t) Hg i Hi).
    unfold gp_reverse_drift, reverse_drift, vadd, vscale. ring.
  Qed.

  (** ** At the end of the reverse process *)
  Hypothesis Hdef : SdeProofs.sde_defined sde.
  Hypothesis Hstat : stationary_at sde 0.
  Hypothesis Hinv : inverse_at d (fwd_cov sde C) inv 0.
  Hypothesis HC : symmetric d C.
  Hypothesis Hdt : dt <> 0.

  Lemma inv_C_left : meq d (mmul d (inv (fwd_cov sde C 0)) C) mid.
  Proof. destruct Hinv as [H1 H2]. rewrite <- H1. apply mmul_proper; [reflexivity|]. symmetry. now apply fwd_cov_0. Qed.

  Lemma final_odd y u :
    (twisting_logpdf d sde T dt s2 C inv y u T - observation_loglik d s2 y u) -
    (twisting_logpdf d sde T dt s2 C inv y (vscale (-(1)) u) T - observation_loglik d s2 y (vscale (-(1)) u)) =
    2 * dt / s2 * dot d y (gp_reverse_drift d sde T C inv u T).
  Proof.
    unfold twisting_logpdf, observation_loglik, dot. rewrite <- !Rsum_map_minus, <- Rsum_map_mult_l. apply Rsum_map_ext. intros i _.
    rewrite !SdeProofs.norm_logpdf_sqrt by assumption. unfold denoising_estimate.
    assert (E : gp_reverse_drift d sde T C inv (vscale (-(1)) u) T i = - gp_reverse_drift d sde T C inv u T i).
    { rewrite !gp_reverse_drift_lin. replace (mvec d (inv (fwd_cov sde C (T - T))) (vscale (-(1)) u) i) with (- mvec d (inv (fwd_cov sde C (T - T))) u i).
      - unfold vscale. ring.
      - unfold mvec, vscale. transitivity (-(1) * Rsum (map (fun k => inv (fwd_cov sde C (T - T)) i k * u k) (seq 0 d))); [ring|].
        rewrite <- Rsum_map_mult_l. apply Rsum_map_ext. intros; ring. }
    rewrite E. unfold SdeProofs.gauss_logpdf, vscale. field. lra.
  Qed.

  (** the final twisting function is not proportional to the likelihood, unless C y = 2 y *)
  Lemma final_twist_wrong y : ~ veq d (mvec d C y) (vscale 2 y) -> exists u,
    twisting_logpdf d sde T dt s2 C inv y u T - observation_loglik d s2 y u <>
    twisting_logpdf d sde T dt s2 C inv y (vscale (-(1)) u) T - observation_loglik d s2 y (vscale (-(1)) u).
  Proof.
    intros Hy. set (v := vsub (mvec d C y) (vscale 2 y)). exists (mvec d C v). intros E.
    apply Rminus_diag_eq in E. rewrite final_odd in E.
    assert (G : dot d y (gp_reverse_drift d sde T C inv (mvec d C v) T) = Sde.dispersion sde 0 ^ 2 / 2 * dot d v v).
    { destruct Hstat as [S1 S2].
      assert (K : veq d (gp_reverse_drift d sde T C inv (mvec d C v) T) (vscale (Sde.dispersion sde 0 ^ 2 / 2) (vsub (mvec d C v) (vscale 2 v)))).
      { intros i Hi. rewrite gp_reverse_drift_lin. replace (T - T) with 0 by ring. rewrite S1.
        rewrite (mvec_mul d _ C v i Hi), (mvec_proper d _ _ inv_C_left v v (reflexivity _) i Hi), (mvec_id d v i Hi).
        unfold vscale, vsub. field. }
      rewrite (dot_proper d _ _ (reflexivity y) _ _ K).
      transitivity (Sde.dispersion sde 0 ^ 2 / 2 * dot d y (vsub (mvec d C v) (vscale 2 v))).
      { unfold dot, vscale. rewrite <- Rsum_map_mult_l. apply Rsum_map_ext. intros; ring. }
      f_equal. transitivity (dot d y (mvec d C v) - 2 * dot d y v).
      { unfold dot, vsub, vscale. rewrite <- Rsum_map_mult_l, <- Rsum_map_minus. apply Rsum_map_ext. intros; ring. }
      rewrite dot_mvec. rewrite (dot_proper d _ _ (mvec_proper d _ _ HC y y (reflexivity _)) v v (reflexivity _)).
      unfold v at 3, dot. rewrite <- Rsum_map_mult_l, <- Rsum_map_minus. apply Rsum_map_ext. intros i _. unfold vsub, vscale. ring. }
    rewrite G in E. destruct Hstat as [_ S2].
    assert (Z : dot d v v = 0).
    { assert (P : 0 < Sde.dispersion sde 0 ^ 2) by (apply pow2_gt_0; exact S2).
      apply Rmult_integral in E. destruct E as [E|E].
      - exfalso. apply Hdt. replace dt with (2 * dt / s2 * (s2 / 2)) by (field; lra). rewrite E. ring.
      - apply Rmult_integral in E. destruct E as [E|E]; [lra|exact E]. }
    apply dot_self_zero in Z. apply Hy. intros i Hi. specialize (Z i Hi). unfold v, vsub in Z. lra.
  Qed.
End GpProofs.

(** the covariance of the script: C e_0 has first entry sigma^2 = 1 *)
Lemma gp_cov_e0 d ell z : (0 < d)%nat -> ~ veq d (mvec d (cov_fn 1 ell z z) (fun i => if Nat.eqb i 0 then 1 else 0)) (vscale 2 (fun i => if Nat.eqb i 0 then 1 else 0)).
Proof.
  intros Hd H. specialize (H 0%nat Hd). unfold vscale in H. cbn [Nat.eqb] in H.
  assert (E : mvec d (cov_fn 1 ell z z) (fun i => if Nat.eqb i 0 then 1 else 0) 0%nat = 1); [|lra].
  pose proof (mvec_upd d (cov_fn 1 ell z z) (fun _ => 0) 0 1 0 Hd) as U. cbn beta in U.
  replace (mvec d (cov_fn 1 ell z z) (fun i => if Nat.eqb i 0 then 1 else 0) 0%nat) with
    (mvec d (cov_fn 1 ell z z) (fun j => if Nat.eqb j 0 then 1 else (fun _ => 0) j) 0%nat) by reflexivity.
  rewrite U. rewrite (mvec_zero d _ _ (reflexivity _) 0%nat Hd). unfold cov_fn. rewrite Rminus_diag_eq, Rabs_R0 by reflexivity.
  replace (- 0 / ell) with 0 by (unfold Rdiv; ring). rewrite exp_0. ring.
Qed.

(** ** Image scripts *)
Lemma stationary_FQ_const s : snd (Sde.FQ (Sde.ConstSDE (- (1/2)) 1) s 0) = 1 - fst (Sde.FQ (Sde.ConstSDE (- (1/2)) 1) s 0) ^ 2.
Proof. cbn [Sde.FQ fst snd]. replace (exp (2 * - (1/2) * (s - 0))) with (exp (- (1/2) * (s - 0)) ^ 2); [field|]. cbn [pow]. rewrite Rmult_1_r, <- exp_plus. f_equal. field. Qed.
Lemma stationary_FQ_lin m M t0 T s : snd (Sde.FQ (Sde.LinSDE m M t0 T) s 0) = 1 - fst (Sde.FQ (Sde.LinSDE m M t0 T) s 0) ^ 2.
Proof. cbn [Sde.FQ fst snd]. cbn [pow]. rewrite Rmult_1_r, <- exp_plus. do 2 f_equal. lra. Qed.

Lemma image_twist_too_wide F Q v : 0 < v < 1 -> 0 < F <= 1 -> Q = 1 - F ^ 2 -> denoised_variance F Q v < v <= F ^ 2 * v + Q.
Proof.
  intros Hv HF ->. unfold denoised_variance. assert (P : 0 < F ^ 2 <= 1) by nra.
  assert (P2 : 0 < F ^ 2 * v + (1 - F ^ 2)) by nra. split; [|nra].
  assert (0 < (F * v) ^ 2 / (F ^ 2 * v + (1 - F ^ 2))); [|lra]. apply Rdiv_lt_0_compat; [|exact P2]. apply pow2_gt_0. nra.
Qed.
