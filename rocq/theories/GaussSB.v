(** Model of [make_gaussian_bw_sb] (fbs/sdes/linear.py:397-457): the closed form
    Schrodinger bridge between two Gaussians with a Brownian reference.

    Simplifications: the matrix routines of the libraries are not modelled; their
    results are arguments of the model, constrained in the theorems by the defining
    equations of the routine:
    - [sqrt0] is [sqrtm(cov0)], [D] is [sqrtm(4 sqrt0 cov1 sqrt0 + sig^4 I)];
    - [X] is [solve(sqrt0.T, D.T).T];
    - [inv] is the inverse used by [cho_factor]/[cho_solve].  *)
From Coquelicot Require Import Coquelicot.
From Coq Require Import Reals List Lia Lra Morphisms Setoid.
From Verif Require Import Base Dist Mat.
Import ListNotations.
Open Scope R_scope.

Section Model.
  Variables (d : nat) (mean0 : vec) (cov0 : mat) (mean1 : vec) (cov1 : mat) (sig : R).

  (** linear.py:425  [4 * sqrt0 @ cov1 @ sqrt0 + sig ** 4 * eye(d)] *)
  Definition sb_D_arg (sqrt0 : mat) : mat :=
    madd (mmul d (mmul d (mscale 4 sqrt0) cov1) sqrt0) (mscale (sig ^ 4) mid).

  (** linear.py:426  [0.5 * (sqrt0 @ solve(sqrt0.T, D_sig.T).T - sig ** 2 * eye(d))] *)
  Definition sb_C (sqrt0 X : mat) : mat :=
    mscale (1 / 2) (msub (mmul d sqrt0 X) (mscale (sig ^ 2) mid)).

  (** linear.py:428-438 *)
  Definition kappa (t : R) : R := t * sig ^ 2.
  Definition r (t : R) : R := t.
  Definition r_bar (t : R) : R := 1 - t.
  Definition rho (t : R) : R := t.

  (** linear.py:440-441 *)
  Definition marginal_mean (t : R) : vec := vadd (vscale (r_bar t) mean0) (vscale (r t) mean1).

  Variable C : mat.

  (** linear.py:443-445 *)
  Definition marginal_cov (t : R) : mat :=
    madd (madd (madd (mscale (r_bar t ^ 2) cov0) (mscale (r t ^ 2) cov1))
               (mscale (r t * r_bar t) (madd C (mtr C))))
         (mscale (kappa t * (1 - rho t)) mid).

  (** linear.py:447-450 *)
  Definition sb_s (t : R) : mat :=
    let pt := madd (mscale (r t) cov1) (mscale (r_bar t) C) in
    let qt := madd (mscale (r_bar t) cov0) (mscale (r t) C) in
    msub (msub pt (mtr qt)) (mscale (sig ^ 2 * rho t) mid).

  (** linear.py:452-455 *)
  Definition sb_drift (inv : mat -> mat) (x : vec) (t : R) : vec :=
    let mt := marginal_mean t in
    vadd (vsub (mvec d (mtr (sb_s t)) (mvec d (inv (marginal_cov t)) (vsub x mt))) mean0) mean1.
End Model.

Ltac mopen := unfold symmetric, mtr, madd, msub, mscale in *; cbn beta in *.

(** ** End points and symmetry *)

Lemma marginal_mean_0 m0 m1 d : veq d (marginal_mean m0 m1 0) m0.
Proof. intros i _. unfold marginal_mean, vadd, vscale, r, r_bar. ring. Qed.
Lemma marginal_mean_1 m0 m1 d : veq d (marginal_mean m0 m1 1) m1.
Proof. intros i _. unfold marginal_mean, vadd, vscale, r, r_bar. ring. Qed.
Lemma marginal_cov_0 c0 c1 sig C d : meq d (marginal_cov c0 c1 sig C 0) c0.
Proof. intros i j _ _. unfold marginal_cov, kappa, r, r_bar, rho. mopen. ring. Qed.
Lemma marginal_cov_1 c0 c1 sig C d : meq d (marginal_cov c0 c1 sig C 1) c1.
Proof. intros i j _ _. unfold marginal_cov, kappa, r, r_bar, rho. mopen. ring. Qed.

Lemma mid_sym i j : mid j i = mid i j.
Proof. unfold mid. now rewrite Nat.eqb_sym. Qed.

Lemma marginal_cov_sym d c0 c1 sig C t : symmetric d c0 -> symmetric d c1 ->
  symmetric d (marginal_cov c0 c1 sig C t).
Proof.
  intros H0 H1 i j Hi Hj. specialize (H0 i j Hi Hj). specialize (H1 i j Hi Hj).
  unfold marginal_cov. mopen. rewrite H0, H1, (mid_sym i j). ring.
Qed.

(** ** Moment equations *)

Lemma marginal_mean_derive m0 m1 t i : is_derive (fun u => marginal_mean m0 m1 u i) t (m1 i - m0 i).
Proof.
  unfold marginal_mean, vadd, vscale, r, r_bar. evar_last. auto_derive; trivial. cbn. ring.
Qed.

Lemma marginal_cov_derive d c0 c1 sig C t : symmetric d c0 -> symmetric d c1 ->
  forall i j, (i < d)%nat -> (j < d)%nat ->
  is_derive (fun u => marginal_cov c0 c1 sig C u i j) t
    (sb_s c0 c1 sig C t i j + sb_s c0 c1 sig C t j i + sig ^ 2 * mid i j).
Proof.
  intros H0 H1 i j Hi Hj. specialize (H0 i j Hi Hj). specialize (H1 i j Hi Hj).
  unfold marginal_cov, sb_s, kappa, r, r_bar, rho. mopen. evar_last. auto_derive; trivial.
  rewrite H0, H1, (mid_sym i j). cbn. ring.
Qed.

Lemma sb_drift_mean d m0 c0 m1 c1 sig C inv t :
  veq d (sb_drift d m0 c0 m1 c1 sig C inv (marginal_mean m0 m1 t) t) (vsub m1 m0).
Proof.
  intros i Hi. unfold sb_drift, vadd, vsub.
  assert (Hz : veq d (fun k => marginal_mean m0 m1 t k - marginal_mean m0 m1 t k) (fun _ => 0)) by (intros k _; ring).
  pose proof (mvec_zero d (mtr (sb_s c0 c1 sig C t)) _
    (mvec_zero d (inv (marginal_cov c0 c1 sig C t)) _ Hz) i Hi) as H. cbn beta in H.
  rewrite H. ring.
Qed.

(** The drift is affine, with slope [A(t) = s(t)^T cov(t)^{-1}]. *)
Definition sb_slope (d : nat) (c0 c1 : mat) (sig : R) (C : mat) (inv : mat -> mat) (t : R) : mat :=
  mmul d (mtr (sb_s c0 c1 sig C t)) (inv (marginal_cov c0 c1 sig C t)).

Lemma sb_drift_affine d m0 c0 m1 c1 sig C inv x t :
  veq d (sb_drift d m0 c0 m1 c1 sig C inv x t)
    (vadd (mvec d (sb_slope d c0 c1 sig C inv t) (vsub x (marginal_mean m0 m1 t))) (vsub m1 m0)).
Proof.
  intros i Hi. unfold sb_drift, vadd at 1. unfold vsub at 1.
  rewrite (mvec_mul d _ _ _ i Hi). unfold sb_slope, vadd, vsub. ring.
Qed.

Lemma sb_cov_moment d c0 c1 sig C inv t : symmetric d c0 -> symmetric d c1 ->
  let A := sb_slope d c0 c1 sig C inv t in let S := marginal_cov c0 c1 sig C t in
  meq d (mmul d (inv S) S) mid -> forall i j, (i < d)%nat -> (j < d)%nat ->
  is_derive (fun u => marginal_cov c0 c1 sig C u i j) t
    (mmul d A S i j + mmul d S (mtr A) i j + sig ^ 2 * mid i j).
Proof.
  intros H0 H1 A S Hinv i j Hi Hj. evar_last. apply (marginal_cov_derive d); assumption.
  assert (HA : meq d (mmul d A S) (mtr (sb_s c0 c1 sig C t))).
  { unfold A, sb_slope. fold S. rewrite <- mmul_assoc, Hinv. apply mmul_1_r. }
  assert (HS : symmetric d S) by (now apply marginal_cov_sym).
  rewrite (HA i j Hi Hj).
  assert (HB : meq d (mmul d S (mtr A)) (sb_s c0 c1 sig C t)).
  { red in HS. rewrite <- HS at 1. rewrite <- (mtr_mul d A S), HA. reflexivity. }
  rewrite (HB i j Hi Hj). unfold mtr. ring.
Qed.

(** ** The cross covariance of the closed form *)

Section Cross.
  Variables (d : nat) (c0 c1 : mat) (sig : R) (S D X Si : mat).
  Hypothesis Hc1 : symmetric d c1.
  Hypothesis HS : symmetric d S.
  Hypothesis HSS : meq d (mmul d S S) c0.
  Hypothesis HD : symmetric d D.
  Hypothesis HDD : meq d (mmul d D D) (sb_D_arg d c1 sig S).
  (** [solve(S.T, D.T)] is [X.T] *)
  Hypothesis HX : meq d (mmul d (mtr S) (mtr X)) (mtr D).
  Hypothesis HSi : meq d (mmul d S Si) mid.
  Hypothesis HSi' : meq d (mmul d Si S) mid.
  Let C := sb_C d sig S X.

  Lemma sb_XS : meq d (mmul d X S) D.
  Proof.
    intros i j Hi Hj. rewrite <- (mmul_tr d X S j i). exact (HX j i Hj Hi).
  Qed.
  Lemma sb_X : meq d X (mmul d D Si).
  Proof. rewrite <- sb_XS, <- mmul_assoc, HSi. symmetry. apply mmul_1_r. Qed.

  Lemma sb_DD : meq d (mmul d D D) (madd (mscale 4 (mmul d S (mmul d c1 S))) (mscale (sig ^ 4) mid)).
  Proof.
    rewrite HDD. unfold sb_D_arg. intros i j Hi Hj. unfold madd at 1. unfold madd at 1. f_equal.
    rewrite <- (mmul_assoc d _ _ _ i j Hi Hj). mexpand. reflexivity.
  Qed.

  Lemma sb_Si_sym : symmetric d Si.
  Proof.
    assert (H : meq d (mmul d (mtr Si) S) mid).
    { red in HS. rewrite <- HS, <- mtr_mul, HSi. intros i j _ _. apply mid_sym. }
    red. transitivity (mmul d (mtr Si) (mmul d S Si)).
    - rewrite HSi. symmetry. apply mmul_1_r.
    - rewrite mmul_assoc, H. apply mmul_1_l.
  Qed.

  Lemma sb_C_entry i j : C i j = 1 / 2 * (mmul d S X i j - sig ^ 2 * mid i j).
  Proof. reflexivity. Qed.

  (** C^2 + sig^2 C = cov0 cov1 *)
  Lemma sb_C_quadratic : meq d (madd (mmul d C C) (mscale (sig ^ 2) C)) (mmul d c0 c1).
  Proof.
    assert (H : meq d (mmul d (mmul d S X) (mmul d S X)) (madd (mscale 4 (mmul d c0 c1)) (mscale (sig ^ 4) mid))).
    { transitivity (mmul d S (mmul d (mmul d X S) X)).
      { rewrite !mmul_assoc. reflexivity. }
      rewrite sb_XS, sb_X. rewrite (mmul_assoc d D D Si), sb_DD.
      intros i j Hi Hj.
      transitivity (mmul d S (madd (mscale 4 (mmul d S c1)) (mscale (sig ^ 4) Si)) i j).
      { refine (mmul_proper d S S _ _ _ _ i j Hi Hj). reflexivity.
        intros a b Ha Hb. mexpand. unfold madd, mscale. f_equal. f_equal.
        rewrite <- (mmul_assoc d S _ Si a b Ha Hb).
        refine (mmul_proper d S S _ _ _ _ a b Ha Hb). reflexivity.
        rewrite <- mmul_assoc, HSi. apply mmul_1_r. }
      mexpand. unfold madd, mscale. rewrite (mmul_assoc d S S c1 i j Hi Hj).
      rewrite (mmul_proper d _ _ HSS c1 c1 (reflexivity _) i j Hi Hj), (HSi i j Hi Hj). reflexivity. }
    intros i j Hi Hj. specialize (H i j Hi Hj).
    unfold madd at 1, mscale at 1. unfold C, sb_C. mexpand. rewrite H. unfold madd, msub, mscale. 
    field.
  Qed.

  (** C cov0 = cov0 C^T *)
  Lemma sb_C_cov0 : meq d (mmul d C c0) (mmul d c0 (mtr C)).
  Proof.
    assert (H : meq d (mmul d (mmul d S X) c0) (mmul d c0 (mtr (mmul d S X)))).
    { transitivity (mmul d S (mmul d D S)).
      - rewrite <- HSS, <- sb_XS, !mmul_assoc. reflexivity.
      - rewrite mtr_mul, <- HSS. red in HS, HD. rewrite <- HD, <- HX, HS, !mmul_assoc. reflexivity. }
    intros i j Hi Hj. specialize (H i j Hi Hj).
    assert (E : meq d (mtr C) (mscale (1 / 2) (msub (mtr (mmul d S X)) (mscale (sig ^ 2) mid)))).
    { intros a b _ _. unfold C, sb_C, mtr, mscale, msub. now rewrite (mid_sym a b). }
    rewrite (mmul_proper d c0 c0 (reflexivity _) _ _ E i j Hi Hj).
    unfold C, sb_C. mexpand. rewrite H. reflexivity.
  Qed.

  (** cov1 C = C^T cov1 *)
  Lemma sb_C_cov1 : meq d (mmul d c1 C) (mmul d (mtr C) c1).
  Proof.
    assert (HSD : meq d (mmul d (mmul d S (mmul d c1 S)) D) (mmul d D (mmul d S (mmul d c1 S)))).
    { intros i j Hi Hj.
      assert (H : meq d (mmul d (madd (mscale 4 (mmul d S (mmul d c1 S))) (mscale (sig ^ 4) mid)) D)
                        (mmul d D (madd (mscale 4 (mmul d S (mmul d c1 S))) (mscale (sig ^ 4) mid)))).
      { rewrite <- sb_DD. symmetry. apply mmul_assoc. }
      specialize (H i j Hi Hj). revert H. mexpand. intros H. lra. }
    assert (H : meq d (mmul d c1 (mmul d S X)) (mmul d (mtr (mmul d S X)) c1)).
    { rewrite mtr_mul, sb_X, mtr_mul. red in HS, HD. rewrite HS, HD. pose proof sb_Si_sym as Hi. red in Hi. rewrite Hi.
      transitivity (mmul d Si (mmul d (mmul d (mmul d S (mmul d c1 S)) D) Si)).
      - transitivity (mmul d (mmul d Si S) (mmul d c1 (mmul d S (mmul d D Si)))).
        + rewrite HSi', mmul_1_l. reflexivity.
        + rewrite !mmul_assoc. reflexivity.
      - rewrite HSD. transitivity (mmul d (mmul d Si (mmul d D S)) (mmul d c1 (mmul d S Si))).
        + rewrite !mmul_assoc. reflexivity.
        + rewrite HSi, mmul_1_r, !mmul_assoc. reflexivity. }
    intros i j Hi Hj. specialize (H i j Hi Hj).
    assert (E : meq d (mtr C) (mscale (1 / 2) (msub (mtr (mmul d S X)) (mscale (sig ^ 2) mid)))).
    { intros a b _ _. unfold C, sb_C, mtr, mscale, msub. now rewrite (mid_sym a b). }
    rewrite (mmul_proper d _ _ E c1 c1 (reflexivity _) i j Hi Hj).
    unfold C, sb_C. mexpand. rewrite H. reflexivity.
  Qed.
End Cross.

(** ** Optimality: the drift is a gradient field and its slope solves the Riccati equation *)

Section Optimal.
  Variables (d : nat) (c0 c1 : mat) (sig : R) (C : mat).
  Hypothesis H0 : symmetric d c0.
  Hypothesis H1 : symmetric d c1.
  Hypothesis HQ : meq d (madd (mmul d C C) (mscale (sig ^ 2) C)) (mmul d c0 c1).
  Hypothesis HC0 : meq d (mmul d C c0) (mmul d c0 (mtr C)).
  Hypothesis HC1 : meq d (mmul d c1 C) (mmul d (mtr C) c1).

  Lemma HQ' : meq d (madd (mmul d (mtr C) (mtr C)) (mscale (sig ^ 2) (mtr C))) (mmul d c1 c0).
  Proof.
    intros i j Hi Hj. pose proof (HQ j i Hj Hi) as H. unfold madd, mscale in H |- *.
    rewrite mmul_tr. unfold mtr at 1. rewrite H, <- mmul_tr.
    refine (mmul_proper d _ _ _ _ _ _ i j Hi Hj); assumption.
  Qed.

  Lemma sb_s_sym_form t : meq d (sb_s c0 c1 sig C t)
    (msub (madd (msub (mscale t c1) (mscale (1 - t) c0)) (msub (mscale (1 - t) C) (mscale t (mtr C)))) (mscale (sig ^ 2 * t) mid)).
  Proof.
    intros i j Hi Hj. specialize (H0 i j Hi Hj). unfold sb_s, r, r_bar, rho. mopen. rewrite H0. ring.
  Qed.
  Lemma sb_s_tr_form t : meq d (mtr (sb_s c0 c1 sig C t))
    (msub (madd (msub (mscale t c1) (mscale (1 - t) c0)) (msub (mscale (1 - t) (mtr C)) (mscale t C))) (mscale (sig ^ 2 * t) mid)).
  Proof.
    intros i j Hi Hj. specialize (H1 i j Hi Hj). unfold sb_s, r, r_bar, rho. mopen. rewrite H1, (mid_sym i j). ring.
  Qed.
  Lemma marginal_cov_form t : meq d (marginal_cov c0 c1 sig C t)
    (madd (madd (mscale ((1 - t) ^ 2) c0) (mscale (t ^ 2) c1)) (mscale (t * (1 - t)) (madd (madd C (mtr C)) (mscale (sig ^ 2) mid)))).
  Proof.
    intros i j Hi Hj. unfold marginal_cov, kappa, r, r_bar, rho. mopen. ring.
  Qed.

  Lemma sb_commute t :
    meq d (mmul d (marginal_cov c0 c1 sig C t) (mtr (sb_s c0 c1 sig C t)))
          (mmul d (sb_s c0 c1 sig C t) (marginal_cov c0 c1 sig C t)).
  Proof.
    rewrite sb_s_tr_form, sb_s_sym_form, marginal_cov_form. intros i j Hi Hj.
    pose proof (HQ i j Hi Hj) as E1. pose proof (HQ' i j Hi Hj) as E2.
    pose proof (HC0 i j Hi Hj) as E3. pose proof (HC1 i j Hi Hj) as E4.
    unfold madd, mscale in E1, E2. mexpand. unfold mscale. rewrite <- E1, <- E2, <- E3, E4. unfold madd, mtr, mscale. ring.
  Qed.

  (** the derivative of [s] *)
  Definition sb_K : mat := msub (msub (madd c1 c0) (madd C (mtr C))) (mscale (sig ^ 2) mid).

  Lemma sb_s_derive t i j : (i < d)%nat -> (j < d)%nat -> is_derive (fun u => sb_s c0 c1 sig C u i j) t (sb_K i j).
  Proof.
    intros Hi Hj. specialize (H0 i j Hi Hj). unfold sb_s, sb_K, r, r_bar, rho. mopen. evar_last. auto_derive; trivial.
    rewrite H0. cbn. ring.
  Qed.

  Lemma sb_K_sym : symmetric d sb_K.
  Proof.
    intros i j Hi Hj. specialize (H0 i j Hi Hj). specialize (H1 i j Hi Hj). unfold sb_K. mopen.
    rewrite H0, H1, (mid_sym i j). ring.
  Qed.

  Lemma sb_riccati_product t :
    meq d (mmul d (marginal_cov c0 c1 sig C t) sb_K)
          (mmul d (madd (sb_s c0 c1 sig C t) (mscale (sig ^ 2) mid)) (sb_s c0 c1 sig C t)).
  Proof.
    rewrite sb_s_sym_form, marginal_cov_form. unfold sb_K. intros i j Hi Hj.
    pose proof (HQ i j Hi Hj) as E1. pose proof (HQ' i j Hi Hj) as E2.
    pose proof (HC0 i j Hi Hj) as E3. pose proof (HC1 i j Hi Hj) as E4.
    unfold madd, mscale in E1, E2. mexpand. unfold mscale. rewrite <- E1, <- E2, <- E3, E4. unfold madd, msub, mtr, mscale. ring.
  Qed.

  Variable inv : mat -> mat.

  Lemma sb_slope_sym t : let S := marginal_cov c0 c1 sig C t in
    meq d (mmul d (inv S) S) mid -> meq d (mmul d S (inv S)) mid ->
    symmetric d (sb_slope d c0 c1 sig C inv t).
  Proof.
    intros S HL HR. set (s := sb_s c0 c1 sig C t).
    assert (HSs : symmetric d S) by now apply marginal_cov_sym.
    assert (Hi : meq d (mtr (inv S)) (inv S)).
    { assert (H : meq d (mmul d (mtr (inv S)) S) mid).
      { red in HSs. rewrite <- HSs at 2. rewrite <- mtr_mul, HR. intros i j _ _. apply mid_sym. }
      transitivity (mmul d (mtr (inv S)) (mmul d S (inv S))).
      - rewrite HR. symmetry. apply mmul_1_r.
      - rewrite mmul_assoc, H. apply mmul_1_l. }
    red. unfold sb_slope. fold S s. rewrite mtr_mul, Hi.
    assert (Hss : meq d (mtr (mtr s)) s) by (intros i j _ _; reflexivity). rewrite Hss.
    transitivity (mmul d (inv S) (mmul d (mmul d s S) (inv S))).
    { rewrite <- (mmul_assoc d s S), HR, mmul_1_r. reflexivity. }
    pose proof (sb_commute t) as Hc. fold S s in Hc. rewrite <- Hc. rewrite <- (mmul_assoc d S), mmul_assoc, HL, mmul_1_l. reflexivity.
  Qed.

  Lemma sb_slope_riccati t A' :
    locally t (fun u => meq d (mmul d (inv (marginal_cov c0 c1 sig C u)) (marginal_cov c0 c1 sig C u)) mid) ->
    meq d (mmul d (marginal_cov c0 c1 sig C t) (inv (marginal_cov c0 c1 sig C t))) mid ->
    (forall i j, (i < d)%nat -> (j < d)%nat -> is_derive (fun u => sb_slope d c0 c1 sig C inv u i j) t (A' i j)) ->
    meq d A' (mscale (-(1)) (mmul d (sb_slope d c0 c1 sig C inv t) (sb_slope d c0 c1 sig C inv t))).
  Proof.
    intros HLl HR HA. pose proof (locally_singleton _ _ HLl) as HL. set (A := sb_slope d c0 c1 sig C inv) in *. set (S := marginal_cov c0 c1 sig C) in *.
    set (s := sb_s c0 c1 sig C).
    assert (HASu : forall u, meq d (mmul d (inv (S u)) (S u)) mid -> meq d (mmul d (A u) (S u)) (mtr (s u))).
    { intros u Hu. unfold A, sb_slope. fold S s. rewrite <- mmul_assoc. rewrite Hu. apply mmul_1_r. }
    pose proof (HASu t HL) as HAS.
    assert (HAsym : symmetric d (A t)) by (apply sb_slope_sym; [exact HL|exact HR]).
    assert (HSsym : symmetric d (S t)) by now apply marginal_cov_sym.
    assert (HSA : meq d (mmul d (S t) (A t)) (s t)).
    { red in HAsym, HSsym. rewrite <- HAsym, <- HSsym at 1. rewrite <- mtr_mul, HAS. reflexivity. }
    set (S' := madd (madd (s t) (mtr (s t))) (mscale (sig ^ 2) mid)).
    assert (HE : meq d (madd (mmul d A' (S t)) (mmul d (A t) S')) sb_K).
    { intros i j Hi Hj.
      assert (D1 : is_derive (fun u => mmul d (A u) (S u) i j) t (mmul d A' (S t) i j + mmul d (A t) S' i j)).
      { apply (is_derive_mmul d A S A' S' t); try assumption.
        intros a b Ha Hb. evar_last. now apply (marginal_cov_derive d). unfold S', madd, mscale, mtr, s. reflexivity. }
      assert (D2 : is_derive (fun u => mmul d (A u) (S u) i j) t (sb_K j i)).
      { apply (is_derive_ext_loc (fun u => s u j i)).
        revert HLl. apply filter_imp. intros u Hu. symmetry. exact (HASu u Hu i j Hi Hj).
        now apply sb_s_derive. }
      apply is_derive_unique in D1. apply is_derive_unique in D2.
      unfold madd at 1. rewrite <- D1, D2. exact (sb_K_sym i j Hi Hj). }
    (* K = A (s + sig^2) *)
    assert (HK : meq d sb_K (mmul d (A t) (madd (s t) (mscale (sig ^ 2) mid)))).
    { transitivity (mmul d (inv (S t)) (mmul d (S t) sb_K)).
      { rewrite mmul_assoc. rewrite HL, mmul_1_l. reflexivity. }
      pose proof (sb_riccati_product t) as Hp. fold (S t) (s t) in Hp. rewrite Hp.
      transitivity (mmul d (inv (S t)) (mmul d (s t) (madd (s t) (mscale (sig ^ 2) mid)))).
      { apply mmul_proper. reflexivity. intros i j Hi Hj. mexpand. reflexivity. }
      rewrite mmul_assoc. apply mmul_proper; [|reflexivity].
      rewrite <- HSA, mmul_assoc. rewrite HL. apply mmul_1_l. }
    assert (HF : meq d (mmul d A' (S t)) (mscale (-(1)) (mmul d (A t) (mmul d (A t) (S t))))).
    { intros i j Hi Hj. specialize (HE i j Hi Hj). rewrite (HK i j Hi Hj) in HE.
      unfold madd at 1 in HE. unfold S' in HE. revert HE. mexpand. intros HE. unfold mscale at 1.
      rewrite (mmul_proper d (A t) (A t) (reflexivity _) _ _ HAS i j Hi Hj). lra. }
    transitivity (mmul d (mmul d A' (S t)) (inv (S t))).
    { rewrite <- mmul_assoc. rewrite HR. symmetry. apply mmul_1_r. }
    rewrite HF. intros i j Hi Hj. rewrite mmul_scale_l. unfold mscale. f_equal.
    refine ((_ : meq d _ _) i j Hi Hj). rewrite (mmul_assoc d (A t) (A t)), <- mmul_assoc.
    rewrite HR. apply mmul_1_r.
  Qed.
End Optimal.
