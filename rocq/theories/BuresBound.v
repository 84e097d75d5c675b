(** How far bures_dist (fbs/utils.py 31-36) is from the squared distance of the means: two-sided bound with a possibly singular second covariance. *)
From Coquelicot Require Import Coquelicot.
From Coq Require Import Reals List Lia Lra Morphisms Setoid.
From Verif Require Import Base Dist Mat MatMore Cholesky GaussDiv Bures Spectral CholFun SbTotal.
From Verif Require ToyCond.
Import ListNotations.
Open Scope R_scope.

(** sum of the squared entries of a matrix *)
Definition frob (d : nat) (A : mat) : R := Rsum (map (fun i => Rsum (map (fun j => A i j ^ 2) (seq 0 d))) (seq 0 d)).

Lemma frob_nonneg d A : 0 <= frob d A.
Proof. apply sum_abs_nonneg. intros i _. apply sum_abs_nonneg. intros j _. apply pow2_ge_0. Qed.
Lemma trace_conj d A W : mtrace d (mmul d (mtr W) (mmul d A W)) = Rsum (map (fun i => quad d A (fun k => W k i)) (seq 0 d)).
Proof. unfold mtrace, quad, mvec, mmul, mtr. reflexivity. Qed.
Lemma trace_conj_lower d A W lam : (forall x, lam * dot d x x <= quad d A x) -> lam * frob d W <= mtrace d (mmul d (mtr W) (mmul d A W)).
Proof.
  intros H. rewrite trace_conj. unfold frob. rewrite Rsum_exchange. rewrite <- Rsum_map_mult_l. apply sum_mono. intros i _. rewrite <- (dot_self d (fun k => W k i)). apply H.
Qed.

Section bound.
  Context (d : nat) (c0 c1 : mat) (lam : R).
  Hypothesis (S0 : symmetric d c0) (Hl : 0 < lam) (P0 : forall x, lam * dot d x x <= quad d c0 x) (S1 : symmetric d c1) (P1 : psd d c1).
  Local Infix "**" := (mmul d) (at level 40, left associativity).
  Local Infix "==" := (meq d) (at level 70).
  Lemma lower_posdef : posdef d c0.
  Proof using Hl P0. intros x Hx. specialize (P0 x). assert (0 < dot d x x); [|nra]. destruct (Rle_lt_or_eq_dec _ _ (dot_self_nonneg d x)) as [G|G]; [exact G|]. exfalso. apply Hx. now apply dot_self_zero. Qed.
  Section roots.
    Context (S Q Si : mat).
    Hypothesis (SS : symmetric d S) (S2 : S ** S == c0) (I1 : S ** Si == mid) (I2 : Si ** S == mid) (I3 : symmetric d Si).
    Hypothesis (SQ : symmetric d Q) (PQ : psd d Q) (Q2 : Q ** Q == S ** c1 ** S).
    Let T := Si ** Q ** Si.
    Let D := msub T mid.
    Let b := mtrace d (msub (madd c0 c1) (mscale 2 Q)).
    Lemma T_sym : symmetric d T.
    Proof using SQ I3. unfold T. now apply conj_sym. Qed.
    Lemma T_psd : psd d T.
    Proof using PQ I3. intros x. unfold T. rewrite quad_conj_sym by exact I3. apply PQ. Qed.
    Lemma D_sym : symmetric d D.
    Proof using SQ I3. pose proof T_sym as H. intros i j Hi Hj. specialize (H i j Hi Hj). unfold D, mtr, msub in *. rewrite H. unfold mid. now rewrite Nat.eqb_sym. Qed.
    Lemma T_push : T ** c0 ** T == c1.
    Proof using S2 I1 I2 Q2.
      unfold T. rewrite <- S2.
      assert (E1 : Si ** Q ** Si ** (S ** S) == Si ** Q ** S) by (rewrite <- (mmul_assoc d (Si ** Q) Si), (mmul_assoc d Si S S), I2, mmul_1_l; reflexivity).
      rewrite E1. rewrite (mmul_assoc d (Si ** Q ** S) (Si ** Q) Si). rewrite (mmul_assoc d (Si ** Q ** S) Si Q). rewrite <- (mmul_assoc d (Si ** Q) S Si), I1, mmul_1_r.
      rewrite <- (mmul_assoc d Si Q Q), Q2. rewrite (mmul_assoc d Si (S ** c1) S), (mmul_assoc d Si S c1), I2, mmul_1_l. rewrite <- (mmul_assoc d c1 S Si), I1, mmul_1_r. reflexivity.
    Qed.
    Lemma T_trace : mtrace d (T ** c0) = mtrace d Q.
    Proof using S2 I1 I2.
      unfold T. rewrite <- S2.
      assert (E1 : Si ** Q ** Si ** (S ** S) == Si ** Q ** S) by (rewrite <- (mmul_assoc d (Si ** Q) Si), (mmul_assoc d Si S S), I2, mmul_1_l; reflexivity).
      rewrite E1, mtrace_comm, (mmul_assoc d S Si Q), I1, mmul_1_l. reflexivity.
    Qed.
    Lemma Dc (A : mat) : D ** A == msub (T ** A) A.
    Proof using. intros i j Hi Hj. unfold D. rewrite mmul_sub_l. unfold msub. now rewrite (mmul_1_l d A i j Hi Hj). Qed.
    Lemma cD (A : mat) : A ** D == msub (A ** T) A.
    Proof using. intros i j Hi Hj. unfold D. rewrite mmul_sub_r. unfold msub. now rewrite (mmul_1_r d A i j Hi Hj). Qed.
    Lemma DcD : D ** c0 ** D == msub (madd c1 c0) (madd (T ** c0) (c0 ** T)).
    Proof using S2 I1 I2 Q2.
      rewrite cD, Dc. intros i j Hi Hj. pose proof (T_push i j Hi Hj) as E. unfold msub at 1. rewrite mmul_sub_l, E. unfold msub, madd. ring.
    Qed.
    Lemma b_is : mtrace d (D ** c0 ** D) = b.
    Proof using S2 I1 I2 Q2. rewrite DcD. unfold b. rewrite !mtrace_sub, !mtrace_add, mtrace_scale, (mtrace_comm d c0 T), T_trace. ring. Qed.
    Lemma b_lower : lam * frob d D <= b.
    Proof using S2 I1 I2 Q2 P0 SQ I3. pose proof (trace_conj_lower d c0 D lam P0) as H. pose proof D_sym as HD. unfold symmetric in HD. rewrite HD, mmul_assoc in H. rewrite <- b_is. exact H. Qed.
    Lemma b_upper : b <= mtrace d (D ** msub c1 c0).
    Proof using S2 I1 I2 Q2 SQ PQ I3 SS.
      assert (E : D ** (D ** c0 ** D) == msub (T ** (D ** c0 ** D)) (D ** c0 ** D)) by apply Dc.
      assert (G : 0 <= mtrace d (T ** (D ** c0 ** D))).
      { pose proof D_sym as HD. unfold symmetric in HD, SS.
        assert (F : D ** c0 ** D == (D ** S) ** mtr (D ** S)) by (rewrite mtr_mul, HD, SS, <- S2, !mmul_assoc; reflexivity).
        rewrite F, (mmul_assoc d T (D ** S)), mtrace_comm. rewrite trace_conj. apply sum_abs_nonneg. intros i _. apply T_psd. }
      assert (K : mtrace d (D ** msub c1 c0) = mtrace d (D ** (D ** c0 ** D)) + 2 * b).
      { assert (X : msub c1 c0 == madd (D ** c0 ** D) (madd (D ** c0) (c0 ** D))).
        { intros i j Hi Hj. unfold madd. rewrite (DcD i j Hi Hj), (Dc c0 i j Hi Hj), (cD c0 i j Hi Hj). unfold msub, madd. ring. }
        rewrite X. assert (Y : forall A B C, D ** madd A (madd B C) == madd (D ** A) (madd (D ** B) (D ** C))) by (intros A B C i j Hi Hj; unfold madd at 3 4; rewrite !mmul_add_r; reflexivity).
        rewrite Y, !mtrace_add. rewrite (mtrace_comm d D (D ** c0)), (mmul_assoc d D c0 D), b_is. ring. }
      rewrite K, E, mtrace_sub, b_is. lra.
    Qed.
    Lemma b_bounds : 0 <= b <= frob d (msub c1 c0) / lam.
    Proof using S2 I1 I2 Q2 SQ PQ I3 SS P0 Hl.
      pose proof b_lower as L. pose proof b_upper as U. pose proof (frob_nonneg d D) as F. split; [nra|].
      assert (C : mtrace d (D ** msub c1 c0) <= lam / 2 * frob d D + frob d (mtr (msub c1 c0)) / (2 * lam)).
      { unfold mtrace, mmul, frob, Rdiv. rewrite (Rmult_comm _ (/ (2 * lam))), <- !Rsum_map_mult_l, <- Rsum_map_plus. apply sum_mono. intros i _. rewrite <- !Rsum_map_mult_l, <- Rsum_map_plus. apply sum_mono. intros k _. unfold mtr.
        set (x := D i k). set (y := msub c1 c0 k i). apply (Rmult_le_reg_l (2 * lam)); [lra|]. pose proof (pow2_ge_0 (lam * x - y)).
        replace (2 * lam * (lam * / 2 * x ^ 2 + / (2 * lam) * y ^ 2)) with (lam ^ 2 * x ^ 2 + y ^ 2) by (field; lra). nra. }
      assert (E : frob d (mtr (msub c1 c0)) = frob d (msub c1 c0)) by (unfold frob, mtr; apply Rsum_exchange). rewrite E in C.
      apply (Rmult_le_reg_l (1 / 2)); [lra|]. replace (1 / 2 * (frob d (msub c1 c0) / lam)) with (frob d (msub c1 c0) / (2 * lam)) by (field; lra). lra.
    Qed.
  End roots.
  Theorem bures_bounds m0 m1 r : bures_returns d m0 c0 m1 c1 r ->
    Rsum (map (fun i => (m0 i - m1 i) ^ 2) (seq 0 d)) <= r <= Rsum (map (fun i => (m0 i - m1 i) ^ 2) (seq 0 d)) + frob d (msub c1 c0) / lam.
  Proof using S0 Hl P0 S1 P1.
    intros (S & Q & HS & HQ & ->). destruct (sqrtm_correct d c0 S (posdef_psd d _ lower_posdef) HS) as (SS & _ & S2). destruct (sqrtm_inverse d c0 S lower_posdef HS) as (Si & I1 & I2 & I3).
    assert (PM : psd d (S ** c1 ** S)) by (intros x; rewrite quad_conj_sym by exact SS; apply P1).
    destruct (sqrtm_correct d _ Q PM HQ) as (SQ & PQ & Q2).
    pose proof (b_bounds S Q Si SS S2 I1 I2 I3 SQ PQ Q2). lra.
  Qed.
End bound.
