(** The matrix routines always have a result: sqrtm and bures_dist (fbs/utils.py 21-36) on covariances, and every root, solve and
    factorisation of make_gaussian_bw_sb (fbs/sdes/linear.py 397-457) on its whole time interval. *)
From Coquelicot Require Import Coquelicot.
From Coq Require Import Reals List Lia Lra Morphisms Setoid.
From Verif Require Import Base Dist Mat MatMore Cholesky GaussDiv Bures GaussSB GaussSBMore Spectral CholFun.
From Verif Require ToyCond EmConverge.
Import ListNotations.
Open Scope R_scope.

Lemma quad_diff_proper d A B x : meq d A B -> quad d A x = quad d B x.
Proof. intros H. now rewrite H. Qed.
Lemma sqrtm_total d M : symmetric d M -> exists Q, sqrtm_returns d M Q.
Proof. intros H. destruct (spectral_theorem d M H) as (w & V & He). exists (sqrtm d w V). exists w, V. split; [exact He|reflexivity]. Qed.
Lemma conj_sym d S c : symmetric d S -> symmetric d c -> symmetric d (mmul d (mmul d S c) S).
Proof. intros HS Hc. unfold symmetric in *. rewrite !mtr_mul, HS, Hc. now rewrite mmul_assoc. Qed.
Lemma quad_conj_sym d S c x : symmetric d S -> quad d (mmul d (mmul d S c) S) x = quad d c (mvec d S x).
Proof.
  intros HS. unfold symmetric in HS. assert (E : meq d (mmul d (mmul d S c) S) (mmul d S (mmul d c (mtr S)))) by (rewrite HS; now rewrite mmul_assoc).
  rewrite E, quad_conj. now rewrite HS.
Qed.
Theorem bures_total d m0 c0 m1 c1 : symmetric d c0 -> psd d c0 -> symmetric d c1 -> exists r, bures_returns d m0 c0 m1 c1 r.
Proof.
  intros S0 P0 S1. destruct (sqrtm_total d c0 S0) as (S & HS). destruct (sqrtm_correct d c0 S P0 HS) as (SS & _ & _).
  destruct (sqrtm_total d (mmul d (mmul d S c1) S) (conj_sym d S c1 SS S1)) as (Q & HQ). eexists. exists S, Q. split; [exact HS|]. split; [exact HQ|]. reflexivity.
Qed.

(** ** The Gaussian bridge *)
Section bridge.
  Context (d : nat) (c0 c1 : mat) (sig : R).
  Hypothesis (S0 : symmetric d c0) (P0 : posdef d c0) (S1 : symmetric d c1) (P1 : psd d c1).
  Local Infix "**" := (mmul d) (at level 40, left associativity).
  Local Infix "==" := (meq d) (at level 70).
  Lemma D_arg_form S : sb_D_arg d c1 sig S == madd (mscale 4 (S ** c1 ** S)) (mscale (sig ^ 4) mid).
  Proof using.
    clear. unfold sb_D_arg. intros i j Hi Hj. unfold madd. f_equal. unfold mscale at 2.
    assert (E : forall A B C, mscale 4 A ** B ** C == mscale 4 (A ** B ** C)); [|exact (E S c1 S i j Hi Hj)].
    intros A B C a b Ha Hb. unfold mscale at 2. rewrite <- mmul_scale_l. apply mmul_proper; [|reflexivity|exact Ha|exact Hb]. intros u v _ _. now rewrite mmul_scale_l.
  Qed.
  Lemma D_arg_sym S : symmetric d S -> symmetric d (sb_D_arg d c1 sig S).
  Proof using S1.
    intros HS. unfold symmetric. rewrite D_arg_form. intros i j Hi Hj. unfold mtr, madd, mscale. pose proof (conj_sym d S c1 HS S1 i j Hi Hj) as H. unfold mtr in H. rewrite H. f_equal. unfold mid. now rewrite Nat.eqb_sym.
  Qed.
  Lemma D_arg_quad S x : symmetric d S -> quad d (sb_D_arg d c1 sig S) x = 4 * quad d c1 (mvec d S x) + sig ^ 4 * dot d x x.
  Proof using. intros HS. rewrite D_arg_form, ToyCond.quad_add, !ToyCond.quad_scale, ToyCond.quad_mid. now rewrite quad_conj_sym. Qed.
  Lemma D_arg_psd S : symmetric d S -> psd d (sb_D_arg d c1 sig S).
  Proof using P1. intros HS x. rewrite D_arg_quad by exact HS. pose proof (P1 (mvec d S x)). pose proof (dot_self_nonneg d x). assert (0 <= sig ^ 4) by (replace (sig ^ 4) with ((sig ^ 2) ^ 2) by ring; apply pow2_ge_0). nra. Qed.
  Lemma D_lower S D : symmetric d S -> sqrtm_returns d (sb_D_arg d c1 sig S) D -> forall x, sig ^ 2 * dot d x x <= quad d D x.
  Proof using P1.
    intros HS (w & V & He & HD) x. rewrite HD. change (sqrtm d w V) with (spectral d V (fun i => sqrt (w i))). rewrite quad_spectral.
    assert (Hw : forall i, (i < d)%nat -> sig ^ 2 <= sqrt (w i)).
    { intros i Hi. destruct (eigenvalue_quad d _ w V i He Hi) as [<- _]. rewrite D_arg_quad by exact HS.
      assert (Ev : dot d (fun k => V k i) (fun k => V k i) = 1). { destruct He as (_ & H1 & _). specialize (H1 i i Hi Hi). unfold mid in H1. rewrite Nat.eqb_refl in H1. rewrite <- H1. reflexivity. }
      rewrite Ev. rewrite <- (sqrt_pow2 (sig ^ 2)) by apply pow2_ge_0. apply sqrt_le_1_alt. pose proof (P1 (mvec d S (fun k => V k i))). replace ((sig ^ 2) ^ 2) with (sig ^ 4) by ring. lra. }
    assert (Ex : dot d x x = Rsum (map (fun i => mvec d (mtr V) x i ^ 2) (seq 0 d))).
    { destruct He as (_ & _ & H2). rewrite <- dot_self. rewrite dot_mvec. change (mtr (mtr V)) with V. rewrite mvec_mul, H2. rewrite (mvec_id d x). reflexivity. }
    rewrite Ex, <- Rsum_map_mult_l. apply Rsum_le. intros i Hi. apply in_seq in Hi. apply Rmult_le_compat_r; [apply pow2_ge_0|]. apply Hw. lia.
  Qed.
  (** everything the code calls has a result, and every result satisfies what the theorems on the bridge ask for *)
  Theorem bridge_roots_exist : exists S D, sqrtm_returns d c0 S /\ sqrtm_returns d (sb_D_arg d c1 sig S) D.
  Proof using S0 P0 S1 P1.
    destruct (sqrtm_total d c0 S0) as (S & HS). destruct (sqrtm_correct d c0 S (posdef_psd d _ P0) HS) as (SS & _ & _).
    destruct (sqrtm_total d (sb_D_arg d c1 sig S) (D_arg_sym S SS)) as (D & HD). exists S, D. auto.
  Qed.
  Theorem bridge_roots S D : sqrtm_returns d c0 S -> sqrtm_returns d (sb_D_arg d c1 sig S) D ->
    exists X Si, library_roots d c0 c1 sig S D X Si /\ forall X', mtr S ** mtr X' == mtr D -> X' == X.
  Proof using S0 P0 S1 P1.
    intros HS HD. destruct (sqrtm_correct d c0 S (posdef_psd d _ P0) HS) as (SS & _ & S2). destruct (sqrtm_correct d _ D (D_arg_psd S SS) HD) as (DS & _ & D2).
    destruct (sqrtm_inverse d c0 S P0 HS) as (Si & I1 & I2 & I3). exists (D ** Si), Si. unfold symmetric in *. split.
    - split; [exact SS|]. split; [exact S2|]. split; [exact DS|]. split; [exact D2|]. split; [|split; assumption]. rewrite mtr_mul, SS, I3, DS. rewrite mmul_assoc, I1, mmul_1_l. reflexivity.
    - intros X' HX. rewrite SS, DS in HX. assert (E : mtr X' == Si ** D) by (rewrite <- HX, mmul_assoc, I2, mmul_1_l; reflexivity).
      change X' with (mtr (mtr X')). rewrite E, mtr_mul, DS, I3. reflexivity.
  Qed.
  Section cov.
    Context (S D X Si : mat).
    Hypothesis (HS : sqrtm_returns d c0 S) (HD : sqrtm_returns d (sb_D_arg d c1 sig S) D) (HL : library_roots d c0 c1 sig S D X Si).
    Let C := sb_C d sig S X.
    Let K := mscale (1 / 2) (msub D (mscale (sig ^ 2) mid)).
    Lemma K_psd : psd d K.
    Proof using HS HD P0 P1.
      intros x. destruct (sqrtm_correct d c0 S (posdef_psd d _ P0) HS) as (SS & _ & _). pose proof (D_lower S D SS HD x) as H. unfold K. rewrite ToyCond.quad_scale.
      assert (Eq : quad d (msub D (mscale (sig ^ 2) mid)) x = quad d D x - sig ^ 2 * dot d x x).
      { rewrite (quad_diff_proper d _ (madd D (mscale (- sig ^ 2) mid)) x) by (intros i j _ _; unfold msub, madd, mscale; ring). rewrite ToyCond.quad_add, ToyCond.quad_scale, ToyCond.quad_mid. ring. }
      rewrite Eq. lra.
    Qed.
    Lemma K_sym : symmetric d K.
    Proof using HL. destruct HL as (_ & _ & DS & _). intros i j Hi Hj. specialize (DS i j Hi Hj). unfold mtr in DS. unfold K, mtr, mscale, msub. rewrite DS. unfold mid. now rewrite Nat.eqb_sym. Qed.
    (** C = S K S^-1 and K^2 + sig^2 K = S c1 S *)
    Lemma C_form : C == S ** K ** Si.
    Proof using HL.
      destruct HL as (SS & S2 & DS & D2 & HX & I1 & I2). unfold symmetric in *. assert (I3 : mtr Si == Si).
      { assert (A : mtr Si ** S == mid) by (rewrite <- SS, <- mtr_mul, I1; apply mtr_mid). rewrite <- (mmul_1_r d (mtr Si)), <- I1, mmul_assoc, A. apply mmul_1_l. }
      assert (HX' : S ** mtr X == D) by (rewrite SS, DS in HX; exact HX).
      assert (EX : X == D ** Si). { change X with (mtr (mtr X)). assert (E : mtr X == Si ** D) by (rewrite <- (mmul_1_l d (mtr X)), <- I2, <- mmul_assoc, HX'; reflexivity). rewrite E, mtr_mul, DS, I3. reflexivity. }
      unfold C, sb_C, K. rewrite EX.
      assert (E : S ** mscale (1 / 2) (msub D (mscale (sig ^ 2) mid)) ** Si == mscale (1 / 2) (msub (S ** D ** Si) (mscale (sig ^ 2) (S ** Si)))).
      { intros i j Hi Hj.
        assert (L : meq d (S ** mscale (1 / 2) (msub D (mscale (sig ^ 2) mid))) (mscale (1 / 2) (msub (S ** D) (mscale (sig ^ 2) S)))).
        { intros a b Ha Hb. rewrite mmul_scale_r, mmul_sub_r, mmul_scale_r. unfold mscale, msub. now rewrite (mmul_1_r d S a b Ha Hb). }
        rewrite (mmul_proper d _ _ L Si Si (reflexivity _) i j Hi Hj). rewrite mmul_scale_l, mmul_sub_l, mmul_scale_l. reflexivity. }
      rewrite E, I1. now rewrite mmul_assoc.
    Qed.
    Lemma K_square : madd (K ** K) (mscale (sig ^ 2) K) == S ** c1 ** S.
    Proof using HL.
      destruct HL as (SS & S2 & DS & D2 & HX & I1 & I2). intros i j Hi Hj. specialize (D2 i j Hi Hj). rewrite (D_arg_form S i j Hi Hj) in D2. unfold madd, mscale in D2.
      assert (KK : (K ** K) i j = 1 / 4 * ((D ** D) i j - 2 * sig ^ 2 * D i j + sig ^ 4 * mid i j)).
      { unfold K. rewrite mmul_scale_l, mmul_scale_r, mmul_sub_l, !mmul_sub_r, !mmul_scale_l, !mmul_scale_r. rewrite (mmul_1_r d D i j Hi Hj), (mmul_1_l d D i j Hi Hj), (mmul_1_l d mid i j Hi Hj). field. }
      unfold madd. rewrite KK, D2. unfold mscale, K, mscale, msub. field.
    Qed.
    (** the marginal covariance as a sum of squares *)
    Lemma cov_quad t x : let y := mvec d Si x in
      quad d (marginal_cov c0 c1 sig C t) x =
      dot d (fun i => (1 - t) * mvec d S x i + t * mvec d K y i) (fun i => (1 - t) * mvec d S x i + t * mvec d K y i) + t ^ 2 * sig ^ 2 * quad d K y + t * (1 - t) * sig ^ 2 * dot d x x.
    Proof using HL.
      intros y. pose proof HL as (SS & S2 & DS & D2 & HX & I1 & I2). unfold symmetric in SS, DS. pose proof K_sym as KS. unfold symmetric in KS.
      assert (Q0 : quad d c0 x = dot d (mvec d S x) (mvec d S x)) by (rewrite quad_dot, <- S2, <- mvec_mul, dot_mvec, SS; reflexivity).
      assert (Ex : veq d (mvec d S y) x) by (unfold y; rewrite mvec_mul, I1; apply mvec_id).
      assert (Q1 : quad d c1 x = dot d (mvec d K y) (mvec d K y) + sig ^ 2 * quad d K y).
      { rewrite <- Ex at 1. rewrite <- (quad_conj_sym d S c1 y SS), <- K_square, ToyCond.quad_add, ToyCond.quad_scale. f_equal. rewrite quad_dot, <- mvec_mul, dot_mvec, KS. reflexivity. }
      assert (QC : quad d C x = dot d (mvec d S x) (mvec d K y)).
      { rewrite C_form, quad_dot. rewrite <- !mvec_mul. rewrite dot_mvec, SS. reflexivity. }
      assert (QT : quad d (mtr C) x = quad d C x) by (rewrite !quad_dot; rewrite dot_mvec; change (mtr (mtr C)) with C; apply dot_comm).
      unfold marginal_cov, r, r_bar, kappa, rho. rewrite !ToyCond.quad_add, !ToyCond.quad_scale, ToyCond.quad_mid, ToyCond.quad_add, QT, Q0, Q1, QC.
      assert (Sq : forall a b : vec, dot d (fun i => (1 - t) * a i + t * b i) (fun i => (1 - t) * a i + t * b i) = (1 - t) ^ 2 * dot d a a + 2 * t * (1 - t) * dot d a b + t ^ 2 * dot d b b).
      { intros a b. unfold dot. rewrite <- !Rsum_map_mult_l, <- !Rsum_map_plus. apply Rsum_map_ext. intros; ring. }
      rewrite Sq. ring.
    Qed.
    Theorem marginal_cov_sym' t : symmetric d (marginal_cov c0 c1 sig C t).
    Proof using S0 S1. intros i j Hi Hj. specialize (S0 i j Hi Hj). specialize (S1 i j Hi Hj). unfold mtr in *. unfold marginal_cov, madd, mscale, mtr. rewrite S0, S1. unfold mid. rewrite Nat.eqb_sym. ring. Qed.
    Theorem marginal_cov_posdef t : 0 <= t < 1 \/ (t = 1 /\ posdef d c1) -> posdef d (marginal_cov c0 c1 sig C t).
    Proof using HS HD HL P0 P1.
      intros [Ht|[-> Hp]] x Hx.
      - rewrite cov_quad. set (y := mvec d Si x). pose proof (K_psd y) as KP. pose proof (dot_self_nonneg d x) as X0. set (v := fun i => (1 - t) * mvec d S x i + t * mvec d K y i). pose proof (dot_self_nonneg d v) as V0.
        assert (G : 0 <= t ^ 2 * sig ^ 2 * quad d K y) by (apply Rmult_le_pos; [apply Rmult_le_pos; apply pow2_ge_0|exact KP]).
        assert (G2 : 0 <= t * (1 - t) * sig ^ 2 * dot d x x) by (apply Rmult_le_pos; [apply Rmult_le_pos; [nra|apply pow2_ge_0]|exact X0]).
        destruct (Rle_lt_or_eq_dec _ _ V0) as [V1|V1]; [lra|]. exfalso. symmetry in V1. apply dot_self_zero in V1. apply Hx.
        pose proof HL as (SS & S2 & DS & D2 & HX & I1 & I2). unfold symmetric in SS.
        assert (Ex : veq d (mvec d S y) x) by (unfold y; rewrite mvec_mul, I1; apply mvec_id).
        assert (Z : dot d y v = 0) by (rewrite V1; unfold dot; rewrite (Rsum_map_ext _ (fun _ => 0)); [rewrite Rsum_map_const; ring|intros; ring]).
        assert (Z2 : dot d y v = (1 - t) * dot d y (mvec d S x) + t * dot d y (mvec d K y)) by (unfold v, dot; rewrite <- !Rsum_map_mult_l, <- Rsum_map_plus; apply Rsum_map_ext; intros; ring).
        assert (Z3 : dot d y (mvec d S x) = dot d x x) by (rewrite dot_mvec, SS, Ex; reflexivity). rewrite <- quad_dot in Z2. apply dot_self_zero. nra.
      - rewrite (quad_diff_proper d _ c1 x); [now apply Hp|]. intros i j _ _. unfold marginal_cov, madd, mscale, r, r_bar, kappa, rho. ring.
    Qed.
  End cov.
End bridge.

(** ** End to end: nothing is assumed of the matrix routines but what they compute *)
Section total.
  Context (d : nat) (m0 : vec) (c0 : mat) (m1 : vec) (c1 : mat) (sig : R).
  Hypothesis (S0 : symmetric d c0) (P0 : posdef d c0) (S1 : symmetric d c1) (P1 : posdef d c1).
  Context (S D X : mat).
  Hypothesis (HS : sqrtm_returns d c0 S) (HD : sqrtm_returns d (sb_D_arg d c1 sig S) D) (HX : meq d (mmul d (mtr S) (mtr X)) (mtr D)).
  Let C := sb_C d sig S X.
  Let P := marginal_cov c0 c1 sig C.
  Let b := sb_drift d m0 c0 m1 c1 sig C (cho_inv d).
  Lemma total_roots : exists Si, library_roots d c0 c1 sig S D X Si.
  Proof using S0 P0 S1 P1 HS HD HX.
    destruct (bridge_roots d c0 c1 sig S0 P0 S1 (posdef_psd d _ P1) S D HS HD) as (X0 & Si & (A1 & A2 & A3 & A4 & A5 & A6 & A7) & _). exists Si. repeat split; assumption.
  Qed.
  Lemma total_posdef t : 0 <= t <= 1 -> symmetric d (P t) /\ posdef d (P t).
  Proof using S0 P0 S1 P1 HS HD HX.
    intros Ht. destruct total_roots as (Si & HL). split.
    - apply GaussSB.marginal_cov_sym; assumption.
    - apply (marginal_cov_posdef d c0 c1 sig P0 (posdef_psd d _ P1) S D X Si HS HD HL). destruct (Req_dec t 1) as [->|N]; [right; auto|left; lra].
  Qed.
  Theorem total_moments t : 0 <= t <= 1 -> affine_moments d (marginal_mean m0 m1) P b sig t.
  Proof using S0 P0 S1 P1 HS HD HX. intros Ht. destruct (total_posdef t Ht) as [A B]. apply sb_moment_equations; try assumption. now apply cho_inv_correct. Qed.
  Lemma total_locally t : 0 < t < 1 -> locally t (inverse_at d P (cho_inv d)).
  Proof using S0 P0 S1 P1 HS HD HX.
    intros Ht. apply (locally_interval _ t 0 1); [apply Ht|apply Ht|]. intros u U0 U1. cbn in U0, U1. destruct (total_posdef u ltac:(lra)) as [A B]. now apply cho_inv_correct.
  Qed.
  Theorem total_slope t : 0 < t < 1 -> exists (A : R -> mat) (A' : mat),
    (forall u x x', veq d (vsub (b x u) (b x' u)) (mvec d (A u) (vsub x x'))) /\ symmetric d (A t) /\
    (forall i j, (i < d)%nat -> (j < d)%nat -> is_derive (fun u => A u i j) t (A' i j)) /\ meq d A' (mscale (-(1)) (mmul d (A t) (A t))).
  Proof using S0 P0 S1 P1 HS HD HX.
    intros Ht. destruct total_roots as (Si & HL). pose proof (total_locally t Ht) as HI. set (A := fun u => sb_slope d c0 c1 sig C (cho_inv d) u).
    assert (HA : forall u x x', veq d (vsub (b x u) (b x' u)) (mvec d (A u) (vsub x x'))) by (intros; apply sb_drift_diff).
    assert (HPd : forall i j, (i < d)%nat -> (j < d)%nat -> exists l, is_derive (fun u => P u i j) t l).
    { intros i j Hi Hj. destruct (total_moments t ltac:(lra)) as (B & _ & _ & H). eexists. now apply H. }
    assert (DI : forall i j, (i < d)%nat -> (j < d)%nat -> ex_derive (fun u => cho_inv d (P u) i j) t).
    { destruct (total_moments t ltac:(lra)) as (B & _ & _ & H). intros i j Hi Hj. eapply (path_inv_derive d P _ (cho_inv d) t); [|exact HI|exact Hi|exact Hj].
      intros a c Ha Hc. specialize (H a c Ha Hc). exact H. }
    assert (DA : forall i j, (i < d)%nat -> (j < d)%nat -> ex_derive (fun u => A u i j) t).
    { intros i j Hi Hj. unfold A, sb_slope, mmul. fold P.
      assert (Sm : forall n (f : nat -> R -> R), (forall i, (i < n)%nat -> ex_derive (f i) t) -> ex_derive (fun u => Rsum (map (fun i => f i u) (seq 0 n))) t).
      { induction n; intros f Hf; [cbn; apply (ex_derive_const (V := R_NormedModule))|]. apply (ex_derive_ext (fun u => Rsum (map (fun i => f i u) (seq 0 n)) + f n u)); [intros u; now rewrite Rsum_seq_S|].
        apply (ex_derive_plus (V := R_NormedModule)); [apply IHn; intros; apply Hf; lia|apply Hf; lia]. }
      apply (Sm d (fun k u => mtr (sb_s c0 c1 sig C u) i k * cho_inv d (P u) k j)). intros k Hk. apply ex_derive_mult; [|now apply DI].
      unfold mtr, sb_s, r, r_bar, rho, madd, msub, mscale, mtr. auto_derive. exact I. }
    exists A, (fun i j => Derive (fun u => A u i j) t). split; [exact HA|].
    assert (HD' : forall i j, (i < d)%nat -> (j < d)%nat -> is_derive (fun u => A u i j) t (Derive (fun u => A u i j) t)) by (intros i j Hi Hj; apply Derive_correct; now apply DA).
    split; [|split; [exact HD'|]].
    - apply (sb_gradient d m0 c0 m1 c1 sig S D X Si (cho_inv d) t HL S0 S1 (locally_singleton _ _ HI)). intros x x'. apply HA.
    - apply (sb_riccati d m0 c0 m1 c1 sig S D X Si (cho_inv d) t HL S0 S1 HI A); assumption.
  Qed.
End total.
