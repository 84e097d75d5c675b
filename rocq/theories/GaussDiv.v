(** fbs/utils.py 21-53: sqrtm, bures_dist, _log_det, kl. *)
From Coquelicot Require Import Coquelicot.
From Coq Require Import Reals List Lia Lra Morphisms Setoid.
From Verif Require Import Base Dist Mat MatMore Cholesky.
Import ListNotations.
Open Scope R_scope.

(** ** kl *)

(** jax.scipy.linalg.cho_factor(S) (upper factor, the default): U upper triangular with a
    positive diagonal and U^T U = S. *)
Definition cho_factor (d : nat) (S U : mat) : Prop :=
  lower d (mtr U) /\ diag_pos d U /\ meq d (mmul d (mtr U) U) S.
(** jax.scipy.linalg.cho_solve: the solution of (U^T U) X = B, for a matrix or a vector B. *)
Definition cho_solve (d : nat) (U B X : mat) : Prop := meq d (mmul d (mmul d (mtr U) U) X) B.
Definition cho_solve_v (d : nat) (U : mat) (b x : vec) : Prop := veq d (mvec d (mmul d (mtr U) U) x) b.

(** fbs/utils.py 39-40 *)
Definition log_det (d : nat) (U : mat) : R := 2 * Rsum (map (fun i => ln (Rabs (U i i))) (seq 0 d)).

(** fbs/utils.py 43-53; [kl_returns d m0 c0 m1 c1 r]: kl(m0, cov0, m1, cov1) = r. *)
Definition kl_returns (d : nat) (m0 : vec) (c0 : mat) (m1 : vec) (c1 : mat) (r : R) : Prop :=
  exists U0 U1 X x, cho_factor d c0 U0 /\ cho_factor d c1 U1 /\ cho_solve d U1 c0 X /\ cho_solve_v d U1 (vsub m1 m0) x /\
  r = mtrace d X - INR d + dot d (vsub m1 m0) x + log_det d U1 - log_det d U0.

(** Specification: the density of N(m, C), C = L L^T with L lower triangular, one coordinate
    after the other: given x_0 .. x_(i-1), hence z_0 .. z_(i-1), the coordinate x_i is normal
    with mean m_i + sum_(k<i) L_ik z_k and standard deviation L_ii. *)
Definition normal_logpdf (x m s : R) : R := - ln (2 * PI) / 2 - ln s - ((x - m) / s) ^ 2 / 2.
Definition cond_mean (m : vec) (L : mat) (z : vec) (i : nat) : R := m i + Rsum (map (fun k => L i k * z k) (seq 0 i)).
Definition gauss_logpdf (d : nat) (m : vec) (C : mat) (x : vec) (lp : R) : Prop :=
  exists L z, lower d L /\ diag_pos d L /\ meq d (mmul d L (mtr L)) C /\
  (forall i, (i < d)%nat -> z i = (x i - cond_mean m L z i) / L i i) /\
  lp = Rsum (map (fun i => normal_logpdf (x i) (cond_mean m L z i) (L i i)) (seq 0 d)).

(** KL(N(m0,c0) | N(m1,c1)) = E[log p0(X) - log p1(X)].  The integrand is a quadratic
    polynomial in X, so the expectation depends on the law of X through its mean and
    covariance only; X ranges over the finite laws with those of N(m0,c0). *)
Definition is_KL (d : nat) (m0 : vec) (c0 : mat) (m1 : vec) (c1 : mat) (k : R) : Prop :=
  forall (law : dist vec) (lp0 lp1 : vec -> R), is_prob law -> has_mean d law m0 -> has_cov d law m0 c0 ->
  (forall x, gauss_logpdf d m0 c0 x (lp0 x)) -> (forall x, gauss_logpdf d m1 c1 x (lp1 x)) ->
  E law (fun x => lp0 x - lp1 x) = k.

(** *** Proofs *)
Lemma cond_mean_solve d m L z x : lower d L -> diag_pos d L ->
  (forall i, (i < d)%nat -> z i = (x i - cond_mean m L z i) / L i i) -> veq d (mvec d L z) (vsub x m).
Proof.
  intros HL HP H i Hi. unfold mvec. rewrite (Rsum_lower _ d i Hi).
  - rewrite (H i Hi) at 1. unfold cond_mean, vsub. pose proof (HP i Hi). field. lra.
  - intros k H1 H2. rewrite HL by lia. ring.
Qed.

Lemma gauss_logpdf_val d m C x lp : gauss_logpdf d m C x lp ->
  exists L, lower d L /\ diag_pos d L /\ meq d (mmul d L (mtr L)) C /\
  lp = - INR d * (ln (2 * PI) / 2) - Rsum (map (fun i => ln (L i i)) (seq 0 d))
       - dot d (mvec d (tri_inv L) (vsub x m)) (mvec d (tri_inv L) (vsub x m)) / 2.
Proof.
  intros (L & z & HL & HP & HC & Hz & ->). exists L. split; [exact HL|]. split; [exact HP|]. split; [exact HC|].
  assert (Ez : veq d (mvec d (tri_inv L) (vsub x m)) z).
  { rewrite <- (cond_mean_solve d m L z x HL HP Hz). rewrite mvec_mul. rewrite tri_inv_left by assumption.
    intros i Hi. unfold mvec. rewrite <- (Rsum_indicator d i (fun k => z k)) by exact Hi. apply Rsum_map_ext. intros k _.
    unfold mid. rewrite Nat.eqb_sym. reflexivity. }
  rewrite Ez. rewrite dot_self.
  rewrite (Rsum_map_ext _ (fun i => (- (ln (2 * PI) / 2) + (-(1)) * ln (L i i)) + (- / 2) * z i ^ 2)).
  - rewrite !Rsum_map_plus, !Rsum_map_mult_l, Rsum_map_const, seq_length. field.
  - intros i Hi. apply in_seq in Hi. unfold normal_logpdf. rewrite (Hz i) by lia. field. pose proof (HP i). specialize (H ltac:(lia)). lra.
Qed.

(** The Cholesky factor is unique. *)
Lemma cholesky_unique d A B : lower d A -> diag_pos d A -> lower d B -> diag_pos d B ->
  meq d (mmul d A (mtr A)) (mmul d B (mtr B)) -> meq d A B.
Proof.
  intros HA PA HB PB H i j Hi Hj.
  assert (G : forall j, (j < d)%nat -> forall i, (i < d)%nat -> A i j = B i j); [|now apply G].
  clear i j Hi Hj. intros j. induction j as [j IH] using (well_founded_induction lt_wf). intros Hj.
  assert (K : forall i, (i < d)%nat -> A i j * A j j = B i j * B j j).
  { intros i Hi. specialize (H i j Hi Hj). unfold mmul, mtr in H. rewrite !(Rsum_lower _ d j Hj) in H.
    - rewrite (Rsum_map_ext (fun k => A i k * A j k) (fun k => B i k * B j k)) in H; [lra|].
      intros k Hk. apply in_seq in Hk. now rewrite !(IH k) by lia.
    - intros k H1 H2. rewrite (HB j k) by lia. ring.
    - intros k H1 H2. rewrite (HA j k) by lia. ring. }
  assert (D : A j j = B j j).
  { specialize (K j Hj). pose proof (PA j Hj). pose proof (PB j Hj). nra. }
  intros i Hi. specialize (K i Hi). rewrite D in K. pose proof (PB j Hj). nra.
Qed.

Lemma cho_factor_tr d S U : cho_factor d S U -> lower d (mtr U) /\ diag_pos d (mtr U) /\ meq d (mmul d (mtr U) (mtr (mtr U))) S.
Proof. intros (H1 & H2 & H3). split; [exact H1|]. split; [intros i Hi; exact (H2 i Hi)|exact H3]. Qed.

Lemma log_det_eq d U : diag_pos d U -> log_det d U = 2 * Rsum (map (fun i => ln (U i i)) (seq 0 d)).
Proof.
  intros HP. unfold log_det. f_equal. apply Rsum_map_ext. intros i Hi. apply in_seq in Hi. rewrite Rabs_pos_eq; [reflexivity|].
  left. apply HP. lia.
Qed.

(** X = S1^-1 S0 and x = S1^-1 (m1 - m0) in terms of W = L1^-1. *)
Lemma cho_solve_val d U B X : lower d (mtr U) -> diag_pos d U -> cho_solve d U B X ->
  meq d X (mmul d (mtr (tri_inv (mtr U))) (mmul d (tri_inv (mtr U)) B)).
Proof.
  intros HL HP HX. unfold cho_solve in HX. assert (HP' : diag_pos d (mtr U)) by (intros i Hi; exact (HP i Hi)).
  set (L := mtr U) in *. change U with (mtr L) in HX.
  rewrite <- HX. rewrite (mmul_assoc d (tri_inv L) (mmul d L (mtr L)) X). rewrite (mmul_assoc d (tri_inv L) L (mtr L)).
  rewrite (tri_inv_left d L HL HP'), mmul_1_l. rewrite mmul_assoc. rewrite <- mtr_mul. rewrite (tri_inv_right d L HL HP'), mtr_mid, mmul_1_l. reflexivity.
Qed.
Lemma mvec_id d x : veq d (mvec d mid x) x.
Proof.
  intros i Hi. unfold mvec. rewrite <- (Rsum_indicator d i (fun k => x k)) by exact Hi. apply Rsum_map_ext. intros k _.
  unfold mid. rewrite Nat.eqb_sym. reflexivity.
Qed.
Lemma cho_solve_v_val d U b x : lower d (mtr U) -> diag_pos d U -> cho_solve_v d U b x ->
  veq d x (mvec d (mtr (tri_inv (mtr U))) (mvec d (tri_inv (mtr U)) b)).
Proof.
  intros HL HP HX. unfold cho_solve_v in HX. assert (HP' : diag_pos d (mtr U)) by (intros i Hi; exact (HP i Hi)).
  set (L := mtr U) in *. change U with (mtr L) in HX.
  rewrite <- HX. rewrite (mvec_mul d (tri_inv L)), (mvec_mul d (mtr (tri_inv L))). rewrite (mmul_assoc d (tri_inv L) L (mtr L)). rewrite (tri_inv_left d L HL HP'), mmul_1_l.
  rewrite <- mtr_mul, (tri_inv_right d L HL HP'), mtr_mid, mvec_id. reflexivity.
Qed.

(** The value of kl, with W = L1^-1. *)
Lemma kl_value d m0 c0 m1 c1 r : kl_returns d m0 c0 m1 c1 r ->
  exists L0 L1, lower d L0 /\ diag_pos d L0 /\ meq d (mmul d L0 (mtr L0)) c0 /\
    lower d L1 /\ diag_pos d L1 /\ meq d (mmul d L1 (mtr L1)) c1 /\
    r = mtrace d (mmul d (tri_inv L1) (mmul d c0 (mtr (tri_inv L1)))) - INR d
        + dot d (mvec d (tri_inv L1) (vsub m1 m0)) (mvec d (tri_inv L1) (vsub m1 m0))
        + 2 * Rsum (map (fun i => ln (L1 i i)) (seq 0 d)) - 2 * Rsum (map (fun i => ln (L0 i i)) (seq 0 d)).
Proof.
  intros (U0 & U1 & X & x & H0 & H1 & HX & Hx & ->). destruct (cho_factor_tr _ _ _ H0) as (A1 & A2 & A3). destruct (cho_factor_tr _ _ _ H1) as (B1 & B2 & B3).
  exists (mtr U0), (mtr U1). repeat (split; [assumption|]).
  rewrite !log_det_eq by (first [exact (proj1 (proj2 H0))|exact (proj1 (proj2 H1))]).
  rewrite (cho_solve_val d U1 c0 X B1 (proj1 (proj2 H1)) HX). rewrite (cho_solve_v_val d U1 _ x B1 (proj1 (proj2 H1)) Hx).
  rewrite dot_mvec. rewrite mtrace_comm. rewrite <- (mmul_assoc d (tri_inv (mtr U1)) c0). reflexivity.
Qed.

Lemma E_minus {A} (law : dist A) f g : E law (fun x => f x - g x) = E law f - E law g.
Proof.
  transitivity (E law (fun x => f x + (-(1)) * g x)); [apply E_ext'; intros; ring|]. rewrite E_plus, E_mult_l. ring.
Qed.

(** E |B (X - m1)|^2 = tr (B C B^T) + |B (m0 - m1)|^2. *)
Lemma E_sq_shift d law m0 C B m1 : is_prob law -> has_mean d law m0 -> has_cov d law m0 C ->
  E law (fun x => dot d (mvec d B (vsub x m1)) (mvec d B (vsub x m1))) =
  mtrace d (mmul d B (mmul d C (mtr B))) + dot d (mvec d B (vsub m1 m0)) (mvec d B (vsub m1 m0)).
Proof.
  intros HP HM HC.
  rewrite <- (E_sq_norm d law (fun x => vsub x m0) C B HC).
  transitivity (E law (fun x => dot d (mvec d B (vsub x m0)) (mvec d B (vsub x m0)) +
     ((-(2)) * Rsum (map (fun k => mvec d (mtr B) (mvec d B (vsub m1 m0)) k * (x k - m0 k)) (seq 0 d)) +
     dot d (mvec d B (vsub m1 m0)) (mvec d B (vsub m1 m0))))).
  - apply E_ext'. intros x.
    change (Rsum (map (fun k => mvec d (mtr B) (mvec d B (vsub m1 m0)) k * (x k - m0 k)) (seq 0 d))) with (dot d (mvec d (mtr B) (mvec d B (vsub m1 m0))) (vsub x m0)).
    rewrite <- dot_mvec.
    assert (Hv : veq d (mvec d B (vsub x m1)) (vsub (mvec d B (vsub x m0)) (mvec d B (vsub m1 m0)))).
    { intros i Hi. unfold mvec, vsub.
      transitivity (Rsum (map (fun k => B i k * (x k - m0 k) + (-(1)) * (B i k * (m1 k - m0 k))) (seq 0 d))).
      - apply Rsum_map_ext. intros; ring.
      - rewrite Rsum_map_plus, Rsum_map_mult_l. ring. }
    rewrite Hv. set (p := mvec d B (vsub x m0)). set (q := mvec d B (vsub m1 m0)). unfold dot, vsub.
    rewrite <- Rsum_map_mult_l, <- !Rsum_map_plus. apply Rsum_map_ext. intros; ring.
  - rewrite E_plus, E_plus, E_const, E_mult_l, E_Rsum by exact HP.
    rewrite (Rsum_map_ext (fun b => E law _) (fun _ => 0)).
    + rewrite Rsum_map_const. ring.
    + intros k Hk. apply in_seq in Hk. rewrite E_mult_l, E_minus, E_const, (HM k) by (assumption || lia). ring.
Qed.

Theorem kl_is_twice_KL d m0 c0 m1 c1 r : kl_returns d m0 c0 m1 c1 r -> is_KL d m0 c0 m1 c1 (r / 2).
Proof.
  intros H law lp0 lp1 HP HM HC H0 H1. destruct (kl_value _ _ _ _ _ _ H) as (L0 & L1 & A1 & A2 & A3 & B1 & B2 & B3 & ->). clear H.
  set (c := - INR d * (ln (2 * PI) / 2)).
  assert (V : forall L m C lp, lower d L -> diag_pos d L -> meq d (mmul d L (mtr L)) C -> (forall x, gauss_logpdf d m C x (lp x)) ->
    forall x, lp x = c - Rsum (map (fun i => ln (L i i)) (seq 0 d)) - dot d (mvec d (tri_inv L) (vsub x m)) (mvec d (tri_inv L) (vsub x m)) / 2).
  { intros L m C lp HL HPL HLC Hlp x. destruct (gauss_logpdf_val _ _ _ _ _ (Hlp x)) as (L' & C1 & C2 & C3 & ->).
    assert (EL : meq d L' L) by (apply cholesky_unique; try assumption; now rewrite HLC).
    assert (EI : meq d (tri_inv L') (tri_inv L)).
    { assert (Hi : meq d (mmul d (tri_inv L') L) mid).
      { transitivity (mmul d (tri_inv L') L'); [apply mmul_proper; [reflexivity|now symmetry]|now apply tri_inv_left]. }
      transitivity (mmul d (tri_inv L') (mmul d L (tri_inv L))).
      - now rewrite tri_inv_right, mmul_1_r by assumption.
      - now rewrite mmul_assoc, Hi, mmul_1_l. }
    rewrite EI. fold c. f_equal. f_equal. apply Rsum_map_ext. intros i Hi. apply in_seq in Hi. now rewrite EL by lia. }
  transitivity (E law (fun x => (Rsum (map (fun i => ln (L1 i i)) (seq 0 d)) - Rsum (map (fun i => ln (L0 i i)) (seq 0 d)))
    + ((/ 2) * dot d (mvec d (tri_inv L1) (vsub x m1)) (mvec d (tri_inv L1) (vsub x m1)) - (/ 2) * dot d (mvec d (tri_inv L0) (vsub x m0)) (mvec d (tri_inv L0) (vsub x m0))))).
  { apply E_ext'. intros x. rewrite (V L0 m0 c0 lp0), (V L1 m1 c1 lp1) by assumption. field. }
  rewrite E_plus, E_const, E_minus, !E_mult_l by exact HP.
  rewrite (E_sq_shift d law m0 c0 (tri_inv L1) m1) by assumption. rewrite (E_sq_shift d law m0 c0 (tri_inv L0) m0) by assumption.
  assert (T : mtrace d (mmul d (tri_inv L0) (mmul d c0 (mtr (tri_inv L0)))) = INR d).
  { rewrite <- A3. rewrite (mmul_assoc d (tri_inv L0)). rewrite (mmul_assoc d (tri_inv L0) L0), tri_inv_left by assumption. rewrite mmul_1_l, <- mtr_mul, tri_inv_left by assumption.
    rewrite mtr_mid. apply mtrace_id. }
  assert (Z : dot d (mvec d (tri_inv L0) (vsub m0 m0)) (mvec d (tri_inv L0) (vsub m0 m0)) = 0).
  { rewrite (mvec_zero d (tri_inv L0) (vsub m0 m0)) by (intros i _; unfold vsub; ring). unfold dot. rewrite (Rsum_map_ext _ (fun _ => 0)) by (intros; ring).
    rewrite Rsum_map_const. ring. }
  rewrite T, Z. field.
Qed.

(** Non-negativity: the trace is |L1^-1 L0|^2. *)
Lemma ln_le_minus_one x : 0 < x -> ln x <= x - 1.
Proof.
  intros Hx. pose proof (exp_ineq1_le (ln x)). rewrite exp_ln in H by assumption. lra.
Qed.

Lemma ln_eq_minus_one x : 0 < x -> ln x = x - 1 -> x = 1.
Proof.
  intros Hx H. destruct (Req_dec (ln x) 0) as [E|E].
  - lra.
  - pose proof (exp_ineq1 (ln x) E). rewrite exp_ln in H0 by assumption. lra.
Qed.

Lemma kl_split d m0 c0 m1 c1 r : kl_returns d m0 c0 m1 c1 r ->
  exists L0 L1 W, lower d L0 /\ diag_pos d L0 /\ meq d (mmul d L0 (mtr L0)) c0 /\
    lower d L1 /\ diag_pos d L1 /\ meq d (mmul d L1 (mtr L1)) c1 /\ meq d (mmul d L1 W) L0 /\ lower d W /\ diag_pos d W /\
    r = Rsum (map (fun i => W i i ^ 2 - 1 - ln (W i i ^ 2)) (seq 0 d))
      + Rsum (map (fun i => Rsum (map (fun k => if Nat.eqb i k then 0 else W i k ^ 2) (seq 0 d))) (seq 0 d))
      + dot d (mvec d (tri_inv L1) (vsub m1 m0)) (mvec d (tri_inv L1) (vsub m1 m0)).
Proof.
  intros H. destruct (kl_value _ _ _ _ _ _ H) as (L0 & L1 & A1 & A2 & A3 & B1 & B2 & B3 & ->). clear H.
  exists L0, L1, (mmul d (tri_inv L1) L0). set (W := mmul d (tri_inv L1) L0).
  assert (WL : lower d W) by (apply lower_mul; [apply tri_inv_lower|exact A1]).
  assert (WD : forall i, (i < d)%nat -> W i i = L0 i i / L1 i i).
  { intros i Hi. unfold W. rewrite lower_mul_diag by (assumption || apply tri_inv_lower). rewrite (tri_inv_diag d L1 i B2 Hi). unfold Rdiv. ring. }
  assert (WP : diag_pos d W).
  { intros i Hi. rewrite WD by exact Hi. apply Rdiv_lt_0_compat; auto. }
  repeat (split; [first [assumption | unfold W; rewrite mmul_assoc, tri_inv_right by assumption; apply mmul_1_l]|]).
  assert (T : mtrace d (mmul d (tri_inv L1) (mmul d c0 (mtr (tri_inv L1)))) = mtrace d (mmul d W (mtr W))).
  { unfold W. rewrite mtr_mul. rewrite <- A3. rewrite !mmul_assoc. reflexivity. }
  rewrite T, mtrace_gram.
  assert (S1 : Rsum (map (fun i => Rsum (map (fun k => W i k ^ 2) (seq 0 d))) (seq 0 d)) =
     Rsum (map (fun i => W i i ^ 2) (seq 0 d)) + Rsum (map (fun i => Rsum (map (fun k => if Nat.eqb i k then 0 else W i k ^ 2) (seq 0 d))) (seq 0 d))).
  { rewrite <- Rsum_map_plus. apply Rsum_map_ext. intros i Hi. apply in_seq in Hi.
    rewrite <- (Rsum_indicator d i (fun k => W i k ^ 2)) by lia. rewrite <- Rsum_map_plus. apply Rsum_map_ext. intros k _.
    rewrite (Nat.eqb_sym k i). destruct (Nat.eqb i k); ring. }
  rewrite S1.
  assert (S2 : Rsum (map (fun i => W i i ^ 2 - 1 - ln (W i i ^ 2)) (seq 0 d)) =
     Rsum (map (fun i => W i i ^ 2) (seq 0 d)) - INR d + 2 * Rsum (map (fun i => ln (L1 i i)) (seq 0 d)) - 2 * Rsum (map (fun i => ln (L0 i i)) (seq 0 d))).
  { rewrite (Rsum_map_ext _ (fun i => W i i ^ 2 + (-(1)) + 2 * ln (L1 i i) + (-(2)) * ln (L0 i i))).
    - rewrite !Rsum_map_plus, !Rsum_map_mult_l, Rsum_map_const, seq_length. ring.
    - intros i Hi. apply in_seq in Hi. rewrite ln_pow by (apply WP; lia). rewrite WD by lia. unfold Rdiv.
      rewrite ln_mult, ln_Rinv by (try apply Rinv_0_lt_compat; (apply A2 || apply B2); lia). cbn [INR]. ring. }
  rewrite S2. ring.
Qed.

Lemma kl_terms_nonneg d (W : mat) (u : vec) : diag_pos d W ->
  0 <= Rsum (map (fun i => W i i ^ 2 - 1 - ln (W i i ^ 2)) (seq 0 d)) /\
  0 <= Rsum (map (fun i => Rsum (map (fun k => if Nat.eqb i k then 0 else W i k ^ 2) (seq 0 d))) (seq 0 d)) /\
  0 <= dot d u u.
Proof.
  intros WP. split; [|split; [|apply dot_self_nonneg]].
  - apply Rsum_nonneg, Forall_forall. intros y Hy. apply in_map_iff in Hy. destruct Hy as (i & <- & Hi). apply in_seq in Hi.
    pose proof (ln_le_minus_one (W i i ^ 2) ltac:(apply pow_lt, WP; lia)). lra.
  - apply Rsum_nonneg, Forall_forall. intros y Hy. apply in_map_iff in Hy. destruct Hy as (i & <- & Hi).
    apply Rsum_nonneg, Forall_forall. intros y Hy. apply in_map_iff in Hy. destruct Hy as (k & <- & Hk).
    destruct (Nat.eqb i k); [lra|apply pow2_ge_0].
Qed.

Theorem kl_nonneg d m0 c0 m1 c1 r : kl_returns d m0 c0 m1 c1 r -> 0 <= r.
Proof.
  intros H. destruct (kl_split _ _ _ _ _ _ H) as (L0 & L1 & W & _ & _ & _ & _ & _ & _ & _ & _ & WP & ->).
  destruct (kl_terms_nonneg d W (mvec d (tri_inv L1) (vsub m1 m0)) WP) as (H1 & H2 & H3). lra.
Qed.

Theorem kl_zero_iff d m0 c0 m1 c1 r : kl_returns d m0 c0 m1 c1 r -> (r = 0 <-> veq d m0 m1 /\ meq d c0 c1).
Proof.
  intros H. destruct (kl_split _ _ _ _ _ _ H) as (L0 & L1 & W & A1 & A2 & A3 & B1 & B2 & B3 & HW & WL & WP & Er).
  destruct (kl_terms_nonneg d W (mvec d (tri_inv L1) (vsub m1 m0)) WP) as (H1 & H2 & H3). split.
  - intros ->.
    assert (Z1 : Rsum (map (fun i => W i i ^ 2 - 1 - ln (W i i ^ 2)) (seq 0 d)) = 0) by lra.
    assert (Z2 : Rsum (map (fun i => Rsum (map (fun k => if Nat.eqb i k then 0 else W i k ^ 2) (seq 0 d))) (seq 0 d)) = 0) by lra.
    assert (Z3 : dot d (mvec d (tri_inv L1) (vsub m1 m0)) (mvec d (tri_inv L1) (vsub m1 m0)) = 0) by lra.
    split.
    + apply dot_self_zero in Z3. assert (V : veq d (mvec d L1 (mvec d (tri_inv L1) (vsub m1 m0))) (fun _ => 0)) by (rewrite Z3; now apply mvec_zero).
      rewrite mvec_mul, tri_inv_right, mvec_id in V by assumption. intros i Hi. specialize (V i Hi). unfold vsub in V. lra.
    + assert (WI : meq d W mid).
      { intros i j Hi Hj. unfold mid. destruct (Nat.eqb_spec i j) as [<-|N].
        - assert (D : W i i ^ 2 - 1 - ln (W i i ^ 2) = 0).
          { apply (Rsum_zero_nonneg (fun i => W i i ^ 2 - 1 - ln (W i i ^ 2)) (seq 0 d)); [|exact Z1|apply in_seq; lia].
            intros k Hk. apply in_seq in Hk. pose proof (ln_le_minus_one (W k k ^ 2) ltac:(apply pow_lt, WP; lia)). lra. }
          pose proof (WP i Hi) as Wi. assert (Q : W i i ^ 2 = 1) by (apply ln_eq_minus_one; [now apply pow_lt|lra]). nra.
        - assert (D : Rsum (map (fun k => if Nat.eqb i k then 0 else W i k ^ 2) (seq 0 d)) = 0).
          { apply (Rsum_zero_nonneg (fun i => Rsum (map (fun k => if Nat.eqb i k then 0 else W i k ^ 2) (seq 0 d))) (seq 0 d)); [|exact Z2|apply in_seq; lia].
            intros k Hk. apply Rsum_nonneg, Forall_forall. intros y Hy. apply in_map_iff in Hy. destruct Hy as (l & <- & _). destruct (Nat.eqb k l); [lra|apply pow2_ge_0]. }
          assert (Q : (if Nat.eqb i j then 0 else W i j ^ 2) = 0).
          { apply (Rsum_zero_nonneg (fun k => if Nat.eqb i k then 0 else W i k ^ 2) (seq 0 d)); [|exact D|apply in_seq; lia].
            intros k _. destruct (Nat.eqb i k); [lra|apply pow2_ge_0]. }
          destruct (Nat.eqb_spec i j); [contradiction|]. nra. }
      rewrite <- A3, <- B3, <- HW, WI, mmul_1_r. reflexivity.
  - intros [Hm Hc].
    assert (EL : meq d L0 L1) by (apply cholesky_unique; try assumption; now rewrite A3, B3).
    assert (WI : meq d W mid).
    { rewrite EL in HW. rewrite <- (tri_inv_left d L1 B1 B2). rewrite <- HW at 2. rewrite mmul_assoc, tri_inv_left by assumption. now rewrite mmul_1_l. }
    rewrite Er. rewrite (Rsum_map_ext _ (fun _ => 0)).
    2: { intros i Hi. apply in_seq in Hi. rewrite WI by lia. unfold mid. rewrite Nat.eqb_refl, pow1, ln_1. ring. }
    rewrite (Rsum_map_ext (fun i => Rsum _) (fun _ => 0)).
    2: { intros i Hi. apply in_seq in Hi. rewrite (Rsum_map_ext _ (fun _ => 0)); [rewrite Rsum_map_const; ring|]. intros k Hk. apply in_seq in Hk.
         rewrite WI by lia. unfold mid. destruct (Nat.eqb i k); ring. }
    rewrite (mvec_zero d (tri_inv L1) (vsub m1 m0)) by (intros i Hi; unfold vsub; rewrite (Hm i Hi); ring).
    rewrite !Rsum_map_const. unfold dot. rewrite (Rsum_map_ext _ (fun _ => 0)) by (intros; ring). rewrite Rsum_map_const. ring.
Qed.

(** kl returns a value for all positive definite covariances. *)
Theorem kl_total d m0 c0 m1 c1 : symmetric d c0 -> posdef d c0 -> symmetric d c1 -> posdef d c1 ->
  exists r, kl_returns d m0 c0 m1 c1 r.
Proof.
  intros S0 P0 S1 P1. destruct (cholesky_exists d c0 S0 P0) as (L0 & A1 & A2 & A3). destruct (cholesky_exists d c1 S1 P1) as (L1 & B1 & B2 & B3).
  eexists. exists (mtr L0), (mtr L1), (mmul d (mtr (tri_inv L1)) (mmul d (tri_inv L1) c0)), (mvec d (mtr (tri_inv L1)) (mvec d (tri_inv L1) (vsub m1 m0))).
  split; [|split; [|split; [|split; [|reflexivity]]]].
  - split; [exact A1|]. split; [intros i Hi; exact (A2 i Hi)|exact A3].
  - split; [exact B1|]. split; [intros i Hi; exact (B2 i Hi)|exact B3].
  - unfold cho_solve. change (mtr (mtr L1)) with L1. rewrite <- (mmul_assoc d L1 (mtr L1)). rewrite (mmul_assoc d (mtr L1) (mtr (tri_inv L1))).
    rewrite <- mtr_mul, tri_inv_left, mtr_mid, mmul_1_l by assumption. rewrite mmul_assoc, tri_inv_right, mmul_1_l by assumption. reflexivity.
  - unfold cho_solve_v. change (mtr (mtr L1)) with L1. rewrite <- (mvec_mul d L1 (mtr L1)). rewrite (mvec_mul d (mtr L1) (mtr (tri_inv L1))).
    rewrite <- mtr_mul, tri_inv_left, mtr_mid, mvec_id by assumption. rewrite mvec_mul, tri_inv_right, mvec_id by assumption. reflexivity.
Qed.

Definition gauss_lp (d : nat) (m : vec) (L : mat) (x : vec) : R :=
  Rsum (map (fun i => normal_logpdf (x i) (cond_mean m L (fsolve L (vsub x m)) i) (L i i)) (seq 0 d)).
Lemma gauss_lp_ok d m C L x : lower d L -> diag_pos d L -> meq d (mmul d L (mtr L)) C -> gauss_logpdf d m C x (gauss_lp d m L x).
Proof.
  intros HL HP HC. exists L, (fsolve L (vsub x m)). repeat (split; [assumption|]). split; [|reflexivity].
  intros i Hi. rewrite fsolve_eq at 1. unfold cond_mean, vsub. f_equal. ring.
Qed.

(** KL is unique, and non-vacuously defined, for d >= 1. *)
Lemma is_KL_unique d m0 c0 m1 c1 k k' : (0 < d)%nat -> symmetric d c0 -> posdef d c0 -> symmetric d c1 -> posdef d c1 ->
  is_KL d m0 c0 m1 c1 k -> is_KL d m0 c0 m1 c1 k' -> k = k'.
Proof.
  intros Hd S0 P0 S1 P1 H H'. destruct (cholesky_exists d c0 S0 P0) as (L0 & A1 & A2 & A3). destruct (cholesky_exists d c1 S1 P1) as (L1 & B1 & B2 & B3).
  assert (HC : has_cov d (two_point d m0 L0) m0 c0).
  { intros i j Hi Hj. rewrite <- (A3 i j Hi Hj). now apply two_point_cov. }
  rewrite <- (H (two_point d m0 L0) (gauss_lp d m0 L0) (gauss_lp d m1 L1)); [apply H'| | | | |];
    try (now apply two_point_prob); try (now apply two_point_mean); try exact HC; intros x; now apply gauss_lp_ok.
Qed.

(** The returned number is twice the divergence, so it is the divergence only when the two
    Gaussians are equal. *)
Theorem kl_is_KL_iff d m0 c0 m1 c1 r : (0 < d)%nat -> kl_returns d m0 c0 m1 c1 r ->
  (is_KL d m0 c0 m1 c1 r <-> veq d m0 m1 /\ meq d c0 c1).
Proof.
  intros Hd H. rewrite <- (kl_zero_iff _ _ _ _ _ _ H). pose proof (kl_is_twice_KL _ _ _ _ _ _ H) as K.
  destruct (kl_value _ _ _ _ _ _ H) as (L0 & L1 & A1 & A2 & A3 & B1 & B2 & B3 & _).
  assert (G : forall L C, lower d L -> diag_pos d L -> meq d (mmul d L (mtr L)) C -> symmetric d C /\ posdef d C).
  { intros L C C1 C2 C3. split.
    - unfold symmetric. rewrite <- C3. rewrite mtr_mul. reflexivity.
    - intros x Hx. rewrite <- C3. now apply gram_posdef. }
  destruct (G L0 c0 A1 A2 A3) as [S0 P0]. destruct (G L1 c1 B1 B2 B3) as [S1 P1]. split.
  - intros K'. pose proof (is_KL_unique d m0 c0 m1 c1 r (r / 2) Hd S0 P0 S1 P1 K' K). lra.
  - intros ->. replace (0 / 2) with 0 in K by field. exact K.
Qed.

(** Witness: N(0,1) and N(1,1): kl returns 1, the divergence is 1/2. *)
Example kl_unit_shift : kl_returns 1 (fun _ => 0) mid (fun _ => 1) mid 1 /\ is_KL 1 (fun _ => 0) mid (fun _ => 1) mid (1 / 2).
Proof.
  assert (H : kl_returns 1 (fun _ => 0) mid (fun _ => 1) mid 1).
  { assert (C : cho_factor 1 mid mid).
    { split; [|split].
      - intros i j Hi Hj H. lia.
      - intros i Hi. unfold mid. rewrite Nat.eqb_refl. lra.
      - now rewrite mtr_mid, mmul_1_l. }
    exists mid, mid, mid, (fun _ => 1). split; [exact C|]. split; [exact C|]. split; [|split].
    - unfold cho_solve. now rewrite mtr_mid, !mmul_1_l.
    - unfold cho_solve_v. rewrite mtr_mid, mmul_1_l, mvec_id. intros i _. unfold vsub. ring.
    - unfold mtrace, dot, log_det, vsub, mid. cbn. rewrite Rabs_R1, ln_1. ring. }
  split; [exact H|]. now apply kl_is_twice_KL.
Qed.
