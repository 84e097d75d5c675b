(** The Gaussian Schrodinger bridge: specification predicates and the statements in terms of them. *)
From Coquelicot Require Import Coquelicot.
From Coq Require Import Reals List Lia Lra Morphisms Setoid.
From Verif Require Import Base Dist Mat GaussSB.
Import ListNotations.
Open Scope R_scope.

(** ** Specification *)

(** Moment equations at [t] of dX = b(X, t) dt + sig dW with a drift [b] affine in [x]:
    m' = b(m, t) and P' = A P + P A^T + sig^2 I, where [A] is the slope of [b]. *)
Definition affine_moments (d : nat) (m : R -> vec) (P : R -> mat) (b : vec -> R -> vec) (sig t : R) : Prop :=
  exists A : mat,
    (forall x x', veq d (vsub (b x t) (b x' t)) (mvec d A (vsub x x'))) /\
    (forall i, (i < d)%nat -> is_derive (fun u => m u i) t (b (m t) t i)) /\
    (forall i j, (i < d)%nat -> (j < d)%nat -> is_derive (fun u => P u i j) t
       (mmul d A (P t) i j + mmul d (P t) (mtr A) i j + sig ^ 2 * mid i j)).

(** What the matrix routines are relied on for: symmetric square roots [S] of [cov0] and [D]
    of the argument of the second [sqrtm], [X.T] solving [S.T X.T = D.T], [S] invertible. *)
Definition library_roots (d : nat) (c0 c1 : mat) (sig : R) (S D X Si : mat) : Prop :=
  symmetric d S /\ meq d (mmul d S S) c0 /\ symmetric d D /\ meq d (mmul d D D) (sb_D_arg d c1 sig S) /\
  meq d (mmul d (mtr S) (mtr X)) (mtr D) /\ meq d (mmul d S Si) mid /\ meq d (mmul d Si S) mid.

(** [cho_solve] with the factor of [P t] is the inverse of [P t]. *)
Definition inverse_at (d : nat) (P : R -> mat) (inv : mat -> mat) (t : R) : Prop :=
  meq d (mmul d (inv (P t)) (P t)) mid /\ meq d (mmul d (P t) (inv (P t))) mid.

(** ** Proofs *)

Lemma sb_end_points d m0 c0 m1 c1 sig C :
  veq d (marginal_mean m0 m1 0) m0 /\ veq d (marginal_mean m0 m1 1) m1 /\
  meq d (marginal_cov c0 c1 sig C 0) c0 /\ meq d (marginal_cov c0 c1 sig C 1) c1.
Proof.
  split; [|split; [|split]]. apply marginal_mean_0. apply marginal_mean_1. apply marginal_cov_0. apply marginal_cov_1.
Qed.

Lemma mvec_sub d A x y : veq d (vsub (mvec d A x) (mvec d A y)) (mvec d A (vsub x y)).
Proof.
  intros i _. unfold vsub, mvec.
  assert (H : Rsum (map (fun k => A i k * (x k - y k)) (seq 0 d)) + Rsum (map (fun k => A i k * y k) (seq 0 d))
              = Rsum (map (fun k => A i k * x k) (seq 0 d))).
  { rewrite <- Rsum_map_plus. apply Rsum_map_ext. intros; ring. }
  lra.
Qed.

Lemma sb_drift_diff d m0 c0 m1 c1 sig C inv t x x' :
  veq d (vsub (sb_drift d m0 c0 m1 c1 sig C inv x t) (sb_drift d m0 c0 m1 c1 sig C inv x' t))
        (mvec d (sb_slope d c0 c1 sig C inv t) (vsub x x')).
Proof.
  intros i Hi. unfold vsub at 1. rewrite !(sb_drift_affine d m0 c0 m1 c1 sig C inv _ t i Hi).
  unfold vadd.
  set (a := mvec d _ (vsub x _)). set (b := mvec d _ (vsub x' _)).
  transitivity (vsub a b i); [unfold vsub; ring|]. unfold a, b.
  rewrite (mvec_sub d _ _ _ i Hi). unfold mvec. apply Rsum_map_ext. intros k _. unfold vsub. ring.
Qed.

Lemma sb_moment_equations d m0 c0 m1 c1 sig C inv t :
  symmetric d c0 -> symmetric d c1 ->
  meq d (mmul d (inv (marginal_cov c0 c1 sig C t)) (marginal_cov c0 c1 sig C t)) mid ->
  affine_moments d (marginal_mean m0 m1) (marginal_cov c0 c1 sig C)
    (sb_drift d m0 c0 m1 c1 sig C inv) sig t.
Proof.
  intros H0 H1 Hinv. exists (sb_slope d c0 c1 sig C inv t). split; [|split].
  - intros x x'. apply sb_drift_diff.
  - intros i Hi. rewrite (sb_drift_mean d m0 c0 m1 c1 sig C inv t i Hi). apply marginal_mean_derive.
  - intros i j Hi Hj. now apply sb_cov_moment.
Qed.

Lemma sb_cross d c0 c1 sig S D X Si : library_roots d c0 c1 sig S D X Si ->
  let C := sb_C d sig S X in
  meq d (madd (mmul d C C) (mscale (sig ^ 2) C)) (mmul d c0 c1) /\
  meq d (mmul d C c0) (mmul d c0 (mtr C)) /\ meq d (mmul d c1 C) (mmul d (mtr C) c1).
Proof.
  intros (HS & HSS & HD & HDD & HX & HSi & HSi') C. split; [|split].
  - apply (sb_C_quadratic d c0 c1 sig S D X Si); assumption.
  - apply (sb_C_cov0 d c0 sig S D X); assumption.
  - apply (sb_C_cov1 d c1 sig S D X Si); assumption.
Qed.

(** The slope is determined by the drift. *)
Lemma slope_unique d (A B : mat) : (forall x x', veq d (mvec d A (vsub x x')) (mvec d B (vsub x x'))) -> meq d A B.
Proof.
  intros H i j Hi Hj.
  specialize (H (fun k => if Nat.eqb k j then 1 else 0) (fun _ => 0) i Hi). unfold mvec, vsub in H.
  assert (E : forall M : mat, Rsum (map (fun k => M i k * ((if Nat.eqb k j then 1 else 0) - 0)) (seq 0 d)) = M i j).
  { intros M. rewrite <- (Rsum_indicator d j (fun k => M i k)) by exact Hj.
    apply Rsum_map_ext. intros; ring. }
  now rewrite !E in H.
Qed.

Lemma sb_slope_is d m0 c0 m1 c1 sig C inv t (A : mat) :
  (forall x x', veq d (vsub (sb_drift d m0 c0 m1 c1 sig C inv x t) (sb_drift d m0 c0 m1 c1 sig C inv x' t))
                      (mvec d A (vsub x x'))) ->
  meq d A (sb_slope d c0 c1 sig C inv t).
Proof.
  intros H. apply slope_unique. intros x x' i Hi. rewrite <- (H x x' i Hi). now apply sb_drift_diff.
Qed.

Lemma sb_gradient d m0 c0 m1 c1 sig S D X Si inv t :
  library_roots d c0 c1 sig S D X Si -> symmetric d c0 -> symmetric d c1 ->
  inverse_at d (marginal_cov c0 c1 sig (sb_C d sig S X)) inv t ->
  forall A, (forall x x', veq d (vsub (sb_drift d m0 c0 m1 c1 sig (sb_C d sig S X) inv x t)
                                   (sb_drift d m0 c0 m1 c1 sig (sb_C d sig S X) inv x' t))
                             (mvec d A (vsub x x'))) ->
  symmetric d A.
Proof.
  intros HR H0 H1 [HL HRi] A HA. destruct (sb_cross d c0 c1 sig S D X Si HR) as (HQ & HC0 & HC1).
  apply sb_slope_is in HA. red. rewrite HA. apply sb_slope_sym; assumption.
Qed.

Lemma sb_riccati d m0 c0 m1 c1 sig S D X Si inv t :
  library_roots d c0 c1 sig S D X Si -> symmetric d c0 -> symmetric d c1 ->
  locally t (inverse_at d (marginal_cov c0 c1 sig (sb_C d sig S X)) inv) ->
  forall A A', (forall u x x', veq d (vsub (sb_drift d m0 c0 m1 c1 sig (sb_C d sig S X) inv x u)
                                   (sb_drift d m0 c0 m1 c1 sig (sb_C d sig S X) inv x' u))
                             (mvec d (A u) (vsub x x'))) ->
  (forall i j, (i < d)%nat -> (j < d)%nat -> is_derive (fun u => A u i j) t (A' i j)) ->
  meq d A' (mscale (-(1)) (mmul d (A t) (A t))).
Proof.
  intros HR H0 H1 Hinv A A' HA HA'. destruct (sb_cross d c0 c1 sig S D X Si HR) as (HQ & HC0 & HC1).
  assert (HAu : forall u, meq d (A u) (sb_slope d c0 c1 sig (sb_C d sig S X) inv u))
    by (intros u; now apply (sb_slope_is d m0 c0 m1)).
  rewrite (HAu t). apply sb_slope_riccati; try assumption.
  - revert Hinv. apply filter_imp. now intros u [H _].
  - apply locally_singleton in Hinv. apply Hinv.
  - intros i j Hi Hj. apply (is_derive_ext (fun u => A u i j)).
    + intros u. now apply HAu.
    + now apply HA'.
Qed.

(** ** Instances *)

Definition mat2 (a b c e : R) : mat := fun i j =>
  match i, j with O, O => a | O, _ => b | _, O => c | _, _ => e end.

Definition inv2 (M : mat) : mat :=
  let det := M 0%nat 0%nat * M 1%nat 1%nat - M 0%nat 1%nat * M 1%nat 0%nat in
  mat2 (M 1%nat 1%nat / det) (- M 0%nat 1%nat / det) (- M 1%nat 0%nat / det) (M 0%nat 0%nat / det).

Lemma meq2 A B : A 0%nat 0%nat = B 0%nat 0%nat -> A 0%nat 1%nat = B 0%nat 1%nat ->
  A 1%nat 0%nat = B 1%nat 0%nat -> A 1%nat 1%nat = B 1%nat 1%nat -> meq 2 A B.
Proof.
  intros H1 H2 H3 H4 i j Hi Hj.
  destruct i as [|[|i]], j as [|[|j]]; try lia; assumption.
Qed.

Ltac crunch := unfold sb_C, sb_D_arg, marginal_cov, kappa, r, r_bar, rho, mtr, madd, msub, mscale, mmul, mid, mat2 in *;
  cbn [map seq Rsum fold_right Nat.eqb] in *.

Definition ex_S := mat2 2 1 1 2.
Definition ex_Si := mat2 (2/3) (-1/3) (-1/3) (2/3).
Definition ex_D := mat2 3 0 0 5.
Definition ex_X := mat2 2 (-1) (-5/3) (10/3).
Definition ex_c0 := mat2 5 4 4 5.
Definition ex_c1 := mat2 (14/9) (-16/9) (-16/9) (26/9).

Lemma sb_instance2 : exists c0 c1 S D X Si inv,
  library_roots 2 c0 c1 1 S D X Si /\ symmetric 2 c0 /\ symmetric 2 c1 /\
  inverse_at 2 (marginal_cov c0 c1 1 (sb_C 2 1 S X)) inv (1 / 2) /\
  ~ symmetric 2 (sb_C 2 1 S X) /\ ~ meq 2 (mmul 2 c0 c1) (mmul 2 c1 c0).
Proof.
  exists ex_c0, ex_c1, ex_S, ex_D, ex_X, ex_Si, inv2.
  unfold ex_c0, ex_c1, ex_S, ex_D, ex_X, ex_Si.
  split; [|split; [|split; [|split; [|split]]]].
  - split; [|split; [|split; [|split; [|split; [|split]]]]]; apply meq2; crunch; lra.
  - apply meq2; crunch; lra.
  - apply meq2; crunch; lra.
  - unfold inverse_at. match goal with |- context [inv2 ?Q] => set (P := Q) end.
    assert (E00 : P 0%nat 0%nat = (5 + 14/9 + 4/3 + 1) / 4) by (unfold P; crunch; lra).
    assert (E01 : P 0%nat 1%nat = (4 - 16/9) / 4) by (unfold P; crunch; lra).
    assert (E10 : P 1%nat 0%nat = (4 - 16/9) / 4) by (unfold P; crunch; lra).
    assert (E11 : P 1%nat 1%nat = (5 + 26/9 + 14/3 + 1) / 4) by (unfold P; crunch; lra).
    fold P.
    split; apply meq2; unfold inv2, mmul, mid, mat2; cbn [map seq Rsum fold_right Nat.eqb];
      fold P; rewrite ?E00, ?E01, ?E10, ?E11; field; lra.
  - intros H. specialize (H 0%nat 1%nat ltac:(lia) ltac:(lia)). crunch. lra.
  - intros H. specialize (H 0%nat 1%nat ltac:(lia) ltac:(lia)). crunch. lra.
Qed.

Definition const1 (a : R) : mat := fun _ _ => a.
Definition inv1 (M : mat) : mat := fun _ _ => / M 0%nat 0%nat.
Lemma meq1 A B : A 0%nat 0%nat = B 0%nat 0%nat -> meq 1 A B.
Proof. intros H i j Hi Hj. destruct i, j; try lia. exact H. Qed.

Lemma sb_instance1 : exists c0 c1 S D X Si inv,
  library_roots 1 c0 c1 1 S D X Si /\ symmetric 1 c0 /\ symmetric 1 c1 /\
  (forall t, 0 <= t <= 1 -> locally t (inverse_at 1 (marginal_cov c0 c1 1 (sb_C 1 1 S X)) inv)) /\
  forall t, 0 <= t <= 1 -> sb_slope 1 c0 c1 1 (sb_C 1 1 S X) inv t 0%nat 0%nat = / (1 + t).
Proof.
  exists (const1 1), (const1 6), (const1 1), (const1 5), (const1 5), (const1 1), inv1.
  assert (HP : forall t, marginal_cov (const1 1) (const1 6) 1 (sb_C 1 1 (const1 1) (const1 5)) t 0%nat 0%nat
                         = (1 + t) * (1 + 2 * t)).
  { intros t. unfold const1. crunch. field. }
  split; [|split; [|split; [|split]]].
  - split; [|split; [|split; [|split; [|split; [|split]]]]]; apply meq1; unfold const1; crunch; lra.
  - apply meq1; reflexivity.
  - apply meq1; reflexivity.
  - intros t Ht. exists (mkposreal (1/4) ltac:(lra)). intros u Hu.
    change (Rabs (u - t) < 1/4) in Hu. apply Rabs_def2 in Hu.
    split; apply meq1; unfold inv1, mmul; cbn [map seq Rsum fold_right]; rewrite HP; unfold mid; cbn; field; split; lra.
  - intros t Ht. unfold sb_slope. unfold mmul at 1. cbn [map seq Rsum fold_right]. unfold inv1. rewrite HP.
    unfold sb_s, const1, r, r_bar, rho. crunch. field. split; lra.
Qed.
