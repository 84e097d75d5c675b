(** Properties of fbs/utils.py. *)
From Coquelicot Require Import Coquelicot.
From Coq Require Import Reals List Lia Lra.
From Verif Require Import Base Dist Mat MatMore Expm Lti Cholesky GaussDiv Bures.
Import ListNotations.
Open Scope R_scope.

(** [is_KL d m0 c0 m1 c1 k]: k is the expectation of log p0(X) - log p1(X), p0 and p1 the
    two Gaussian densities, X of the first Gaussian's mean and covariance. *)
Theorem C59_kl_is_twice_KL : forall d m0 c0 m1 c1 r, kl_returns d m0 c0 m1 c1 r -> is_KL d m0 c0 m1 c1 (r / 2).
Proof. exact kl_is_twice_KL. Qed.
Print Assumptions C59_kl_is_twice_KL.

(** The documented quantity is returned only for equal Gaussians. *)
Theorem C59_kl_refuted : forall d m0 c0 m1 c1 r, (0 < d)%nat -> kl_returns d m0 c0 m1 c1 r ->
  (is_KL d m0 c0 m1 c1 r <-> veq d m0 m1 /\ meq d c0 c1).
Proof. exact kl_is_KL_iff. Qed.
Print Assumptions C59_kl_refuted.

Theorem C59_kl_total : forall d m0 c0 m1 c1, symmetric d c0 -> posdef d c0 -> symmetric d c1 -> posdef d c1 ->
  exists r, kl_returns d m0 c0 m1 c1 r.
Proof. exact kl_total. Qed.
Print Assumptions C59_kl_total.

Theorem C59_kl_nonneg : forall d m0 c0 m1 c1 r, kl_returns d m0 c0 m1 c1 r -> 0 <= r.
Proof. exact kl_nonneg. Qed.
Print Assumptions C59_kl_nonneg.

Theorem C59_kl_zero_iff : forall d m0 c0 m1 c1 r, kl_returns d m0 c0 m1 c1 r ->
  (r = 0 <-> veq d m0 m1 /\ meq d c0 c1).
Proof. exact kl_zero_iff. Qed.
Print Assumptions C59_kl_zero_iff.

Example C59_kl_witness :
  kl_returns 1 (fun _ => 0) mid (fun _ => 1) mid 1 /\ is_KL 1 (fun _ => 0) mid (fun _ => 1) mid (1 / 2).
Proof. exact kl_unit_shift. Qed.

(** bures_dist is a lower bound of the transport cost of every coupling ... *)
Theorem C59_bures_lower_bound : forall d m0 c0 m1 c1 r,
  symmetric d c0 -> posdef d c0 -> symmetric d c1 -> posdef d c1 ->
  bures_returns d m0 c0 m1 c1 r -> forall joint, coupling d m0 c0 m1 c1 joint -> r <= transport_cost d joint.
Proof. exact bures_lower_bound. Qed.
Print Assumptions C59_bures_lower_bound.

(** ... and is the cost of an affine map applied to any X of the first moments, so of the
    optimal coupling of the two Gaussians. *)
Theorem C59_bures_attained : forall d m0 c0 m1 c1 r,
  symmetric d c0 -> posdef d c0 -> symmetric d c1 -> posdef d c1 ->
  bures_returns d m0 c0 m1 c1 r -> forall law, is_prob law -> has_mean d law m0 -> has_cov d law m0 c0 ->
  exists A, let joint := dmap (fun x => (x, vadd m1 (mvec d A (vsub x m0)))) law in
    coupling d m0 c0 m1 c1 joint /\ transport_cost d joint = r.
Proof. exact bures_attained. Qed.
Print Assumptions C59_bures_attained.

Theorem C59_bures_nonneg : forall d m0 c0 m1 c1 r,
  symmetric d c0 -> posdef d c0 -> symmetric d c1 -> posdef d c1 -> bures_returns d m0 c0 m1 c1 r -> 0 <= r.
Proof. exact bures_nonneg. Qed.
Print Assumptions C59_bures_nonneg.

Theorem C59_bures_zero_iff : forall d m0 c0 m1 c1 r,
  symmetric d c0 -> posdef d c0 -> symmetric d c1 -> posdef d c1 ->
  bures_returns d m0 c0 m1 c1 r -> (r = 0 <-> veq d m0 m1 /\ meq d c0 c1).
Proof. exact bures_zero_iff. Qed.
Print Assumptions C59_bures_zero_iff.

Example C59_bures_witness : bures_returns 2 (fun _ => 0) rot_c (fun _ => 1) mid 3 /\
  symmetric 2 rot_c /\ posdef 2 rot_c /\ symmetric 2 mid /\ posdef 2 mid.
Proof. exact bures_rotated. Qed.

(** [exact_discretisation d A G dt F Q]: mean and covariance of every solution of the moment
    equations of dX = A X dt + B dW, B B^T = G, go from t to t+dt by m -> F m, V -> F V F^T + Q. *)
Theorem C60_exact : forall d A G dt,
  exact_discretisation d A G dt (fst (discretise_lti_sde d A G dt)) (snd (discretise_lti_sde d A G dt)).
Proof. exact lti_exact. Qed.
Print Assumptions C60_exact.

Theorem C60_unique : forall d A G dt F Q, exact_discretisation d A G dt F Q ->
  meq d F (fst (discretise_lti_sde d A G dt)) /\ meq d Q (snd (discretise_lti_sde d A G dt)).
Proof. exact lti_exact_unique. Qed.
Print Assumptions C60_unique.

Theorem C60_compose : forall d A G s t,
  meq d (fst (discretise_lti_sde d A G (s + t)))
    (mmul d (fst (discretise_lti_sde d A G t)) (fst (discretise_lti_sde d A G s))) /\
  meq d (snd (discretise_lti_sde d A G (s + t)))
    (madd (mmul d (fst (discretise_lti_sde d A G t)) (mmul d (snd (discretise_lti_sde d A G s)) (mtr (fst (discretise_lti_sde d A G t)))))
          (snd (discretise_lti_sde d A G t))).
Proof. exact lti_compose. Qed.
Print Assumptions C60_compose.

Theorem C60_integral : forall d A G dt i j, (i < d)%nat -> (j < d)%nat ->
  is_RInt (V := R_NormedModule) (fun s => mmul d (expm d (mscale s A)) (mmul d G (mtr (expm d (mscale s A)))) i j)
    0 dt (snd (discretise_lti_sde d A G dt) i j).
Proof. exact lti_cov_integral. Qed.
Print Assumptions C60_integral.

Theorem C60_symmetric : forall d A G dt, symmetric d G -> symmetric d (snd (discretise_lti_sde d A G dt)).
Proof. exact mtr_lti_cov. Qed.
Print Assumptions C60_symmetric.

Theorem C60_psd : forall d A G dt, psd d G -> 0 <= dt -> psd d (snd (discretise_lti_sde d A G dt)).
Proof. exact lti_cov_psd. Qed.
Print Assumptions C60_psd.

Theorem C60_scalar_ou : forall a b dt : R, a <> 0 ->
  fst (discretise_lti_sde 1 (fun _ _ => a) (fun _ _ => b ^ 2) dt) 0%nat 0%nat = exp (a * dt) /\
  snd (discretise_lti_sde 1 (fun _ _ => a) (fun _ _ => b ^ 2) dt) 0%nat 0%nat = b ^ 2 / (2 * a) * (exp (2 * a * dt) - 1).
Proof. exact lti_scalar. Qed.
Print Assumptions C60_scalar_ou.

(** Integrated Brownian motion: F = [1 dt; 0 1], Q = [dt^3/3 dt^2/2; dt^2/2 dt]. *)
Example C60_witness : forall dt,
  meq 2 (fst (discretise_lti_sde 2 ibm_A ibm_G dt)) (ibm_F dt) /\
  meq 2 (snd (discretise_lti_sde 2 ibm_A ibm_G dt)) (ibm_Q dt).
Proof. exact ibm_exact. Qed.

Theorem C83_sqrtm : forall d M Q, psd d M -> sqrtm_returns d M Q ->
  symmetric d Q /\ psd d Q /\ meq d (mmul d Q Q) M.
Proof. exact sqrtm_correct. Qed.
Print Assumptions C83_sqrtm.

Theorem C83_sqrtm_unique : forall d M Q Q', psd d M -> sqrtm_returns d M Q -> symmetric d Q' -> psd d Q' -> meq d (mmul d Q' Q') M ->
  meq d Q Q'.
Proof. exact sqrtm_unique. Qed.
Print Assumptions C83_sqrtm_unique.

(** [5 4; 4 5] has eigenvalues 9 and 1; the root is [2 1; 1 2]. *)
Example C83_instance : let M := fun i j : nat => if Nat.eqb i j then 5 else 4 in psd 2 M /\
  sqrtm_returns 2 M (fun i j : nat => if Nat.eqb i j then 2 else 1).
Proof.
  intros M. split.
  - intros x. unfold quad, mvec, M. cbn. generalize (x 0%nat) (x 1%nat). intros a b.
    match goal with |- 0 <= ?e => replace e with (4 * (a + b) ^ 2 + a ^ 2 + b ^ 2) by ring end.
    pose proof (pow2_ge_0 (a + b)). pose proof (pow2_ge_0 a). pose proof (pow2_ge_0 b). lra.
  - assert (H2 : sqrt (/ 2) * sqrt (/ 2) = / 2) by (apply sqrt_sqrt; lra).
    assert (H9 : sqrt 9 = 3) by (replace 9 with (3 * 3) by ring; apply sqrt_square; lra).
    exists (fun i => if Nat.eqb i 0 then 9 else 1), (fun i j => if andb (Nat.eqb i 1) (Nat.eqb j 1) then - sqrt (/ 2) else sqrt (/ 2)).
    assert (Hlt : forall i, (i < 2)%nat -> i = 0%nat \/ i = 1%nat) by lia.
    unfold eigh, sqrtm, meq, mmul, mdiag, mtr, mid, M. set (r := sqrt (/ 2)) in *.
    repeat split; intros i j Hi Hj; destruct (Hlt i Hi) as [ -> | -> ], (Hlt j Hj) as [ -> | -> ]; cbn; rewrite ?H9, ?sqrt_1; nra.
Qed.
