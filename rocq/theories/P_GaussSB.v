(** Properties of the closed form Gaussian Schrodinger bridge. *)
From Coquelicot Require Import Coquelicot.
From Coq Require Import Reals List Lia Lra.
From Verif Require Import Base Dist Mat GaussSB GaussSBMore.
Import ListNotations.
Open Scope R_scope.

Theorem C41_end_points : forall d m0 c0 m1 c1 sig C,
  veq d (marginal_mean m0 m1 0) m0 /\ veq d (marginal_mean m0 m1 1) m1 /\
  meq d (marginal_cov c0 c1 sig C 0) c0 /\ meq d (marginal_cov c0 c1 sig C 1) c1.
Proof. exact sb_end_points. Qed.
Print Assumptions C41_end_points.

Theorem C41_cov_symmetric : forall d c0 c1 sig C t, symmetric d c0 -> symmetric d c1 ->
  symmetric d (marginal_cov c0 c1 sig C t).
Proof. exact marginal_cov_sym. Qed.
Print Assumptions C41_cov_symmetric.

(** [affine_moments d m P b sig t]: around time [t] the drift [b] is affine and the mean
    [m] and covariance [P] solve the moment equations of dX = b(X,t) dt + sig dW. *)
Theorem C41_moment_equations : forall d m0 c0 m1 c1 sig C inv t,
  symmetric d c0 -> symmetric d c1 ->
  meq d (mmul d (inv (marginal_cov c0 c1 sig C t)) (marginal_cov c0 c1 sig C t)) mid ->
  affine_moments d (marginal_mean m0 m1) (marginal_cov c0 c1 sig C)
    (sb_drift d m0 c0 m1 c1 sig C inv) sig t.
Proof. exact sb_moment_equations. Qed.
Print Assumptions C41_moment_equations.

(** In one dimension, from N(0, 1) to N(3, 2) with cross covariance 1: at time 1/2 the variance is 3/2 and the drift
    at the mean is 3. *)
Example C41_instance : let c := fun a (_ _ : nat) => a in let inv := fun (M : mat) (_ _ : nat) => / M 0%nat 0%nat in
  let P := marginal_cov (c 1) (c 2) 1 (c 1) in
  symmetric 1 (c 1) /\ symmetric 1 (c 2) /\ meq 1 (mmul 1 (inv (P (1/2))) (P (1/2))) mid /\ P (1/2) 0%nat 0%nat = 3/2 /\
  sb_drift 1 (fun _ => 0) (c 1) (fun _ => 3) (c 2) 1 (c 1) inv (fun _ => 3/2) (1/2) 0%nat = 3.
Proof.
  intros c inv P.
  assert (HP : P (1/2) 0%nat 0%nat = 3/2) by (unfold P, marginal_cov, c, madd, mscale, mtr, mid, r, r_bar, kappa, rho; cbn; field).
  split; [intros i j _ _; reflexivity|]. split; [intros i j _ _; reflexivity|]. split.
  - intros i j Hi Hj. assert (i = 0)%nat by lia. assert (j = 0)%nat by lia. subst. unfold mmul, mid. cbn [seq map Rsum Nat.eqb]. unfold inv. rewrite HP. cbn. field.
  - split; [exact HP|]. unfold sb_drift, marginal_mean, vsub, vadd, vscale, mvec. cbn [seq map Rsum]. unfold inv. fold P. rewrite HP. unfold r, r_bar. field.
Qed.

(** The closed form really is the Schrodinger bridge: the drift is a gradient field, its
    slope solves the Riccati equation A' = -A^2 of the optimality (Hamilton-Jacobi-Bellman)
    equation with a Brownian reference. *)
Theorem C72_gradient_drift : forall d m0 c0 m1 c1 sig S D X Si inv t,
  library_roots d c0 c1 sig S D X Si -> symmetric d c0 -> symmetric d c1 ->
  inverse_at d (marginal_cov c0 c1 sig (sb_C d sig S X)) inv t ->
  forall A, (forall x x', veq d (vsub (sb_drift d m0 c0 m1 c1 sig (sb_C d sig S X) inv x t)
                                   (sb_drift d m0 c0 m1 c1 sig (sb_C d sig S X) inv x' t))
                             (mvec d A (vsub x x'))) ->
  symmetric d A.
Proof. exact sb_gradient. Qed.
Print Assumptions C72_gradient_drift.

Theorem C72_riccati : forall d m0 c0 m1 c1 sig S D X Si inv t,
  library_roots d c0 c1 sig S D X Si -> symmetric d c0 -> symmetric d c1 ->
  locally t (inverse_at d (marginal_cov c0 c1 sig (sb_C d sig S X)) inv) ->
  forall A A', (forall u x x', veq d (vsub (sb_drift d m0 c0 m1 c1 sig (sb_C d sig S X) inv x u)
                                   (sb_drift d m0 c0 m1 c1 sig (sb_C d sig S X) inv x' u))
                             (mvec d (A u) (vsub x x'))) ->
  (forall i j, (i < d)%nat -> (j < d)%nat -> is_derive (fun u => A u i j) t (A' i j)) ->
  meq d A' (mscale (-(1)) (mmul d (A t) (A t))).
Proof. exact sb_riccati. Qed.
Print Assumptions C72_riccati.

(** The cross covariance solves the static Schrodinger problem's equation. *)
Theorem C72_cross_covariance : forall d c0 c1 sig S D X Si,
  library_roots d c0 c1 sig S D X Si ->
  let C := sb_C d sig S X in
  meq d (madd (mmul d C C) (mscale (sig ^ 2) C)) (mmul d c0 c1) /\
  meq d (mmul d C c0) (mmul d c0 (mtr C)) /\ meq d (mmul d c1 C) (mmul d (mtr C) c1).
Proof. exact sb_cross. Qed.
Print Assumptions C72_cross_covariance.

(** A two-dimensional instance in which nothing commutes and the cross covariance is not
    symmetric: all hypotheses hold. *)
Example C72_instance : exists c0 c1 S D X Si inv,
  library_roots 2 c0 c1 1 S D X Si /\ symmetric 2 c0 /\ symmetric 2 c1 /\
  inverse_at 2 (marginal_cov c0 c1 1 (sb_C 2 1 S X)) inv (1 / 2) /\
  ~ symmetric 2 (sb_C 2 1 S X) /\ ~ meq 2 (mmul 2 c0 c1) (mmul 2 c1 c0).
Proof. exact sb_instance2. Qed.

(** A one-dimensional instance of the Riccati statement with a drift that is not trivial. *)
Example C72_riccati_instance : exists c0 c1 S D X Si inv,
  library_roots 1 c0 c1 1 S D X Si /\ symmetric 1 c0 /\ symmetric 1 c1 /\
  (forall t, 0 <= t <= 1 -> locally t (inverse_at 1 (marginal_cov c0 c1 1 (sb_C 1 1 S X)) inv)) /\
  forall t, 0 <= t <= 1 -> sb_slope 1 c0 c1 1 (sb_C 1 1 S X) inv t 0%nat 0%nat = / (1 + t).
Proof. exact sb_instance1. Qed.
