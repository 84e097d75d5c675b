(** The matrix routines always return, and the Gaussian bridge is defined and optimal with nothing assumed about them. *)
From Coquelicot Require Import Coquelicot.
From Coq Require Import Reals List Lia Lra.
From Verif Require Import Base Dist Mat MatMore Cholesky Bures GaussSB GaussSBMore Spectral CholFun SbTotal.
Import ListNotations.
Open Scope R_scope.

(** What jnp.linalg.eigh is asked for exists for every symmetric matrix. *)
Theorem C136_eigh_total : forall d M, symmetric d M -> exists w V, eigh d M w V.
Proof. exact spectral_theorem. Qed.
Print Assumptions C136_eigh_total.

(** sqrtm (fbs/utils.py 21-24) has a result on every symmetric matrix, and bures_dist (27-36) on every pair of covariances. *)
Theorem C136_sqrtm_total : forall d M, symmetric d M -> exists Q, sqrtm_returns d M Q.
Proof. exact sqrtm_total. Qed.
Print Assumptions C136_sqrtm_total.
Theorem C136_bures_total : forall d m0 c0 m1 c1, symmetric d c0 -> psd d c0 -> symmetric d c1 -> exists r, bures_returns d m0 c0 m1 c1 r.
Proof. exact bures_total. Qed.
Print Assumptions C136_bures_total.

(** The row-by-row Cholesky factorisation succeeds on every symmetric positive definite matrix, and the solve with it inverts. *)
Theorem C136_cholesky : forall d M, symmetric d M -> posdef d M ->
  (lower d (chol d M) /\ diag_pos d (chol d M) /\ meq d (mmul d (chol d M) (mtr (chol d M))) M) /\
  (meq d (mmul d (cho_inv d M) M) mid /\ meq d (mmul d M (cho_inv d M)) mid).
Proof. exact (fun d M HS HP => conj (chol_correct d M HS HP) (cho_inv_correct d M HS HP)). Qed.
Print Assumptions C136_cholesky.

(** make_gaussian_bw_sb: the two square roots exist, ... *)
Theorem C136_bridge_roots_exist : forall d c0 c1 sig, symmetric d c0 -> posdef d c0 -> symmetric d c1 -> psd d c1 ->
  exists S D, sqrtm_returns d c0 S /\ sqrtm_returns d (sb_D_arg d c1 sig S) D.
Proof. exact bridge_roots_exist. Qed.
Print Assumptions C136_bridge_roots_exist.
(** ... the linear solve has exactly one solution, ... *)
Theorem C136_bridge_solve : forall d c0 c1 sig, symmetric d c0 -> posdef d c0 -> symmetric d c1 -> psd d c1 -> forall S D,
  sqrtm_returns d c0 S -> sqrtm_returns d (sb_D_arg d c1 sig S) D ->
  exists X Si, library_roots d c0 c1 sig S D X Si /\ forall X', meq d (mmul d (mtr S) (mtr X')) (mtr D) -> meq d X' X.
Proof. exact bridge_roots. Qed.
Print Assumptions C136_bridge_solve.
(** ... the covariance handed to cho_factor is positive definite on the whole of [0, 1], ... *)
Theorem C136_bridge_factor : forall d c0 c1 sig, symmetric d c0 -> posdef d c0 -> symmetric d c1 -> posdef d c1 -> forall S D X,
  sqrtm_returns d c0 S -> sqrtm_returns d (sb_D_arg d c1 sig S) D -> meq d (mmul d (mtr S) (mtr X)) (mtr D) -> forall t, 0 <= t <= 1 ->
  symmetric d (marginal_cov c0 c1 sig (sb_C d sig S X) t) /\ posdef d (marginal_cov c0 c1 sig (sb_C d sig S X) t).
Proof. exact total_posdef. Qed.
Print Assumptions C136_bridge_factor.
(** ... the drift returned carries the returned mean and covariance on [0, 1], ... *)
Theorem C136_bridge_moments : forall d m0 c0 m1 c1 sig, symmetric d c0 -> posdef d c0 -> symmetric d c1 -> posdef d c1 -> forall S D X,
  sqrtm_returns d c0 S -> sqrtm_returns d (sb_D_arg d c1 sig S) D -> meq d (mmul d (mtr S) (mtr X)) (mtr D) -> forall t, 0 <= t <= 1 ->
  affine_moments d (marginal_mean m0 m1) (marginal_cov c0 c1 sig (sb_C d sig S X)) (sb_drift d m0 c0 m1 c1 sig (sb_C d sig S X) (cho_inv d)) sig t.
Proof. exact total_moments. Qed.
Print Assumptions C136_bridge_moments.
(** ... and it is an optimal control: a gradient field whose slope is differentiable and solves A' = - A^2. *)
Theorem C136_bridge_optimal : forall d m0 c0 m1 c1 sig, symmetric d c0 -> posdef d c0 -> symmetric d c1 -> posdef d c1 -> forall S D X,
  sqrtm_returns d c0 S -> sqrtm_returns d (sb_D_arg d c1 sig S) D -> meq d (mmul d (mtr S) (mtr X)) (mtr D) -> forall t, 0 < t < 1 ->
  let b := sb_drift d m0 c0 m1 c1 sig (sb_C d sig S X) (cho_inv d) in
  exists (A : R -> mat) (A' : mat),
    (forall u x x', veq d (vsub (b x u) (b x' u)) (mvec d (A u) (vsub x x'))) /\ symmetric d (A t) /\
    (forall i j, (i < d)%nat -> (j < d)%nat -> is_derive (fun u => A u i j) t (A' i j)) /\ meq d A' (mscale (-(1)) (mmul d (A t) (A t))).
Proof. exact total_slope. Qed.
Print Assumptions C136_bridge_optimal.

(** Covariances that meet the hypotheses and do not commute. *)
Example C136_hypotheses : let c0 := fun i j => if Nat.eqb i j then 2 else 1 in let c1 := fun i j : nat => if Nat.eqb i j then INR i + 1 else 0 in
  symmetric 2 c0 /\ posdef 2 c0 /\ symmetric 2 c1 /\ posdef 2 c1 /\ mmul 2 c0 c1 0%nat 1%nat <> mmul 2 c1 c0 0%nat 1%nat.
Proof.
  intros c0 c1.
  assert (PD : forall M : mat, 0 < M 0%nat 0%nat -> M 1%nat 0%nat = M 0%nat 1%nat -> 0 < M 0%nat 0%nat * M 1%nat 1%nat - M 0%nat 1%nat ^ 2 -> posdef 2 M).
  { intros M H0 Hs H1 x Hx. assert (Q : quad 2 M x * M 0%nat 0%nat = (M 0%nat 0%nat * x 0%nat + M 0%nat 1%nat * x 1%nat) ^ 2 + (M 0%nat 0%nat * M 1%nat 1%nat - M 0%nat 1%nat ^ 2) * x 1%nat ^ 2) by (unfold quad, mvec; cbn; rewrite Hs; ring).
    apply (Rmult_lt_reg_r (M 0%nat 0%nat)); [exact H0|]. rewrite Rmult_0_l, Q. destruct (Req_dec (x 1%nat) 0) as [E|E].
    - rewrite E. destruct (Req_dec (x 0%nat) 0) as [F|F]; [exfalso; apply Hx; intros [|[|]] Hi; cbv beta; try assumption; lia|]. replace (_ + _) with ((M 0%nat 0%nat * x 0%nat) ^ 2) by ring. apply pow2_gt_0. apply Rmult_integral_contrapositive_currified; lra.
    - pose proof (pow2_ge_0 (M 0%nat 0%nat * x 0%nat + M 0%nat 1%nat * x 1%nat)). pose proof (pow2_gt_0 _ E). nra. }
  split; [intros i j _ _; unfold mtr, c0; now rewrite Nat.eqb_sym|]. split; [apply PD; cbn; lra|].
  split; [intros [|[|]] [|[|]] Hi Hj; try lia; cbn; lra|]. split; [apply PD; cbn; lra|]. unfold mmul. cbn. lra.
Qed.
(** The factorisation by hand: rows (4 2) and (2 5) have the factor with rows (2 0) and (1 2). *)
Example C136_chol_value : let M := fun i j : nat => if Nat.eqb i j then (if Nat.eqb i 0 then 4 else 5) else 2 in
  chol 2 M 0%nat 0%nat = 2 /\ chol 2 M 0%nat 1%nat = 0 /\ chol 2 M 1%nat 0%nat = 1 /\ chol 2 M 1%nat 1%nat = 2.
Proof.
  intros M. assert (A : sqrt (4 - 0) = 2) by (replace (4 - 0) with (2 * 2) by ring; apply sqrt_square; lra).
  cbn [chol Nat.ltb Nat.leb]. unfold dot. cbn [seq map Rsum]. unfold M. cbn [Nat.eqb]. split; [exact A|]. split; [reflexivity|].
  assert (Z : fsolve (fun _ _ : nat => sqrt (4 - 0)) (fun _ => 2) 0%nat = 1).
  { unfold fsolve. cbn. rewrite A. field. }
  split.
  - etransitivity; [|exact Z]. reflexivity.
  - assert (Y : forall z : nat -> R, z 0%nat = 1 -> sqrt (5 - (z 0%nat * z 0%nat + 0)) = 2).
    { intros z ->. replace (5 - (1 * 1 + 0)) with (2 * 2) by ring. apply sqrt_square. lra. }
    apply Y. etransitivity; [|exact Z]. reflexivity.
Qed.
