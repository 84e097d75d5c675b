(** C138: the closed form drift is the control of least energy between the two Gaussians. *)
From Coquelicot Require Import Coquelicot.
From Coq Require Import Reals List.
From Verif Require Import Base Dist Mat MatMore Cholesky Bures GaussSB CholFun SbTotal SbOptimal.
Import ListNotations.
Open Scope R_scope.

Theorem C138_least_energy : forall d m0 c0 m1 c1 sig S D X, (0 < d)%nat -> symmetric d c0 -> posdef d c0 -> symmetric d c1 -> posdef d c1 ->
  sqrtm_returns d c0 S -> sqrtm_returns d (sb_D_arg d c1 sig S) D -> meq d (mmul d (mtr S) (mtr X)) (mtr D) ->
  let b := sb_drift d m0 c0 m1 c1 sig (sb_C d sig S X) (cho_inv d) in
  exists Jb, controlled d sig m0 c0 m1 c1 Jb /\ (forall t p x u, In (p, (x, u)) (Jb t) -> u = b x t) /\
    forall J, controlled d sig m0 c0 m1 c1 J ->
      RInt (power d J) 0 1 = RInt (power d Jb) 0 1 + RInt (control_gap d J b) 0 1 /\ RInt (power d Jb) 0 1 <= RInt (power d J) 0 1 /\
      (RInt (power d J) 0 1 <= RInt (power d Jb) 0 1 -> forall t, 0 < t < 1 -> control_gap d J b t = 0).
Proof. exact least_energy. Qed.
Print Assumptions C138_least_energy.

Theorem C138_zero_gap : forall d J b t, is_prob (J t) -> control_gap d J b t = 0 -> forall p x u, In (p, (x, u)) (J t) -> 0 < p -> veq d u (b x t).
Proof. exact gap_zero. Qed.
Print Assumptions C138_zero_gap.

Theorem C138_slope : forall d m0 c0 m1 c1 sig, symmetric d c0 -> posdef d c0 -> symmetric d c1 -> posdef d c1 -> forall S D X,
  sqrtm_returns d c0 S -> sqrtm_returns d (sb_D_arg d c1 sig S) D -> meq d (mmul d (mtr S) (mtr X)) (mtr D) ->
  let A := fun u => sb_slope d c0 c1 sig (sb_C d sig S X) (cho_inv d) u in
  forall t, 0 <= t <= 1 -> (forall x x', veq d (vsub (sb_drift d m0 c0 m1 c1 sig (sb_C d sig S X) (cho_inv d) x t) (sb_drift d m0 c0 m1 c1 sig (sb_C d sig S X) (cho_inv d) x' t)) (mvec d (A t) (vsub x x'))) /\
    symmetric d (A t) /\ forall i j, (i < d)%nat -> (j < d)%nat -> is_derive (fun u => A u i j) t (- mmul d (A t) (A t) i j).
Proof. exact slope_summary. Qed.
Print Assumptions C138_slope.

Example C138_example : (0 < 1)%nat /\ symmetric 1 mid /\ posdef 1 mid /\ controlled 1 1 (fun _ => 0) mid (fun _ => 3) mid ou_process /\ RInt (power 1 ou_process) 0 1 = 9 + / 4.
Proof. exact optimal_example. Qed.
Print Assumptions C138_example.
