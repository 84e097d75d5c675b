(** The Kalman filter of experiments/toy/gp_kf.py on a fine grid. *)
From Coquelicot Require Import Coquelicot.
From Coq Require Import Reals List Lia Lra.
From Verif Require Sde SdeProofs Sim CholFun.
From Verif Require Import Base Dist Mat MatMore Cholesky GaussDiv GaussSBMore Toy ToyMore ToyCond ToyKf KfCollapse.
Import ListNotations.
Open Scope R_scope.

(** ** C145 *)
(** [inv k] inverts symmetric positive definite k by k matrices (cho_solve); [vs] is any path of v, reversed; the filter starts
    from any mean and covariance. Every entry of the covariance [V] it returns on [n] steps is of the order of sqrt (T / n). *)
Theorem C145_covariance_collapses : forall sde T d C inv s2, (exists p, Sde.discretise sde T 0 = Some p) -> 0 < T ->
  (forall t, 0 <= t <= T -> SdeProofs.nonneg_noise sde t) -> (forall t, 0 <= t <= T -> 0 < Sde.dispersion sde t) -> symmetric d C -> posdef d C -> 0 < s2 ->
  (forall k M, symmetric k M -> posdef k M -> meq k (mmul k (inv k M) M) mid /\ meq k (mmul k M (inv k M)) mid) ->
  exists K h0, 0 <= K /\ 0 < h0 /\ forall n vs mf vf m V, (1 <= n)%nat -> T / INR n <= h0 -> length vs = (n + 1)%nat -> symmetric d vf -> psd d vf ->
    adhoc_kf d (gp_rd d sde T C s2 (inv (2 * d)%nat)) (fun t => Sde.dispersion sde (T - t)) (T / INR n) (Sde.linspace 0 T (n + 1)) mf vf vs m V ->
    symmetric d V /\ psd d V /\ forall i j, (i < d)%nat -> (j < d)%nat -> Rabs (V i j) <= K * sqrt (T / INR n).
Proof. intros sde T d C inv s2 H. apply SdeProofs.discretise_defined in H. exact (kf_collapses sde T d C inv s2 H). Qed.
Print Assumptions C145_covariance_collapses.

(** So refining the grid does not lead to the GP posterior: the returned variances fall below any fraction of the posterior variances. *)
Theorem C145_refuted : forall sde T d C inv s2, (exists p, Sde.discretise sde T 0 = Some p) -> 0 < T ->
  (forall t, 0 <= t <= T -> SdeProofs.nonneg_noise sde t) -> (forall t, 0 <= t <= T -> 0 < Sde.dispersion sde t) -> symmetric d C -> posdef d C -> 0 < s2 ->
  (forall k M, symmetric k M -> posdef k M -> meq k (mmul k (inv k M) M) mid /\ meq k (mmul k M (inv k M)) mid) ->
  forall eps, 0 < eps -> exists h0, 0 < h0 /\ forall n vs mf vf m V, (1 <= n)%nat -> T / INR n <= h0 -> length vs = (n + 1)%nat -> symmetric d vf -> psd d vf ->
    adhoc_kf d (gp_rd d sde T C s2 (inv (2 * d)%nat)) (fun t => Sde.dispersion sde (T - t)) (T / INR n) (Sde.linspace 0 T (n + 1)) mf vf vs m V ->
    forall i, (i < d)%nat -> 0 <= V i i <= eps * gp_cov d C (inv d) s2 i i.
Proof. intros sde T d C inv s2 H. apply SdeProofs.discretise_defined in H. exact (kf_vanishes sde T d C inv s2 H). Qed.
Print Assumptions C145_refuted.

(** The filter is defined on every path and grid: the matrix it factorises is positive definite at each step. *)
Theorem C145_defined : forall sde T d C inv s2, (exists p, Sde.discretise sde T 0 = Some p) -> 0 < T ->
  (forall t, 0 <= t <= T -> SdeProofs.nonneg_noise sde t) -> (forall t, 0 <= t <= T -> 0 < Sde.dispersion sde t) -> symmetric d C -> posdef d C -> 0 < s2 ->
  (forall k M, symmetric k M -> posdef k M -> meq k (mmul k (inv k M) M) mid /\ meq k (mmul k M (inv k M)) mid) ->
  forall n vs mf vf, (1 <= n)%nat -> symmetric d vf -> psd d vf -> exists m V,
    adhoc_kf d (gp_rd d sde T C s2 (inv (2 * d)%nat)) (fun t => Sde.dispersion sde (T - t)) (T / INR n) (Sde.linspace 0 T (n + 1)) mf vf vs m V.
Proof. intros sde T d C inv s2 H. apply SdeProofs.discretise_defined in H. exact (kf_defined sde T d C inv s2 H). Qed.
Print Assumptions C145_defined.

(** the setting of the script: ten points, unit kernel and observation variances, its linear SDE; started from mean zero and unit
    covariance along a constant path a run exists on every grid, and the posterior variances are positive *)
Example C145_example : let sde := Sde.LinSDE (2/100) 4 0 1 in let C := cov_fn 1 1 (zs_grid 10) (zs_grid 10) in
  (exists p, Sde.discretise sde 1 0 = Some p) /\ (forall t, 0 <= t <= 1 -> SdeProofs.nonneg_noise sde t) /\ (forall t, 0 <= t <= 1 -> 0 < Sde.dispersion sde t) /\ symmetric 10 C /\ posdef 10 C /\
  (forall k M, symmetric k M -> posdef k M -> meq k (mmul k (CholFun.cho_inv k M) M) mid /\ meq k (mmul k M (CholFun.cho_inv k M)) mid) /\
  (forall n, (1 <= n)%nat -> exists m V, adhoc_kf 10 (gp_rd 10 sde 1 C 1 (CholFun.cho_inv 20)) (fun t => Sde.dispersion sde (1 - t)) (1 / INR n) (Sde.linspace 0 1 (n + 1)) (fun _ => 0) mid (repeat (fun _ => 1) (n + 1)) m V) /\
  forall i, (i < 10)%nat -> 0 < gp_cov 10 C (CholFun.cho_inv 10) 1 i i.
Proof.
  intros sde C. assert (Hd : exists p, Sde.discretise sde 1 0 = Some p) by (apply SdeProofs.discretise_defined; cbn; lra).
  assert (Hbeta : forall t, 0 <= t <= 1 -> 0 < Sde.beta (2/100) 4 0 1 t) by (intros t Ht; unfold Sde.beta; assert (0 <= (4 - 2/100) * t) by (apply Rmult_le_pos; lra); lra).
  assert (Hn : forall t, 0 <= t <= 1 -> SdeProofs.nonneg_noise sde t) by (intros t Ht; cbn; specialize (Hbeta t Ht); lra).
  assert (Hb : forall t, 0 <= t <= 1 -> 0 < Sde.dispersion sde t) by (intros t Ht; cbn [Sde.dispersion sde]; apply sqrt_lt_R0; now apply Hbeta).
  destruct (cov_fn_posdef 10 1 1 (zs_grid 10) ltac:(lra) ltac:(lra) (zs_grid_increasing 10)) as [C1 C2].
  assert (HI : forall k M, symmetric k M -> posdef k M -> meq k (mmul k (CholFun.cho_inv k M) M) mid /\ meq k (mmul k M (CholFun.cho_inv k M)) mid) by (intros k M; apply CholFun.cho_inv_correct).
  split; [exact Hd|]. split; [exact Hn|]. split; [exact Hb|]. split; [exact C1|]. split; [exact C2|]. split; [exact HI|]. split.
  - intros n Hn1. apply (C145_defined sde 1 10 C CholFun.cho_inv 1 Hd ltac:(lra) Hn Hb C1 C2 ltac:(lra) HI n _ _ _ Hn1); [apply symmetric_mid|]. intros x. rewrite quad_mid. apply dot_self_nonneg.
  - intros i Hi. destruct (CsgmConverge.G_ok 10 C (CholFun.cho_inv 10) 1 C1 C2 ltac:(lra) (HI 10%nat)) as [_ G2]. rewrite <- (quad_unit 10 (gp_cov 10 C (CholFun.cho_inv 10) 1) i Hi). apply G2. intros E0. specialize (E0 i Hi). unfold unit, mid in E0. rewrite Nat.eqb_refl in E0. lra.
Qed.
