(** The exact filter of the Euler chain of experiments/toy on a fine grid. *)
From Coquelicot Require Import Coquelicot.
From Coq Require Import Reals List Lia Lra.
From Verif Require Sde SdeProofs CholFun.
From Verif Require Import Base Dist Mat MatMore Cholesky GaussDiv GaussSBMore Bures Spectral Toy ToyMore ToyCond ToyKf KfCollapse FilterConverge.
Import ListNotations.
Open Scope R_scope.

(** ** C146 *)
(** [exact_scan] conditions the Euler chain of the reverse drift on the path [vs] of v, one step at a time, from the law of u given
    v at the terminal time. Whatever the path, the covariance it ends with is the GP posterior covariance up to K T / n. *)
Theorem C146_posterior_covariance : forall sde T d C inv s2, (exists p, Sde.discretise sde T 0 = Some p) -> 0 < T ->
  (forall t, 0 <= t <= T -> SdeProofs.nonneg_noise sde t) -> (forall t, 0 <= t <= T -> 0 < Sde.dispersion sde t) -> symmetric d C -> posdef d C -> 0 < s2 ->
  (forall k M, symmetric k M -> posdef k M -> meq k (mmul k (inv k M) M) mid /\ meq k (mmul k M (inv k M)) mid) ->
  exists K, 0 <= K /\ forall n vs yT m0 V0 m V, (1 <= n)%nat -> T / INR n <= 1 -> length vs = (n + 1)%nat ->
    ref_moments d (fwd_mean sde (fun _ => 0) T) (fwd_cov sde (joint_cov d C s2) T) yT m0 V0 ->
    exact_scan d (gp_rd d sde T C s2 (inv (2 * d)%nat)) (fun t => Sde.dispersion sde (T - t)) (T / INR n) (kf_elems vs (Sde.linspace 0 T (n + 1))) m0 V0 m V ->
    forall i j, (i < d)%nat -> (j < d)%nat -> Rabs (V i j - gp_cov d C (inv d) s2 i j) <= K * (T / INR n).
Proof. intros sde T d C inv s2 H. apply SdeProofs.discretise_defined in H. exact (filter_converges sde T d C inv s2 H). Qed.
Print Assumptions C146_posterior_covariance.

(** every path and every grid has such a run *)
Theorem C146_defined : forall sde T d C inv s2, (exists p, Sde.discretise sde T 0 = Some p) -> 0 < T ->
  (forall t, 0 <= t <= T -> SdeProofs.nonneg_noise sde t) -> (forall t, 0 <= t <= T -> 0 < Sde.dispersion sde t) -> symmetric d C -> posdef d C -> 0 < s2 ->
  (forall k M, symmetric k M -> posdef k M -> meq k (mmul k (inv k M) M) mid /\ meq k (mmul k M (inv k M)) mid) ->
  forall n vs yT, (1 <= n)%nat -> exists m0 V0 m V, ref_moments d (fwd_mean sde (fun _ => 0) T) (fwd_cov sde (joint_cov d C s2) T) yT m0 V0 /\
    exact_scan d (gp_rd d sde T C s2 (inv (2 * d)%nat)) (fun t => Sde.dispersion sde (T - t)) (T / INR n) (kf_elems vs (Sde.linspace 0 T (n + 1))) m0 V0 m V.
Proof. intros sde T d C inv s2 H. apply SdeProofs.discretise_defined in H. exact (filter_defined sde T d C inv s2 H). Qed.
Print Assumptions C146_defined.

(** The filter of gp_kf.py, run from the same moments along the same path, reports a vanishing fraction of those variances. *)
Theorem C146_script_refuted : forall sde T d C inv s2, (exists p, Sde.discretise sde T 0 = Some p) -> 0 < T ->
  (forall t, 0 <= t <= T -> SdeProofs.nonneg_noise sde t) -> (forall t, 0 <= t <= T -> 0 < Sde.dispersion sde t) -> symmetric d C -> posdef d C -> 0 < s2 ->
  (forall k M, symmetric k M -> posdef k M -> meq k (mmul k (inv k M) M) mid /\ meq k (mmul k M (inv k M)) mid) ->
  forall eps, 0 < eps -> exists h0, 0 < h0 /\ forall n vs yT m0 V0 m V mk Vk, (1 <= n)%nat -> T / INR n <= h0 -> length vs = (n + 1)%nat ->
    ref_moments d (fwd_mean sde (fun _ => 0) T) (fwd_cov sde (joint_cov d C s2) T) yT m0 V0 ->
    exact_scan d (gp_rd d sde T C s2 (inv (2 * d)%nat)) (fun t => Sde.dispersion sde (T - t)) (T / INR n) (kf_elems vs (Sde.linspace 0 T (n + 1))) m0 V0 m V ->
    adhoc_kf d (gp_rd d sde T C s2 (inv (2 * d)%nat)) (fun t => Sde.dispersion sde (T - t)) (T / INR n) (Sde.linspace 0 T (n + 1)) m0 V0 vs mk Vk ->
    forall i, (i < d)%nat -> 0 < V i i /\ Vk i i <= eps * V i i.
Proof. intros sde T d C inv s2 H. apply SdeProofs.discretise_defined in H. exact (filters_differ sde T d C inv s2 H). Qed.
Print Assumptions C146_script_refuted.

(** the setting of the script: ten points, unit kernel and observation variances, its linear SDE; along a constant path a run of the
    exact filter exists on every grid *)
Example C146_example : let sde := Sde.LinSDE (2/100) 4 0 1 in let C := cov_fn 1 1 (zs_grid 10) (zs_grid 10) in
  (exists p, Sde.discretise sde 1 0 = Some p) /\ (forall t, 0 <= t <= 1 -> SdeProofs.nonneg_noise sde t) /\ (forall t, 0 <= t <= 1 -> 0 < Sde.dispersion sde t) /\ symmetric 10 C /\ posdef 10 C /\
  (forall k M, symmetric k M -> posdef k M -> meq k (mmul k (CholFun.cho_inv k M) M) mid /\ meq k (mmul k M (CholFun.cho_inv k M)) mid) /\
  (forall n, (1 <= n)%nat -> exists m0 V0 m V, ref_moments 10 (fwd_mean sde (fun _ => 0) 1) (fwd_cov sde (joint_cov 10 C 1) 1) (fun _ => 1) m0 V0 /\
    exact_scan 10 (gp_rd 10 sde 1 C 1 (CholFun.cho_inv 20)) (fun t => Sde.dispersion sde (1 - t)) (1 / INR n) (kf_elems (repeat (fun _ => 1) (n + 1)) (Sde.linspace 0 1 (n + 1))) m0 V0 m V).
Proof.
  intros sde C. assert (Hd : exists p, Sde.discretise sde 1 0 = Some p) by (apply SdeProofs.discretise_defined; cbn; lra).
  assert (Hbeta : forall t, 0 <= t <= 1 -> 0 < Sde.beta (2/100) 4 0 1 t) by (intros t Ht; unfold Sde.beta; assert (0 <= (4 - 2/100) * t) by (apply Rmult_le_pos; lra); lra).
  assert (Hn : forall t, 0 <= t <= 1 -> SdeProofs.nonneg_noise sde t) by (intros t Ht; cbn; specialize (Hbeta t Ht); lra).
  assert (Hb : forall t, 0 <= t <= 1 -> 0 < Sde.dispersion sde t) by (intros t Ht; cbn [Sde.dispersion sde]; apply sqrt_lt_R0; now apply Hbeta).
  destruct (cov_fn_posdef 10 1 1 (zs_grid 10) ltac:(lra) ltac:(lra) (zs_grid_increasing 10)) as [C1 C2].
  assert (HI : forall k M, symmetric k M -> posdef k M -> meq k (mmul k (CholFun.cho_inv k M) M) mid /\ meq k (mmul k M (CholFun.cho_inv k M)) mid) by (intros k M; apply CholFun.cho_inv_correct).
  split; [exact Hd|]. split; [exact Hn|]. split; [exact Hb|]. split; [exact C1|]. split; [exact C2|]. split; [exact HI|].
  intros n Hn1. exact (C146_defined sde 1 10 C CholFun.cho_inv 1 Hd ltac:(lra) Hn Hb C1 C2 ltac:(lra) HI n _ _ Hn1).
Qed.

(** ** C147 *)
(** Along any path (v0 the terminal value, the last of [vs] the observation) the mean of the same filter differs from the GP posterior
    mean given the observation by at most K dt times the size of the path: the sum over its steps of dt |v| + |change of v|. *)
Theorem C147_posterior_mean : forall sde T d C inv s2, (exists p, Sde.discretise sde T 0 = Some p) -> 0 < T ->
  (forall t, 0 <= t <= T -> SdeProofs.nonneg_noise sde t) -> (forall t, 0 <= t <= T -> 0 < Sde.dispersion sde t) -> symmetric d C -> posdef d C -> 0 < s2 ->
  (forall k M, symmetric k M -> posdef k M -> meq k (mmul k (inv k M) M) mid /\ meq k (mmul k M (inv k M)) mid) ->
  exists K, 0 <= K /\ forall n v0 vs m0 V0 m V, (1 <= n)%nat -> T / INR n <= 1 -> length vs = n ->
    ref_moments d (fwd_mean sde (fun _ => 0) T) (fwd_cov sde (joint_cov d C s2) T) v0 m0 V0 ->
    exact_scan d (gp_rd d sde T C s2 (inv (2 * d)%nat)) (fun t => Sde.dispersion sde (T - t)) (T / INR n) (kf_elems (v0 :: vs) (Sde.linspace 0 T (n + 1))) m0 V0 m V ->
    forall i, (i < d)%nat -> Rabs (m i - gp_mean d C (inv d) s2 (last vs v0) i) <= K * (T / INR n) * path_cost d (T / INR n) (combine vs (removelast (v0 :: vs))).
Proof. intros sde T d C inv s2 H. apply SdeProofs.discretise_defined in H. exact (filter_mean sde T d C inv s2 H). Qed.
Print Assumptions C147_posterior_mean.

(** So for paths with entries up to M moving at most q sqrt dt per step, as diffusion paths do, the error is of the order of sqrt dt. *)
Theorem C147_diffusion_paths : forall sde T d C inv s2, (exists p, Sde.discretise sde T 0 = Some p) -> 0 < T ->
  (forall t, 0 <= t <= T -> SdeProofs.nonneg_noise sde t) -> (forall t, 0 <= t <= T -> 0 < Sde.dispersion sde t) -> symmetric d C -> posdef d C -> 0 < s2 ->
  (forall k M, symmetric k M -> posdef k M -> meq k (mmul k (inv k M) M) mid /\ meq k (mmul k M (inv k M)) mid) ->
  exists K, 0 <= K /\ forall n v0 vs m0 V0 m V M q, (1 <= n)%nat -> T / INR n <= 1 -> length vs = n -> 0 <= M -> 0 <= q ->
    (forall v i, In v (v0 :: vs) -> (i < d)%nat -> Rabs (v i) <= M) -> (forall p i, In p (combine vs (removelast (v0 :: vs))) -> (i < d)%nat -> Rabs (fst p i - snd p i) <= q * sqrt (T / INR n)) ->
    ref_moments d (fwd_mean sde (fun _ => 0) T) (fwd_cov sde (joint_cov d C s2) T) v0 m0 V0 ->
    exact_scan d (gp_rd d sde T C s2 (inv (2 * d)%nat)) (fun t => Sde.dispersion sde (T - t)) (T / INR n) (kf_elems (v0 :: vs) (Sde.linspace 0 T (n + 1))) m0 V0 m V ->
    forall i, (i < d)%nat -> Rabs (m i - gp_mean d C (inv d) s2 (last vs v0) i) <= K * (M + q) * sqrt (T / INR n).
Proof. intros sde T d C inv s2 H. apply SdeProofs.discretise_defined in H. exact (filter_mean_rough sde T d C inv s2 H). Qed.
Print Assumptions C147_diffusion_paths.

(** the setting of the script, along the constant path 1: a run exists on every grid, the path has size at most 10, and the posterior mean it is compared with is that of the observation 1 *)
Example C147_example : let sde := Sde.LinSDE (2/100) 4 0 1 in let C := cov_fn 1 1 (zs_grid 10) (zs_grid 10) in
  forall n, (1 <= n)%nat -> let v1 := fun _ : nat => 1 in let vs := repeat v1 n in
  (exists m0 V0 m V, ref_moments 10 (fwd_mean sde (fun _ => 0) 1) (fwd_cov sde (joint_cov 10 C 1) 1) v1 m0 V0 /\
    exact_scan 10 (gp_rd 10 sde 1 C 1 (CholFun.cho_inv 20)) (fun t => Sde.dispersion sde (1 - t)) (1 / INR n) (kf_elems (v1 :: vs) (Sde.linspace 0 1 (n + 1))) m0 V0 m V) /\
  length vs = n /\ path_cost 10 (1 / INR n) (combine vs (removelast (v1 :: vs))) <= 10 /\ last vs v1 = v1.
Proof.
  intros sde C n Hn1 v1 vs. destruct C146_example as (Hd & Hn & Hb & C1 & C2 & HI & _). fold sde C in Hd, Hn, Hb, C1, C2.
  assert (HV : forall v, In v vs -> v = v1) by (intros v Hv; exact (repeat_spec _ _ _ Hv)).
  assert (Hn0 : 0 < INR n) by (apply lt_0_INR; lia). split; [exact (C146_defined sde 1 10 C CholFun.cho_inv 1 Hd ltac:(lra) Hn Hb C1 C2 ltac:(lra) HI n _ _ Hn1)|]. split; [apply repeat_length|]. split.
  - assert (RL : length (combine vs (removelast (v1 :: vs))) = n) by (rewrite combine_length, removelast_firstn_len, firstn_length; cbn [length]; unfold vs; rewrite repeat_length; lia).
    assert (RR : removelast (v1 :: vs) = vs) by (unfold vs; clear; induction n as [|n IH]; [reflexivity|]; cbn [repeat] in *; change (v1 :: removelast (v1 :: repeat v1 n) = v1 :: repeat v1 n); now rewrite IH).
    eapply Rle_trans; [apply (path_cost_bound 10 (1 / INR n) _ 1 0)|].
    + left. apply Rdiv_lt_0_compat; lra.
    + intros [v w] i Hp Hi. rewrite RR in Hp. pose proof (in_combine_l _ _ _ _ Hp) as Q1. pose proof (in_combine_r _ _ _ _ Hp) as Q2. apply HV in Q1, Q2. cbn [fst snd]. rewrite Q1, Q2. unfold v1. rewrite Rminus_eq_0, Rabs_R0, Rabs_R1. lra.
    + rewrite RL. right. cbn [INR]. field. lra.
  - unfold vs. clear - Hn1. destruct n as [|n]; [lia|]. clear. induction n as [|n IH]; [reflexivity|]. cbn [repeat] in *. exact IH.
Qed.

(** ** C148 *)
(** The mean of the filter of gp_kf.py does not find the posterior mean: whenever some direction x has x'Cx < s2 |x|^2, there is an
    observation y such that along the path that is zero until its last step and then y, on every fine grid, the returned mean is
    at least del away from the posterior mean given y. *)
Theorem C148_refuted : forall sde T d C inv s2, (exists p, Sde.discretise sde T 0 = Some p) -> 0 < T ->
  (forall t, 0 <= t <= T -> SdeProofs.nonneg_noise sde t) -> (forall t, 0 <= t <= T -> 0 < Sde.dispersion sde t) -> symmetric d C -> posdef d C -> 0 < s2 ->
  (forall k M, symmetric k M -> posdef k M -> meq k (mmul k (inv k M) M) mid /\ meq k (mmul k M (inv k M)) mid) ->
  (exists x, quad d C x < s2 * dot d x x) -> exists (y : vec) del h0, 0 < del /\ 0 < h0 /\ forall n m0 V0 m V, (1 <= n)%nat -> T / INR n <= h0 -> let z : vec := fun _ => 0 in
    ref_moments d (fwd_mean sde (fun _ => 0) T) (fwd_cov sde (joint_cov d C s2) T) z m0 V0 ->
    adhoc_kf d (gp_rd d sde T C s2 (inv (2 * d)%nat)) (fun t => Sde.dispersion sde (T - t)) (T / INR n) (Sde.linspace 0 T (n + 1)) m0 V0 (repeat z n ++ [y]) m V ->
    del <= norm1 d (vsub m (gp_mean d C (inv d) s2 y)).
Proof. intros sde T d C inv s2 H. apply SdeProofs.discretise_defined in H. exact (kf_mean_refuted sde T d C inv s2 H). Qed.
Print Assumptions C148_refuted.

(** The exact filter finds it along the same path, for every y. *)
Theorem C148_exact_filter : forall sde T d C inv s2, (exists p, Sde.discretise sde T 0 = Some p) -> 0 < T ->
  (forall t, 0 <= t <= T -> SdeProofs.nonneg_noise sde t) -> (forall t, 0 <= t <= T -> 0 < Sde.dispersion sde t) -> symmetric d C -> posdef d C -> 0 < s2 ->
  (forall k M, symmetric k M -> posdef k M -> meq k (mmul k (inv k M) M) mid /\ meq k (mmul k M (inv k M)) mid) ->
  exists K, 0 <= K /\ forall n m0 V0 m V (y : vec), (1 <= n)%nat -> T / INR n <= 1 -> let z : vec := fun _ => 0 in
    ref_moments d (fwd_mean sde (fun _ => 0) T) (fwd_cov sde (joint_cov d C s2) T) z m0 V0 ->
    exact_scan d (gp_rd d sde T C s2 (inv (2 * d)%nat)) (fun t => Sde.dispersion sde (T - t)) (T / INR n) (kf_elems (repeat z n ++ [y]) (Sde.linspace 0 T (n + 1))) m0 V0 m V ->
    norm1 d (vsub m (gp_mean d C (inv d) s2 y)) <= K * (T / INR n) * norm1 d y.
Proof. intros sde T d C inv s2 H. apply SdeProofs.discretise_defined in H. exact (exact_mean_jump sde T d C inv s2 H). Qed.
Print Assumptions C148_exact_filter.

(** the setting of the script has such a direction, and the filter of gp_kf.py runs from the reference moments along every such path *)
Example C148_example : let sde := Sde.LinSDE (2/100) 4 0 1 in let C := cov_fn 1 1 (zs_grid 10) (zs_grid 10) in let z : vec := fun _ => 0 in
  (exists x, quad 10 C x < 1 * dot 10 x x) /\
  forall n y, (1 <= n)%nat -> exists m0 V0 m V, ref_moments 10 (fwd_mean sde (fun _ => 0) 1) (fwd_cov sde (joint_cov 10 C 1) 1) z m0 V0 /\
    adhoc_kf 10 (gp_rd 10 sde 1 C 1 (CholFun.cho_inv 20)) (fun t => Sde.dispersion sde (1 - t)) (1 / INR n) (Sde.linspace 0 1 (n + 1)) m0 V0 (repeat z n ++ [y]) m V.
Proof.
  intros sde C z. destruct C146_example as (Hd & Hn & Hb & C1 & C2 & HI & _). fold sde C in Hd, Hn, Hb, C1, C2. split.
  - exists (vsub (unit 0) (unit 1)). assert (Q : quad 10 C (vsub (unit 0) (unit 1)) = C 0%nat 0%nat - C 0%nat 1%nat - C 1%nat 0%nat + C 1%nat 1%nat).
    { rewrite quad_dot. rewrite dot_sub_l, !(dot_comm 10 (unit _)), !dot_unit by lia. rewrite (mvec_sub_r 10 C (unit 0) (unit 1) 0%nat ltac:(lia)), (mvec_sub_r 10 C (unit 0) (unit 1) 1%nat ltac:(lia)). unfold vsub. rewrite !mvec_unit by lia. ring. }
    assert (D : dot 10 (vsub (unit 0) (unit 1)) (vsub (unit 0) (unit 1)) = 2) by (unfold dot, vsub, unit, mid; cbn [seq map Rsum Nat.eqb]; ring). rewrite Q, D. unfold C, cov_fn. rewrite !Rminus_eq_0, Rabs_R0.
    pose proof (exp_pos (- Rabs (zs_grid 10 1%nat - zs_grid 10 0%nat) / 1)). pose proof (exp_pos (- Rabs (zs_grid 10 0%nat - zs_grid 10 1%nat) / 1)). replace (-0 / 1) with 0 by field. rewrite exp_0. lra.
  - intros n y Hn1. destruct (C146_defined sde 1 10 C CholFun.cho_inv 1 Hd ltac:(lra) Hn Hb C1 C2 ltac:(lra) HI n [] z Hn1) as (m0 & V0 & _ & _ & HR & _).
    destruct (spectral_theorem 10 C C1) as (lam & E & HE). pose proof Hd as Hd'. apply SdeProofs.discretise_defined in Hd'.
    destruct (start_ok sde 1 10 C 1 Hd' ltac:(lra) Hn C2 ltac:(lra) lam E HE z m0 V0 HR) as [S0 P0]. apply posdef_psd in P0.
    destruct (kf_defined sde 1 10 C CholFun.cho_inv 1 Hd' ltac:(lra) Hn Hb C1 C2 ltac:(lra) HI n (repeat z n ++ [y]) m0 V0 Hn1 S0 P0) as (m & V & Hr). exists m0, V0, m, V. split; [exact HR|exact Hr].
Qed.

(** The script as it stands, with either of its SDEs and any number (at least two) of points: there is an observation for which,
    on every fine grid, the filter runs from the reference moments along the path above and every mean it returns is del away. *)
Theorem C148_script_refuted : forall d sde, (2 <= d)%nat -> sde = Sde.ConstSDE (- (1 / 2)) 1 \/ sde = Sde.LinSDE (2/100) 4 0 1 ->
  let C := cov_fn 1 1 (zs_grid d) (zs_grid d) in let z : vec := fun _ => 0 in exists (y : vec) del n0, 0 < del /\ forall n, (n0 <= n)%nat ->
  let run m0 V0 m V := ref_moments d (fwd_mean sde (fun _ => 0) 1) (fwd_cov sde (joint_cov d C 1) 1) z m0 V0 /\
    adhoc_kf d (gp_rd d sde 1 C 1 (CholFun.cho_inv (2 * d))) (fun t => Sde.dispersion sde (1 - t)) (1 / INR n) (Sde.linspace 0 1 (n + 1)) m0 V0 (repeat z n ++ [y]) m V in
  (exists m0 V0 m V, run m0 V0 m V) /\ forall m0 V0 m V, run m0 V0 m V -> del <= norm1 d (vsub m (gp_mean d C (CholFun.cho_inv d) 1 y)).
Proof. exact kf_script_wrong. Qed.
Print Assumptions C148_script_refuted.
