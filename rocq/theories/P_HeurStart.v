(** Property C134: where the noised observation path of the bridge filter starts. *)
From Coquelicot Require Import Coquelicot.
From Coq Require Import Reals List Bool Lia Lra.
From Verif Require Mat MatMore Toy ToyMore GaussDiv GpStart.
From Verif Require Import Base Dist Prog Smc CsmcProofs CsmcInv SmcProofs Pmcmc FilterLimit FilterSlot Demo RevError HeurStart.
Import ListNotations.
Open Scope R_scope.

(** With the exact reverse process and x0 drawn from the posterior, the filtering law averaged over the noised observation path is the posterior. *)
Theorem C134_proper_start :
  forall (U V : Type) (udef : U) (vdef : V) (P0 : dist V) (k0 : V -> dist U) (p : R -> U -> V -> dist (U * V))
    (m0 : V -> dist U) (M : V -> R -> U -> dist U) (lg : V -> V -> R -> U -> R) veq,
  is_prob P0 -> (forall v, is_prob (k0 v)) -> (forall t u v, is_prob (p t u v)) -> exact_reverse k0 p m0 M lg veq ->
  forall ts, ts <> [] -> forall Dy post Fwd, noising P0 k0 p ts Dy post Fwd ->
  forall y phi, In y (map snd Dy) ->
  E (obs_path Fwd (post y) y) (fun ys => E (filter_target vdef M lg m0 (rev ys) ts) (fun us => phi (last us udef)) / E (filter_target vdef M lg m0 (rev ys) ts) (fun _ => 1)) = E (post y) phi.
Proof. exact @proper_start. Qed.

(** The whole experiment with killing resampling and any start: the error is the distance of the start from the posterior, shrunk by the part of the
    noised observation path that does not depend on x0, plus the Monte Carlo error. *)
Theorem C134_any_start_killing :
  forall (U V : Type) (udef : U) (vdef : V) trans meas (m0 : V -> dist U) (M : V -> R -> U -> dist U) (lg : V -> V -> R -> U -> R),
  (forall v, is_prob (m0 v)) -> filter_ok trans meas killing M lg ->
  forall (Fwd : U -> V -> dist (list (U * V))) simulate, (forall k x y, denotes (simulate k x y) (Fwd x y)) ->
  forall init, (forall k v n, denotes (init k v n) (dseq (repeat (m0 v) n))) ->
  forall (P0 : dist V) (k0 : V -> dist U) (p : R -> U -> V -> dist (U * V)) veq,
  is_prob P0 -> (forall v, is_prob (k0 v)) -> (forall t u v, is_prob (p t u v)) -> exact_reverse k0 p m0 M lg veq ->
  forall ts Dy post, ts <> [] -> noising P0 k0 p ts Dy post Fwd ->
  forall nu x0_sampler y n k phi B G z delta eps, is_prob nu -> (forall k, denotes (x0_sampler k) nu) -> In y (map snd Dy) -> (0 < n)%nat ->
  tv_within nu (post y) delta -> path_overlap Fwd y eps -> 0 < z -> 0 <= G ->
  (forall x pth, In x (map snd nu) -> In pth (map snd (Fwd x y)) -> let vs := rev (map snd pth) in
     (forall v vp t, In (v, vp, t) (step_data vs ts) -> forall u, exp (lg v vp t u) <= G) /\ z <= E (filter_target vdef M lg m0 vs ts) (fun _ => 1)) ->
  (forall u, Rabs (phi u) <= B) ->
  Rabs (law (conditional_sampler udef vdef trans meas killing (fwd_ys_sampler x0_sampler simulate y) ts init n k) phi - E (post y) phi)
  <= 2 * delta * ((1 - eps) * B) + sqrt (/ INR n * ((2 * INR (length ts - 1) + 1) * G ^ (2 * (length ts - 1)) * B ^ 2 / z ^ 2)).
Proof.
  intros U V udef vdef trans meas m0 M lg Hm0 Hfo Fwd simulate Hsim init Hinit P0 k0 p veq HP0 Hk0 Hp HX ts Dy post Hts HN nu xs y n k phi B G z delta eps Hnu Hxs Hy Hn Htv Hov Hz HG Hb HB.
  apply (start_experiment udef vdef trans meas killing m0 M lg Hm0 Hfo Fwd simulate Hsim killing_consistent killing_dist) with (init := init) (P0 := P0) (k0 := k0) (p := p) (veq := veq) (Dy := Dy) (nu := nu); try assumption.
  - intros. now apply killing_denotes.
  - intros w A. apply killing_dist_valid.
  - exact killing_equivariant.
  - intros x pth Hx Hpth vs. destruct (Hb x pth Hx Hpth) as [H1 H2]. split; [|exact H2]. apply Forall_forall. intros [[v vp] t] Hin u. now apply (H1 v vp t).
Qed.

(** Separable noising (the y path does not depend on x0): all starts give the same law, whatever the resampling and the number of particles. *)
Theorem C134_separable_start :
  forall (U V : Type) (udef : U) (vdef : V) trans meas res (Fwd : U -> V -> dist (list (U * V))) simulate, (forall k x y, denotes (simulate k x y) (Fwd x y)) ->
  forall nu nu' x0_sampler x0_sampler' y ts init n k phi, is_prob nu -> is_prob nu' -> (forall k, denotes (x0_sampler k) nu) -> (forall k, denotes (x0_sampler' k) nu') ->
  (forall x x' h, E (Fwd x y) (fun pth => h (map snd pth)) = E (Fwd x' y) (fun pth => h (map snd pth))) ->
  law (conditional_sampler udef vdef trans meas res (fwd_ys_sampler x0_sampler simulate y) ts init n k) phi =
  law (conditional_sampler udef vdef trans meas res (fwd_ys_sampler x0_sampler' simulate y) ts init n k) phi.
Proof. exact @start_irrelevant. Qed.

(** Otherwise a heuristic start does not give the posterior: with the exact reverse process, for every number of particles and every consistent
    resampling the reported sample is off by (2 a - 1)^2 / 2; at a = 1 this is the first term of the bound above. *)
Theorem C134_heuristic_start_refuted :
  forall a, 1/2 < a <= 1 -> exists (P0 : dist bool) k0 p m0 M lg (Fwd : bool -> bool -> dist (list (bool * bool))) Dy post nu trans meas simulate init,
  is_prob P0 /\ (forall v, is_prob (k0 v)) /\ (forall t u v, is_prob (p t u v)) /\ exact_reverse k0 p m0 M lg bool_dec /\ noising P0 k0 p [0; 1] Dy post Fwd /\
  (forall k x y, denotes (simulate k x y) (Fwd x y)) /\ (forall res, good_res res -> filter_ok trans meas res M lg) /\ (forall k v n, denotes (init k v n) (dseq (repeat (m0 v) n))) /\
  is_prob nu /\ In true (map snd Dy) /\ tv_within nu (post true) (1/4) /\ path_overlap Fwd true (2 * (1 - a)) /\
  exists phi, (forall u, Rabs (phi u) <= 1) /\ forall res x0_sampler n k, consistent_res res -> (forall k, denotes (x0_sampler k) nu) -> (0 < n)%nat ->
  0 < (2 * a - 1) ^ 2 / 2 /\
  law (conditional_sampler false false trans meas res (fwd_ys_sampler x0_sampler simulate true) [0; 1] init n k) phi - E (post true) phi = (2 * a - 1) ^ 2 / 2.
Proof.
  intros a Ha. assert (Ha' : 1/2 <= a <= 1) by lra.
  exists coin, (fun _ => coin), (hs_p a), (fun _ => coin), (hs_M a), hs_lg, (hs_Fwd a), coin, (fun _ => coin), hs_nu, (hs_trans a), hs_lik, (hs_sim a), hs_init.
  split; [apply coin_prob|]. split; [intros; apply coin_prob|]. split; [intros; now apply hs_p_prob|]. split; [now apply hs_exact|]. split; [now apply hs_noising|].
  split; [intros; now apply hs_sim_law|]. split; [intros; now apply hs_ok|]. split; [intros; apply fin_draws_denotes|].
  split; [split; [repeat constructor; cbn; lra|unfold hs_nu; rewrite !E_cons, E_nil; lra]|]. split; [cbn; tauto|]. split; [apply hs_tv|]. split; [now apply hs_overlap|].
  exists hs_sign. split; [intros []; unfold hs_sign; [rewrite Rabs_R1|rewrite Rabs_left]; lra|]. intros res xs n k Hcr Hxs Hn. split; [apply Rmult_lt_0_compat; [apply pow_lt|]; lra|].
  rewrite (hs_value a Ha' res xs true n k hs_sign Hcr Hxs Hn). unfold hs_nu, hs_keep, coin, hs_sign. rewrite !E_cons, !E_nil. cbn [negb]. lra.
Qed.

(** [--x0 proper] is not proper either: gp_posterior_sampler never has the posterior covariance, with two or more grid points ... *)
Theorem C134_gp_posterior_sampler_refuted : forall d sigma ell obs_var y0 m_ cov_ L noise, (2 <= d)%nat -> 0 < sigma -> 0 < ell -> 0 < obs_var ->
  GpStart.gp_posterior d (Toy.cov_fn sigma ell (Toy.zs_grid d) (Toy.zs_grid d)) obs_var y0 m_ cov_ -> Toy.cholesky d cov_ L -> Toy.standard d noise ->
  ~ MatMore.has_cov d (dmap (Toy.row_draw d m_ L) noise) m_ cov_.
Proof. exact GpStart.gp_start_wrong. Qed.
(** ... though it is defined (the posterior covariance has a Cholesky factor) *)
Theorem C134_gp_posterior_defined : forall d sigma ell obs_var y0, 0 < sigma -> 0 < ell -> 0 < obs_var ->
  exists m_ cov_ L, GpStart.gp_posterior d (Toy.cov_fn sigma ell (Toy.zs_grid d) (Toy.zs_grid d)) obs_var y0 m_ cov_ /\ Toy.cholesky d cov_ L.
Proof. exact GpStart.gp_posterior_exists. Qed.
Print Assumptions C134_proper_start.
Print Assumptions C134_any_start_killing.
Print Assumptions C134_separable_start.
Print Assumptions C134_heuristic_start_refuted.
Print Assumptions C134_gp_posterior_sampler_refuted.
Print Assumptions C134_gp_posterior_defined.

(** The start and the noising of the observation path draw from separate keys: if each of the two uses its key once, so does the sampler of the path. *)
Theorem C134_path_keys : forall U V (x0_sampler : key -> prog U) (simulate : key -> U -> V -> prog (list (U * V))) y0 k,
  (forall k, good [k] (x0_sampler k)) -> (forall k x y, good [k] (simulate k x y)) -> good [k] (fwd_ys_sampler x0_sampler simulate y0 k).
Proof. intros U V. exact fwd_ys_good. Qed.
Print Assumptions C134_path_keys.

Example C134_path_keys_example : forall k, good [k] (fwd_ys_sampler (fun k => fin_draw false k hs_nu) (hs_sim (3/4)) true k).
Proof. intros k. apply C134_path_keys; [intros; apply good_fin|intros; apply hs_sim_good]. Qed.

(** the model with a = 3/4 and 10^6 particles: the heuristic start is off by at most 1/4 + 1/500 (and by 1/8 at least, by the refutation above) *)
Example C134_example : forall k,
  Rabs (law (conditional_sampler false false (hs_trans (3/4)) hs_lik killing (fwd_ys_sampler (fun k => fin_draw false k hs_nu) (hs_sim (3/4)) true) [0; 1] hs_init (Z.to_nat 1000000) k) hs_sign - E coin hs_sign)
  <= 1/4 + 1/500.
Proof.
  intros k. assert (Hn : INR (Z.to_nat 1000000) = 1000000) by (rewrite INR_IZR_INZ, Z2Nat.id by lia; reflexivity). assert (Ha : 1/2 <= 3/4 <= 1) by lra.
  eapply Rle_trans; [apply (C134_any_start_killing bool bool false false (hs_trans (3/4)) hs_lik (fun _ => coin) (hs_M (3/4)) hs_lg (fun _ => coin_prob) (hs_ok (3/4) Ha killing (cr_good _ killing_consistent))
    (hs_Fwd (3/4)) (hs_sim (3/4)) (hs_sim_law (3/4) Ha) hs_init (fun k _ n => fin_draws_denotes false k (repeat coin n) 0) coin (fun _ => coin) (hs_p (3/4)) bool_dec coin_prob (fun _ => coin_prob) (hs_p_prob (3/4) Ha) (hs_exact (3/4) Ha)
    [0; 1] coin (fun _ => coin) ltac:(discriminate) (hs_noising (3/4) Ha) hs_nu (fun k => fin_draw false k hs_nu) true (Z.to_nat 1000000) k hs_sign 1 (1/2) (1/2) (1/4) (2 * (1 - 3/4)))|].
  - split; [repeat constructor; cbn; lra|unfold hs_nu; rewrite !E_cons, E_nil; lra].
  - intros k'. apply fin_draw_denotes.
  - cbn; tauto.
  - lia.
  - apply hs_tv.
  - now apply hs_overlap.
  - lra.
  - lra.
  - intros x pth _ Hpth. cbv zeta. split.
    + intros v vp t _ u. unfold hs_lg. rewrite exp_ln; lra.
    + rewrite hs_target; [lra|exact Ha|]. rewrite rev_length, map_length. now apply (no_start _ _ _ _ _ _ _ (hs_noising (3/4) Ha) x true).
  - intros []; unfold hs_sign; [rewrite Rabs_R1|rewrite Rabs_left]; lra.
  - rewrite Hn. cbn [length Nat.sub Nat.mul Nat.add INR pow]. apply Rplus_le_compat; [lra|]. rewrite <- (sqrt_pow2 (1/500)) by lra. apply sqrt_le_1; lra.
Qed.
(** the kernel and noise of sb/filter.py, d = 10 *)
Example C134_gp_example : exists m_ cov_ L noise, GpStart.gp_posterior 10 (Toy.cov_fn 1 1 (Toy.zs_grid 10) (Toy.zs_grid 10)) (1/10) (fun _ => 1) m_ cov_ /\ Toy.cholesky 10 cov_ L /\ Toy.standard 10 noise /\
  ~ MatMore.has_cov 10 (dmap (Toy.row_draw 10 m_ L) noise) m_ cov_.
Proof.
  destruct (C134_gp_posterior_defined 10 1 1 (1/10) (fun _ => 1)) as (m_ & cov_ & L & H1 & H2); try lra. destruct (Toy.standard_exists 10) as [noise Hs]; [lia|].
  exists m_, cov_, L, noise. repeat (split; [assumption|]). apply (C134_gp_posterior_sampler_refuted 10 1 1 (1/10) (fun _ => 1) m_ cov_ L noise); try assumption; try lra; lia.
Qed.
