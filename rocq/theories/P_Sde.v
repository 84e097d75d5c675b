(** Properties of the linear SDEs, their simulators and training losses (fbs/sdes/linear.py). *)
From Coquelicot Require Import Coquelicot.
From Verif Require Import SdeMore.
Open Scope R_scope.

(** ** C29 *)
Theorem C29_discretisation_composes : forall sde s t u F1 Q1 F2 Q2 F Q,
  discretise sde t s = Some (F1, Q1) -> discretise sde u t = Some (F2, Q2) -> discretise sde u s = Some (F, Q) ->
  F = F2 * F1 /\ Q = F2 * F2 * Q1 + Q2.
Proof.
  intros sde s t u F1 Q1 F2 Q2 F Q H1 H2 H3.
  assert (Hd : sde_defined sde) by (apply (discretise_defined sde t s); eexists; exact H1).
  rewrite discretise_FQ in H1, H2, H3 by assumption. injection H1 as H1. injection H2 as H2. injection H3 as H3.
  pose proof (FQ_compose sde s t u Hd) as H. rewrite H1, H2, H3 in H. exact H.
Qed.
Print Assumptions C29_discretisation_composes.

Theorem C29_discretisation_identity : forall sde s p, discretise sde s s = Some p -> p = (1, 0).
Proof.
  intros sde s p H. assert (Hd : sde_defined sde) by (apply (discretise_defined sde s s); eexists; exact H).
  rewrite discretise_FQ in H by assumption. injection H as <-. now apply FQ_id.
Qed.
Print Assumptions C29_discretisation_identity.

(** the values are defined exactly when no divisor vanishes *)
Theorem C29_discretisation_defined : forall sde t s, (exists p, discretise sde t s = Some p) <->
  match sde with ConstSDE a _ => a <> 0 | LinSDE _ _ t0 T => T <> t0 | ExpSDE a _ c _ => a <> 0 /\ c <> 0 | OtherSDE => False end.
Proof. exact discretise_defined. Qed.
Print Assumptions C29_discretisation_defined.

Example C29_example : exists F1 Q1 F2 Q2 F Q, let sde := LinSDE (2/100) 5 0 2 in
  discretise sde 1 0 = Some (F1, Q1) /\ discretise sde 2 1 = Some (F2, Q2) /\ discretise sde 2 0 = Some (F, Q) /\ F1 <> F2 /\ 0 < Q.
Proof.
  do 6 eexists. cbv zeta. repeat split; try (rewrite discretise_FQ by (cbn; lra); reflexivity).
  - cbn [FQ]. intros H. apply exp_inv in H. unfold beta_integral in H. lra.
  - apply (Q_pos (LinSDE (2/100) 5 0 2) 2 0); [cbn; lra|lra|]. cbn [noisy_between]. unfold beta. lra.
Qed.

(** ** C30 *)
Theorem C30_transition_solves_mean_equation : forall sde t s, (exists p, discretise sde t s = Some p) ->
  fst (FQ sde s s) = 1 /\ is_derive (fun t => fst (FQ sde t s)) t (drift_coef sde t * fst (FQ sde t s)).
Proof. intros sde t s H. apply discretise_defined in H. split; [now rewrite FQ_id|now apply F_derive]. Qed.
Print Assumptions C30_transition_solves_mean_equation.

Theorem C30_variance_solves_variance_equation : forall sde t s, (exists p, discretise sde t s = Some p) -> nonneg_noise sde t ->
  snd (FQ sde s s) = 0 /\
  is_derive (fun t => snd (FQ sde t s)) t (2 * drift_coef sde t * snd (FQ sde t s) + dispersion sde t * dispersion sde t).
Proof. intros sde t s H Hn. apply discretise_defined in H. split; [now rewrite FQ_id|now apply Q_derive]. Qed.
Print Assumptions C30_variance_solves_variance_equation.

(** [discretise] returns [FQ]; [drift x t] is [drift_coef t * x] *)
Theorem C30_what_is_returned : forall sde t s p x, discretise sde t s = Some p -> p = FQ sde t s /\ drift sde x t = map (fun a => drift_coef sde t * a) x.
Proof. intros sde t s p x H. split; [now apply discretise_Some in H as [H _]|reflexivity]. Qed.
Print Assumptions C30_what_is_returned.

Theorem C30_variance_nonneg : forall sde t s F Q, discretise sde t s = Some (F, Q) -> s <= t -> noise_on sde s t -> 0 <= Q /\ 0 < F.
Proof.
  intros sde t s F Q H Hst Hn. assert (Hd : sde_defined sde) by (apply (discretise_defined sde t s); eexists; exact H).
  rewrite discretise_FQ in H by assumption. injection H as H. pose proof (Q_nonneg sde t s Hd Hst Hn) as HQ. rewrite H in HQ. split; [exact HQ|].
  destruct sde; cbn [FQ] in H; try contradiction; injection H as <- _; apply exp_pos.
Qed.
Print Assumptions C30_variance_nonneg.

(** a vanishing drift is a legitimate SDE (Brownian motion: F = 1, Q = b^2 (t - s)) on which the code divides by zero *)
Theorem C30_zero_drift_not_supported : exists sde, (forall t, drift_coef sde t = 0 /\ dispersion sde t = 1) /\ forall t s, discretise sde t s = None.
Proof.
  exists (ConstSDE 0 1). split; [intros; split; reflexivity|]. intros t s. unfold discretise. destruct (Req_EM_T 0 0); [reflexivity|contradiction].
Qed.
Print Assumptions C30_zero_drift_not_supported.

Example C30_example : let sde := ExpSDE (Ropp 1) 2 (Ropp 3) (1/2) in
  (exists p, discretise sde 2 1 = Some p) /\ nonneg_noise sde 2 /\ noise_on sde 1 2 /\ drift_coef sde 2 <> 0.
Proof.
  cbv zeta. split; [apply discretise_defined; cbn; lra|]. split; [exact I|]. split; [exact I|]. cbn [drift_coef].
  pose proof (exp_pos (Ropp 3 * (2 - 1/2))). lra.
Qed.

(** ** C31 *)
Theorem C31_schedule : forall m M t0 T, T <> t0 ->
  beta m M t0 T t0 = m /\ beta m M t0 T T = M /\ forall l, beta m M t0 T (t0 + l * (T - t0)) = m + l * (M - m).
Proof. intros m M t0 T H. split; [now apply beta_t0|]. split; [now apply beta_T|]. intros l. now apply beta_affine. Qed.
Print Assumptions C31_schedule.

Theorem C31_schedule_range : forall m M t0 T t, t0 < T -> t0 <= t <= T -> Rmin m M <= beta m M t0 T t <= Rmax m M.
Proof. exact beta_range. Qed.
Print Assumptions C31_schedule_range.

Theorem C31_schedule_integral : forall m M t0 T s t, is_RInt (V := R_NormedModule) (beta m M t0 T) s t (beta_integral m M t0 T t s).
Proof. exact beta_integral_RInt. Qed.
Print Assumptions C31_schedule_integral.

Example C31_example : beta (2/100) 5 0 2 1 = 251/100 /\ beta_integral (2/100) 5 0 2 2 0 = 502/100.
Proof. unfold beta, beta_integral. lra. Qed.

(** ** C32 *)
Theorem C32_mean_variance_methods : forall sde t s m0 m v F Q,
  sde_mean sde t s m0 = Some m -> sde_variance sde t s = Some v -> discretise sde t s = Some (F, Q) ->
  m = map (fun a => F * a) m0 /\ v = Q.
Proof.
  intros sde t s m0 m v F Q Hm Hv HF. assert (Hb : bridgeable sde) by (destruct sde; cbn in *; try exact I; discriminate).
  apply discretise_Some in HF as [HF _]. rewrite sde_mean_FQ in Hm by assumption. rewrite sde_variance_FQ in Hv by assumption.
  rewrite <- HF in Hm, Hv. injection Hm as <-. injection Hv as <-. split; reflexivity.
Qed.
Print Assumptions C32_mean_variance_methods.

(** a law with mean 0 and the stationary variance keeps that variance under every transition *)
Theorem C32_stationary_law : forall sde t s F Q, discretise sde t s = Some (F, Q) ->
  let v := match sde with LinSDE _ _ _ _ => 1 | ConstSDE a b | ExpSDE a b _ _ => - (b * b) / (2 * a) | OtherSDE => 0 end in
  F * 0 = 0 /\ F * F * v + Q = v.
Proof.
  intros sde t s F Q H v. assert (Hd : sde_defined sde) by (apply (discretise_defined sde t s); eexists; exact H).
  apply discretise_Some in H as [H _]. split; [ring|]. pose proof (stationary_preserved sde t s Hd) as Hs. rewrite <- H in Hs. exact Hs.
Qed.
Print Assumptions C32_stationary_law.

(** the exponential class has no mean/variance methods *)
Theorem C32_exponential_has_no_methods : exists sde t s m0, (exists p, discretise sde t s = Some p) /\ sde_mean sde t s m0 = None /\ sde_variance sde t s = None.
Proof. exists (ExpSDE 1 1 1 0), 1, 0, [1]. split; [apply discretise_defined; cbn; lra|split; reflexivity]. Qed.
Print Assumptions C32_exponential_has_no_methods.

Example C32_example : exists m v F Q, let sde := ConstSDE (Ropp (1/2)) 1 in
  sde_mean sde 2 1 [3; 4] = Some m /\ sde_variance sde 2 1 = Some v /\ discretise sde 2 1 = Some (F, Q) /\ - (1 * 1) / (2 * Ropp (1/2)) = 1.
Proof. do 4 eexists. cbv zeta. split; [reflexivity|]. split; [reflexivity|]. split; [rewrite discretise_FQ by (cbn; lra); reflexivity|field; lra]. Qed.

(** ** C33 *)
Theorem C33_score_is_gradient : forall sde x x0 t s F Q i, discretise sde t s = Some (F, Q) -> 0 < Q -> length x = length x0 -> (i < length x)%nat ->
  length (cond_score sde x t x0 s) = length x /\
  is_derive (gauss_logpdf (F * nth i x0 0) Q) (nth i x 0) (nth i (cond_score sde x t x0 s) 0).
Proof.
  intros sde x x0 t s F Q i H HQ Hl Hi. apply discretise_Some in H as [H _]. unfold cond_score. rewrite <- H.
  split; [now apply length_score_of|]. apply (score_derive (F, Q)); assumption.
Qed.
Print Assumptions C33_score_is_gradient.

(** [gauss_logpdf m v] is the log-density of N(m, v) *)
Theorem C33_gauss_logpdf : forall m v x, 0 < v -> exp (gauss_logpdf m v x) = / sqrt (2 * PI * v) * exp (- ((x - m) * (x - m)) / (2 * v)).
Proof.
  intros m v x Hv. unfold gauss_logpdf. assert (Hp : 0 < 2 * PI * v) by (pose proof PI_RGT_0; nra).
  unfold Rminus at 1. rewrite exp_plus. f_equal.
  - replace (- ln (2 * PI * v) / 2) with (- (ln (2 * PI * v) / 2)) by lra. rewrite exp_Ropp. f_equal.
    assert (E : ln (2 * PI * v) / 2 = ln (sqrt (2 * PI * v))).
    { rewrite <- (sqrt_sqrt (2 * PI * v)) at 1 by lra. rewrite ln_mult by (now apply sqrt_lt_R0). lra. }
    rewrite E. apply exp_ln, sqrt_lt_R0. assumption.
  - f_equal. field. lra.
Qed.
Print Assumptions C33_gauss_logpdf.

Example C33_example : exists F Q, discretise (ConstSDE (Ropp (1/2)) 1) 1 0 = Some (F, Q) /\ 0 < Q.
Proof. do 2 eexists. split; [rewrite discretise_FQ by (cbn; lra); reflexivity|]. apply (Q_pos (ConstSDE (Ropp (1/2)) 1) 1 0); cbn; lra. Qed.

(** ** C34: the noise rows are [d] uncorrelated entries of mean 0 and variance 1 ([white]), independent between steps *)
Theorem C34_path_shape : forall disc x0 ts rnds d, ts <> [] -> length x0 = d -> length rnds = (length ts - 1)%nat -> Forall (fun r => length r = d) rnds ->
  length (exact_path disc x0 ts rnds) = length ts /\ Forall (fun x => length x = d) (exact_path disc x0 ts rnds) /\ nth 0 (exact_path disc x0 ts rnds) [] = x0.
Proof.
  intros disc x0 ts rnds d H1 H2 H3 H4. destruct (exact_path_shape disc d x0 ts rnds H1 H2 H3 H4) as [Ha Hb]. split; [exact Ha|]. split; [exact Hb|].
  now destruct ts.
Qed.
Print Assumptions C34_path_shape.

(** X_k is an explicit affine function of x0 and the noise, so the joint law is determined by that of the noise *)
Theorem C34_path_explicit : forall sde x t ts rnds k i, (exists p, discretise sde t t = Some p) ->
  length rnds = length ts -> Forall (fun r => length r = length x) rnds -> (i < length x)%nat -> (k < length ts)%nat ->
  let T := fun m => nth m (t :: ts) 0 in
  nth i (nth (S k) (exact_path (FQ sde) x (t :: ts) rnds) []) 0 =
  fst (FQ sde (T (S k)) t) * nth i x 0 +
  Rsum (map (fun m => fst (FQ sde (T (S k)) (T (S m))) * (sqrt (snd (FQ sde (T (S m)) (T m))) * nth i (nth m rnds []) 0)) (seq 0 (S k))).
Proof.
  intros sde x t ts rnds k i Hd Hl HF Hi Hk T. apply discretise_defined in Hd.
  exact (path_scan_explicit (FQ sde) (FQ_flow sde Hd) ts x t rnds k i Hl HF Hi Hk).
Qed.
Print Assumptions C34_path_explicit.

Theorem C34_path_mean : forall sde d row ts x0 k i, (forall t s, exists p, discretise sde t s = Some p) -> white d row ->
  length x0 = d -> (i < d)%nat -> (k < length ts)%nat ->
  E (dseq (repeat row (length ts - 1))) (fun rnds => nth i (nth k (exact_path (FQ sde) x0 ts rnds) []) 0) = fst (FQ sde (nth k ts 0) (nth 0 ts 0)) * nth i x0 0.
Proof.
  intros sde d row ts x0 k i Hd Hw Hl Hi Hk. specialize (Hd 0 0). apply discretise_defined in Hd.
  exact (path_mean (FQ sde) (FQ_flow sde Hd) d row Hw ts x0 k i Hl Hi Hk).
Qed.
Print Assumptions C34_path_mean.

Theorem C34_path_covariance : forall sde d row ts x0 j k a b, (forall t s, exists p, discretise sde t s = Some p) -> white d row ->
  (forall k, (S k < length ts)%nat -> nth k ts 0 <= nth (S k) ts 0 /\ noise_on sde (nth k ts 0) (nth (S k) ts 0)) ->
  length x0 = d -> (a < d)%nat -> (b < d)%nat -> (j <= k)%nat -> (k < length ts)%nat ->
  let mean m c := fst (FQ sde (nth m ts 0) (nth 0 ts 0)) * nth c x0 0 in
  E (dseq (repeat row (length ts - 1))) (fun rnds => let p := exact_path (FQ sde) x0 ts rnds in
    (nth a (nth j p []) 0 - mean j a) * (nth b (nth k p []) 0 - mean k b)) =
  if Nat.eqb a b then fst (FQ sde (nth k ts 0) (nth j ts 0)) * snd (FQ sde (nth j ts 0) (nth 0 ts 0)) else 0.
Proof.
  intros sde d row ts x0 j k a b Hd Hw Hts Hl Ha Hb Hjk Hk. specialize (Hd 0 0). apply discretise_defined in Hd.
  apply (path_cov (FQ sde) (FQ_flow sde Hd) d row Hw); try assumption. now apply Q_ok_sde.
Qed.
Print Assumptions C34_path_covariance.

(** keep_path=False, one time: the same mean and variance as the path at that time *)
Theorem C34_marginal_scalar_time : forall sde d row x0 t t0, (exists p, discretise sde t t0 = Some p) -> white d row -> length x0 = d -> 0 <= snd (FQ sde t t0) ->
  (forall rnd, exists x, marginal_at sde x0 t t0 rnd = Some x) /\
  (forall i, (i < d)%nat -> E row (fun rnd => match marginal_at sde x0 t t0 rnd with Some x => nth i x 0 | None => 0 end) = fst (FQ sde t t0) * nth i x0 0) /\
  (forall i j, (i < d)%nat -> (j < d)%nat ->
     E row (fun rnd => match marginal_at sde x0 t t0 rnd with Some x => nth i x 0 * nth j x 0 | None => 0 end) =
     fst (FQ sde t t0) * fst (FQ sde t t0) * (nth i x0 0 * nth j x0 0) + (if Nat.eqb i j then snd (FQ sde t t0) else 0)).
Proof. intros sde d row x0 t t0 H. apply discretise_defined in H. exact (marginal_moments sde d row x0 t t0 H). Qed.
Print Assumptions C34_marginal_scalar_time.

(** keep_path=False with the documented array of times: the default t0 fails, n <> d fails, n = d mixes times and coordinates *)
Theorem C34_marginals_array_default_t0_refuted : forall sde x0 ts rnds, marginals_array sde x0 ts None rnds = None.
Proof. exact marginals_array_no_t0. Qed.
Print Assumptions C34_marginals_array_default_t0_refuted.

Theorem C34_marginals_array_shape_refuted : forall sde x0 ts s rnds, length ts <> length x0 -> (2 <= length ts)%nat -> (2 <= length x0)%nat ->
  marginals_array sde x0 ts (Some s) rnds = None.
Proof. exact marginals_array_shape_error. Qed.
Print Assumptions C34_marginals_array_shape_refuted.

Theorem C34_marginals_array_values_refuted : exists sde x0 ts s rnds out k j,
  Forall (Forall (fun r => r = 0)) rnds /\ marginals_array sde x0 ts (Some s) rnds = Some out /\
  (k < length ts)%nat /\ (j < length x0)%nat /\ nth j (nth k out []) 0 <> fst (FQ sde (nth k ts 0) s) * nth j x0 0.
Proof.
  destruct (marginals_array_wrong (ConstSDE 1 1) [1; 1] [1; 2] 0 [[0; 0]; [0; 0]]) as (out & Hout & Hv); try (cbn; lra); try reflexivity.
  { repeat constructor. }
  exists (ConstSDE 1 1), [1; 1], [1; 2], 0, [[0; 0]; [0; 0]], out, 0%nat, 1%nat.
  split; [repeat constructor|]. split; [exact Hout|]. split; [cbn; lia|]. split; [cbn; lia|].
  rewrite (Hv 0%nat 1%nat) by (cbn; lia). cbn [nth FQ fst snd]. intros H.
  assert (H' : exp (1 * (2 - 0)) = exp (1 * (1 - 0))) by lra. apply exp_inv in H'. lra.
Qed.
Print Assumptions C34_marginals_array_values_refuted.

(** the OU helper's keep_path=False starts at time 0 whatever ts[0] is: right iff ts[0] = 0 *)
Theorem C34_ou_marginals : forall a b row x0 ts k f, is_prob row -> (k < length ts)%nat ->
  E (dseq (repeat row (length ts))) (fun rnds => f (nth k (ou_marginals a b x0 ts rnds) [])) =
  E row (fun r => f (move (FQ (ConstSDE a b) (nth k ts 0) 0) x0 r)).
Proof. intros a b row x0 ts k f H Hk. exact (ou_marginals_law a b row x0 f H ts k Hk). Qed.
Print Assumptions C34_ou_marginals.

Definition coin : dist R := [(1/2, 1); (1/2, Ropp 1)].
Lemma coin_white d : white d (dseq (repeat coin d)).
Proof.
  apply white_iid; [|unfold coin, E; cbn [map Rsum fst snd]; lra|unfold coin, E; cbn [map Rsum fst snd]; lra].
  split; [|unfold coin, E; cbn [map fst snd Rsum]; lra]. unfold coin. repeat (apply Forall_cons; [cbn [fst]; lra|]). apply Forall_nil.
Qed.

Theorem C34_ou_marginals_shifted_refuted : exists a b x0 ts k row, a <> 0 /\ white 1 row /\ length x0 = 1%nat /\ (k < length ts)%nat /\
  E (dseq (repeat row (length ts))) (fun rnds => nth 0 (nth k (ou_marginals a b x0 ts rnds) []) 0) <>
  E (dseq (repeat row (length ts - 1))) (fun rnds => nth 0 (nth k (ou_path a b x0 ts rnds) []) 0).
Proof.
  exists (Ropp 1), 1, [1], [1; 2], 1%nat, (dseq (repeat coin 1)). split; [lra|]. split; [apply coin_white|]. split; [reflexivity|]. split; [cbn; lia|].
  rewrite (ou_marginals_law (Ropp 1) 1 (dseq (repeat coin 1)) [1] (fun x => nth 0 x 0) (wh_prob _ _ (coin_white 1)) [1; 2] 1%nat) by (cbn; lia).
  rewrite (E_move_mean 1 _ (coin_white 1)) by (cbn; lia).
  rewrite (E_ext' _ _ (fun rnds => nth 0 (nth 1 (exact_path (FQ (ConstSDE (Ropp 1) 1)) [1] [1; 2] rnds) []) 0)) by (intros; now rewrite ou_path_eq).
  fold (noise (dseq (repeat coin 1)) (length [1; 2] - 1)). rewrite (path_mean (FQ (ConstSDE (Ropp 1) 1)) (FQ_flow (ConstSDE (Ropp 1) 1) ltac:(cbn; lra)) 1 _ (coin_white 1) [1; 2] [1] 1 0) by (cbn; lia).
  cbn [nth FQ fst]. intros H. assert (H' : exp (Ropp 1 * (2 - 0)) = exp (Ropp 1 * (2 - 1))) by lra. apply exp_inv in H'. lra.
Qed.
Print Assumptions C34_ou_marginals_shifted_refuted.

Example C34_example : let sde := ConstSDE (Ropp (1/2)) 1 in let ts := [0; 1; 3] in
  (forall t s, exists p, discretise sde t s = Some p) /\ white 2 (dseq (repeat coin 2)) /\
  (forall k, (S k < length ts)%nat -> nth k ts 0 <= nth (S k) ts 0 /\ noise_on sde (nth k ts 0) (nth (S k) ts 0)).
Proof.
  cbv zeta. split; [intros; apply discretise_defined; cbn; lra|]. split; [apply coin_white|].
  intros [|[|k]] Hk; cbn [nth length noise_on] in *; try lia; split; try exact I; lra.
Qed.

(** ** C35 *)
Theorem C35_ou_helpers : forall a b, a <> 0 ->
  (forall t s, discretise (ConstSDE a b) t s = Some (discretise_ou a b (t - s))) /\
  (forall x t x0, cond_score_ou a b x t x0 = cond_score (ConstSDE a b) x t x0 0) /\
  (forall x0 ts rnds, ou_path a b x0 ts rnds = exact_path (FQ (ConstSDE a b)) x0 ts rnds).
Proof.
  intros a b Ha. split; [intros t s; rewrite discretise_FQ by assumption; now rewrite ou_FQ|]. split.
  - intros x t x0. unfold cond_score_ou, cond_score. now rewrite <- ou_FQ, Rminus_0_r.
  - intros. apply ou_path_eq.
Qed.
Print Assumptions C35_ou_helpers.

Theorem C35_constant_schedule : forall bt t0 T, T <> t0 -> 0 < bt ->
  (forall t s, discretise (LinSDE bt bt t0 T) t s = discretise (ConstSDE (Ropp (1/2) * bt) (sqrt bt)) t s) /\
  (forall t, drift_coef (LinSDE bt bt t0 T) t = drift_coef (ConstSDE (Ropp (1/2) * bt) (sqrt bt)) t) /\
  (forall t, dispersion (LinSDE bt bt t0 T) t = dispersion (ConstSDE (Ropp (1/2) * bt) (sqrt bt)) t).
Proof.
  intros bt t0 T HT Hb. assert (Hbt : forall t, beta bt bt t0 T t = bt) by (intros t; unfold beta; field; lra). split; [|split].
  - intros t s. rewrite !discretise_FQ by (cbn; lra). f_equal. apply lin_const_FQ; lra.
  - intros t. cbn [drift_coef]. now rewrite Hbt.
  - intros t. cbn [dispersion]. now rewrite Hbt.
Qed.
Print Assumptions C35_constant_schedule.

Theorem C35_losses_agree : forall a b nn ts x0s rndss, nth 0 ts 0 = 0 ->
  ou_loss a b nn ts x0s rndss = linear_loss (ConstSDE a b) nn Lscore ts x0s rndss.
Proof. exact ou_loss_eq. Qed.
Print Assumptions C35_losses_agree.

(** with another initial time the OU loss targets a different score *)
Theorem C35_shifted_loss_refuted : exists a b nn ts x0s rndss, a <> 0 /\ nth 0 ts 0 = 1 /\
  linear_loss (ConstSDE a b) nn Lscore ts x0s rndss = Some 0 /\ ou_loss a b nn ts x0s rndss <> Some 0.
Proof.
  set (sde := ConstSDE (Ropp 1) 1). set (nn := fun xs (t : R) => map (fun x => cond_score sde x t [1] 1) xs).
  exists (Ropp 1), 1, nn, [1; 2], [[1]], [[[0]]]. split; [lra|]. split; [reflexivity|].
  assert (HQ : forall t s, s < t -> 0 < snd (FQ sde t s)) by (intros; apply Q_pos; [cbn; lra|assumption|cbn; lra]).
  pose proof (HQ 2 1 ltac:(lra)) as HQ1. pose proof (HQ 2 0 ltac:(lra)) as HQ0.
  set (x := move (FQ sde 2 1) [1] [0]).
  split.
  - transitivity (Some ((Rmean (sq_diff (cond_score sde x 2 [1] 1) (cond_score sde x 2 [1] 1)) * snd (FQ sde 2 1) + 0) / 1)); [reflexivity|].
    assert (Hz : Rmean (sq_diff (cond_score sde x 2 [1] 1) (cond_score sde x 2 [1] 1)) = 0).
    { apply Rmean_zero_iff; [discriminate|apply sq_diff_nonneg|now apply sq_diff_zero]. }
    rewrite Hz. f_equal. field.
  - assert (Hx : ou_path (Ropp 1) 1 [1] [1; 2] [[0]] = [[1]; x]) by apply ou_path_eq.
    assert (Hv : ou_loss (Ropp 1) 1 nn [1; 2] [[1]] [[[0]]] = loss_value (fun t _ => discretise_ou (Ropp 1) 1 t) (fun x t x0 _ => cond_score_ou (Ropp 1) 1 x t x0) nn Lscore [1; 2] [[[1]; x]]).
    { unfold ou_loss. cbn [combine map fst snd]. now rewrite Hx. }
    rewrite Hv. clear Hv Hx.
    assert (Hd : discretise_ou (Ropp 1) 1 2 = FQ sde 2 0) by (unfold sde; rewrite <- ou_FQ, Rminus_0_r; reflexivity).
    assert (Hc : cond_score_ou (Ropp 1) 1 x 2 [1] = cond_score sde x 2 [1] 0).
    { unfold cond_score_ou, cond_score. now rewrite Hd. }
    assert (Hv : loss_value (fun t _ => discretise_ou (Ropp 1) 1 t) (fun x t x0 _ => cond_score_ou (Ropp 1) 1 x t x0) nn Lscore [1; 2] [[[1]; x]] =
      Some ((Rmean (sq_diff (cond_score sde x 2 [1] 1) (cond_score_ou (Ropp 1) 1 x 2 [1])) * snd (discretise_ou (Ropp 1) 1 2) + 0) / 1)) by reflexivity.
    rewrite Hv, Hc, Hd. intros H. apply (f_equal (fun o => match o with Some v => v | None => 0 end)) in H. cbv beta iota in H.
    assert (H' : Rmean (sq_diff (cond_score sde x 2 [1] 1) (cond_score sde x 2 [1] 0)) = 0).
    { assert (Hm : Rmean (sq_diff (cond_score sde x 2 [1] 1) (cond_score sde x 2 [1] 0)) * snd (FQ sde 2 0) = 0) by lra.
      apply Rmult_integral in Hm as [Hm|Hm]; [exact Hm|lra]. }
    apply Rmean_zero_iff in H'; [|discriminate|apply sq_diff_nonneg]. apply sq_diff_zero in H'; [|reflexivity].
    apply (f_equal (fun l => nth 0 l 0)) in H'. unfold cond_score, score_of, x in H'.
    rewrite !nth_vmap2 in H' by (cbn; lia). rewrite nth_move in H' by (cbn; lia). cbn [nth] in H'.
    revert H' HQ1 HQ0. destruct (FQ sde 2 1) as [F1 Q1] eqn:E1, (FQ sde 2 0) as [F0 Q0] eqn:E0. cbn [fst snd]. intros H' HQ1 HQ0.
    rewrite Rmult_0_r, Rplus_0_r, !Rmult_1_r in H'. replace (- (F1 - F1) / Q1) with 0 in H' by (field; lra).
    assert (H2 : F1 = F0).
    { symmetry in H'. unfold Rdiv in H'. apply Rmult_integral in H' as [H'|H']; [lra|]. exfalso. apply (Rinv_neq_0_compat Q0); [lra|exact H']. }
    apply (f_equal fst) in E1. apply (f_equal fst) in E0. cbn [FQ sde fst] in E1, E0. rewrite <- E1, <- E0 in H2.
    apply exp_inv in H2. lra.
Qed.
Print Assumptions C35_shifted_loss_refuted.

Example C35_example : exists ts : list R, nth 0 ts 0 = 0 /\ (2 <= length ts)%nat.
Proof. exists [0; 1; 2]. split; [reflexivity|cbn; lia]. Qed.

(** ** C36 *)
Theorem C36_bridge_drift_is_h_transform : forall sde x t target T F Q,
  discretise sde T t = Some (F, Q) -> (match sde with ConstSDE _ _ | LinSDE _ _ _ _ => True | _ => False end) -> 0 < Q -> length target = length x ->
  exists out, bridge_drift sde x t target T = Some out /\ length out = length x /\
  forall i, (i < length x)%nat -> exists D,
    is_derive (fun z => Rsum (map (fun j => gauss_logpdf (F * nth j (set_nth i z x) 0) Q (nth j target 0)) (seq 0 (length x)))) (nth i x 0) D /\
    nth i out 0 = drift_coef sde t * nth i x 0 + dispersion sde t * dispersion sde t * D /\
    D = F * (nth i target 0 - F * nth i x 0) / Q.
Proof.
  intros sde x t target T F Q HF Hb HQ Hl. apply discretise_Some in HF as [HF _].
  assert (HQ' : 0 < snd (FQ sde T t)) by (now rewrite <- HF).
  destruct (bridge_drift_closed sde x t target T Hb HQ' Hl) as (out & Ho & Hlen & Hn).
  exists out. split; [exact Ho|]. split; [exact Hlen|]. intros i Hi. exists (F * (nth i target 0 - F * nth i x 0) / Q).
  pose proof (log_h_partial sde t T target x i Hb HQ' Hl Hi) as HD. rewrite <- HF in HD. cbn [fst snd] in HD. split; [|split; [|reflexivity]].
  - eapply is_derive_ext; [|exact HD]. intros z. cbv beta.
    rewrite log_h_eq by (assumption || now rewrite length_set_nth). rewrite <- HF, length_set_nth. reflexivity.
  - rewrite (Hn i Hi), <- HF. reflexivity.
Qed.
Print Assumptions C36_bridge_drift_is_h_transform.

Example C36_example : exists F Q, discretise (LinSDE (2/100) 5 0 2) 2 1 = Some (F, Q) /\ 0 < Q.
Proof.
  do 2 eexists. split; [rewrite discretise_FQ by (cbn; lra); reflexivity|].
  apply (Q_pos (LinSDE (2/100) 5 0 2) 2 1); [cbn; lra|lra|]. cbn [noisy_between]. unfold beta. lra.
Qed.

(** ** C42: [matches] says that the network's output for every sample and step is the conditional quantity [target] *)
Theorem C42_loss_nonneg_zero_iff : forall sde nn d lt ts x0s rndss,
  (0 < d)%nat -> net_shape d nn -> (2 <= length ts)%nat -> x0s <> [] -> length rndss = length x0s ->
  Forall (fun x => length x = d) x0s ->
  Forall (fun rnds => length rnds = (length ts - 1)%nat /\ Forall (fun r => length r = d) rnds) rndss ->
  (forall k, (1 <= k < length ts)%nat -> 0 < snd (FQ sde (nth k ts 0) (nth 0 ts 0))) -> lt <> Lunknown ->
  exists L, linear_loss sde nn lt ts x0s rndss = Some L /\ 0 <= L /\
    (L = 0 <-> matches (FQ sde) (cond_score sde) nn ts (map (fun q => exact_path (FQ sde) (fst q) ts (snd q)) (combine x0s rndss)) lt).
Proof. exact linear_loss_spec. Qed.
Print Assumptions C42_loss_nonneg_zero_iff.

(** what [matches] says for the IPF loss: x_k + F x_{k-1} - F x_k, coordinate by coordinate *)
Theorem C42_ipf_target : forall sde nn d ts paths, (0 < d)%nat -> net_shape d nn -> (2 <= length ts)%nat ->
  Forall (fun p => length p = length ts /\ Forall (fun x => length x = d) p) paths ->
  matches (FQ sde) (cond_score sde) nn ts paths Lipf <->
  forall k i j, (1 <= k < length ts)%nat -> (i < length paths)%nat -> (j < d)%nat ->
    let x m := nth j (nth m (nth i paths []) []) 0 in let F := fst (FQ sde (nth k ts 0) (nth (k - 1) ts 0)) in
    nth j (nth i (nn (map (fun p => nth k p []) paths) (nth k ts 0)) []) 0 = x k + F * x (k - 1)%nat - F * x k.
Proof. intros sde nn d ts paths Hd Hn Ht Hp. exact (matches_ipf (FQ sde) (cond_score sde) nn d Hd Hn ts paths Ht Hp). Qed.
Print Assumptions C42_ipf_target.

Theorem C42_loss_total : forall sde nn d t0 T nsteps random_times lt normal k x0s,
  (exists p, discretise sde T t0 = Some p) -> (0 < d)%nat -> net_shape d nn -> (1 <= nsteps)%nat -> t0 + / 10 ^ 5 <= T -> normal_shape normal ->
  x0s <> [] -> Forall (fun x => length x = d) x0s -> (forall t, t0 < t <= T -> noisy_between sde t0 t) ->
  safe (loss_fn sde nn t0 T nsteps random_times lt normal k x0s)
    (fun r => if match lt with Lunknown => true | _ => false end then r = None else exists L, r = Some L /\ 0 <= L).
Proof. intros sde nn d t0 T nsteps rt lt normal k x0s H. apply discretise_defined in H. exact (loss_fn_spec sde nn d t0 T nsteps rt lt normal k x0s H). Qed.
Print Assumptions C42_loss_total.

Theorem C42_grid : forall random_times minval t0 T nsteps draws,
  (1 <= nsteps)%nat -> t0 < T -> t0 <= minval <= T -> (random_times = true -> length draws = (nsteps - 1)%nat) -> Forall in01 draws ->
  let ts := loss_grid random_times minval t0 T nsteps draws in
  length ts = (nsteps + 1)%nat /\ nth 0 ts 0 = t0 /\
  (forall k, (1 <= k < length ts)%nat -> (t0 < nth k ts 0 \/ nth k ts 0 = t0 /\ minval = t0) /\ nth k ts 0 <= T).
Proof. exact loss_grid_spec. Qed.
Print Assumptions C42_grid.

Theorem C42_save_mem_score : forall sde nn d t0 ts x0s rnds,
  (0 < d)%nat ->
  (forall xs, Forall (fun x => length x = d) xs -> length (nn xs ts) = length xs /\ Forall (fun x => length x = d) (nn xs ts)) ->
  x0s <> [] -> length ts = length x0s -> length rnds = length x0s ->
  Forall (fun x => length x = d) x0s -> Forall (fun x => length x = d) rnds ->
  Forall (fun t => 0 < snd (FQ sde t t0)) ts ->
  let x i := move (FQ sde (nth i ts 0) t0) (nth i x0s []) (nth i rnds []) in
  exists L, save_mem_loss sde nn Lscore t0 ts x0s rnds = Some L /\ 0 <= L /\
    (L = 0 <-> forall i, (i < length x0s)%nat ->
       nth i (nn (map x (seq 0 (length x0s))) ts) [] = cond_score sde (x i) (nth i ts 0) (nth i x0s []) t0).
Proof. exact save_mem_score_spec. Qed.
Print Assumptions C42_save_mem_score.

(** the memory-saving variant does not support the ipf losses: it fails for every batch not of shape (2, 2) *)
Theorem C42_save_mem_ipf_refuted : forall sde nn lt t0 ts x0s rnds,
  lt = Lipf \/ lt = Lipfscore -> ~ (length x0s = 2%nat /\ length (nth 0 x0s []) = 2%nat) -> save_mem_loss sde nn lt t0 ts x0s rnds = None.
Proof. exact save_mem_ipf_fails. Qed.
Print Assumptions C42_save_mem_ipf_refuted.

Example C42_example : let sde := ConstSDE (Ropp (1/2)) 1 in let ts := [0; 1; 2] in let nn := fun (xs : list (list R)) (_ : R) => xs in
  net_shape 1 nn /\ Forall (fun rnds => length rnds = (length ts - 1)%nat /\ Forall (fun r => length r = 1%nat) rnds) [[[1]; [2]]; [[3]; [4]]] /\
  (forall k, (1 <= k < length ts)%nat -> 0 < snd (FQ sde (nth k ts 0) (nth 0 ts 0))) /\ (forall t, 0 < t <= 2 -> noisy_between sde 0 t).
Proof.
  cbv zeta. split; [intros xs t H; auto|]. split; [repeat constructor|]. split.
  - intros [|[|[|k]]] Hk; cbn [length] in Hk; try lia; apply Q_pos; cbn; lra.
  - intros t _. cbn. lra.
Qed.
