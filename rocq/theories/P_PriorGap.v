(** What the reverse samplers return when they are started from a reference law: reverse_simulator
    (fbs/sdes/simulators.py) and the conditional sampler of experiments/toy/gp_csgm.py. *)
From Coquelicot Require Import Coquelicot.
From Coq Require Import Reals List Lia Lra.
From Verif Require Sde SdeProofs Sim Demo CholFun.
From Verif Require Import Base Dist Prog Mat MatMore Cholesky GaussDiv GaussSBMore Toy ToyMore ToyCond EmMoments EmConverge ReverseStep PriorGap CsgmConverge.
Import ListNotations.
Open Scope R_scope.

(** ** C141 *)
(** [F], [Q] are the coefficients of the transition from 0 to T, [W] the inverse of F^2 C0 + Q I. Started within [e] of
    mean [ma] and covariance [Sa], reverse_simulator with the exact score ends within K (e + h) of
    m0 + F C0 W (ma - F m0) and C0 + F^2 C0 W (Sa - F^2 C0 - Q I) W C0. *)
Theorem C141_end_law : forall sde T d m0 C0 inv ma Sa, (exists p, Sde.discretise sde T 0 = Some p) -> 0 <= T ->
  (forall t, 0 <= t <= T -> SdeProofs.nonneg_noise sde t) -> symmetric d C0 -> posdef d C0 -> (forall t, 0 <= t <= T -> inverse_at d (fwd_cov sde C0) inv t) ->
  let F := fst (Sde.FQ sde T 0) in let W := inv (fwd_cov sde C0 T) in
  exists K, 0 <= K /\ forall score N normal k n ts D mh Sh h e,
    (forall t x, 0 < t <= T -> length x = d -> length (score x t) = d /\
       forall i, (i < d)%nat -> nth i (score x t) 0 = - mvec d (inv (fwd_cov sde C0 t)) (fun j => nth j x 0 - fwd_mean sde m0 t j) i) ->
    has_moments d N (fun _ => 0) mid -> (forall k, denotes (normal k n d) (dseq (repeat N n))) ->
    (1 <= n)%nat -> hd 1 ts = 0 -> last ts 0 = T -> refined h n ts ->
    0 <= h -> 0 <= e -> has_moments d D mh Sh -> within d e mh ma Sh Sa ->
    let L G := E D (fun u0 => law (reverse_prog normal k u0 ts score (Sde.drift sde) (Sde.dispersion sde) n) (on_some G)) in
    within d (K * (e + h)) (mean_of L) (fun i => m0 i + F * mvec d C0 (mvec d W (fun k => ma k - F * m0 k)) i)
      (cov_of L) (fun i j => C0 i j + F ^ 2 * mmul d C0 (mmul d (mmul d W (mmul d (fun k l => Sa k l - fwd_cov sde C0 T k l) W)) C0) i j).
Proof.
  intros sde T d m0 C0 inv ma Sa H HT Hn HS HP HI F W. apply SdeProofs.discretise_defined in H.
  destruct (simulator_converges sde T d m0 C0 inv H HT Hn HS HP HI ma Sa) as (K & HK & HR). exists K. split; [exact HK|].
  intros score N normal k n ts D mh Sh h e Hsc. apply (HR score N normal k n ts D mh Sh h e).
  intros t Ht x Hx. destruct (Hsc t x Ht Hx) as [H1 H2]. split; [exact H1|]. intros i Hi. rewrite (H2 i Hi). unfold Toy.score, vscale, vsub, vec_of. ring.
Qed.
Print Assumptions C141_end_law.

(** Those are the moments of the data for no other start than the marginal at T. *)
Theorem C141_only_the_marginal : forall sde T d m0 C0 inv ma Sa, (exists p, Sde.discretise sde T 0 = Some p) -> 0 <= T ->
  symmetric d C0 -> posdef d C0 -> (forall t, 0 <= t <= T -> inverse_at d (fwd_cov sde C0) inv t) ->
  let F := fst (Sde.FQ sde T 0) in let W := inv (fwd_cov sde C0 T) in
  (veq d (fun i => m0 i + F * mvec d C0 (mvec d W (fun k => ma k - F * m0 k)) i) m0 <-> veq d ma (fun i => F * m0 i)) /\
  (meq d (fun i j => C0 i j + F ^ 2 * mmul d C0 (mmul d (mmul d W (mmul d (fun k l => Sa k l - fwd_cov sde C0 T k l) W)) C0) i j) C0 <-> meq d Sa (fwd_cov sde C0 T)).
Proof.
  intros sde T d m0 C0 inv ma Sa H HT HS HP HI F W. apply SdeProofs.discretise_defined in H.
  exact (conj (end_mean_only sde T d m0 C0 inv H HT HS HP HI ma) (end_cov_only sde T d C0 inv H HT HS HP HI Sa)).
Qed.
Print Assumptions C141_only_the_marginal.

(** Started from mean zero and the stationary covariance v I, the mean is off by the order of F^2 / Q and the
    covariance by the order of its square; the constant is the same for all SDEs and horizons. *)
Theorem C141_gap_decays : forall d m0 C0 v, symmetric d C0 -> posdef d C0 -> exists K, 0 <= K /\ forall sde T inv,
  (exists p, Sde.discretise sde T 0 = Some p) -> 0 <= T -> (forall t, 0 <= t <= T -> inverse_at d (fwd_cov sde C0) inv t) ->
  let F := fst (Sde.FQ sde T 0) in let Q := snd (Sde.FQ sde T 0) in let W := inv (fwd_cov sde C0 T) in
  0 < Q -> F ^ 2 * v + Q = v ->
  (forall i, (i < d)%nat -> Rabs (m0 i + F * mvec d C0 (mvec d W (fun k => 0 - F * m0 k)) i - m0 i) <= K * (F ^ 2 / Q)) /\
  (forall i j, (i < d)%nat -> (j < d)%nat ->
     Rabs (C0 i j + F ^ 2 * mmul d C0 (mmul d (mmul d W (mmul d (fun k l => v * (if Nat.eqb k l then 1 else 0) - fwd_cov sde C0 T k l) W)) C0) i j - C0 i j) <= K * (F ^ 2 / Q) ^ 2).
Proof.
  intros d m0 C0 v HS HP. destruct (gap_decays d m0 C0 v HS HP) as (K & HK & H). exists K. split; [exact HK|].
  intros sde T inv Hd. apply SdeProofs.discretise_defined in Hd. exact (H sde T inv Hd).
Qed.
Print Assumptions C141_gap_decays.

(** the stationary constant SDE with unit variance, data with mean 2 and variance 3 *)
Example C141_example : let sde := Sde.ConstSDE (Ropp (1/2)) 1 in let C0 : mat := fun _ _ => 3 in let inv (M : mat) : mat := fun i j => / M i j in
  (exists p, Sde.discretise sde 1 0 = Some p) /\ symmetric 1 C0 /\ posdef 1 C0 /\ (forall t, 0 <= t <= 1 -> inverse_at 1 (fwd_cov sde C0) inv t) /\
  0 < snd (Sde.FQ sde 1 0) /\ fst (Sde.FQ sde 1 0) ^ 2 * 1 + snd (Sde.FQ sde 1 0) = 1 /\ ~ meq 1 mid (fwd_cov sde C0 1) /\ ~ veq 1 (fun _ => 0) (fun i => fst (Sde.FQ sde 1 0) * 2).
Proof.
  intros sde C0 inv. assert (Hd : SdeProofs.sde_defined sde) by (cbn; lra).
  assert (HF : forall t, 0 < fst (Sde.FQ sde t 0)) by (intros t; cbn; apply exp_pos).
  assert (HQ : forall t, 0 <= t -> 0 <= snd (Sde.FQ sde t 0)) by (intros t Ht; apply SdeProofs.Q_nonneg; [exact Hd|lra|exact I]).
  assert (HE : forall t, fst (Sde.FQ sde t 0) ^ 2 * 1 + snd (Sde.FQ sde t 0) = 1).
  { intros t. cbn [Sde.FQ sde fst snd]. replace (2 * Ropp (1/2) * (t - 0)) with (Ropp (1/2) * (t - 0) + Ropp (1/2) * (t - 0)) by ring. rewrite exp_plus. field. }
  assert (Hpos : forall t, 0 <= t <= 1 -> 0 < fwd_cov sde C0 t 0%nat 0%nat).
  { intros t Ht. unfold fwd_cov, madd, mscale, mid. cbn [Nat.eqb]. specialize (HQ t ltac:(lra)). assert (0 < fst (Sde.FQ sde t 0) ^ 2) by (apply pow_lt, HF). unfold C0. lra. }
  assert (HF1 : fst (Sde.FQ sde 1 0) < 1). { apply Rlt_le_trans with (exp 0); [cbn; apply exp_increasing; lra|rewrite exp_0; lra]. }
  assert (HF2 : 0 < fst (Sde.FQ sde 1 0) ^ 2 < 1). { split; [apply pow_lt, HF|]. specialize (HF 1). set (q := fst (Sde.FQ sde 1 0)) in *. replace (q ^ 2) with (q * q) by ring. assert (q * q < 1 * q) by (apply Rmult_lt_compat_r; lra). lra. }
  specialize (HE 1). split; [apply SdeProofs.discretise_defined, Hd|]. split; [intros i j _ _; reflexivity|]. split; [|split; [|split; [lra|split; [exact HE|split]]]].
  - intros x Hx. unfold quad, mvec, C0. cbn. assert (x 0%nat <> 0) by (intros E0; apply Hx; intros [|i] Hi; [exact E0|lia]). assert (0 < x 0%nat * x 0%nat) by (apply Rsqr_pos_lt in H; exact H). lra.
  - intros t Ht. specialize (Hpos t Ht). split; intros [|i] [|j] Hi Hj; try lia; unfold mmul, inv, mid; cbn [seq map Rsum fold_right Nat.eqb]; field; lra.
  - intros H. specialize (H 0%nat 0%nat ltac:(lia) ltac:(lia)). unfold fwd_cov, madd, mscale, mid, C0 in H. cbn [Nat.eqb] in H. lra.
  - intros H. specialize (H 0%nat ltac:(lia)). cbv beta in H. specialize (HF 1). lra.
Qed.

(** ** C142 *)
(** [computes_drift]: [f] returns the reverse drift of gp_csgm.py; [inv] inverts symmetric positive definite matrices (cho_solve).
    The sampler ends within K h of the posterior mean, but of the covariance a start with covariance Pref^2 leads to. *)
Theorem C142_end_law : forall sde T d m C inv s2 y0, (exists p, Sde.discretise sde T 0 = Some p) -> 0 <= T ->
  (forall t, 0 <= t <= T -> SdeProofs.nonneg_noise sde t) -> symmetric d C -> posdef d C -> 0 < s2 ->
  (forall M, symmetric d M -> posdef d M -> meq d (mmul d (inv M) M) mid /\ meq d (mmul d M (inv M)) mid) ->
  let G := gp_cov d C inv s2 in let Pref := csgm_ref_cov d sde T C inv s2 in let F := fst (Sde.FQ sde T 0) in let W := inv (fwd_cov sde G T) in
  exists K, 0 <= K /\ forall f N normal k ts h,
    computes_drift d sde T m C inv s2 y0 f -> has_moments d N (fun _ => 0) mid -> (forall k, denotes (normal k 1%nat d) (dseq (repeat N 1))) ->
    hd 1 ts = 0 -> last ts 0 = T -> refined h 1 ts -> 0 <= h ->
    let L H := law (csgm_sampler normal k d (csgm_ref_mean d sde T m C inv s2 y0) Pref ts f (fun t => Sde.dispersion sde (T - t))) H in
    within d (K * h) (mean_of L) (fun i => m i + mvec d C (mvec d (inv (madd C (mscale s2 mid))) (fun k => y0 k - m k)) i)
      (cov_of L) (fun i j => G i j + F ^ 2 * mmul d G (mmul d (mmul d W (mmul d (fun k l => mmul d Pref Pref k l - fwd_cov sde G T k l) W)) G) i j).
Proof.
  intros sde T d m C inv s2 y0 H HT Hn HS HP Hs2 HI. apply SdeProofs.discretise_defined in H. exact (csgm_ends sde T d m C inv s2 y0 H HT Hn HS HP Hs2 HI).
Qed.
Print Assumptions C142_end_law.

(** For the stationary SDEs of the script and an observation variance of at most one (the script has one) some entry of
    the covariance stays away from the posterior covariance however fine the grid. *)
Theorem C142_refuted : forall sde T d m C inv s2 y0, (exists p, Sde.discretise sde T 0 = Some p) -> 0 <= T ->
  (forall t, 0 <= t <= T -> SdeProofs.nonneg_noise sde t) -> symmetric d C -> posdef d C -> 0 < s2 <= 1 -> (0 < d)%nat ->
  (forall M, symmetric d M -> posdef d M -> meq d (mmul d (inv M) M) mid /\ meq d (mmul d M (inv M)) mid) ->
  fst (Sde.FQ sde T 0) ^ 2 + snd (Sde.FQ sde T 0) = 1 ->
  exists i j del h0, (i < d)%nat /\ (j < d)%nat /\ 0 < del /\ 0 < h0 /\ forall f N normal k ts h,
    computes_drift d sde T m C inv s2 y0 f -> has_moments d N (fun _ => 0) mid -> (forall k, denotes (normal k 1%nat d) (dseq (repeat N 1))) ->
    hd 1 ts = 0 -> last ts 0 = T -> refined h 1 ts -> 0 <= h <= h0 ->
    let L H := law (csgm_sampler normal k d (csgm_ref_mean d sde T m C inv s2 y0) (csgm_ref_cov d sde T C inv s2) ts f (fun t => Sde.dispersion sde (T - t))) H in
    del <= Rabs (cov_of L i j - gp_cov d C inv s2 i j).
Proof.
  intros sde T d m C inv s2 y0 H HT Hn HS HP [Hs2 Hs1] Hd HI HF. apply SdeProofs.discretise_defined in H.
  exact (csgm_gap sde T d m C inv s2 y0 H HT Hn HS HP Hs2 HI (csgm_never sde T d C inv s2 H HT Hn HS HP Hs2 HI Hd Hs1 HF)).
Qed.
Print Assumptions C142_refuted.

(** In general: the limit is the posterior covariance exactly when the reference covariance is the identity. *)
Theorem C142_right_iff_identity : forall sde T d C inv s2, (exists p, Sde.discretise sde T 0 = Some p) -> 0 <= T ->
  (forall t, 0 <= t <= T -> SdeProofs.nonneg_noise sde t) -> symmetric d C -> posdef d C -> 0 < s2 ->
  (forall M, symmetric d M -> posdef d M -> meq d (mmul d (inv M) M) mid /\ meq d (mmul d M (inv M)) mid) ->
  let G := gp_cov d C inv s2 in let Pref := csgm_ref_cov d sde T C inv s2 in let F := fst (Sde.FQ sde T 0) in let W := inv (fwd_cov sde G T) in
  meq d (fun i j => G i j + F ^ 2 * mmul d G (mmul d (mmul d W (mmul d (fun k l => mmul d Pref Pref k l - fwd_cov sde G T k l) W)) G) i j) G <-> meq d Pref mid.
Proof.
  intros sde T d C inv s2 H HT Hn HS HP Hs2 HI. apply SdeProofs.discretise_defined in H. exact (csgm_end_iff sde T d C inv s2 H HT Hn HS HP Hs2 HI).
Qed.
Print Assumptions C142_right_iff_identity.

(** Such an [f] exists: the density whose gradient the script takes is defined at all times before T. *)
Theorem C142_drift_defined : forall sde T d m C inv s2 y0, (exists p, Sde.discretise sde T 0 = Some p) ->
  (forall t, 0 <= t <= T -> SdeProofs.nonneg_noise sde t) -> symmetric d C -> posdef d C -> 0 < s2 ->
  (forall M, symmetric d M -> posdef d M -> meq d (mmul d (inv M) M) mid /\ meq d (mmul d M (inv M)) mid) ->
  (forall t, 0 < t <= T -> 0 < snd (Sde.FQ sde t 0)) -> exists f, computes_drift d sde T m C inv s2 y0 f.
Proof. intros sde T d m C inv s2 y0 H. apply SdeProofs.discretise_defined in H. exact (csgm_total sde T d m C inv s2 y0 H). Qed.
Print Assumptions C142_drift_defined.

(** the Gaussian process of the script on one point (signs are one-dimensional), its constant SDE, fair signs as noise: all hypotheses hold together *)
Example C142_example : let sde := Sde.ConstSDE (Ropp (1/2)) 1 in let C := cov_fn 1 1 INR INR in let cho := CholFun.cho_inv 1 in
  (exists p, Sde.discretise sde 1 0 = Some p) /\ symmetric 1 C /\ posdef 1 C /\
  (forall M, symmetric 1 M -> posdef 1 M -> meq 1 (mmul 1 (cho M) M) mid /\ meq 1 (mmul 1 M (cho M)) mid) /\
  fst (Sde.FQ sde 1 0) ^ 2 + snd (Sde.FQ sde 1 0) = 1 /\ (forall t, 0 < t <= 1 -> 0 < snd (Sde.FQ sde t 0)) /\
  has_moments 1 pm1 (fun _ => 0) mid /\ (forall k, denotes (Demo.fin_draws [] k 0 (repeat pm1 1)) (dseq (repeat pm1 1))) /\
  refined (1/2) 1 [0; 1/2; 1] /\ exists f, computes_drift 1 sde 1 (fun _ => 0) C cho 1 (fun _ => 2) f.
Proof.
  intros sde C cho. assert (Hd : exists p, Sde.discretise sde 1 0 = Some p) by (apply SdeProofs.discretise_defined; cbn; lra).
  destruct (cov_fn_posdef 1 1 1 INR ltac:(lra) ltac:(lra) ltac:(intros i j Hij _; now apply lt_INR)) as [C1 C2].
  assert (HI : forall M, symmetric 1 M -> posdef 1 M -> meq 1 (mmul 1 (cho M) M) mid /\ meq 1 (mmul 1 M (cho M)) mid) by (intros M; apply CholFun.cho_inv_correct).
  assert (HE : forall t, fst (Sde.FQ sde t 0) ^ 2 + snd (Sde.FQ sde t 0) = 1).
  { intros t. cbn [Sde.FQ sde fst snd]. replace (2 * Ropp (1/2) * (t - 0)) with (Ropp (1/2) * (t - 0) + Ropp (1/2) * (t - 0)) by ring. rewrite exp_plus. field. }
  assert (HQ : forall t, 0 < t <= 1 -> 0 < snd (Sde.FQ sde t 0)).
  { intros t Ht. specialize (HE t). assert (H0 : 0 < fst (Sde.FQ sde t 0)) by (cbn; apply exp_pos). assert (H1 : fst (Sde.FQ sde t 0) < 1) by (apply Rlt_le_trans with (exp 0); [cbn; apply exp_increasing; lra|rewrite exp_0; lra]).
    set (q := fst (Sde.FQ sde t 0)) in *. replace (q ^ 2) with (q * q) in HE by ring. assert (q * q < 1 * q) by (apply Rmult_lt_compat_r; lra). lra. }
  split; [exact Hd|]. split; [exact C1|]. split; [exact C2|]. split; [exact HI|]. split; [exact (HE 1)|]. split; [exact HQ|]. split; [exact pm1_moments|].
  split; [intros k; apply Demo.fin_draws_denotes|]. split; [intros [|[|k]] Hk; cbn [length nth INR] in *; [lra|lra|lia]|].
  exact (C142_drift_defined sde 1 1 (fun _ => 0) C cho 1 (fun _ => 2) Hd (fun _ _ => I) C1 C2 ltac:(lra) HI HQ).
Qed.
