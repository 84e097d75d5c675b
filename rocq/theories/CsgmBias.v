(** The score-based conditional sampler of experiments/imgs/{inpainting,supr}_csgm.py on an image of two grey
    pixels, one of them observed, with the exact score of a Gaussian law: what it converges to. *)
From Coquelicot Require Import Coquelicot.
From Coq Require Import Reals List Lia Lra.
From Verif Require Import Base Dist Prog Sde SdeProofs SdePaths Images ImagesProofs Restore Csgm.
From Verif Require EmConverge EmMoments.
Import ListNotations.
Open Scope R_scope.

(** log-density of a pair with mean zero, variances [v] and covariance [c] *)
Definition pair_logpdf (v c a b : R) : R := - (v * a ^ 2 - 2 * c * a * b + v * b ^ 2) / (2 * (v ^ 2 - c ^ 2)) - ln (2 * PI) - ln (v ^ 2 - c ^ 2) / 2.

Lemma pair_conditional r x y : r ^ 2 < 1 -> pair_logpdf 1 r x y = gauss_logpdf 0 1 y + gauss_logpdf (r * y) (1 - r ^ 2) x.
Proof.
  intros Hr. unfold pair_logpdf, gauss_logpdf. pose proof PI_RGT_0. rewrite (ln_mult (2 * PI) (1 - r ^ 2)) by lra. rewrite Rmult_1_r.
  replace (1 ^ 2 - r ^ 2) with (1 - r ^ 2) by ring. field. lra.
Qed.

Lemma pair_score v c a b : v ^ 2 - c ^ 2 <> 0 -> is_derive (fun a => pair_logpdf v c a b) a (- (v * a - c * b) / (v ^ 2 - c ^ 2)).
Proof.
  intros H. unfold pair_logpdf. auto_derive; [exact I|]. field. intros H'. apply H. lra.
Qed.

(** ** Moments of one step *)
Definition mom (D : dist R) (m V : R) : Prop := is_prob D /\ E D (fun x => x) = m /\ E D (fun x => (x - m) ^ 2) = V.

Definition stepD (A B cr cz : R) (rx ry : dist (list R)) (D : dist R) : dist R :=
  dbind D (fun x => dbind rx (fun e => dmap (fun z => A * x + B + cr * nth 0 e 0 + cz * nth 0 z 0) ry)).

Lemma E_stepD A B cr cz rx ry D F : E (stepD A B cr cz rx ry D) F =
  E D (fun x => E rx (fun e => E ry (fun z => F (A * x + B + cr * nth 0 e 0 + cz * nth 0 z 0)))).
Proof. unfold stepD. rewrite E_dbind. apply E_ext'. intros x. rewrite E_dbind. apply E_ext'. intros e. now rewrite E_dmap. Qed.

Lemma step_mom A B cr cz rx ry D m V : white 1 rx -> white 1 ry -> mom D m V ->
  mom (stepD A B cr cz rx ry D) (A * m + B) (A ^ 2 * V + cr ^ 2 + cz ^ 2).
Proof.
  intros Hx Hy (HD & Hm & HV).
  assert (Hsq : forall row, white 1 row -> E row (fun r => nth 0 r 0 * nth 0 r 0) = 1) by (intros row H; exact (wh_cov _ _ H 0%nat 0%nat ltac:(lia) ltac:(lia))).
  split; [|split].
  - apply is_prob_dbind; [exact HD|]. intros x _. apply is_prob_dbind; [apply Hx|]. intros e _. apply is_prob_dmap, Hy.
  - rewrite E_stepD. rewrite (E_ext' D _ (fun x => A * x + B)). { rewrite E_plus, E_mult_l, E_const, Hm by exact HD. ring. }
    intros x. rewrite (E_ext' rx _ (fun e => (A * x + B) + cr * nth 0 e 0)).
    { rewrite E_plus, E_const, E_mult_l, (wh_mean _ _ Hx) by (apply Hx || lia). ring. }
    intros e. rewrite E_plus, E_const, E_mult_l, (wh_mean _ _ Hy) by (apply Hy || lia). ring.
  - rewrite E_stepD. rewrite (E_ext' D _ (fun x => A ^ 2 * (x - m) ^ 2 + (cr ^ 2 + cz ^ 2))). { rewrite E_plus, E_mult_l, E_const, HV by exact HD. ring. }
    intros x. rewrite (E_ext' rx _ (fun e => (A ^ 2 * (x - m) ^ 2 + cz ^ 2) + (2 * A * (x - m) * cr * nth 0 e 0 + cr ^ 2 * (nth 0 e 0 * nth 0 e 0)))).
    { rewrite E_plus, E_const, E_plus, !E_mult_l, (wh_mean _ _ Hx), (Hsq _ Hx) by (apply Hx || lia). ring. }
    intros e. rewrite (E_ext' ry _ (fun z => (A * (x - m) + cr * nth 0 e 0) ^ 2 + (2 * (A * (x - m) + cr * nth 0 e 0) * cz * nth 0 z 0 + cz ^ 2 * (nth 0 z 0 * nth 0 z 0)))).
    { rewrite E_plus, E_const, E_plus, !E_mult_l, (wh_mean _ _ Hy), (Hsq _ Hy) by (apply Hy || lia). ring. }
    intros z. ring.
Qed.

Lemma gron q e e' C dt t Lam : 0 <= q <= exp (Lam * dt) -> 0 <= C -> 0 <= dt -> 0 <= t -> 0 <= Lam ->
  e <= C * dt * t * exp (Lam * t) -> e' <= q * e + C * dt ^ 2 -> e' <= C * dt * (t + dt) * exp (Lam * (t + dt)).
Proof.
  intros [Hq Hq'] HC Hdt Ht HL He He'. eapply Rle_trans; [exact He'|].
  assert (H1 : q * e <= q * (C * dt * t * exp (Lam * t))) by now apply Rmult_le_compat_l.
  assert (H0 : 0 <= C * dt * t * exp (Lam * t)). { repeat apply Rmult_le_pos; try assumption. apply Rlt_le, exp_pos. }
  assert (H2 : q * (C * dt * t * exp (Lam * t)) <= exp (Lam * dt) * (C * dt * t * exp (Lam * t))) by now apply Rmult_le_compat_r.
  replace (Lam * (t + dt)) with (Lam * dt + Lam * t) by ring. rewrite exp_plus.
  assert (H3 : 1 <= exp (Lam * dt) * exp (Lam * t)).
  { rewrite <- exp_plus. eapply Rle_trans; [|apply EmMoments.exp_lower]. assert (0 <= Lam * dt) by now apply Rmult_le_pos. assert (0 <= Lam * t) by now apply Rmult_le_pos. lra. }
  assert (H4 : C * dt ^ 2 * 1 <= C * dt ^ 2 * (exp (Lam * dt) * exp (Lam * t))). { apply Rmult_le_compat_l; [|exact H3]. apply Rmult_le_pos; [exact HC|apply pow2_ge_0]. }
  nra.
Qed.

Section bias.
Variables (sde : linear_sde) (T r : R).
Hypothesis Hd : sde_defined sde.
Hypothesis HT : 0 < T.
Hypothesis Hn : forall t, 0 <= t <= T -> nonneg_noise sde t.
Hypothesis Hr : 0 < r ^ 2 < 1.
Notation F t := (fst (FQ sde t 0)).
Notation Q t := (snd (FQ sde t 0)).
Hypothesis HF1 : F T < 1.
Hypothesis Hst : F T ^ 2 + Q T = 1.

(** the stationary SDE has rate [b] and dispersion [sqrt (2 b)] *)
Definition brate (t : R) : R := - drift_coef sde t.
Definition den (t : R) : R := 1 - r ^ 2 * F t ^ 4.
Definition alph (t : R) : R := brate t - 2 * brate t / den t.

Lemma stationary_facts : 
  (forall t, 0 < F t) /\ (forall t, F t ^ 2 + Q t = 1) /\ (forall t, 0 <= t <= T -> dispersion sde t ^ 2 = 2 * brate t) /\
  (forall t, 0 <= t <= T -> 0 <= brate t) /\ F 0 = 1 /\ (forall t, 0 <= t <= T -> F T <= F t <= 1) /\
  (exists B, 0 <= B /\ forall t, 0 <= t <= T -> brate t <= B) /\
  (forall c : R, exists M, 0 <= M /\ forall s t, 0 <= s <= T -> 0 <= t <= T -> Rabs (exp (c * ln (F s)) - exp (c * ln (F t)) - (s - t) * (- (c * brate t) * exp (c * ln (F t)))) <= M * (s - t) ^ 2).
Proof.
  destruct (EmConverge.sde_exponents sde Hd) as (rho & a' & kap & H1 & H2 & H3 & HF & HQ & Hg).
  assert (HF2 : forall t, F t ^ 2 = exp (2 * rho t)). { intros t. rewrite HF. replace (2 * rho t) with (rho t + rho t) by ring. rewrite exp_plus. ring. }
  assert (P : forall t, 0 < F t) by (intros t; rewrite HF; apply exp_pos).
  assert (Hk : kap = 1).
  { rewrite HQ, <- HF2 in Hst. assert (F T ^ 2 < 1). { specialize (P T). assert (F T * F T < 1 * F T) by (apply Rmult_lt_compat_r; lra). simpl. lra. }
    assert ((kap - 1) * (1 - F T ^ 2) = 0) by lra. apply Rmult_integral in H0. destruct H0; lra. }
  subst kap.
  assert (Hg' : forall t, 0 <= t <= T -> dispersion sde t ^ 2 = 2 * brate t). { intros t Ht. rewrite Hg by now apply Hn. unfold brate. ring. }
  assert (Hb : forall t, 0 <= t <= T -> 0 <= brate t). { intros t Ht. specialize (Hg' t Ht). pose proof (pow2_ge_0 (dispersion sde t)). lra. }
  assert (H0 : F 0 = 1) by now rewrite FQ_id.
  assert (Hdec : forall s t, 0 <= s -> s <= t -> t <= T -> rho t <= rho s).
  { intros s t Hs Hst' Ht. destruct (EmConverge.mvt rho (drift_coef sde) s t H1) as (c & Hc & Ec). rewrite Rmin_left, Rmax_right in Hc by lra.
    specialize (Hb c ltac:(lra)). unfold brate in Hb. assert (0 <= - drift_coef sde c * (t - s)) by (apply Rmult_le_pos; lra). lra. }
  assert (Hexp_le : forall x y, x <= y -> exp x <= exp y). { intros x y [H|H]; [apply Rlt_le, exp_increasing, H|rewrite H; lra]. }
  split; [exact P|]. split; [intros t; rewrite HQ, HF2; ring|]. split; [exact Hg'|]. split; [exact Hb|]. split; [exact H0|]. split; [|split].
  - intros t Ht. split; [rewrite !HF; apply Hexp_le, Hdec; lra|]. rewrite <- H0. rewrite !HF. apply Hexp_le, Hdec; lra.
  - destruct (EmConverge.compact_bound (drift_coef sde) T ltac:(lra) ltac:(intros t; eexists; apply H2)) as (M & HM & HB).
    exists M. split; [exact HM|]. intros t Ht. unfold brate. specialize (HB t Ht). apply Rabs_le_between in HB. lra.
  - intros c.
    assert (Er : forall t, ex_derive rho t) by (intros t; exists (drift_coef sde t); apply H1). assert (Ea : forall t, ex_derive (drift_coef sde) t) by (intros t; exists (a' t); apply H2).
    assert (Dr : forall t, Derive (fun x => rho x) t = drift_coef sde t) by (intros t; apply is_derive_unique, H1). assert (Da : forall t, Derive (fun x => drift_coef sde x) t = a' t) by (intros t; apply is_derive_unique, H2).
    destruct (EmConverge.taylor2 (fun t => exp (c * rho t)) (fun t => c * drift_coef sde t * exp (c * rho t))
      (fun t => (c * a' t + c * c * (drift_coef sde t * drift_coef sde t)) * exp (c * rho t)) T ltac:(lra)) as (M & HM & HB).
    { intros t. auto_derive; [repeat split; auto|]. rewrite Dr. ring. }
    { intros t. auto_derive; [repeat split; auto|]. rewrite Dr, Da. ring. }
    { intros t. auto_derive. repeat split; auto. }
    exists M. split; [exact HM|]. intros s t Hs Ht. specialize (HB s t Hs Ht). cbv beta in HB. rewrite !HF, !ln_exp. unfold brate.
    replace (- (c * - drift_coef sde t) * exp (c * rho t)) with (c * drift_coef sde t * exp (c * rho t)) by ring. exact HB.
Qed.

Lemma exp_ln_pow n x : 0 < x -> exp (INR n * ln x) = x ^ n.
Proof. intros Hx. rewrite <- Rpower_pow by exact Hx. reflexivity. Qed.

(** second-order remainder of a power of F *)
Lemma F_taylor n : exists M, 0 <= M /\ forall s t, 0 <= s <= T -> 0 <= t <= T ->
  Rabs (F s ^ n - F t ^ n - (s - t) * (- (INR n * brate t) * F t ^ n)) <= M * (s - t) ^ 2.
Proof.
  destruct stationary_facts as (P & _ & _ & _ & _ & _ & _ & HM). destruct (HM (INR n)) as (M & HM0 & HB). exists M. split; [exact HM0|].
  intros s t Hs Ht. specialize (HB s t Hs Ht). rewrite !exp_ln_pow in HB by apply P. exact HB.
Qed.

Lemma F_range n t : 0 <= t <= T -> 0 < F t ^ n <= 1.
Proof.
  intros Ht. destruct stationary_facts as (P & _ & _ & _ & _ & Hle & _). split; [apply pow_lt, P|]. rewrite <- (pow1 n). apply pow_incr. specialize (P t). specialize (Hle t Ht). lra.
Qed.
Lemma den_range t : 0 <= t <= T -> 1 - r ^ 2 <= den t <= den T /\ den T < 1.
Proof.
  intros Ht. destruct stationary_facts as (P & _ & _ & _ & _ & Hle & _). pose proof (F_range 4 t Ht). pose proof (F_range 4 T ltac:(lra)).
  assert (F T ^ 4 <= F t ^ 4). { apply pow_incr. specialize (P T). specialize (Hle t Ht). lra. }
  unfold den. assert (r ^ 2 * F t ^ 4 <= r ^ 2 * 1) by (apply Rmult_le_compat_l; lra). assert (r ^ 2 * F T ^ 4 <= r ^ 2 * F t ^ 4) by (apply Rmult_le_compat_l; lra).
  assert (0 < r ^ 2 * F T ^ 4) by (apply Rmult_lt_0_compat; lra). lra.
Qed.

(** bounds on the moments: below for the variance, above for the mean in units of [r y] *)
Definition low (t : R) : R := den t / den T.
Definition upp (t : R) : R := (F t ^ 3 + r ^ 2 * F t ^ 7) / 2.

Lemma moment_bounds : exists B C, 0 <= B /\ 0 <= C /\ 
  (forall t, 0 <= t <= T -> Rabs (alph t) <= B) /\
  (forall s dt, 0 <= dt -> 0 <= s - dt -> s <= T -> low (s - dt) <= (1 + alph s * dt) ^ 2 * low s + 2 * brate s * dt + C * dt ^ 2) /\
  (forall s dt, 0 <= dt -> 0 <= s - dt -> s <= T -> (1 + alph s * dt) * upp s + 2 * brate s * F s ^ 3 / den s * dt <= upp (s - dt) + C * dt ^ 2).
Proof.
  destruct stationary_facts as (P & _ & _ & Hb & _ & Hle & (B0 & HB0 & HB) & _).
  destruct (F_taylor 4) as (M4 & HM4 & T4). destruct (F_taylor 3) as (M3 & HM3 & T3). destruct (F_taylor 7) as (M7 & HM7 & T7).
  assert (Hk : 0 < 1 - r ^ 2) by lra. destruct (den_range T ltac:(lra)) as [HdT _].
  exists (B0 + 2 * B0 / (1 - r ^ 2)), (r ^ 2 * M4 / den T + M3 + M7).
  assert (HC0 : 0 <= r ^ 2 * M4 / den T). { apply Rmult_le_pos; [apply Rmult_le_pos; lra|apply Rlt_le, Rinv_0_lt_compat; lra]. }
  split; [apply Rplus_le_le_0_compat; [lra|apply Rmult_le_pos; [lra|apply Rlt_le, Rinv_0_lt_compat; lra]]|]. split; [lra|]. split; [|split].
  - intros t Ht. unfold alph. destruct (den_range t Ht) as [Hdt _]. specialize (Hb t Ht). specialize (HB t Ht).
    assert (0 <= 2 * brate t / den t <= 2 * B0 / (1 - r ^ 2)).
    { split; [apply Rmult_le_pos; [lra|apply Rlt_le, Rinv_0_lt_compat; lra]|]. apply Rmult_le_compat; [lra|apply Rlt_le, Rinv_0_lt_compat; lra|lra|apply Rinv_le_contravar; lra]. }
    apply Rabs_le. lra.
  - intros s dt Hdt Hs Hs'. specialize (T4 (s - dt) s ltac:(lra) ltac:(lra)). replace (s - dt - s) with (- dt) in T4 by ring. apply Rabs_le_between in T4. destruct T4 as [T4 _].
    specialize (Hb s ltac:(lra)). destruct (den_range s ltac:(lra)) as [Hds _].
    set (f := F s ^ 4) in *. set (f' := F (s - dt) ^ 4) in *. set (b := brate s) in *. replace (INR 4) with 4 in T4 by (simpl; ring).
    assert (E1 : low (s - dt) <= low s + r ^ 2 / den T * (- 4 * b * f * dt + M4 * dt ^ 2)).
    { unfold low. apply Rmult_le_reg_r with (den T); [lra|]. replace (den (s - dt) / den T * den T) with (den (s - dt)) by (field; lra).
      replace ((den s / den T + r ^ 2 / den T * (- 4 * b * f * dt + M4 * dt ^ 2)) * den T) with (den s + r ^ 2 * (- 4 * b * f * dt + M4 * dt ^ 2)) by (field; lra).
      unfold den. fold f f'. assert (0 <= r ^ 2 * (f' - f - (- dt) * (- (4 * b) * f) + M4 * dt ^ 2)) by (apply Rmult_le_pos; nra). lra. }
    assert (E2 : r ^ 2 / den T * (- 4 * b * f * dt) <= (2 * alph s * low s + 2 * b) * dt).
    { replace (2 * alph s * low s + 2 * b) with (2 * b * (1 - den s / den T) + r ^ 2 / den T * (- 4 * b * f)) by (unfold alph, low; fold b; assert (Ef : r ^ 2 * f = 1 - den s) by (unfold den; fold f; ring); transitivity (2 * b * (1 - den s / den T) + (-4 * b) * (r ^ 2 * f) / den T); [field; lra|rewrite Ef; field; lra]).
      assert (0 <= 1 - den s / den T). { assert (den s / den T <= 1); [|lra]. apply Rmult_le_reg_r with (den T); [lra|]. replace (den s / den T * den T) with (den s) by (field; lra). lra. }
      assert (0 <= 2 * b * (1 - den s / den T) * dt) by (repeat apply Rmult_le_pos; lra). lra. }
    assert (E3 : 0 <= (alph s * dt) ^ 2 * low s). { apply Rmult_le_pos; [apply pow2_ge_0|]. unfold low. apply Rmult_le_pos; [lra|apply Rlt_le, Rinv_0_lt_compat; lra]. }
    replace ((1 + alph s * dt) ^ 2 * low s) with (low s + 2 * alph s * low s * dt + (alph s * dt) ^ 2 * low s) by ring.
    assert (0 <= (M3 + M7) * dt ^ 2) by (apply Rmult_le_pos; [lra|apply pow2_ge_0]).
    replace ((r ^ 2 * M4 / den T + M3 + M7) * dt ^ 2) with (r ^ 2 / den T * (M4 * dt ^ 2) + (M3 + M7) * dt ^ 2) by (field; lra). lra.
  - intros s dt Hdt Hs Hs'. specialize (T3 (s - dt) s ltac:(lra) ltac:(lra)). specialize (T7 (s - dt) s ltac:(lra) ltac:(lra)). replace (s - dt - s) with (- dt) in T3, T7 by ring. replace ((- dt) ^ 2) with (dt ^ 2) in T3, T7 by ring.
    apply Rabs_le_between in T3. apply Rabs_le_between in T7. destruct T3 as [T3 _]. destruct T7 as [T7 _].
    specialize (Hb s ltac:(lra)). destruct (den_range s ltac:(lra)) as [Hds _]. set (b := brate s) in *.
    replace (INR 3) with 3 in T3 by (simpl; ring). replace (INR 7) with 7 in T7 by (simpl; ring).
    destruct (F_range 3 s ltac:(lra)) as [Hf _]. destruct (F_range 7 s ltac:(lra)) as [Hf7 _].
    assert (Es : r ^ 2 * F s ^ 7 = (1 - den s) * F s ^ 3) by (unfold den; ring).
    unfold upp at 1. rewrite Es.
    assert (EQ : alph s * ((F s ^ 3 + (1 - den s) * F s ^ 3) / 2) + 2 * b * F s ^ 3 / den s = b * F s ^ 3 * (3 + (1 - den s)) / 2).
    { unfold alph. fold b. field. lra. }
    assert (HD : b * F s ^ 3 * (3 + (1 - den s)) / 2 * dt <= (3 * b * F s ^ 3 + r ^ 2 * (7 * b * F s ^ 7)) / 2 * dt).
    { apply Rmult_le_compat_r; [exact Hdt|]. replace (r ^ 2 * (7 * b * F s ^ 7)) with (7 * b * (r ^ 2 * F s ^ 7)) by ring. rewrite Es.
      destruct (den_range s ltac:(lra)) as [? ?]. assert (0 <= b * F s ^ 3 * (1 - den s)) by (apply Rmult_le_pos; [apply Rmult_le_pos; lra|lra]). lra. }
    unfold upp. assert (H7 : 0 <= r ^ 2 * (F (s - dt) ^ 7 - F s ^ 7 - - dt * (- (7 * b) * F s ^ 7) + M7 * dt ^ 2)) by (apply Rmult_le_pos; lra).
    assert (Hq : 0 <= dt ^ 2) by apply pow2_ge_0. assert (0 <= M3 * dt ^ 2) by now apply Rmult_le_pos. assert (0 <= M7 * dt ^ 2) by now apply Rmult_le_pos.
    assert (0 <= r ^ 2 * M4 / den T * dt ^ 2) by now apply Rmult_le_pos. assert (r ^ 2 * (M7 * dt ^ 2) <= 1 * (M7 * dt ^ 2)) by (apply Rmult_le_compat_r; lra).
    replace ((1 + alph s * dt) * ((F s ^ 3 + (1 - den s) * F s ^ 3) / 2) + 2 * b * F s ^ 3 / den s * dt)
      with ((F s ^ 3 + (1 - den s) * F s ^ 3) / 2 + (alph s * ((F s ^ 3 + (1 - den s) * F s ^ 3) / 2) + 2 * b * F s ^ 3 / den s) * dt) by ring.
    rewrite EQ, <- Es. lra.
Qed.

(** ** The program *)
Definition one_mask : mask := mk_mask 1 1 [0%nat] [1%nat].

(** the score of the law at time [t] of a pair with unit variances and covariance [r]; only the value at the pixel
    that is not observed matters *)
Definition exact_score (score : list (list pixel) -> R -> list (list pixel)) : Prop := forall t x v, 0 < t <= T -> exists s1 s2,
  score [[[x]; [v]]] t = [[[s1]; [s2]]] /\ is_derive (fun a => pair_logpdf (F t ^ 2 + Q t) (F t ^ 2 * r) a v) x s1.

Lemma exact_score_value score t x v : exact_score score -> 0 < t <= T -> exists s2, score [[[x]; [v]]] t = [[[- (x - F t ^ 2 * r * v) / den t]; [s2]]].
Proof.
  intros H Ht. destruct (H t x v Ht) as (s1 & s2 & Hs & Hder). exists s2. rewrite Hs. do 3 f_equal.
  destruct stationary_facts as (_ & HV & _). rewrite HV in Hder. destruct (den_range t ltac:(lra)) as [Hdt _].
  assert (Ed : 1 ^ 2 - (F t ^ 2 * r) ^ 2 = den t) by (unfold den; ring).
  assert (H1 := pair_score 1 (F t ^ 2 * r) x v ltac:(rewrite Ed; lra)). rewrite Ed in H1.
  rewrite <- (is_derive_unique _ _ _ Hder), (is_derive_unique _ _ _ H1). now rewrite Rmult_1_l.
Qed.

Section program.
Variables (score : list (list pixel) -> R -> list (list pixel)) (y dt : R) (rx ry : dist (list R)).
Variables (normal_x normal_y : key -> prog (list pixel)) (normal_xs : key -> nat -> prog (list (list pixel))).
Hypothesis Hs : exact_score score.
Hypothesis Hx : white 1 rx.
Hypothesis Hy : white 1 ry.
Hypothesis Lx : forall k, denotes (normal_x k) (dseq (repeat rx 1)).
Hypothesis Ly : forall k, denotes (normal_y k) (dseq (repeat ry 1)).
Hypothesis Lxs : forall k n, denotes (normal_xs k n) (dseq (repeat (dseq (repeat rx 1)) n)).

Definition one_step (t : R) (D : dist R) : dist R :=
  let s := T - t in stepD (1 + alph s * dt) (r * y * (2 * brate s * F s ^ 3 / den s * dt)) (dispersion sde s * sqrt dt) (2 * brate s * r * F s ^ 2 * sqrt (Q s) / den s * dt) rx ry D.
Fixpoint chainD (ts : list R) (D : dist R) : dist R := match ts with [] => D | t :: ts => chainD ts (one_step t D) end.

Lemma E_single (row : dist (list R)) f : E (dseq (repeat row 1)) f = E row (fun e => f [e]).
Proof. cbn [repeat]. rewrite E_dseq_cons. apply E_ext'. intros e. cbn [dseq]. now rewrite E_dret. Qed.

Lemma single_row row e : white 1 row -> In e (map snd row) -> e = [nth 0 e 0].
Proof. intros H Hin. pose proof (wh_len _ _ H e Hin) as Hl. destruct e as [|a [|b e]]; cbn in Hl; [lia|reflexivity|lia]. Qed.

Lemma scan_law k G : forall ts i D, (forall t, In t ts -> 0 <= t < T) ->
  E D (fun x => E (dseq (repeat (dseq (repeat rx 1)) (length ts))) (fun rnds => law (csgm_scan 1 2 sde T dt score normal_y one_mask [[y]] k i (combine ts rnds) [[x]]) G))
  = E (chainD ts D) (fun x => G [[x]]).
Proof.
  induction ts as [|t ts IH]; intros i D Hts.
  { cbn [length repeat dseq chainD combine]. apply E_ext'. intros x. rewrite E_dret. reflexivity. }
  cbn [chainD]. rewrite <- (IH (S i) (one_step t D)) by (intros t' Ht'; apply Hts; now right). unfold one_step. rewrite E_stepD. apply E_ext'. intros x.
  cbn [length repeat]. rewrite E_dseq_cons. rewrite (E_single rx). apply E_ext. intros e He. apply (single_row rx e Hx) in He.
  specialize (Hts t ltac:(now left)).
  transitivity (E (dseq (repeat (dseq (repeat rx 1)) (length ts))) (fun rnds => E ry (fun z =>
    law (csgm_scan 1 2 sde T dt score normal_y one_mask [[y]] k (S i) (combine ts rnds)
      [[(1 + alph (T - t) * dt) * x + r * y * (2 * brate (T - t) * F (T - t) ^ 3 / den (T - t) * dt) + dispersion sde (T - t) * sqrt dt * nth 0 e 0
       + 2 * brate (T - t) * r * F (T - t) ^ 2 * sqrt (Q (T - t)) / den (T - t) * dt * nth 0 z 0]]) G))).
  { apply E_ext'. intros rnds. cbn [combine csgm_scan]. rewrite law_bind, (Ly (split_key k i)), (E_single ry). apply E_ext. intros z Hz. apply (single_row ry z Hy) in Hz.
    f_equal. f_equal. set (e0 := nth 0 e 0) in *. set (z0 := nth 0 z 0) in *. clearbody e0 z0. subst e z.
    set (s := T - t) in *. assert (Hs0 : 0 < s <= T) by (unfold s; lra).
    destruct (exact_score_value score s x (F s * y + sqrt (Q s) * z0) Hs Hs0) as (s2 & Hv).
    unfold csgm_drift. fold s.
    assert (Ev : v_hat sde T t [[y]] [[z0]] = [[F s * y + sqrt (Q s) * z0]]) by reflexivity.
    rewrite Ev. assert (Ec : concat_parts [] 1 2 [[x]] [[F s * y + sqrt (Q s) * z0]] one_mask = [[[x]; [F s * y + sqrt (Q s) * z0]]]) by reflexivity.
    rewrite Ec, Hv. cbn. do 2 f_equal.
    destruct stationary_facts as (_ & _ & Hg & _). specialize (Hg s ltac:(lra)). destruct (den_range s ltac:(lra)) as [Hds _].
    replace (dispersion sde s * dispersion sde s) with (2 * brate s) by (rewrite <- Hg; ring). unfold alph, brate. field. lra. }
  rewrite E_exchange.  apply E_ext'. intros z. reflexivity.
Qed.

Definition pix (u : list pixel) : R := nth 0 (nth 0 u []) 0.

Lemma start_mom : mom (dmap (fun e => nth 0 e 0) rx) 0 1.
Proof.
  split; [apply is_prob_dmap, Hx|]. rewrite !E_dmap. split; [apply (wh_mean _ _ Hx); lia|].
  rewrite (E_ext' rx _ (fun e => nth 0 e 0 * nth 0 e 0)) by (intros; ring). exact (wh_cov _ _ Hx 0%nat 0%nat ltac:(lia) ltac:(lia)).
Qed.

Lemma sampler_law k ts G : (forall t, In t (removelast ts) -> 0 <= t < T) ->
  law (csgm_sampler 1 2 sde T dt score normal_x normal_y normal_xs k [[y]] one_mask ts) G = E (chainD (removelast ts) (dmap (fun e => nth 0 e 0) rx)) (fun x => G [[x]]).
Proof.
  intros Hts. unfold csgm_sampler. rewrite law_bind, (Lx (split_key k 0)), (E_single rx). cbv zeta.
  rewrite <- (scan_law (split_key (split_key k 1) 1) G (removelast ts) 0%nat) by exact Hts. rewrite E_dmap. apply E_ext. intros e He. apply (single_row rx e Hx) in He.
  rewrite law_bind, Lxs.
  assert (Hl : (length ts - 1)%nat = length (removelast ts)). { destruct ts as [|t ts] using rev_ind; [reflexivity|]. rewrite removelast_last, app_length. cbn. lia. }
  rewrite Hl. rewrite <- He. reflexivity.
Qed.

Lemma chain_mom B C : 0 <= B -> 0 <= C -> (forall t, 0 <= t <= T -> Rabs (alph t) <= B) ->
  (forall s dt, 0 <= dt -> 0 <= s - dt -> s <= T -> low (s - dt) <= (1 + alph s * dt) ^ 2 * low s + 2 * brate s * dt + C * dt ^ 2) ->
  (forall s dt, 0 <= dt -> 0 <= s - dt -> s <= T -> (1 + alph s * dt) * upp s + 2 * brate s * F s ^ 3 / den s * dt <= upp (s - dt) + C * dt ^ 2) ->
  0 <= dt -> B * dt <= 1 ->
  forall j i D c V, INR (i + j) * dt <= T -> mom D (r * y * c) V ->
    low (T - INR i * dt) - V <= C * dt * (INR i * dt) * exp (2 * B * (INR i * dt)) ->
    c - upp (T - INR i * dt) <= C * dt * (INR i * dt) * exp (2 * B * (INR i * dt)) ->
    exists c' V', mom (chainD (map (fun i => INR i * dt) (seq i j)) D) (r * y * c') V' /\
      low (T - INR (i + j) * dt) - V' <= C * dt * (INR (i + j) * dt) * exp (2 * B * (INR (i + j) * dt)) /\
      c' - upp (T - INR (i + j) * dt) <= C * dt * (INR (i + j) * dt) * exp (2 * B * (INR (i + j) * dt)).
Proof.
  intros HB HC HA HL HU Hdt HBdt. induction j as [|j IH]; intros i D c V Hij HD HV Hc.
  { rewrite Nat.add_0_r. cbn [seq map chainD]. now exists c, V. }
  cbn [seq map chainD]. replace (i + S j)%nat with (S i + j)%nat in * by lia. set (t := INR i * dt) in *. set (s := T - t) in *.
  assert (Ht1 : INR (S i) * dt = t + dt) by (rewrite S_INR; unfold t; ring).
  assert (Hle : t + dt <= T). { rewrite <- Ht1. eapply Rle_trans; [|exact Hij]. apply Rmult_le_compat_r; [exact Hdt|]. apply le_INR. lia. }
  assert (Ht0 : 0 <= t) by (unfold t; apply Rmult_le_pos; [apply pos_INR|exact Hdt]).
  assert (Hs0 : 0 <= s <= T) by (unfold s; lra).
  specialize (HA s Hs0). apply Rabs_le_between in HA. set (q := 1 + alph s * dt) in *.
  assert (Hq : 0 <= q <= exp (B * dt)).
  { split; [|eapply Rle_trans; [|apply EmMoments.exp_lower]]; unfold q; [assert (- B * dt <= alph s * dt) by (apply Rmult_le_compat_r; lra)|assert (alph s * dt <= B * dt) by (apply Rmult_le_compat_r; lra)]; lra. }
  assert (H1B : 1 <= exp (B * dt)). { eapply Rle_trans; [|apply EmMoments.exp_lower]. assert (0 <= B * dt) by now apply Rmult_le_pos. lra. }
  assert (E2 : exp (2 * B * dt) = exp (B * dt) * exp (B * dt)) by (rewrite <- exp_plus; f_equal; ring).
  destruct stationary_facts as (_ & _ & Hg & _). specialize (Hg s Hs0).
  assert (Es : s - dt = T - (t + dt)) by (unfold s; ring).
  pose proof (step_mom q (r * y * (2 * brate s * F s ^ 3 / den s * dt)) (dispersion sde s * sqrt dt) (2 * brate s * r * F s ^ 2 * sqrt (Q s) / den s * dt) rx ry D _ V Hx Hy HD) as HD'.
  replace (q * (r * y * c) + r * y * (2 * brate s * F s ^ 3 / den s * dt)) with (r * y * (q * c + 2 * brate s * F s ^ 3 / den s * dt)) in HD' by ring.
  refine (IH (S i) _ _ _ Hij HD' _ _); rewrite Ht1, <- Es.
  - apply (gron (q ^ 2) (low s - V)); try assumption; try lra.
    + split; [apply pow2_ge_0|]. rewrite E2. replace (q ^ 2) with (q * q) by ring. apply Rmult_le_compat; lra.
    + specialize (HL s dt Hdt ltac:(lra) ltac:(lra)). fold q in HL.
      assert (Hcr : (dispersion sde s * sqrt dt) ^ 2 = 2 * brate s * dt). { rewrite Rpow_mult_distr, Hg, pow2_sqrt by exact Hdt. reflexivity. }
      rewrite Hcr. pose proof (pow2_ge_0 (2 * brate s * r * F s ^ 2 * sqrt (Q s) / den s * dt)). lra.
  - apply (gron q (c - upp s)); try assumption; try lra.
    + split; [apply Hq|]. rewrite E2. assert (exp (B * dt) * 1 <= exp (B * dt) * exp (B * dt)) by (apply Rmult_le_compat_l; lra). lra.
    + specialize (HU s dt Hdt ltac:(lra) ltac:(lra)). fold q in HU. lra.
Qed.
End program.

Theorem csgm_limit : exists K N0, 0 <= K /\ forall n y score rx ry normal_x normal_y normal_xs k, (1 <= n)%nat -> (N0 <= n)%nat ->
  exact_score score -> white 1 rx -> white 1 ry -> (forall k, denotes (normal_x k) (dseq (repeat rx 1))) -> (forall k, denotes (normal_y k) (dseq (repeat ry 1))) ->
  (forall k n, denotes (normal_xs k n) (dseq (repeat (dseq (repeat rx 1)) n))) ->
  let L := law (csgm_sampler 1 2 sde T (T / INR n) score normal_x normal_y normal_xs k [[y]] one_mask (linspace 0 T (S n))) in
  (1 - r ^ 2) / (1 - r ^ 2 * F T ^ 4) - K / INR n <= L (fun u => (pix u - L pix) ^ 2) /\ exists c, L pix = r * y * c /\ c <= (1 + r ^ 2) / 2 + K / INR n.
Proof.
  destruct moment_bounds as (B & C & HB & HC & HA & HL & HU). destruct (nfloor_ex (B * T)) as (N1 & _ & HN1); [apply Rmult_le_pos; lra|]. set (N0 := S N1). assert (HN0 : B * T < INR N0) by (unfold N0; rewrite S_INR; exact HN1).
  exists (C * T * T * exp (2 * B * T)), N0. split; [repeat apply Rmult_le_pos; try lra; apply Rlt_le, exp_pos|].
  intros n y score rx ry normal_x normal_y normal_xs k Hn1 HnN Hs Hx Hy Lx Ly Lxs L.
  assert (Hn0 : 0 < INR n) by (apply lt_0_INR; lia). set (dt := T / INR n) in *.
  assert (Hdt : 0 < dt) by (unfold dt; apply Rdiv_lt_0_compat; lra).
  assert (Hend : INR n * dt = T) by (unfold dt; field; lra).
  assert (HBdt : B * dt <= 1). { apply Rmult_le_reg_r with (INR n); [exact Hn0|]. replace (B * dt * INR n) with (B * T) by (unfold dt; field; lra). apply le_INR in HnN. lra. }
  assert (Hts : removelast (linspace 0 T (S n)) = map (fun i => INR i * dt) (seq 0 n)).
  { unfold linspace. destruct n as [|n']; [lia|]. rewrite (seq_S (S n') 0), map_app. cbn [map]. rewrite removelast_last. apply map_ext. intros i. replace (S (S n') - 1)%nat with (S n') by lia. unfold dt, Rminus, Rdiv. ring. }
  assert (Hin : forall t, In t (removelast (linspace 0 T (S n))) -> 0 <= t < T).
  { intros t Ht. rewrite Hts in Ht. apply in_map_iff in Ht. destruct Ht as (i & <- & Hi). apply in_seq in Hi. split; [apply Rmult_le_pos; [apply pos_INR|lra]|].
    rewrite <- Hend. apply Rmult_lt_compat_r; [exact Hdt|]. apply lt_INR. lia. }
  assert (HLaw : forall G, L G = E (chainD y dt rx ry (map (fun i => INR i * dt) (seq 0 n)) (dmap (fun e => nth 0 e 0) rx)) (fun x => G [[x]])).
  { intros G. unfold L. rewrite (sampler_law score y dt rx ry normal_x normal_y normal_xs Hs Hx Hy Lx Ly Lxs k _ G Hin), Hts. reflexivity. }
  assert (H0 : mom (dmap (fun e => nth 0 e 0) rx) (r * y * 0) 1) by (rewrite Rmult_0_r; now apply start_mom).
  destruct stationary_facts as (HP & _ & _ & _ & HF0 & _).
  destruct (chain_mom y dt rx ry Hx Hy B C HB HC HA HL HU ltac:(lra) HBdt n 0%nat (dmap (fun e => nth 0 e 0) rx) 0 1) as (c & V & (Hp & Hm & HV) & H1 & H2).
  - cbn [Nat.add]. lra.
  - exact H0.
  - cbn [INR]. rewrite Rmult_0_l, Rminus_0_r, Rmult_0_r, Rmult_0_l. unfold low. destruct (den_range T ltac:(lra)) as [HdT _]. replace (den T / den T) with 1 by (field; lra). lra.
  - cbn [INR]. rewrite Rmult_0_l, Rminus_0_r, Rmult_0_r, Rmult_0_l. unfold upp. pose proof (F_range 3 T ltac:(lra)). pose proof (F_range 7 T ltac:(lra)).
    assert (0 <= r ^ 2 * F T ^ 7) by (apply Rmult_le_pos; lra). lra.
  - cbn [Nat.add] in H1, H2. rewrite Hend in H1, H2. replace (T - T) with 0 in H1, H2 by ring.
    replace (C * dt * T * exp (2 * B * T)) with (C * T * T * exp (2 * B * T) / INR n) in H1, H2 by (unfold dt; field; lra).
    assert (HM : L pix = r * y * c) by (rewrite HLaw; exact Hm).
    split.
    + assert (EV : L (fun u => (pix u - L pix) ^ 2) = V) by (rewrite HLaw, HM; exact HV). rewrite EV. unfold low, den in H1. rewrite HF0, pow1 in H1. rewrite Rmult_1_r in H1. lra.
    + exists c. split; [exact HM|]. unfold upp in H2. rewrite HF0, !pow1 in H2. lra.
Qed.
End bias.

Theorem csgm_biased sde T r : sde_defined sde -> 0 < T -> (forall t, 0 <= t <= T -> nonneg_noise sde t) -> 0 < r ^ 2 < 1 ->
  fst (FQ sde T 0) < 1 -> fst (FQ sde T 0) ^ 2 + snd (FQ sde T 0) = 1 ->
  exists del N0, 0 < del /\ forall n y score rx ry normal_x normal_y normal_xs k, (N0 <= n)%nat ->
  exact_score sde T r score -> white 1 rx -> white 1 ry -> (forall k, denotes (normal_x k) (dseq (repeat rx 1))) -> (forall k, denotes (normal_y k) (dseq (repeat ry 1))) ->
  (forall k n, denotes (normal_xs k n) (dseq (repeat (dseq (repeat rx 1)) n))) ->
  let L := law (csgm_sampler 1 2 sde T (T / INR n) score normal_x normal_y normal_xs k [[y]] one_mask (linspace 0 T (S n))) in
  1 - r ^ 2 + del <= L (fun u => (pix u - L pix) ^ 2) /\ del * Rabs (r * y) <= Rabs (r * y - L pix).
Proof.
  intros Hd HT Hn Hr HF Hst. destruct (csgm_limit sde T r Hd HT Hn Hr HF Hst) as (K & N0 & HK & HL).
  destruct (den_range sde T r Hd HT Hn Hr HF Hst T ltac:(lra)) as [Hden Hden1]. unfold den in Hden, Hden1. set (q := 1 - r ^ 2 * fst (FQ sde T 0) ^ 4) in *.
  set (g1 := (1 - r ^ 2) / q - (1 - r ^ 2)). assert (Hg1 : 0 < g1).
  { unfold g1. replace ((1 - r ^ 2) / q - (1 - r ^ 2)) with ((1 - r ^ 2) * ((1 - q) / q)) by (field; lra). apply Rmult_lt_0_compat; [lra|]. apply Rdiv_lt_0_compat; lra. }
  set (del := Rmin (g1 / 2) ((1 - r ^ 2) / 4)). assert (Hdel : 0 < del) by (unfold del; apply Rmin_glb_lt; lra).
  assert (D1 : del <= g1 / 2) by apply Rmin_l. assert (D2 : del <= (1 - r ^ 2) / 4) by apply Rmin_r.
  destruct (nfloor_ex (K / del)) as (N1 & _ & HN1). { apply Rmult_le_pos; [exact HK|apply Rlt_le, Rinv_0_lt_compat, Hdel]. }
  exists del, (S N0 + S N1)%nat. split; [exact Hdel|]. intros n y score rx ry normal_x normal_y normal_xs k Hnn Hs Hx Hy Lx Ly Lxs L.
  destruct (HL n y score rx ry normal_x normal_y normal_xs k ltac:(lia) ltac:(lia) Hs Hx Hy Lx Ly Lxs) as [H1 (c & H2 & H3)]. change ((1 - r ^ 2) / q - K / INR n <= L (fun u => (pix u - L pix) ^ 2)) in H1. change (L pix = r * y * c) in H2.
  assert (Hn0 : 0 < INR n) by (apply lt_0_INR; lia).
  assert (HKn : K / INR n <= del).
  { apply Rmult_le_reg_r with (INR n); [exact Hn0|]. replace (K / INR n * INR n) with (K / del * del) by (field; split; lra). rewrite (Rmult_comm del).
    apply Rmult_le_compat_r; [lra|]. assert (INR (S N1) <= INR n) by (apply le_INR; lia). rewrite S_INR in H. lra. }
  assert (Eg : (1 - r ^ 2) / q = 1 - r ^ 2 + g1) by (unfold g1; ring). rewrite Eg in H1. clearbody g1 del q.
  split; [lra|]. rewrite H2. replace (r * y - r * y * c) with ((1 - c) * (r * y)) by ring. rewrite (Rabs_mult (1 - c)). apply Rmult_le_compat_r; [apply Rabs_pos|].
  rewrite Rabs_pos_eq by lra. lra.
Qed.
