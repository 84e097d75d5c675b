(** Euler-Maruyama for the linear SDEs, forwards and backwards: the mean and the covariance of the
    chain are within a constant times the step of the exact ones. *)
From Coquelicot Require Import Coquelicot.
From Coq Require Import Reals List Lia Lra Morphisms Setoid FunctionalExtensionality.
From Verif Require Sde SdeProofs SdeMore Sim SimMore.
From Verif Require Import Base Dist Prog Mat MatMore Cholesky GaussDiv GaussCond GaussSBMore Toy ToyCond EmMoments.
Import ListNotations.
Open Scope R_scope.

(** ** Second-order remainders on a compact interval *)
Lemma compact_bound (f : R -> R) T : 0 <= T -> (forall t, ex_derive f t) -> exists M, 0 <= M /\ forall t, 0 <= t <= T -> Rabs (f t) <= M.
Proof.
  intros HT Hc. assert (Hc' : forall c, 0 <= c <= T -> continuity_pt f c).
  { intros c _. apply continuity_pt_filterlim. apply (ex_derive_continuous f c (Hc c)). }
  destruct (continuity_ab_maj f 0 T HT Hc') as (x & Hx & _). destruct (continuity_ab_min f 0 T HT Hc') as (y & Hy & _).
  exists (Rabs (f x) + Rabs (f y)). split; [pose proof (Rabs_pos (f x)); pose proof (Rabs_pos (f y)); lra|]. intros t Ht.
  specialize (Hx t Ht). specialize (Hy t Ht). pose proof (Rabs_pos (f x)). pose proof (Rabs_pos (f y)).
  pose proof (Rle_abs (f x)). pose proof (Rabs_maj2 (f y)). apply Rabs_le. lra.
Qed.

Lemma mvt (f f1 : R -> R) a b : (forall t, is_derive f t (f1 t)) -> exists c, Rmin a b <= c <= Rmax a b /\ f b - f a = f1 c * (b - a).
Proof.
  intros H. apply MVT_gen; intros x _; [apply H|]. apply continuity_pt_filterlim. apply (ex_derive_continuous f x). eexists; apply H.
Qed.

Lemma taylor2 (f f1 f2 : R -> R) T : 0 <= T -> (forall t, is_derive f t (f1 t)) -> (forall t, is_derive f1 t (f2 t)) -> (forall t, ex_derive f2 t) ->
  exists M, 0 <= M /\ forall s t, 0 <= s <= T -> 0 <= t <= T -> Rabs (f s - f t - (s - t) * f1 t) <= M * (s - t) ^ 2.
Proof.
  intros HT H1 H2 H3. destruct (compact_bound f2 T HT H3) as (M & HM & HB). exists M. split; [exact HM|]. intros s t Hs Ht.
  destruct (mvt f f1 t s H1) as (c & Hc & Ec). destruct (mvt f1 f2 t c H2) as (c' & Hc' & Ec').
  replace (f s - f t - (s - t) * f1 t) with ((f1 c - f1 t) * (s - t)) by (rewrite Ec; ring). rewrite Ec'.
  rewrite !Rabs_mult. assert (Hin : 0 <= c' <= T).
  { revert Hc Hc'. unfold Rmin, Rmax. destruct (Rle_dec t s), (Rle_dec t c); lra. }
  assert (Hct : Rabs (c - t) <= Rabs (s - t)).
  { revert Hc. unfold Rmin, Rmax. destruct (Rle_dec t s); intros Hc.
    - rewrite !Rabs_pos_eq by lra. lra.
    - rewrite !Rabs_left1 by lra. lra. }
  replace ((s - t) ^ 2) with (Rabs (s - t) * Rabs (s - t)) by (rewrite <- Rabs_mult, Rabs_pos_eq; [ring|]; replace ((s - t) * (s - t)) with (Rsqr (s - t)) by reflexivity; apply Rle_0_sqr).
  rewrite Rmult_assoc. apply Rmult_le_compat; try apply Rabs_pos; [apply Rmult_le_pos; apply Rabs_pos|now apply HB|].
  apply Rmult_le_compat_r; [apply Rabs_pos|exact Hct].
Qed.

(** ** The linear SDEs *)
Lemma sde_exponents sde : SdeProofs.sde_defined sde -> exists rho a' kap,
  (forall t, is_derive rho t (Sde.drift_coef sde t)) /\ (forall t, is_derive (Sde.drift_coef sde) t (a' t)) /\ (forall t, ex_derive a' t) /\
  (forall t, fst (Sde.FQ sde t 0) = exp (rho t)) /\ (forall t, snd (Sde.FQ sde t 0) = kap * (1 - exp (2 * rho t))) /\
  (forall t, SdeProofs.nonneg_noise sde t -> Sde.dispersion sde t ^ 2 = - 2 * Sde.drift_coef sde t * kap).
Proof.
  intros Hd. assert (Hsq : forall t, SdeProofs.nonneg_noise sde t -> Sde.dispersion sde t ^ 2 = Sde.dispersion sde t * Sde.dispersion sde t) by (intros; ring).
  destruct sde as [a b|m M t0 T|a b c z|]; cbn [SdeProofs.sde_defined] in Hd; [| | |easy].
  - exists (fun t => a * (t - 0)), (fun _ => 0), (- (b * b) / (2 * a)). cbn [Sde.drift_coef Sde.FQ fst snd].
    split; [intros t; auto_derive; [exact I|ring]|]. split; [intros t; apply (is_derive_const (V := R_NormedModule) a t)|]. split; [intros t; auto_derive; exact I|].
    split; [reflexivity|]. split; [intros t; replace (2 * (a * (t - 0))) with (2 * a * (t - 0)) by ring; field; assumption|].
    intros t Hn. rewrite (Hsq t Hn), SdeProofs.dispersion_sq by exact Hn. field. assumption.
  - exists (fun t => Ropp (1/2) * Sde.beta_integral m M t0 T t 0), (fun _ => Ropp (1/2) * ((M - m) / (T - t0))), 1. cbn [Sde.drift_coef Sde.FQ fst snd].
    split; [intros t; apply is_derive_scal, SdeProofs.beta_integral_derive|].
    split; [intros t; change (is_derive (fun t => Ropp (1/2) * Sde.beta m M t0 T t) t (Ropp (1/2) * ((M - m) / (T - t0)))); unfold Sde.beta; auto_derive; [exact I|ring]|]. split; [intros t; auto_derive; exact I|].
    split; [reflexivity|]. split; [intros t; rewrite Rmult_1_l; f_equal; f_equal; f_equal; field|].
    intros t Hn. rewrite (Hsq t Hn), SdeProofs.dispersion_sq by exact Hn. field.
  - destruct Hd as [Ha Hc]. exists (fun t => a * (exp (c * (t - z)) - exp (c * (0 - z))) / c), (fun t => a * (c * exp (c * (t - z)))), (- (b * b) / (2 * a)).
    cbn [Sde.drift_coef Sde.FQ fst snd].
    split; [intros t; auto_derive; [exact I|]; unfold Rminus; field; exact Hc|]. split; [intros t; change (is_derive (fun t => a * exp (c * (t - z))) t (a * (c * exp (c * (t - z))))); auto_derive; [exact I|]; unfold Rminus; ring|].
    split; [intros t; auto_derive; exact I|]. split; [reflexivity|]. split; [reflexivity|].
    intros t Hn. rewrite (Hsq t Hn), SdeProofs.dispersion_sq by exact Hn. field. assumption.
Qed.

Section sde.
Variables (sde : Sde.linear_sde) (T : R) (d : nat) (m0 : vec) (C0 : mat).
Hypothesis Hd : SdeProofs.sde_defined sde.
Hypothesis HT : 0 <= T.
Hypothesis Hn : forall t, 0 <= t <= T -> SdeProofs.nonneg_noise sde t.
Let a := Sde.drift_coef sde.
Let g := Sde.dispersion sde.
Let m := fwd_mean sde m0.
Let P := fwd_cov sde C0.

Lemma Rsum_entry (F : nat -> R) n i : (i < n)%nat -> Rabs (F i) <= Rsum (map (fun k => Rabs (F k)) (seq 0 n)).
Proof.
  intros Hi. apply Rsum_In_le; [apply Forall_forall; intros x Hx; apply in_map_iff in Hx as (k & <- & _); apply Rabs_pos|].
  apply in_map_iff. exists i. split; [reflexivity|]. apply in_seq. lia.
Qed.
Lemma matrix_bound (X : mat) : exists B, 0 <= B /\ forall i j, (i < d)%nat -> (j < d)%nat -> Rabs (X i j) <= B.
Proof.
  exists (Rsum (map (fun i => Rabs (Rsum (map (fun j => Rabs (X i j)) (seq 0 d)))) (seq 0 d))). split.
  - apply Rsum_nonneg, Forall_forall. intros x Hx. apply in_map_iff in Hx as (k & <- & _). apply Rabs_pos.
  - intros i j Hi Hj. eapply Rle_trans; [apply (Rsum_entry (fun j => X i j) d j Hj)|]. eapply Rle_trans; [apply Rle_abs|].
    apply (Rsum_entry (fun i => Rsum (map (fun j => Rabs (X i j)) (seq 0 d))) d i Hi).
Qed.
Lemma vector_bound (x : vec) : exists B, 0 <= B /\ forall i, (i < d)%nat -> Rabs (x i) <= B.
Proof.
  exists (Rsum (map (fun i => Rabs (x i)) (seq 0 d))). split; [|intros i Hi; now apply Rsum_entry].
  apply Rsum_nonneg, Forall_forall. intros y Hy. apply in_map_iff in Hy as (k & <- & _). apply Rabs_pos.
Qed.

(** everything needed about the exact moments, on [0, T] *)
Lemma exact_moments : exists Ma Mi kap C V, 0 <= Ma /\ 0 <= Mi /\ 0 <= C /\ 0 <= V /\
  (forall t, 0 <= t <= T -> Rabs (a t) <= Ma /\ g t ^ 2 <= 2 * Ma * Rabs kap /\ 0 < fst (Sde.FQ sde t 0) ^ 2 /\ / fst (Sde.FQ sde t 0) ^ 2 <= Mi) /\
  (forall t i j, 0 <= t <= T -> (i < d)%nat -> (j < d)%nat -> Rabs (P t i j) <= V) /\
  (forall s t i, 0 <= s <= T -> 0 <= t <= T -> (i < d)%nat -> Rabs (m s i - m t i - (s - t) * (a t * m t i)) <= C * (s - t) ^ 2) /\
  (forall s t i j, 0 <= s <= T -> 0 <= t <= T -> (i < d)%nat -> (j < d)%nat ->
     Rabs (P s i j - P t i j - (s - t) * (2 * a t * P t i j + g t ^ 2 * mid i j)) <= C * (s - t) ^ 2).
Proof.
  destruct (sde_exponents sde Hd) as (rho & a' & kap & H1 & H2 & H3 & HF & HQ & Hg). fold a in H1, H2, Hg. fold g in Hg.
  assert (Er : forall t, ex_derive rho t) by (intros t; exists (a t); apply H1). assert (Ea : forall t, ex_derive a t) by (intros t; exists (a' t); apply H2).
  assert (Dr : forall t, Derive (fun x => rho x) t = a t) by (intros t; apply is_derive_unique, H1). assert (Da : forall t, Derive (fun x => a x) t = a' t) by (intros t; apply is_derive_unique, H2).
  assert (Hexp : forall c t, is_derive (fun t => exp (c * rho t)) t (c * a t * exp (c * rho t))).
  { intros c t. auto_derive; [repeat split; auto|]. rewrite Dr. ring. }
  assert (Hexp2 : forall c t, is_derive (fun t => c * a t * exp (c * rho t)) t ((c * a' t + c * c * (a t * a t)) * exp (c * rho t))).
  { intros c t. auto_derive; [repeat split; auto|]. rewrite Dr, Da. ring. }
  assert (Hexp3 : forall c t, ex_derive (fun t => (c * a' t + c * c * (a t * a t)) * exp (c * rho t)) t).
  { intros c t. auto_derive. repeat split; auto. }
  destruct (compact_bound a T HT ltac:(intros t; eexists; apply H2)) as (Ma & HMa & Ba).
  destruct (compact_bound (fun t => exp (-2 * rho t)) T HT ltac:(intros t; eexists; apply Hexp)) as (Mi & HMi & Bi).
  destruct (compact_bound (fun t => exp (2 * rho t)) T HT ltac:(intros t; eexists; apply Hexp)) as (MG & HMG & BG).
  destruct (taylor2 _ _ _ T HT (Hexp 1) (Hexp2 1) (Hexp3 1)) as (M1 & HM1 & T1). destruct (taylor2 _ _ _ T HT (Hexp 2) (Hexp2 2) (Hexp3 2)) as (M2 & HM2 & T2).
  destruct (vector_bound m0) as (Bm & HBm & Bm'). destruct (matrix_bound (msub C0 (mscale kap mid))) as (BC & HBC & BC').
  assert (HF2 : forall t, fst (Sde.FQ sde t 0) ^ 2 = exp (2 * rho t)).
  { intros t. rewrite HF. replace (2 * rho t) with (rho t + rho t) by ring. rewrite exp_plus. ring. }
  assert (HP : forall t i j, P t i j = exp (2 * rho t) * msub C0 (mscale kap mid) i j + kap * mid i j).
  { intros t i j. unfold P, fwd_cov, madd, msub, mscale. rewrite HF2, HQ. ring. }
  assert (Hmid : forall i j, Rabs (mid i j) <= 1) by (intros i j; unfold mid; destruct Nat.eqb; [rewrite Rabs_R1|rewrite Rabs_R0]; lra).
  exists Ma, Mi, kap, (M1 * Bm + M2 * BC), (MG * BC + Rabs kap).
  split; [exact HMa|]. split; [exact HMi|]. split; [apply Rplus_le_le_0_compat; now apply Rmult_le_pos|].
  split; [apply Rplus_le_le_0_compat; [now apply Rmult_le_pos|apply Rabs_pos]|]. split; [|split; [|split]].
  - intros t Ht. split; [now apply Ba|]. split; [|split].
    + rewrite Hg by now apply Hn. eapply Rle_trans; [apply Rle_abs|]. rewrite !Rabs_mult. rewrite (Rabs_left (-2)) by lra.
      replace (- -2) with 2 by ring. rewrite !Rmult_assoc. apply Rmult_le_compat_l; [lra|]. apply Rmult_le_compat_r; [apply Rabs_pos|]. now apply Ba.
    + rewrite HF2. apply exp_pos.
    + rewrite HF2, <- exp_Ropp. replace (- (2 * rho t)) with (-2 * rho t) by ring. eapply Rle_trans; [apply Rle_abs|]. now apply Bi.
  - intros t i j Ht Hi Hj. rewrite HP. eapply Rle_trans; [apply Rabs_triang|]. rewrite !Rabs_mult.
    apply Rplus_le_compat; [apply Rmult_le_compat; try apply Rabs_pos; [now apply BG|now apply BC']|].
    rewrite <- (Rmult_1_r (Rabs kap)) at 2. apply Rmult_le_compat_l; [apply Rabs_pos|apply Hmid].
  - intros s t i Hs Ht Hi. unfold m, fwd_mean, vscale. rewrite !HF. specialize (T1 s t Hs Ht). rewrite !Rmult_1_l in T1.
    replace (exp (rho s) * m0 i - exp (rho t) * m0 i - (s - t) * (a t * (exp (rho t) * m0 i))) with ((exp (rho s) - exp (rho t) - (s - t) * (a t * exp (rho t))) * m0 i) by ring.
    rewrite Rabs_mult. apply Rle_trans with (M1 * (s - t) ^ 2 * Bm); [apply Rmult_le_compat; try apply Rabs_pos; [exact T1|now apply Bm']|].
    replace ((M1 * Bm + M2 * BC) * (s - t) ^ 2) with (M1 * (s - t) ^ 2 * Bm + M2 * BC * (s - t) ^ 2) by ring.
    assert (0 <= M2 * BC * (s - t) ^ 2) by (apply Rmult_le_pos; [now apply Rmult_le_pos|apply pow2_ge_0]). lra.
  - intros s t i j Hs Ht Hi Hj. specialize (T2 s t Hs Ht). rewrite (Hg t) by now apply Hn. rewrite !HP. set (X := msub C0 (mscale kap mid) i j).
    replace (exp (2 * rho s) * X + kap * mid i j - (exp (2 * rho t) * X + kap * mid i j) - (s - t) * (2 * a t * (exp (2 * rho t) * X + kap * mid i j) + -2 * a t * kap * mid i j))
      with ((exp (2 * rho s) - exp (2 * rho t) - (s - t) * (2 * a t * exp (2 * rho t))) * X) by ring.
    rewrite Rabs_mult. apply Rle_trans with (M2 * (s - t) ^ 2 * BC); [apply Rmult_le_compat; try apply Rabs_pos; [exact T2|now apply BC']|].
    replace ((M1 * Bm + M2 * BC) * (s - t) ^ 2) with (M2 * (s - t) ^ 2 * BC + M1 * Bm * (s - t) ^ 2) by ring.
    assert (0 <= M1 * Bm * (s - t) ^ 2) by (apply Rmult_le_pos; [now apply Rmult_le_pos|apply pow2_ge_0]). lra.
Qed.
End sde.

(** ** The inverse of c C + q I is bounded by the diagonal of the inverse of C *)
Lemma mvec_comb d C al be u w i : mvec d C (fun k => al * u k + be * w k) i = al * mvec d C u i + be * mvec d C w i.
Proof.
  unfold mvec. rewrite <- !Rsum_map_mult_l, <- Rsum_map_plus. apply Rsum_map_ext. intros; ring.
Qed.
Lemma dot_comb d al be u w y : dot d (fun k => al * u k + be * w k) y = al * dot d u y + be * dot d w y.
Proof. unfold dot. rewrite <- !Rsum_map_mult_l, <- Rsum_map_plus. apply Rsum_map_ext. intros; ring. Qed.
Lemma dot_comb_r d al be u w y : dot d y (fun k => al * u k + be * w k) = al * dot d y u + be * dot d y w.
Proof. rewrite dot_comm, dot_comb. now rewrite (dot_comm d u), (dot_comm d w). Qed.
Lemma dot_ext d x y x' y' : veq d x x' -> veq d y y' -> dot d x y = dot d x' y'.
Proof. intros H1 H2. unfold dot. apply Rsum_map_ext. intros k Hk. apply in_seq in Hk. rewrite H1, H2 by lia. reflexivity. Qed.

Lemma quad_cauchy_schwarz d C u w : symmetric d C -> psd d C -> dot d u (mvec d C w) ^ 2 <= quad d C u * quad d C w.
Proof.
  intros HS HP. set (p := quad d C u). set (q := quad d C w). set (b := dot d u (mvec d C w)).
  assert (Hb : dot d w (mvec d C u) = b).
  { unfold b. rewrite dot_mvec, dot_comm. apply dot_ext; [reflexivity|]. intros i Hi. unfold mvec. apply Rsum_map_ext. intros k Hk. apply in_seq in Hk.
    rewrite (HS i k Hi ltac:(lia)). reflexivity. }
  assert (H : forall al be, 0 <= al ^ 2 * p + 2 * al * be * b + be ^ 2 * q).
  { intros al be. specialize (HP (fun k => al * u k + be * w k)). rewrite quad_dot in HP.
    rewrite (dot_ext d _ _ _ (fun k => al * mvec d C u k + be * mvec d C w k) (fun _ _ => eq_refl) ltac:(intros i _; apply mvec_comb)) in HP.
    rewrite dot_comb, !dot_comb_r, Hb, <- !quad_dot in HP. fold b p q in HP. lra. }
  assert (Hp : 0 <= p) by apply HP. assert (Hq : 0 <= q) by apply HP.
  destruct (Req_dec p 0) as [E0|Hp0].
  - rewrite E0 in *. destruct (Req_dec b 0) as [ ->|Hb0]; [lra|]. exfalso.
    assert (Hb2 : 0 < b ^ 2) by (apply pow2_gt_0; exact Hb0).
    specialize (H (- (q + 1) / (2 * b)) 1).
    replace ((- (q + 1) / (2 * b)) ^ 2 * 0 + 2 * (- (q + 1) / (2 * b)) * 1 * b + 1 ^ 2 * q) with (Ropp 1) in H by (field; exact Hb0). lra.
  - specialize (H (- b) p). assert (0 <= p * (p * q - b ^ 2)) by (replace (p * (p * q - b ^ 2)) with ((- b) ^ 2 * p + 2 * - b * p * b + p ^ 2 * q) by ring; exact H).
    assert (0 <= p * q - b ^ 2); [|lra]. apply Rmult_le_reg_l with p; lra.
Qed.

Lemma inverse_bound d C Ci c q W : symmetric d C -> psd d C -> symmetric d Ci -> meq d (mmul d C Ci) mid -> 0 < c -> 0 <= q ->
  meq d (mmul d (madd (mscale c C) (mscale q mid)) W) mid ->
  forall i j, (i < d)%nat -> (j < d)%nat -> Rabs (W i j) <= Rsum (map (fun k => Rabs (Ci k k)) (seq 0 d)) * / c.
Proof.
  intros HS HP HiS HI Hc Hq HW i j Hi Hj. set (B := Rsum (map (fun k => Rabs (Ci k k)) (seq 0 d))).
  set (P := madd (mscale c C) (mscale q mid)) in *. set (w := fun k => W k j).
  assert (HPw : veq d (mvec d P w) (fun k => mid k j)) by (intros k Hk; exact (HW k j Hk Hj)).
  assert (Hsel : forall (x : vec) l, (l < d)%nat -> dot d x (fun k => mid k l) = x l).
  { intros x l Hl. rewrite dot_comm. unfold dot. rewrite <- (mvec_id d x l Hl). unfold mvec. apply Rsum_map_ext. intros k _. unfold mid. now rewrite Nat.eqb_sym. }
  assert (H1 : c * quad d C w <= w j).
  { assert (E1 : quad d P w = w j) by (rewrite quad_dot, (dot_ext d w _ w _ (fun _ _ => eq_refl) HPw); now apply Hsel).
    rewrite <- E1. unfold P. rewrite quad_add, !quad_scale, quad_mid. pose proof (dot_self_nonneg d w). assert (0 <= q * dot d w w) by (now apply Rmult_le_pos). lra. }
  assert (Hqw : 0 <= quad d C w) by apply HP. assert (Hwj : 0 <= w j) by (assert (0 <= c * quad d C w) by (apply Rmult_le_pos; lra); lra).
  assert (HCi : forall l, (l < d)%nat -> veq d (mvec d C (fun k => Ci k l)) (fun k => mid k l)) by (intros l Hl k Hk; exact (HI k l Hk Hl)).
  assert (Hquad : forall l, (l < d)%nat -> quad d C (fun k => Ci k l) = Ci l l).
  { intros l Hl. rewrite quad_dot, (dot_ext d _ _ _ _ (fun _ _ => eq_refl) (HCi l Hl)). exact (Hsel (fun k => Ci k l) l Hl). }
  assert (Hcs : forall l, (l < d)%nat -> w l ^ 2 <= Ci l l * quad d C w).
  { intros l Hl. rewrite <- (Hquad l Hl). replace (w l) with (dot d (fun k => Ci k l) (mvec d C w)); [now apply quad_cauchy_schwarz|].
    rewrite dot_mvec, dot_comm. transitivity (dot d w (fun k => mid k l)); [|now apply Hsel]. apply dot_ext; [reflexivity|].
    intros k Hk. rewrite <- (HCi l Hl k Hk). unfold mvec. apply Rsum_map_ext. intros p Hp. apply in_seq in Hp. rewrite (HS k p Hk ltac:(lia)). reflexivity. }
  assert (HBl : forall l, (l < d)%nat -> 0 <= Ci l l <= B).
  { intros l Hl. split; [rewrite <- (Hquad l Hl); apply HP|]. eapply Rle_trans; [apply Rle_abs|]. exact (Rsum_entry (fun k => Ci k k) d l Hl). }
  assert (HB : 0 <= B) by (pose proof (HBl i Hi); lra).
  assert (Hic : 0 < / c) by now apply Rinv_0_lt_compat.
  assert (H2 : quad d C w <= w j * / c). { apply Rmult_le_reg_l with c; [exact Hc|]. replace (c * (w j * / c)) with (w j) by (field; lra). exact H1. }
  assert (H3 : w j <= B * / c).
  { destruct (Req_dec (w j) 0) as [ ->|Hne]; [apply Rmult_le_pos; lra|]. apply Rmult_le_reg_l with (w j); [lra|].
    replace (w j * w j) with (w j ^ 2) by ring. eapply Rle_trans; [apply (Hcs j Hj)|]. apply Rle_trans with (B * (w j * / c)); [|right; ring].
    apply Rmult_le_compat; try lra; apply HBl; exact Hj. }
  change (W i j) with (w i). apply Rsqr_incr_0_var; [|apply Rmult_le_pos; lra]. rewrite <- Rsqr_abs. unfold Rsqr. replace (w i * w i) with (w i ^ 2) by ring.
  eapply Rle_trans; [apply (Hcs i Hi)|]. apply Rle_trans with (B * (B * / c * / c)); [|right; ring].
  apply Rmult_le_compat; try lra; [apply HBl; exact Hi|apply HBl; exact Hi|]. eapply Rle_trans; [exact H2|]. apply Rmult_le_compat_r; lra.
Qed.

Lemma row_mid d i : (i < d)%nat -> Rsum (map (fun k => Rabs (mid i k)) (seq 0 d)) = 1.
Proof.
  intros Hi. transitivity (mvec d mid (fun _ => 1) i); [|now rewrite (mvec_id d _ i Hi)]. unfold mvec. apply Rsum_map_ext. intros k _.
  unfold mid. destruct Nat.eqb; [rewrite Rabs_R1|rewrite Rabs_R0]; ring.
Qed.

(** ** The flows *)
Section flows.
Variables (sde : Sde.linear_sde) (T : R) (d : nat) (m0 : vec) (C0 : mat).
Hypothesis Hd : SdeProofs.sde_defined sde.
Hypothesis HT : 0 <= T.
Hypothesis Hn : forall t, 0 <= t <= T -> SdeProofs.nonneg_noise sde t.

Lemma forward_flow : exists Lam C V, 0 <= Lam /\ 0 <= C /\ 0 <= V /\
  forall t, 0 <= t < T -> flow_at d (vdrift sde) (Sde.dispersion sde) (fwd_mean sde m0) (fwd_cov sde C0) Lam C V T t.
Proof.
  destruct (exact_moments sde T d m0 C0 Hd HT Hn) as (Ma & Mi & kap & C & V & HMa & HMi & HC & HV & B1 & B2 & B3 & B4).
  exists Ma, C, V. repeat (split; [assumption|]). intros t Ht. assert (Ht' : 0 <= t <= T) by lra.
  exists (mscale (Sde.drift_coef sde t) mid). split; [|split; [|split]].
  - intros x x' i Hi. rewrite mvec_scale_l. rewrite (mvec_id d (vsub x x') i Hi). unfold vdrift, vsub, vscale. ring.
  - intros i Hi. unfold mscale. rewrite (Rsum_map_ext _ (fun k => Rabs (Sde.drift_coef sde t) * Rabs (mid i k))) by (intros; apply Rabs_mult).
    rewrite Rsum_map_mult_l, row_mid by exact Hi. rewrite Rmult_1_r. now apply B1.
  - intros. now apply B2.
  - intros s Hs. split; [intros i Hi; apply B3; lra || assumption|]. intros i j Hi Hj.
    change (mtr (mscale (Sde.drift_coef sde t) mid)) with (mscale (Sde.drift_coef sde t) (mtr mid)).
    rewrite mmul_scale_l, mmul_scale_r, mmul_id_l by exact Hi. rewrite (mmul_proper d _ _ (reflexivity _) (mtr mid) mid (mtr_mid d) i j Hi Hj), mmul_id_r by exact Hj.
    specialize (B4 s t i j ltac:(lra) Ht' Hi Hj).
    replace (Sde.drift_coef sde t * fwd_cov sde C0 t i j + Sde.drift_coef sde t * fwd_cov sde C0 t i j + Sde.dispersion sde t ^ 2 * mid i j)
      with (2 * Sde.drift_coef sde t * fwd_cov sde C0 t i j + Sde.dispersion sde t ^ 2 * mid i j) by ring. exact B4.
Qed.

Variable inv : mat -> mat.
Hypothesis HCs : symmetric d C0.
Hypothesis HCp : posdef d C0.
Hypothesis Hinv : forall t, 0 <= t <= T -> inverse_at d (fwd_cov sde C0) inv t.

Lemma reverse_flow : exists Lam C V, 0 <= Lam /\ 0 <= C /\ 0 <= V /\
  forall t, 0 <= t < T -> flow_at d (reverse_drift d (vdrift sde) (Sde.dispersion sde) T (fwd_mean sde m0) (fwd_cov sde C0) inv) (fun t => Sde.dispersion sde (T - t))
    (fun t => fwd_mean sde m0 (T - t)) (fun t => fwd_cov sde C0 (T - t)) Lam C V T t.
Proof.
  destruct (exact_moments sde T d m0 C0 Hd HT Hn) as (Ma & Mi & kap & C & V & HMa & HMi & HC & HV & B1 & B2 & B3 & B4).
  destruct (posdef_inverse d C0 HCs HCp) as (Ci & _ & I1 & I2). set (B := Rsum (map (fun k => Rabs (Ci k k)) (seq 0 d))).
  assert (HB : 0 <= B) by (apply Rsum_nonneg, Forall_forall; intros x Hx; apply in_map_iff in Hx as (k & <- & _); apply Rabs_pos).
  assert (HK : 0 <= 2 * Ma * Rabs kap) by (apply Rmult_le_pos; [lra|apply Rabs_pos]).
  exists (Ma + 2 * Ma * Rabs kap * (INR d * (B * Mi))), C, V.
  split; [apply Rplus_le_le_0_compat; [exact HMa|]; apply Rmult_le_pos; [exact HK|]; apply Rmult_le_pos; [apply pos_INR|now apply Rmult_le_pos]|].
  repeat (split; [assumption|]). intros t Ht. set (s := T - t). assert (Hs : 0 <= s <= T) by (unfold s; lra).
  assert (Hs0 : 0 < s) by (unfold s; lra).
  set (W := inv (fwd_cov sde C0 s)). set (g := Sde.dispersion sde s). set (a := Sde.drift_coef sde s). destruct (Hinv s Hs) as [W1 W2]. fold W in W1, W2.
  destruct (B1 s Hs) as (Ba & Bg & F1 & F2). fold a g in Ba, Bg.
  assert (HPs : symmetric d (fwd_cov sde C0 s)) by now apply fwd_cov_symmetric.
  assert (HWs : symmetric d W) by now apply (inverse_symmetric d (fwd_cov sde C0 s)).
  assert (HWb : forall i j, (i < d)%nat -> (j < d)%nat -> Rabs (W i j) <= B * Mi).
  { intros i j Hi Hj. eapply Rle_trans.
    - apply (inverse_bound d C0 Ci (fst (Sde.FQ sde s 0) ^ 2) (snd (Sde.FQ sde s 0)) W); try assumption; [now apply posdef_psd|].
      apply SdeProofs.Q_nonneg; [exact Hd|lra|].
      destruct sde; cbn [SdeProofs.noise_on]; try exact I. split; [apply (Hn 0); lra|apply (Hn s Hs)].
    - apply Rmult_le_compat_l; [exact HB|exact F2]. }
  exists (msub (mscale (- a) mid) (mscale (g ^ 2) W)). split; [|split; [|split]].
  - intros x x' i Hi. unfold reverse_drift, score, vsub at 1, vadd, vscale. fold s. fold W. fold g.
    rewrite mvec_sub_l, !mvec_scale_l. rewrite (mvec_id d (vsub x x') i Hi).
    assert (K : mvec d W (vsub x x') i = mvec d W (vsub x (fwd_mean sde m0 s)) i - mvec d W (vsub x' (fwd_mean sde m0 s)) i).
    { rewrite !mvec_sub_r by exact Hi. unfold vsub. ring. }
    rewrite K. unfold vdrift, vscale. fold a. unfold vsub at 3. ring.
  - intros i Hi. apply Rle_trans with (Rsum (map (fun k => Ma * Rabs (mid i k) + 2 * Ma * Rabs kap * (B * Mi)) (seq 0 d))).
    + apply Rsum_map_le. intros k Hk. apply in_seq in Hk. unfold msub, mscale. eapply Rle_trans; [unfold Rminus; apply Rabs_triang|]. rewrite Rabs_Ropp, !Rabs_mult.
      rewrite Rabs_Ropp. rewrite (Rabs_pos_eq (g ^ 2)) by apply pow2_ge_0.
      apply Rplus_le_compat; [apply Rmult_le_compat_r; [apply Rabs_pos|exact Ba]|]. apply Rmult_le_compat; [apply pow2_ge_0|apply Rabs_pos|exact Bg|]. apply HWb; lia.
    + rewrite Rsum_map_plus, Rsum_map_mult_l, row_mid, Rsum_map_const, seq_length by exact Hi. right. ring.
  - intros i j Hi Hj. now apply B2.
  - intros u Hu. split.
    + intros i Hi. unfold reverse_drift, score, vadd, vscale. fold s. fold W. fold g.
      rewrite (mvec_zero d W (vsub (fwd_mean sde m0 s) (fwd_mean sde m0 s))) by (try assumption; intros k _; unfold vsub; ring).
      unfold vdrift, vscale. fold a. specialize (B3 (T - u) s i ltac:(lra) Hs Hi). fold a in B3.
      replace ((T - u - s) ^ 2) with ((u - t) ^ 2) in B3 by (unfold s; ring).
      replace (fwd_mean sde m0 (T - u) i - fwd_mean sde m0 s i - (u - t) * (-(1) * (a * fwd_mean sde m0 s i) + g ^ 2 * (-(1) * 0)))
        with (fwd_mean sde m0 (T - u) i - fwd_mean sde m0 s i - (T - u - s) * (a * fwd_mean sde m0 s i)) by (unfold s; ring). exact B3.
    + intros i j Hi Hj. fold s. fold g. specialize (B4 (T - u) s i j ltac:(lra) Hs Hi Hj). fold a in B4. fold g in B4.
      replace ((T - u - s) ^ 2) with ((u - t) ^ 2) in B4 by (unfold s; ring).
      replace (mmul d (msub (mscale (- a) mid) (mscale (g ^ 2) W)) (fwd_cov sde C0 s) i j + mmul d (fwd_cov sde C0 s) (mtr (msub (mscale (- a) mid) (mscale (g ^ 2) W))) i j + g ^ 2 * mid i j)
        with (- (2 * a * fwd_cov sde C0 s i j + g ^ 2 * mid i j)).
      * replace (fwd_cov sde C0 (T - u) i j - fwd_cov sde C0 s i j - (u - t) * - (2 * a * fwd_cov sde C0 s i j + g ^ 2 * mid i j))
          with (fwd_cov sde C0 (T - u) i j - fwd_cov sde C0 s i j - (T - u - s) * (2 * a * fwd_cov sde C0 s i j + g ^ 2 * mid i j)) by (unfold s; ring). exact B4.
      * change (mtr (msub (mscale (- a) mid) (mscale (g ^ 2) W))) with (msub (mscale (- a) (mtr mid)) (mscale (g ^ 2) (mtr W))).
        mexpand. rewrite (W1 i j Hi Hj). rewrite (mmul_proper d (fwd_cov sde C0 s) _ (reflexivity _) (mtr W) W HWs i j Hi Hj), (W2 i j Hi Hj).
        rewrite (mmul_proper d (fwd_cov sde C0 s) _ (reflexivity _) (mtr mid) mid (mtr_mid d) i j Hi Hj), mmul_id_r by exact Hj. ring.
Qed.
End flows.

(** ** The simulators as programs *)
(** mean and covariance of a law given by its expectations *)
Definition mean_of (L : (list R -> R) -> R) : vec := fun i => L (fun x => nth i x 0).
Definition cov_of (L : (list R -> R) -> R) : mat := fun i j => L (fun x => (nth i x 0 - mean_of L i) * (nth j x 0 - mean_of L j)).

(** simulators.py:46-48: the key is handed on to [euler_maruyama] *)
Definition reverse_prog (normal : Sde.normal_sampler) (k : key) (u0 ts : list R) (score drift : list R -> R -> list R) (disp : R -> R) (n : nat) : prog (option (list R)) :=
  rndss <- Sim.em_draws normal k 0 (length ts - 1) n (length u0) ;; Ret (Sim.reverse_simulator score drift disp n true u0 ts rndss).
Definition on_some {A} (F : A -> R) (o : option A) : R := match o with Some x => F x | None => 0 end.

Lemma moments_of d D m S (L : (list R -> R) -> R) : has_moments d D m S -> (forall F, L F = E D F) ->
  (forall i, (i < d)%nat -> mean_of L i = m i) /\ (forall i j, (i < d)%nat -> (j < d)%nat -> cov_of L i j = S i j).
Proof.
  intros (_ & _ & Hm & HS) HL. assert (H : forall i, (i < d)%nat -> mean_of L i = m i) by (intros i Hi; unfold mean_of; rewrite HL; now apply Hm).
  split; [exact H|]. intros i j Hi Hj. unfold cov_of. rewrite HL, !H by assumption. now apply HS.
Qed.

Lemma program_law normal k n d N D m S ts f g F : has_moments d D m S -> (forall k, denotes (normal k n d) (dseq (repeat N n))) ->
  E D (fun x0 => law (Sim.euler_maruyama_terminal normal k x0 ts f g n) F) = E (chain_law f g N n ts D) F.
Proof.
  intros HD H. rewrite E_chain_law. apply E_ext. intros x Hx. destruct HD as (_ & Hl & _). apply (em_terminal_law normal k n d N); auto.
Qed.

Definition refined (h : R) (n : nat) (ts : list R) : Prop :=
  forall k, (S k < length ts)%nat -> nth k ts 0 < nth (S k) ts 0 /\ (nth (S k) ts 0 - nth k ts 0) / INR n <= h.
Lemma refined_grid h n ts : refined h n ts -> grid h n ts.
Proof.
  induction ts as [|t ts IH]; intros H; [exact I|]. destruct ts as [|t' ts]; [exact I|].
  destruct (H 0%nat ltac:(cbn [length]; lia)) as [H1 H2]. cbn [nth] in H1, H2. split; [exact H1|]. split; [exact H2|].
  apply IH. intros k Hk. apply (H (S k)). cbn [length] in *. lia.
Qed.

Definition within (d : nat) (e : R) (m m' : vec) (S S' : mat) : Prop :=
  (forall i, (i < d)%nat -> Rabs (m i - m' i) <= e) /\ (forall i j, (i < d)%nat -> (j < d)%nat -> Rabs (S i j - S' i j) <= e).

Lemma flow_converges d b g m P Lam C V T : 0 <= T -> 0 <= Lam -> 0 <= C -> 0 <= V ->
  (forall t, 0 <= t < T -> flow_at d b g m P Lam C V T t) ->
  exists K, 0 <= K /\ forall f N normal k n ts D mh Sh h e,
    (forall t, 0 <= t < T -> drift_is d f b t) -> has_moments d N (fun _ => 0) mid -> (forall k, denotes (normal k n d) (dseq (repeat N n))) ->
    (1 <= n)%nat -> hd 1 ts = 0 -> last ts 0 = T -> refined h n ts ->
    0 <= h -> 0 <= e -> has_moments d D mh Sh -> within d e mh (m 0) Sh (P 0) ->
    let L F := E D (fun x0 => law (Sim.euler_maruyama_terminal normal k x0 ts f g n) F) in
    within d (K * (e + h)) (mean_of L) (m T) (cov_of L) (P T).
Proof.
  intros HT HL HC HV Hfl. set (C' := C + Lam ^ 2 * V). assert (HC' : 0 <= C') by (unfold C'; apply Rplus_le_le_0_compat; [exact HC|apply Rmult_le_pos; [apply pow2_ge_0|exact HV]]).
  set (X := exp (2 * Lam * T)). exists (X * (1 + C' * T)). assert (HX : 1 <= X) by (apply SdeProofs.exp_ge1; apply Rmult_le_pos; lra).
  assert (HCT : 0 <= C' * T) by now apply Rmult_le_pos.
  split; [apply Rmult_le_pos; lra|]. intros f N normal k n ts D mh Sh h e Hf HN Hnorm Hn Hhd Hlast Href Hh He HD [W1 W2] L.
  destruct ts as [|t ts]; [cbn in Hhd; lra|]. cbn [hd] in Hhd. subst t.
  assert (Hcl : close d m P Lam C V h 0 e e 0 D).
  { exists mh, Sh. split; [exact HD|]. unfold bound. rewrite Rminus_eq_0, !Rmult_0_r, exp_0, !Rmult_1_l, Rplus_0_r. split; assumption. }
  pose proof (close_chain d f b g N m P Lam C V h 0 T e e HL HC HV He He HN Hf Hfl n ts Hn 0 D (Rle_refl 0) (refined_grid h n _ Href) ltac:(rewrite Hlast; lra) Hcl) as Hc.
  rewrite Hlast in Hc. destruct Hc as (mh' & Sh' & HM & B1 & B2).
  destruct (moments_of d _ mh' Sh' L HM ltac:(intros F; unfold L; now apply (program_law normal k n d N D mh Sh))) as [E1 E2].
  assert (Hb : forall La c, 0 <= La <= 2 * Lam -> 0 <= c <= C' -> bound h 0 La c e T <= X * (1 + C' * T) * (e + h)).
  { intros La c HLa Hc. unfold bound. rewrite Rminus_0_r. rewrite (Rmult_assoc X).
    assert (Hch : 0 <= c * h * T) by (apply Rmult_le_pos; [apply Rmult_le_pos|]; lra).
    apply Rmult_le_compat; [left; apply exp_pos|lra| |].
    - unfold X. destruct (Req_dec (La * T) (2 * Lam * T)) as [ ->|Hne]; [apply Rle_refl|]. left. apply exp_increasing.
      assert (La * T <= 2 * Lam * T) by (apply Rmult_le_compat_r; lra). lra.
    - assert (c * h * T <= C' * T * h). { replace (c * h * T) with (c * (h * T)) by ring. replace (C' * T * h) with (C' * (h * T)) by ring. apply Rmult_le_compat_r; [now apply Rmult_le_pos|lra]. }
      assert (0 <= C' * T * e) by now apply Rmult_le_pos. replace ((1 + C' * T) * (e + h)) with (e + h + C' * T * e + C' * T * h) by ring. lra. }
  assert (HCC : C <= C') by (unfold C'; assert (0 <= Lam ^ 2 * V) by (apply Rmult_le_pos; [apply pow2_ge_0|exact HV]); lra).
  split.
  - intros i Hi. rewrite E1 by exact Hi. eapply Rle_trans; [apply (B1 i Hi)|]. apply Hb; lra.
  - intros i j Hi Hj. rewrite E2 by assumption. eapply Rle_trans; [apply (B2 i j Hi Hj)|]. apply (Hb (2 * Lam) C'); lra.
Qed.

(** Forwards *)
Lemma drift_is_vdrift d sde t : drift_is d (Sde.drift sde) (vdrift sde) t.
Proof. intros x Hx. unfold Sde.drift. split; [now rewrite SdeProofs.length_vscale|]. intros i _. apply SdeProofs.nth_vscale. Qed.

Theorem forward_converges sde T d m0 C0 : SdeProofs.sde_defined sde -> 0 <= T -> (forall t, 0 <= t <= T -> SdeProofs.nonneg_noise sde t) ->
  exists K, 0 <= K /\ forall N normal k n ts D mh Sh h e,
    has_moments d N (fun _ => 0) mid -> (forall k, denotes (normal k n d) (dseq (repeat N n))) ->
    (1 <= n)%nat -> hd 1 ts = 0 -> last ts 0 = T -> refined h n ts ->
    0 <= h -> 0 <= e -> has_moments d D mh Sh -> within d e mh m0 Sh C0 ->
    let L F := E D (fun x0 => law (Sim.euler_maruyama_terminal normal k x0 ts (Sde.drift sde) (Sde.dispersion sde) n) F) in
    within d (K * (e + h)) (mean_of L) (fwd_mean sde m0 T) (cov_of L) (fwd_cov sde C0 T).
Proof.
  intros Hd HT Hn. destruct (forward_flow sde T d m0 C0 Hd HT Hn) as (Lam & C & V & HL & HC & HV & Hfl).
  destruct (flow_converges d _ _ _ _ Lam C V T HT HL HC HV Hfl) as (K & HK & H). exists K. split; [exact HK|].
  intros N normal k n ts D mh Sh h e HN Hnorm Hn1 Hhd Hlast Href Hh He HD [W1 W2]. eapply H; eauto; [intros t _; apply drift_is_vdrift|].
  split.
  - intros i Hi. unfold fwd_mean, vscale. rewrite (SdeProofs.FQ_id sde 0 Hd). cbn [fst]. rewrite Rmult_1_l. now apply W1.
  - intros i j Hi Hj. unfold fwd_cov, madd, mscale. rewrite (SdeProofs.FQ_id sde 0 Hd). cbn [fst snd]. rewrite pow1, Rmult_1_l, Rmult_0_l, Rplus_0_r. now apply W2.
Qed.

(** Backwards, with the exact score of Gaussian data *)
Definition score_is (d : nat) (score : list R -> R -> list R) (sc : vec -> R -> vec) (t : R) : Prop := drift_is d score sc t.

Lemma drift_is_reverse d sde T score m P inv t : score_is d score (Toy.score d m P inv) (T - t) ->
  drift_is d (Sim.reverse_drift score (Sde.drift sde) (Sde.dispersion sde) T) (reverse_drift d (vdrift sde) (Sde.dispersion sde) T m P inv) t.
Proof.
  intros Hs x Hx. destruct (Hs x Hx) as [S1 S2]. unfold Sim.reverse_drift, Sde.vadd, Sde.drift.
  assert (L1 : length (Sde.vscale (-(1)) (Sde.vscale (Sde.drift_coef sde (T - t)) x)) = d) by now rewrite !SdeProofs.length_vscale.
  assert (L2 : length (Sde.vscale (Sde.dispersion sde (T - t) * Sde.dispersion sde (T - t)) (score x (T - t))) = d) by now rewrite SdeProofs.length_vscale.
  split; [rewrite SdeProofs.length_vmap2; congruence|]. intros i Hi. rewrite SdeProofs.nth_vmap2 by (congruence || lia). rewrite !SdeProofs.nth_vscale, S2 by exact Hi.
  unfold reverse_drift, vadd, vscale, vdrift, vscale, vec_of. ring.
Qed.

Theorem reverse_converges sde T d m0 C0 inv : SdeProofs.sde_defined sde -> 0 <= T -> (forall t, 0 <= t <= T -> SdeProofs.nonneg_noise sde t) ->
  symmetric d C0 -> posdef d C0 -> (forall t, 0 <= t <= T -> inverse_at d (fwd_cov sde C0) inv t) ->
  exists K, 0 <= K /\ forall score N normal k n ts D mh Sh h e,
    (forall t, 0 < t <= T -> score_is d score (Toy.score d (fwd_mean sde m0) (fwd_cov sde C0) inv) t) ->
    has_moments d N (fun _ => 0) mid -> (forall k, denotes (normal k n d) (dseq (repeat N n))) ->
    (1 <= n)%nat -> hd 1 ts = 0 -> last ts 0 = T -> refined h n ts ->
    0 <= h -> 0 <= e -> has_moments d D mh Sh -> within d e mh (fwd_mean sde m0 T) Sh (fwd_cov sde C0 T) ->
    let L F := E D (fun u0 => law (reverse_prog normal k u0 ts score (Sde.drift sde) (Sde.dispersion sde) n) (on_some F)) in
    within d (K * (e + h)) (mean_of L) m0 (cov_of L) C0.
Proof.
  intros Hd HT Hn HS HP HI. destruct (reverse_flow sde T d m0 C0 Hd HT Hn inv HS HP HI) as (Lam & C & V & HL & HC & HV & Hfl).
  destruct (flow_converges d _ _ _ _ Lam C V T HT HL HC HV Hfl) as (K & HK & H). exists K. split; [exact HK|].
  intros score N normal k n ts D mh Sh h e Hsc HN Hnorm Hn1 Hhd Hlast Href Hh He HD HW L.
  assert (HL' : forall F, L F = E D (fun x0 => law (Sim.euler_maruyama_terminal normal k x0 ts (Sim.reverse_drift score (Sde.drift sde) (Sde.dispersion sde) T) (fun t => Sde.dispersion sde (T - t)) n) F)).
  { intros F. unfold L. apply E_ext'. intros u0. unfold reverse_prog, Sim.euler_maruyama_terminal. rewrite !law_bind. apply law_ext. intros rndss.
    cbn [law]. unfold Sim.reverse_simulator. rewrite Hlast. reflexivity. }
  specialize (H (Sim.reverse_drift score (Sde.drift sde) (Sde.dispersion sde) T) N normal k n ts D mh Sh h e ltac:(intros t Ht; apply drift_is_reverse, Hsc; lra) HN Hnorm Hn1 Hhd Hlast Href Hh He HD).
  cbv zeta in H. rewrite !Rminus_0_r in H. specialize (H HW). destruct H as [H1 H2].
  assert (EL : L = (fun F => E D (fun x0 => law (Sim.euler_maruyama_terminal normal k x0 ts (Sim.reverse_drift score (Sde.drift sde) (Sde.dispersion sde) T) (fun t => Sde.dispersion sde (T - t)) n) F))).
  { apply functional_extensionality. exact HL'. }
  rewrite EL. replace (T - T) with 0 in H1, H2 by ring. split.
  - intros i Hi. specialize (H1 i Hi). unfold fwd_mean, vscale in H1. rewrite (SdeProofs.FQ_id sde 0 Hd) in H1. cbn [fst] in H1. rewrite Rmult_1_l in H1. exact H1.
  - intros i j Hi Hj. specialize (H2 i j Hi Hj). unfold fwd_cov, madd, mscale in H2. rewrite (SdeProofs.FQ_id sde 0 Hd) in H2. cbn [fst snd] in H2.
    rewrite pow1, Rmult_1_l, Rmult_0_l, Rplus_0_r in H2. exact H2.
Qed.
