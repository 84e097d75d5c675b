(** The U-Net sampler: sub-steps against single steps. *)
From Coquelicot Require Import Coquelicot.
From Coq Require Import Reals List Lia Lra.
From Verif Require Sde SdeProofs Sim GaussDiv SampleStats ResVariance.
From Verif Require Import Nets UNet UNetVal UNetShape UNetSep UNetGrow UNetLipMain Base Dist Prog Mat EmMoments EmConverge EmStable UNetScore EmStrong.
Import ListNotations.
Open Scope R_scope.

(** ** The SDEs in time *)
Lemma deriv_lip (f f1 : R -> R) T : 0 <= T -> (forall t, is_derive f t (f1 t)) -> (forall t, ex_derive f1 t) ->
  exists L, 0 <= L /\ forall s t, 0 <= s <= T -> 0 <= t <= T -> Rabs (f s - f t) <= L * Rabs (s - t).
Proof.
  intros HT H1 H2. destruct (compact_bound f1 T HT H2) as (L & HL & B). exists L. split; [assumption|]. intros s t Hs Ht. destruct (mvt f f1 t s H1) as (c & Hc & ->).
  rewrite Rabs_mult. apply Rmult_le_compat_r; [apply Rabs_pos|]. apply B. revert Hc. unfold Rmin, Rmax. destruct (Rle_dec t s); lra.
Qed.
Lemma beta_lip m M z z' : exists L, 0 <= L /\ forall s t, Rabs (Sde.beta m M z z' s - Sde.beta m M z z' t) <= L * Rabs (s - t).
Proof.
  exists (Rabs ((M - m) / (z' - z))). split; [apply Rabs_pos|]. intros s t. rewrite <- Rabs_mult. right. f_equal. unfold Sde.beta. ring.
Qed.
Lemma drift_coef_lip sde T : 0 <= T -> exists L, 0 <= L /\ forall s t, 0 <= s <= T -> 0 <= t <= T -> Rabs (Sde.drift_coef sde s - Sde.drift_coef sde t) <= L * Rabs (s - t).
Proof.
  intros HT. destruct sde as [a b|m M z z'|a b c z|]; unfold Sde.drift_coef.
  - exists 0. split; [lra|]. intros. rewrite Rminus_eq_0, Rabs_R0. lra.
  - destruct (beta_lip m M z z') as (L & HL & H). exists (/ 2 * L). split; [lra|]. intros s t _ _. specialize (H s t).
    replace (- (1 / 2) * Sde.beta m M z z' s - - (1 / 2) * Sde.beta m M z z' t) with (- / 2 * (Sde.beta m M z z' s - Sde.beta m M z z' t)) by field. rewrite Rabs_mult, Rabs_Ropp, (Rabs_pos_eq (/ 2)) by lra. lra.
  - apply (deriv_lip (fun t => a * exp (c * (t - z))) (fun t => a * c * exp (c * (t - z))) T HT); intros t; [auto_derive; [trivial|unfold Rminus; ring]|auto_derive; trivial].
  - exists 0. split; [lra|]. intros. rewrite Rminus_eq_0, Rabs_R0. lra.
Qed.
Lemma sqrt_sq_max a : sqrt a ^ 2 = Rmax 0 a.
Proof. destruct (Rle_dec 0 a) as [H|H]; [rewrite <- Rsqr_pow2, Rsqr_sqrt, Rmax_right by assumption; reflexivity|]. rewrite sqrt_neg_0, Rmax_left by lra. ring. Qed.
Lemma max_lip a b : Rabs (Rmax 0 a - Rmax 0 b) <= Rabs (a - b).
Proof. unfold Rmax. destruct (Rle_dec 0 a), (Rle_dec 0 b); unfold Rabs; repeat destruct Rcase_abs; lra. Qed.
Lemma sqrt_holder a b : (sqrt a - sqrt b) ^ 2 <= Rabs (a - b).
Proof.
  eapply Rle_trans; [|apply max_lip]. rewrite <- !sqrt_sq_max. pose proof (sqrt_pos a). pose proof (sqrt_pos b). set (p := sqrt a) in *. set (q := sqrt b) in *. replace (p ^ 2 - q ^ 2) with ((p - q) * (p + q)) by ring.
  rewrite Rabs_mult, (Rabs_pos_eq (p + q)) by lra. rewrite <- (pow2_abs (p - q)). pose proof (Rabs_pos (p - q)). assert (Rabs (p - q) <= p + q) by (unfold Rabs; destruct Rcase_abs; lra). nra.
Qed.
Lemma disp_sq_lip sde T : 0 <= T -> exists L, 0 <= L /\ forall s t, 0 <= s <= T -> 0 <= t <= T -> Rabs (Sde.dispersion sde s ^ 2 - Sde.dispersion sde t ^ 2) <= L * Rabs (s - t).
Proof.
  intros HT. destruct sde as [a b|m M z z'|a b c z|]; unfold Sde.dispersion.
  - exists 0. split; [lra|]. intros. rewrite Rminus_eq_0, Rabs_R0. lra.
  - destruct (beta_lip m M z z') as (L & HL & H). exists L. split; [assumption|]. intros s t _ _. rewrite !sqrt_sq_max. eapply Rle_trans; [apply max_lip|apply H].
  - apply (deriv_lip (fun t => (b * exp (c * (t - z) / 2)) ^ 2) (fun t => b ^ 2 * c * exp (c * (t - z) / 2) ^ 2) T HT); intros t; [auto_derive; [trivial|unfold Rminus, Rdiv; field]|auto_derive; trivial].
  - exists 0. split; [lra|]. intros. rewrite Rminus_eq_0, Rabs_R0. lra.
Qed.
Lemma disp_holder sde T : 0 <= T -> exists L, 0 <= L /\ forall s t, 0 <= s <= T -> 0 <= t <= T -> (Sde.dispersion sde s - Sde.dispersion sde t) ^ 2 <= L * Rabs (s - t).
Proof.
  intros HT. destruct sde as [a b|m M z z'|a b c z|]; unfold Sde.dispersion.
  - exists 0. split; [lra|]. intros. rewrite Rminus_eq_0. lra.
  - destruct (beta_lip m M z z') as (L & HL & H). exists L. split; [assumption|]. intros s t _ _. eapply Rle_trans; [apply sqrt_holder|apply H].
  - destruct (deriv_lip (fun t => b * exp (c * (t - z) / 2)) (fun t => b * (c / 2) * exp (c * (t - z) / 2)) T HT) as (L & HL & H); [intros t; auto_derive; [trivial|unfold Rminus, Rdiv; field]|intros t; auto_derive; trivial|].
    exists (L ^ 2 * T). split; [apply Rmult_le_pos; [apply pow2_ge_0|assumption]|]. intros s t Hs Ht. specialize (H s t Hs Ht). cbv beta in H. rewrite <- pow2_abs. pose proof (Rabs_pos (b * exp (c * (s - z) / 2) - b * exp (c * (t - z) / 2))).
    apply Rle_trans with ((L * Rabs (s - t)) ^ 2); [apply pow_incr; split; assumption|]. pose proof (Rabs_pos (s - t)). assert (Rabs (s - t) <= T) by (unfold Rabs; destruct Rcase_abs; lra). replace ((L * Rabs (s - t)) ^ 2) with (L ^ 2 * Rabs (s - t) * Rabs (s - t)) by ring. rewrite (Rmult_assoc (L ^ 2) T), (Rmult_comm T), <- (Rmult_assoc (L ^ 2)). apply Rmult_le_compat_l; [apply Rmult_le_pos; [apply pow2_ge_0|assumption]|assumption].
  - exists 0. split; [lra|]. intros. rewrite Rminus_eq_0. lra.
Qed.

(** ** From the largest entry to the mean square *)
Lemma entry_root d x a : length x = d -> (a < d)%nat -> Rabs (nth a x 0) <= sqrt (nsq d (entry x)).
Proof. intros Hx Ha. rewrite <- (sq_norm_entry d x Hx). apply nth_sq_norm. lia. Qed.
Lemma diff_root d (v : nat -> R) a : (a < d)%nat -> Rabs (v a) <= sqrt (nsq d v).
Proof.
  intros Ha. rewrite <- sqrt_Rsqr_abs. apply sqrt_le_1_alt. unfold nsq. apply (Rsum_In_le (map (fun a => v a * v a) (seq 0 d))).
  - apply Forall_forall. intros y Hy. apply in_map_iff in Hy as (b & <- & _). apply Rle_0_sqr.
  - apply in_map_iff. exists a. split; [reflexivity|]. apply in_seq. lia.
Qed.

Definition time_lipschitz (d : nat) (k : R) (score : list R -> R -> list R) : Prop :=
  forall u v s t e, length u = d -> 0 <= e -> near e u v -> Rabs (s - t) <= e -> near (k * e) (score u s) (score v t).

Section reverse.
  Variables (d : nat) (score : list R -> R -> list R) (sde : Sde.linear_sde) (T a k : R).
  Hypothesis HT : 0 <= T.
  Hypothesis Ha : 0 <= a.
  Hypothesis Hk : 0 <= k.
  Hypothesis Hlen : forall u t, length (score u t) = d.
  Hypothesis Hgrow : forall u t M, length u = d -> 0 <= M -> (forall i, (i < d)%nat -> Rabs (nth i u 0) <= M) -> forall i, (i < d)%nat -> Rabs (nth i (score u t) 0) <= a + k * M.
  Hypothesis Hlip : time_lipschitz d k score.
  Notation f := (Sim.reverse_drift score (Sde.drift sde) (Sde.dispersion sde) T).

  Lemma reverse_sup : exists k1 k2, 0 <= k1 /\ 0 <= k2 /\ forall x y s t e M, length x = d -> length y = d -> 0 <= s <= T -> 0 <= t <= T -> 0 <= e -> 0 <= M -> near e x y ->
    (forall i, (i < d)%nat -> Rabs (nth i y 0) <= M) -> forall i, (i < d)%nat -> Rabs (nth i (f x s) 0 - nth i (f y t) 0) <= k1 * e + k2 * Rabs (s - t) * (1 + M).
  Proof using HT Ha Hk Hlen Hgrow Hlip.
    destruct (drift_coef_bound sde T HT) as (A & HA & BA). destruct (dispersion_bound sde T HT) as (G & HG & BG). destruct (drift_coef_lip sde T HT) as (Lc & HLc & BLc). destruct (disp_sq_lip sde T HT) as (Ld & HLd & BLd).
    assert (HGk : 0 <= G * k) by now apply Rmult_le_pos. assert (HLa : 0 <= Ld * a) by now apply Rmult_le_pos. assert (HLk : 0 <= Ld * k) by now apply Rmult_le_pos.
    exists (A + G * k), (Lc + G * k + Ld * a + Ld * k). split; [lra|]. split; [lra|].
    intros x y s t e M Hx Hy Hs Ht He HM Hn HMy i Hi. set (q := Rabs (s - t)). assert (Hq : 0 <= q) by apply Rabs_pos.
    destruct (reverse_nth d score sde T x s Hx (Hlen x _)) as [_ X]. destruct (reverse_nth d score sde T y t Hy (Hlen y _)) as [_ Y]. rewrite X, Y by assumption. clear X Y.
    set (sg := T - s). set (ta := T - t). assert (Hsg : 0 <= sg <= T) by (unfold sg; lra). assert (Hta : 0 <= ta <= T) by (unfold ta; lra).
    assert (Eq : Rabs (sg - ta) = q) by (unfold sg, ta, q; rewrite <- Rabs_Ropp; f_equal; ring).
    assert (N2 : near (e + q) x y) by (destruct Hn as [H1 H2]; split; [assumption|]; intros j Hj; specialize (H2 j Hj); lra).
    destruct (Hlip x y sg ta (e + q) Hx ltac:(lra) N2 ltac:(lra)) as [_ S]. rewrite Hlen in S. specialize (S i Hi). destruct Hn as [_ Hn]. rewrite Hx in Hn. specialize (Hn i Hi).
    pose proof (Hgrow y ta M Hy HM HMy i Hi) as Gy. specialize (HMy i Hi). pose proof (BA sg Hsg) as B1. pose proof (BG sg Hsg) as B2. pose proof (BLc sg ta Hsg Hta) as B3. pose proof (BLd sg ta Hsg Hta) as B4. rewrite Eq in B3, B4.
    set (cs := Sde.drift_coef sde sg) in *. set (ct := Sde.drift_coef sde ta) in *. set (gs := Sde.dispersion sde sg ^ 2) in *. set (gt := Sde.dispersion sde ta ^ 2) in *. assert (Hgs : 0 <= gs) by apply pow2_ge_0.
    set (xi := nth i x 0) in *. set (yi := nth i y 0) in *. set (sx := nth i (score x sg) 0) in *. set (sy := nth i (score y ta) 0) in *.
    replace (- cs * xi + gs * sx - (- ct * yi + gt * sy)) with (- cs * (xi - yi) + - (cs - ct) * yi + (gs * (sx - sy) + (gs - gt) * sy)) by ring.
    eapply Rle_trans; [apply Rabs_triang|]. eapply Rle_trans; [apply Rplus_le_compat; apply Rabs_triang|]. rewrite !Rabs_mult, !Rabs_Ropp, (Rabs_pos_eq gs Hgs).
    assert (P1 : Rabs cs * Rabs (xi - yi) <= A * e) by (apply Rmult_le_compat; auto using Rabs_pos).
    assert (P2 : Rabs (cs - ct) * Rabs yi <= Lc * q * M) by (apply Rmult_le_compat; auto using Rabs_pos).
    assert (P3 : gs * Rabs (sx - sy) <= G * (k * (e + q))) by (apply Rmult_le_compat; auto using Rabs_pos).
    assert (P4 : Rabs (gs - gt) * Rabs sy <= Ld * q * (a + k * M)) by (apply Rmult_le_compat; auto using Rabs_pos).
    assert (Q1 : 0 <= Lc * q) by now apply Rmult_le_pos. assert (Q2 : 0 <= G * k * q * M) by (apply Rmult_le_pos; [now apply Rmult_le_pos|assumption]). assert (Q3 : 0 <= Ld * a * q * M) by (apply Rmult_le_pos; [now apply Rmult_le_pos|assumption]). assert (Q4 : 0 <= Ld * k * q) by now apply Rmult_le_pos. lra.
  Qed.

  Lemma reverse_ms : exists K, 0 <= K /\ forall x y s t, length x = d -> length y = d -> 0 <= s <= T -> 0 <= t <= T ->
    nsq d (fun b => entry (f x s) b - entry (f y t) b) <= K * (nsq d (fun b => entry x b - entry y b) + (s - t) ^ 2 * (1 + nsq d (entry y))).
  Proof using HT Ha Hk Hlen Hgrow Hlip.
    destruct reverse_sup as (k1 & k2 & H1 & H2 & HS). exists (INR d * (2 * k1 ^ 2 + 4 * k2 ^ 2)). pose proof (pow2_ge_0 k1) as S1. pose proof (pow2_ge_0 k2) as S2. pose proof (pos_INR d) as Hd. split; [apply Rmult_le_pos; lra|].
    intros x y s t Hx Hy Hs Ht. set (D := nsq d (fun b => entry x b - entry y b)). set (Y := nsq d (entry y)). assert (HD : 0 <= D) by apply nsq_nonneg. assert (HY : 0 <= Y) by apply nsq_nonneg.
    pose proof (sqrt_pos D) as RD. pose proof (sqrt_pos Y) as RY. pose proof (Rabs_pos (s - t)) as Hq.
    eapply Rle_trans; [apply (nsq_le d _ (fun _ => (2 * k1 ^ 2 + 4 * k2 ^ 2) * (D + (s - t) ^ 2 * (1 + Y))))|rewrite Rsum_map_const, seq_length; right; ring]. intros i Hi.
    pose proof (HS x y s t (sqrt D) (sqrt Y) Hx Hy Hs Ht RD RY) as B. specialize (B ltac:(split; [congruence|]; rewrite Hx; intros j Hj; exact (diff_root d (fun b => entry x b - entry y b) j Hj)) ltac:(intros j Hj; now apply entry_root) i Hi).
    change (nth i (f x s) 0) with (entry (f x s) i) in B. change (nth i (f y t) 0) with (entry (f y t) i) in B. set (w := entry (f x s) i - entry (f y t) i) in *.
    replace (w * w) with (Rabs w ^ 2) by (rewrite pow2_abs; ring). rewrite <- (pow2_abs (s - t)). set (q := Rabs (s - t)) in *.
    apply Rle_trans with ((k1 * sqrt D + k2 * q * (1 + sqrt Y)) ^ 2); [apply pow_incr; split; [apply Rabs_pos|assumption]|].
    pose proof (sqrt_sqrt D HD) as ED. pose proof (sqrt_sqrt Y HY) as EY. set (p := sqrt D) in *. set (r := sqrt Y) in *.
    apply Rle_trans with (2 * (k1 ^ 2 * (p * p)) + 2 * (k2 ^ 2 * q ^ 2 * (2 * (1 + r * r)))).
    - pose proof (pow2_ge_0 (k1 * p - k2 * q * (1 + r))) as Z1. assert (Z2 : (1 + r) ^ 2 <= 2 * (1 + r * r)) by (pose proof (pow2_ge_0 (1 - r)); lra).
      assert (Z3 : k2 ^ 2 * q ^ 2 * (1 + r) ^ 2 <= k2 ^ 2 * q ^ 2 * (2 * (1 + r * r))) by (apply Rmult_le_compat_l; [apply Rmult_le_pos; apply pow2_ge_0|assumption]).
      replace ((k1 * p + k2 * q * (1 + r)) ^ 2) with (2 * (k1 ^ 2 * (p * p)) + 2 * (k2 ^ 2 * q ^ 2 * (1 + r) ^ 2) - (k1 * p - k2 * q * (1 + r)) ^ 2) by ring. lra.
    - rewrite ED, EY. pose proof (pow2_ge_0 q) as Hq2. assert (0 <= q ^ 2 * (1 + Y)) by (apply Rmult_le_pos; lra). assert (0 <= k2 ^ 2 * D) by now apply Rmult_le_pos. assert (0 <= k1 ^ 2 * (q ^ 2 * (1 + Y))) by now apply Rmult_le_pos. lra.
  Qed.
  Lemma reverse_ms_growth : exists B, 0 <= B /\ forall y t, length y = d -> 0 <= t <= T -> nsq d (entry (f y t)) <= B * (1 + nsq d (entry y)).
  Proof using HT Ha Hk Hlen Hgrow.
    destruct (reverse_grows d score sde T a k HT Ha Hk Hlen Hgrow) as (a' & k' & Ha' & Hk' & HG). exists (2 * INR d * (a' ^ 2 + k' ^ 2)).
    pose proof (pow2_ge_0 a') as S1. pose proof (pow2_ge_0 k') as S2. pose proof (pos_INR d) as Hd. split; [apply Rmult_le_pos; lra|]. intros y t Hy Ht.
    destruct (HG t Ht y Hy) as [Hl _]. rewrite <- (sq_norm_entry d _ Hl), <- (sq_norm_entry d y Hy). pose proof (drift_sq d f 0 T a' k' Ha' Hk' HG t y Ht Hy) as B. pose proof (sq_norm_nonneg y) as Hn.
    assert (0 <= INR d * a' ^ 2) by now apply Rmult_le_pos. assert (0 <= INR d * k' ^ 2) by now apply Rmult_le_pos. assert (0 <= INR d * a' ^ 2 * sq_norm y) by now apply Rmult_le_pos. lra.
  Qed.

  Lemma reverse_strong : exists C, 0 <= C /\ forall m N ts u e, (1 <= m)%nat -> ts <> [] -> 0 <= nth 0 ts 0 -> ascending ts -> last ts 0 = T -> 0 <= e ->
    (forall j, (S j < length ts)%nat -> nth (S j) ts 0 - nth j ts 0 <= e) -> has_moments d N (fun _ => 0) mid -> length u = d ->
    E (dseq (repeat (dseq (repeat N m)) (length ts - 1))) (fun rndss =>
      nsq d (fun b => entry (Sim.em_terminal f (Sim.reverse_dispersion (Sde.dispersion sde) T) m u ts rndss) b
                    - entry (Sim.em_terminal f (Sim.reverse_dispersion (Sde.dispersion sde) T) 1 u ts (map (fun rnds => [merged d rnds]) rndss)) b)) <= C * e * (1 + sq_norm u).
  Proof using HT Ha Hk Hlen Hgrow Hlip.
    destruct reverse_ms as (K & HK & BK). destruct reverse_ms_growth as (B & HB & BB). destruct (dispersion_bound sde T HT) as (G & HG & BG). destruct (disp_holder sde T HT) as (Lg & HLg & BLg).
    set (g := Sim.reverse_dispersion (Sde.dispersion sde) T).
    assert (BG' : forall t, 0 <= t <= T -> g t ^ 2 <= G) by (intros t Ht; unfold g, Sim.reverse_dispersion; apply BG; lra).
    assert (BL' : forall s t, 0 <= s <= T -> 0 <= t <= T -> (g s - g t) ^ 2 <= Lg * Rabs (s - t)).
    { intros s t Hs Ht. unfold g, Sim.reverse_dispersion. replace (Rabs (s - t)) with (Rabs ((T - s) - (T - t))) by (rewrite <- Rabs_Ropp; f_equal; ring). apply BLg; lra. }
    assert (HL : forall x t, length x = d -> 0 <= t <= T -> length (f x t) = d) by (intros x t Hx _; now apply reverse_nth).
    pose proof (c2_nonneg d g 0 T K B G Lg HT HK HB HLg BG') as Hc2.
    exists (exp (rate2 d 0 T K B G * T) * (T * c2 d 0 T K B G Lg)). split; [apply Rmult_le_pos; [left; apply exp_pos|now apply Rmult_le_pos]|].
    intros m N ts u e Hm Hne H0 Has Hlast He Hmesh HN Hu. destruct ts as [|t ts]; [easy|]. cbn [nth] in H0. replace (length (t :: ts) - 1)%nat with (length ts) by (cbn [length]; lia).
    pose proof (grid_close d f g N 0 T K B G Lg HN HT HK HB HLg HL BK BB BG' BL' m ts Hm t u u e H0 Has ltac:(lra) He Hmesh Hu Hu) as Q. unfold Sim.em_terminal. fold g.
    eapply Rle_trans; [exact Q|]. rewrite Hlast. rewrite (nsq_ext d (fun b => entry u b - entry u b) (fun b => 0 * 0)) by (intros; ring). rewrite nsq_scale. rewrite (sq_norm_entry d u Hu).
    set (W := 1 + nsq d (entry u)). assert (HW : 0 <= W) by (unfold W; pose proof (nsq_nonneg d (entry u)); lra). pose proof (c1_nonneg 0 T K HT HK) as Hc1. pose proof (c3_nonneg d g 0 T B G HT HB BG') as Hc3. pose proof (ascending_last _ _ Has) as Htl. rewrite Hlast in Htl.
    assert (HeW : 0 <= e * c2 d 0 T K B G Lg * W) by (apply Rmult_le_pos; [now apply Rmult_le_pos|assumption]).
    replace (0 ^ 2 * nsq d (fun _ => 0) + (T - t) * (e * c2 d 0 T K B G Lg * W)) with ((T - t) * (e * c2 d 0 T K B G Lg * W)) by ring.
    replace (exp (rate2 d 0 T K B G * T) * (T * c2 d 0 T K B G Lg) * e * W) with (exp (rate2 d 0 T K B G * T) * (T * (e * c2 d 0 T K B G Lg * W))) by ring.
    apply Rmult_le_compat; [left; apply exp_pos|apply Rmult_le_pos; [lra|assumption]| |apply Rmult_le_compat_r; [assumption|lra]].
    assert (Hr : 0 <= rate2 d 0 T K B G) by (unfold rate2; lra). destruct (Req_dec (rate2 d 0 T K B G * t) 0) as [E0|E0]; [right; f_equal; lra|]. left. apply exp_increasing. assert (0 <= rate2 d 0 T K B G * t) by now apply Rmult_le_pos. lra.
  Qed.
End reverse.

(** ** The U-Net *)
Section score.
  Variables (P : params) (dt : R) (dim init_dim out_dim groups : nat) (mults : list nat) (mth : method) (h w c : nat).
  Hypothesis Hdim : dim <> 2%nat.
  Hypothesis Hrun : unet dim init_dim out_dim groups mults mth (One h w c) Scalar_time = Some (One h w c).
  Lemma score_time_lipschitz : exists k, 0 <= k /\ time_lipschitz (h * w * c) k (unet_score P dt dim init_dim out_dim groups mults mth h w c).
  Proof using Hdim Hrun.
    destruct (unet_lipschitz P dt dim init_dim out_dim groups mults mth (h, w, c)) as (k & Hk & H). exists k. split; [assumption|]. intros u v s t e Hl He Hn Hst.
    specialize (H (of_entries h w c u) (of_entries h w c v) (At s) (At t) 0%nat 0%nat e eq_refl eq_refl Nat.lt_0_1 Nat.lt_0_1 I I He (of_entries_near h w c u v e Hl He Hn) Hst).
    destruct (score_runs P dt dim init_dim out_dim groups mults mth h w c Hdim Hrun u s) as (o & Ho & Hs). destruct (score_runs P dt dim init_dim out_dim groups mults mth h w c Hdim Hrun v t) as (o' & Ho' & Hs'). unfold unet_score. rewrite Ho, Ho' in H |- *. destruct H as [_ H]. rewrite Hs in H.
    split; [now rewrite !(length_to_entries h w c) by assumption|]. rewrite (length_to_entries h w c) by assumption. intros q Hq. rewrite !(to_entries_nth h w c) by assumption. destruct (index_bounds h w c q Hq) as (B1 & B2 & B3). now apply H.
  Qed.
  Lemma time_lipschitz_weaken d k k' sc : k <= k' -> time_lipschitz d k sc -> time_lipschitz d k' sc.
  Proof using. clear Hrun.
    intros Hk H u v s t e Hu He Hn Hst. destruct (H u v s t e Hu He Hn Hst) as [H1 H2]. split; [assumption|]. intros i Hi. eapply Rle_trans; [now apply H2|]. now apply Rmult_le_compat_r.
  Qed.
End score.

(** squared distance of two samples *)
Definition sq_dist (x y : option (list R)) : R := match x, y with Some x, Some y => sq_norm (Sde.vmap2 Rminus x y) | _, _ => 0 end.

Lemma em_carry_length d f g t0 T n ts : (1 <= n)%nat -> (forall x t, length x = d -> t0 <= t <= T -> length (f x t) = d) -> forall t rndss x, t0 <= t -> ascending (t :: ts) -> last (t :: ts) 0 <= T ->
  Forall (Forall (fun r => length r = d)) rndss -> length x = d -> length (Sim.em_carry f g n x (t :: ts) rndss) = d.
Proof.
  intros Hn Hlen. induction ts as [|t' ts IH]; intros t rndss x Ht Ha Hl Hr Hx; [exact Hx|]. pose proof (ascending_head _ _ _ Ha) as Htt. pose proof (ascending_last _ _ (ascending_tail _ _ Ha)) as Hll. change (last (t :: t' :: ts) 0) with (last (t' :: ts) 0) in *.
  destruct rndss as [|r rs]; [exact Hx|]. apply Forall_cons_iff in Hr as [Hr Hrs]. rewrite Sim.em_carry_cons. apply IH; [lra|now apply ascending_tail in Ha|assumption|assumption|].
  unfold Sim.em_step. cbv zeta. apply (sub_length d f g t0 T); try assumption. eapply Forall_impl; [|exact (linspace_inside t t' n Hn Htt)]. cbv beta. intros; lra.
Qed.

Lemma rows_length d N m n : has_moments d N (fun _ => 0) mid -> forall rndss, In rndss (map snd (dseq (repeat (dseq (repeat N m)) n))) -> Forall (Forall (fun r => length r = d)) rndss.
Proof.
  intros HN rndss Hr. destruct HN as (_ & Nl & _). apply dseq_Forall2 in Hr. revert rndss Hr. induction n as [|q IH]; intros rndss Hr; inversion Hr; subst; constructor; [|now apply IH].
  match goal with X : In _ (map snd (dseq (repeat N m))) |- _ => apply dseq_Forall2 in X; revert X end. match goal with |- Forall2 _ ?l _ -> _ => generalize l end. generalize m as n'. induction n' as [|n' IHn]; intros lx X; inversion X; subst; constructor; auto.
Qed.

Lemma sampler_substeps P dt dim init_dim out_dim groups mults mth h w c sde T : dim <> 2%nat -> unet dim init_dim out_dim groups mults mth (One h w c) Scalar_time = Some (One h w c) -> 0 <= T ->
  exists C, 0 <= C /\ forall m N ts u e, (1 <= m)%nat -> ts <> [] -> 0 <= nth 0 ts 0 -> ascending ts -> last ts 0 = T -> 0 <= e ->
    (forall j, (S j < length ts)%nat -> nth (S j) ts 0 - nth j ts 0 <= e) -> has_moments (h * w * c) N (fun _ => 0) mid -> length u = (h * w * c)%nat ->
    E (dseq (repeat (dseq (repeat N m)) (length ts - 1))) (fun rndss => sq_dist
      (unet_sampler P dt dim init_dim out_dim groups mults mth h w c sde m u ts rndss)
      (unet_sampler P dt dim init_dim out_dim groups mults mth h w c sde 1 u ts (map (fun rnds => [merged (h * w * c) rnds]) rndss))) <= C * e * (1 + sq_norm u).
Proof.
  intros Hd Hrun HT. destruct (score_growth P dt dim init_dim out_dim groups mults mth h w c Hd Hrun) as (a & k & Ha & Hk & HB). destruct (score_time_lipschitz P dt dim init_dim out_dim groups mults mth h w c Hd Hrun) as (k' & Hk' & HL).
  set (sc := unet_score P dt dim init_dim out_dim groups mults mth h w c) in *. set (d := (h * w * c)%nat) in *. assert (Hlen : forall u t, length (sc u t) = d) by exact (score_length P dt dim init_dim out_dim groups mults mth h w c Hd Hrun).
  destruct (reverse_strong d sc sde T a (k + k') HT Ha ltac:(lra) Hlen) as (C & HC & HS).
  - intros u t M Hu HM Hui i Hi. eapply Rle_trans; [now apply (HB u t M Hu HM Hui)|]. rewrite Rmult_plus_distr_r. assert (0 <= k' * M) by now apply Rmult_le_pos. lra.
  - apply (time_lipschitz_weaken d k'); [lra|assumption].
  - exists C. split; [assumption|]. intros m N ts u e Hm Hne H0 Has Hlast He Hmesh HN Hu. eapply Rle_trans; [|exact (HS m N ts u e Hm Hne H0 Has Hlast He Hmesh HN Hu)]. right. apply E_ext. intros rndss Hr.
    unfold unet_sampler, Sim.reverse_simulator. rewrite Hlast. cbv zeta. cbn [sq_dist]. fold sc. set (f := Sim.reverse_drift sc (Sde.drift sde) (Sde.dispersion sde) T). set (g := Sim.reverse_dispersion (Sde.dispersion sde) T).
    assert (HLf : forall x t, length x = d -> 0 <= t <= T -> length (f x t) = d) by (intros x t Hx _; now apply reverse_nth).
    assert (HF : Forall (Forall (fun r => length r = d)) rndss).
    { exact (rows_length d N m _ HN rndss Hr). }
    destruct ts as [|t ts]; [easy|]. cbn [nth] in H0. unfold Sim.em_terminal.
    assert (L1 : length (Sim.em_carry f g m u (t :: ts) rndss) = d) by (apply (em_carry_length d f g 0 T); try assumption; lra).
    assert (L2 : length (Sim.em_carry f g 1 u (t :: ts) (map (fun rnds => [merged d rnds]) rndss)) = d).
    { apply (em_carry_length d f g 0 T); try assumption; [lia|lra|]. apply Forall_forall. intros x Hx. apply in_map_iff in Hx as (rnds & <- & _). constructor; [|constructor]. unfold merged. now rewrite map_length, seq_length. }
    rewrite (sq_norm_entry d) by (rewrite SdeProofs.length_vmap2; congruence). apply nsq_ext. intros b Hb. unfold entry. rewrite SdeProofs.nth_vmap2 by (congruence || lia). reflexivity.
Qed.
Lemma sampler_runs P dt dim init_dim out_dim groups mults mth h w c sde n u ts rndss : exists x, unet_sampler P dt dim init_dim out_dim groups mults mth h w c sde n u ts rndss = Some x.
Proof. unfold unet_sampler, Sim.reverse_simulator. cbv zeta. eexists. reflexivity. Qed.

(** ** The merged noise *)
Lemma merged_nth d rnds a : (a < d)%nat -> nth a (merged d rnds) 0 = row_sum rnds a / sqrt (INR (length rnds)).
Proof.
  intros Ha. set (F := fun a => row_sum rnds a / sqrt (INR (length rnds))). unfold merged. fold F. rewrite (nth_indep (map F (seq 0 d)) 0 (F 0%nat)) by (rewrite map_length, seq_length; assumption). rewrite (map_nth F), seq_nth by assumption. reflexivity.
Qed.
Lemma length_merged d rnds : length (merged d rnds) = d.
Proof. unfold merged. now rewrite map_length, seq_length. Qed.
Lemma row_sum_mean d N m a : has_moments d N (fun _ => 0) mid -> (a < d)%nat -> E (dseq (repeat N m)) (fun rnds => row_sum rnds a) = 0.
Proof.
  intros HN Ha. induction m as [|m IH]; cbn [repeat]; [cbn [dseq]; now rewrite E_dret|]. rewrite E_dseq_cons. transitivity (E N (fun r => nth a r 0 + 0)); [apply E_ext'; intros r|].
  - rewrite <- IH at 2. rewrite <- (E_const (nth a r 0) (dseq (repeat N m)) (rows_prob d N HN m)), <- E_plus. apply E_ext'. intros rs. reflexivity.
  - destruct HN as (Np & _ & Nm & _). rewrite E_plus, E_const, Nm by assumption. lra.
Qed.
Lemma row_sum_cov d N m a b : has_moments d N (fun _ => 0) mid -> (a < d)%nat -> (b < d)%nat -> E (dseq (repeat N m)) (fun rnds => row_sum rnds a * row_sum rnds b) = INR m * mid a b.
Proof.
  intros HN Ha Hb. induction m as [|m IH]; [cbn [repeat dseq INR]; rewrite E_dret; unfold row_sum; cbn [map Rsum]; ring|]. cbn [repeat]. rewrite E_dseq_cons, S_INR. pose proof (rows_prob d N HN m) as Pm.
  transitivity (E N (fun r => (nth a r 0 - 0) * (nth b r 0 - 0) + INR m * mid a b)); [apply E_ext'; intros r|].
  - transitivity (E (dseq (repeat N m)) (fun rs => nth a r 0 * nth b r 0 + (nth a r 0 * row_sum rs b + (nth b r 0 * row_sum rs a + row_sum rs a * row_sum rs b)))).
    + apply E_ext'. intros rs. unfold row_sum. cbn [map Rsum]. ring.
    + rewrite !E_plus, !E_mult_l, (row_sum_mean d N m a HN Ha), (row_sum_mean d N m b HN Hb), IH, E_const by assumption. ring.
  - destruct HN as (Np & _ & _ & Nc). rewrite E_plus, E_const, Nc by assumption. ring.
Qed.
Lemma merged_moments d N m : (1 <= m)%nat -> has_moments d N (fun _ => 0) mid -> has_moments d (dmap (merged d) (dseq (repeat N m))) (fun _ => 0) mid.
Proof.
  intros Hm HN. pose proof (rows_prob d N HN m) as Pm. assert (Hi : 0 < INR m) by (apply lt_0_INR; lia). assert (Hs : 0 < sqrt (INR m)) by now apply sqrt_lt_R0.
  assert (HL : forall rnds, In rnds (map snd (dseq (repeat N m))) -> length rnds = m) by (intros rnds Hr; apply dseq_length in Hr; now rewrite repeat_length in Hr).
  split; [now apply is_prob_dmap|]. split; [|split].
  - intros x Hx. unfold dmap in Hx. rewrite map_map in Hx. apply in_map_iff in Hx as (y & <- & _). apply length_merged.
  - intros a Ha. rewrite E_dmap. transitivity (E (dseq (repeat N m)) (fun rnds => / sqrt (INR m) * row_sum rnds a)).
    + apply E_ext. intros rnds Hr. rewrite merged_nth, (HL rnds Hr) by assumption. unfold Rdiv. ring.
    + rewrite E_mult_l, (row_sum_mean d) by assumption. ring.
  - intros a b Ha Hb. rewrite E_dmap. transitivity (E (dseq (repeat N m)) (fun rnds => / INR m * (row_sum rnds a * row_sum rnds b))).
    + apply E_ext. intros rnds Hr. rewrite !merged_nth, (HL rnds Hr) by assumption. rewrite <- (sqrt_sqrt (INR m)) at 3 by lra. field. lra.
    + rewrite E_mult_l, (row_sum_cov d) by assumption. field. lra.
Qed.
Lemma E_dseq_dmap {A B} (q : A -> B) (D : dist A) n : forall F, E (dseq (repeat (dmap q D) n)) F = E (dseq (repeat D n)) (fun l => F (map q l)).
Proof.
  induction n as [|n IH]; intros F; cbn [repeat]; [cbn [dseq]; now rewrite !E_dret|]. rewrite !E_dseq_cons, E_dmap. apply E_ext'. intros a. rewrite IH. reflexivity.
Qed.
Lemma E_coarse d (D : dist (list (list R))) n F : E (dseq (repeat (dseq (repeat (dmap (merged d) D) 1)) n)) F = E (dseq (repeat D n)) (fun l => F (map (fun rnds => [merged d rnds]) l)).
Proof.
  revert F. induction n as [|n IH]; intros F; cbn [repeat]; [cbn [dseq]; now rewrite !E_dret|]. change (dseq (repeat (dmap (merged d) D) 1)) with (dseq [dmap (merged d) D]) in IH. rewrite !E_dseq_cons, E_dmap. cbn [dseq].
  apply E_ext'. intros a. rewrite E_dret. rewrite IH. reflexivity.
Qed.

(** ** The laws of the two samplers *)
Lemma sampler_gap P dt dim init_dim out_dim groups mults mth h w c sde T : dim <> 2%nat -> unet dim init_dim out_dim groups mults mth (One h w c) Scalar_time = Some (One h w c) -> 0 <= T ->
  exists C, 0 <= C /\ forall normal coarse key key' m N ts u e F L, (1 <= m)%nat -> ts <> [] -> 0 <= nth 0 ts 0 -> ascending ts -> last ts 0 = T -> 0 <= e ->
    (forall j, (S j < length ts)%nat -> nth (S j) ts 0 - nth j ts 0 <= e) -> has_moments (h * w * c) N (fun _ => 0) mid -> length u = (h * w * c)%nat ->
    (forall k, denotes (normal k m (h * w * c)%nat) (dseq (repeat N m))) ->
    (forall k, denotes (coarse k 1%nat (h * w * c)%nat) (dseq (repeat (dmap (merged (h * w * c)) (dseq (repeat N m))) 1))) ->
    0 <= L -> (forall x y, length x = (h * w * c)%nat -> length y = (h * w * c)%nat -> Rabs (F x - F y) <= L * sqrt (sq_norm (Sde.vmap2 Rminus x y))) ->
    Rabs (law (unet_sampler_prog normal key P dt dim init_dim out_dim groups mults mth h w c sde m u ts) (on_some F)
        - law (unet_sampler_prog coarse key' P dt dim init_dim out_dim groups mults mth h w c sde 1 u ts) (on_some F)) <= L * sqrt (C * e * (1 + sq_norm u)).
Proof.
  intros Hd Hrun HT. destruct (sampler_substeps P dt dim init_dim out_dim groups mults mth h w c sde T Hd Hrun HT) as (C & HC & HS). exists C. split; [assumption|].
  intros normal coarse key key' m N ts u e F L Hm Hne H0 Has Hlast He Hmesh HN Hu Hnor Hcoa HL HF. specialize (HS m N ts u e Hm Hne H0 Has Hlast He Hmesh HN Hu).
  unfold unet_sampler_prog, reverse_prog. rewrite !law_bind, Hu, (em_draws_law normal key m _ N Hnor), (em_draws_law coarse key' 1 _ _ Hcoa), E_coarse. set (W := dseq (repeat (dseq (repeat N m)) (length ts - 1))) in *.
  assert (HP : is_prob W) by (apply is_prob_dseq, Forall_forall; intros y Hy; apply repeat_spec in Hy; subst; now apply (rows_prob (h * w * c))).
  rewrite <- GaussDiv.E_minus. eapply Rle_trans; [apply SampleStats.E_abs_lower; assumption|]. set (S1 := fun rndss => unet_sampler P dt dim init_dim out_dim groups mults mth h w c sde m u ts rndss) in *.
  set (S2 := fun rndss => unet_sampler P dt dim init_dim out_dim groups mults mth h w c sde 1 u ts (map (fun rnds => [merged (h * w * c) rnds]) rndss)) in *.
  apply Rle_trans with (E W (fun rndss => L * sqrt (sq_dist (S1 rndss) (S2 rndss)))).
  - apply ResVariance.E_le; [apply HP|]. intros rndss Hr. change (Rabs (on_some F (S1 rndss) - on_some F (S2 rndss)) <= L * sqrt (sq_dist (S1 rndss) (S2 rndss))).
    pose proof (rows_length _ N m _ HN rndss Hr) as HR. destruct (sampler_start P dt dim init_dim out_dim groups mults mth h w c sde T Hd Hrun HT) as (K & HK & HQ).
    assert (Nu : near 0 u u) by (split; [reflexivity|]; intros i Hi; rewrite Rminus_eq_0, Rabs_R0; lra).
    destruct (HQ m ts rndss u u 0 Hm Hne H0 Has Hlast HR Hu (Rle_refl 0) Nu) as (x & x' & Ex & _ & Lx & _).
    assert (HR' : Forall (Forall (fun r => length r = (h * w * c)%nat)) (map (fun rnds => [merged (h * w * c) rnds]) rndss)).
    { apply Forall_forall. intros z Hz. apply in_map_iff in Hz as (rnds & <- & _). constructor; [apply length_merged|constructor]. }
    destruct (HQ 1%nat ts _ u u 0 (le_n 1) Hne H0 Has Hlast HR' Hu (Rle_refl 0) Nu) as (y & y' & Ey & _ & Ly & _).
    unfold S1, S2. rewrite Ex, Ey. now apply HF.
  - rewrite E_mult_l. apply Rmult_le_compat_l; [assumption|]. assert (Hnn : forall rndss, 0 <= sq_dist (S1 rndss) (S2 rndss)) by (intros; unfold sq_dist; destruct (S1 rndss), (S2 rndss); try apply Rle_refl; apply sq_norm_nonneg).
    eapply Rle_trans; [|apply (SampleStats.E_abs_upper W (fun rndss => sqrt (sq_dist (S1 rndss) (S2 rndss)))); [assumption|eapply Rle_trans; [|exact HS]]].
    + right. apply E_ext'. intros rndss. symmetry. apply Rabs_pos_eq, sqrt_pos.
    + right. apply E_ext'. intros rndss. cbn [pow]. rewrite Rmult_1_r, sqrt_sqrt by apply Hnn. reflexivity.
Qed.
