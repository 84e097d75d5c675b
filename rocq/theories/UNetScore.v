(** The U-Net as the score of the reverse sampler: experiments/imgs/train.py:129-134 [rev_sim], inpainting.py:101-103. *)
From Coquelicot Require Import Coquelicot.
From Coq Require Import Reals List Lia Lra.
From Verif Require Sde SdeProofs Sim.
From Verif Require Import Base Dist Prog Mat Nets UNet UNetVal UNetShape UNetSep UNetGrow UNetLip UNetLipNet UNetLipMain EmMoments EmConverge EmStable.
Import ListNotations.
Open Scope R_scope.

(** Arrays of shape (h, w, c) and the list of their entries, last axis fastest *)
Definition of_entries (h w c : nat) (u : list R) : imgs := Img (Arr4 1 h w c (fun _ i j k => nth ((i * w + j) * c + k)%nat u 0)).
Definition to_entries (x : imgs) : list R :=
  let '(h, w, c) := size x in map (fun q => picture x 0 (q / c / w) ((q / c) mod w) (q mod c)) (seq 0 (h * w * c)).
Lemma entries_inverse h w c u : length u = (h * w * c)%nat -> to_entries (of_entries h w c u) = u.
Proof.
  intros Hl. unfold to_entries, of_entries. cbn [size sh sw sc picture dat]. apply (nth_ext _ _ 0 0); [rewrite map_length, seq_length; auto|].
  rewrite map_length, seq_length. intros q Hq. set (F := fun q => nth ((q / c / w * w + (q / c) mod w) * c + q mod c) u 0). rewrite (nth_indep _ 0 (F 0%nat)) by (rewrite map_length, seq_length; assumption).
  rewrite (map_nth F), seq_nth by assumption. unfold F. cbn [Nat.add]. f_equal. destruct c as [|c]; [lia|]. destruct w as [|w]; [lia|].
  pose proof (Nat.div_mod q (S c) ltac:(lia)). pose proof (Nat.div_mod (q / S c) (S w) ltac:(lia)). nia.
Qed.
Lemma index_bounds h w c q : (q < h * w * c)%nat -> (q / c / w < h)%nat /\ ((q / c) mod w < w)%nat /\ (q mod c < c)%nat.
Proof.
  intros Hq. destruct c as [|c]; [lia|]. destruct w as [|w]; [lia|]. assert (q / S c < h * S w)%nat by (apply Nat.div_lt_upper_bound; lia).
  split; [apply Nat.div_lt_upper_bound; lia|]. split; apply Nat.mod_upper_bound; lia.
Qed.

Lemma index_lt h w c i j k : (i < h)%nat -> (j < w)%nat -> (k < c)%nat -> ((i * w + j) * c + k < h * w * c)%nat.
Proof.
  intros Hi Hj Hk. assert (H : (i * w + j + 1 <= h * w)%nat) by (apply Nat.le_trans with ((i + 1) * w)%nat; [lia|apply Nat.mul_le_mono_r; lia]).
  apply Nat.lt_le_trans with ((i * w + j + 1) * c)%nat; [lia|apply Nat.mul_le_mono_r; assumption].
Qed.

(** base.py:32-39 [forward_pass] on one image and a scalar time; [[]] stands for an exception *)
Definition unet_score (P : params) (dt : R) (dim init_dim out_dim groups : nat) (mults : list nat) (mth : method) (h w c : nat) (u : list R) (t : R) : list R :=
  match unet_val P dt dim init_dim out_dim groups mults mth (of_entries h w c u) (At t) with Some o => to_entries o | None => [] end.

Section score.
  Variables (P : params) (dt : R) (dim init_dim out_dim groups : nat) (mults : list nat) (mth : method) (h w c : nat).
  Hypothesis Hdim : dim <> 2%nat.
  Hypothesis Hrun : unet dim init_dim out_dim groups mults mth (One h w c) Scalar_time = Some (One h w c).

  Lemma score_runs u t : exists o, unet_val P dt dim init_dim out_dim groups mults mth (of_entries h w c u) (At t) = Some o /\ size o = (h, w, c).
  Proof using Hdim Hrun.
    pose proof (unet_shp P dt dim init_dim out_dim groups mults mth (of_entries h w c u) (At t) Hdim) as A.
    change (imgs_shape (of_entries h w c u)) with (One h w c) in A. change (times_shape (At t)) with Scalar_time in A. rewrite Hrun in A.
    destruct (unet_val P dt dim init_dim out_dim groups mults mth (of_entries h w c u) (At t)) as [o|]; [|discriminate A]. exists o. split; [reflexivity|].
    cbn [option_map] in A. apply Some_eq in A. destruct o as [o|o]; cbn in A |- *; [|discriminate]. now injection A as -> -> ->.
  Qed.
  Lemma to_entries_nth x q : size x = (h, w, c) -> (q < h * w * c)%nat -> nth q (to_entries x) 0 = picture x 0 (q / c / w) ((q / c) mod w) (q mod c).
  Proof using. clear Hrun.
    intros Hs Hq. unfold to_entries. rewrite Hs. set (F := fun q => picture x 0 (q / c / w) ((q / c) mod w) (q mod c)). rewrite (nth_indep _ 0 (F 0%nat)) by (rewrite map_length, seq_length; assumption).
    rewrite (map_nth F), seq_nth by assumption. reflexivity.
  Qed.
  Lemma length_to_entries x : size x = (h, w, c) -> length (to_entries x) = (h * w * c)%nat.
  Proof using. clear Hrun. intros Hs. unfold to_entries. rewrite Hs. now rewrite map_length, seq_length. Qed.
  Lemma score_length u t : length (unet_score P dt dim init_dim out_dim groups mults mth h w c u t) = (h * w * c)%nat.
  Proof using Hdim Hrun. destruct (score_runs u t) as (o & Ho & Hs). unfold unet_score. rewrite Ho. now apply length_to_entries. Qed.

  Lemma of_entries_near u v e : length u = (h * w * c)%nat -> 0 <= e -> near e u v -> near_pictures e (of_entries h w c u) (of_entries h w c v) 0 0.
  Proof using. clear Hrun.
    intros Hl He [Hn H]. split; [reflexivity|]. cbn [size of_entries sh sw sc picture dat]. intros i j k Hi Hj Hk. apply H. rewrite Hl. now apply index_lt.
  Qed.
  (** Lipschitz, with one constant for all times *)
  Lemma score_lipschitz : exists k, 0 <= k /\ forall u v t e, length u = (h * w * c)%nat -> 0 <= e -> near e u v ->
    near (k * e) (unet_score P dt dim init_dim out_dim groups mults mth h w c u t) (unet_score P dt dim init_dim out_dim groups mults mth h w c v t).
  Proof using Hdim Hrun.
    destruct (unet_lipschitz P dt dim init_dim out_dim groups mults mth (h, w, c)) as (k & Hk & H). exists k. split; [assumption|]. intros u v t e Hl He Hn.
    specialize (H (of_entries h w c u) (of_entries h w c v) (At t) (At t) 0%nat 0%nat e eq_refl eq_refl Nat.lt_0_1 Nat.lt_0_1 I I He (of_entries_near u v e Hl He Hn)).
    specialize (H ltac:(cbn [time_of]; rewrite Rminus_diag_eq by reflexivity; rewrite Rabs_R0; assumption)).
    destruct (score_runs u t) as (o & Ho & Hs). destruct (score_runs v t) as (o' & Ho' & Hs'). unfold unet_score. rewrite Ho, Ho' in H |- *. destruct H as [_ H]. rewrite Hs in H.
    split; [now rewrite !length_to_entries by assumption|]. rewrite length_to_entries by assumption. intros q Hq. rewrite !to_entries_nth by assumption. destruct (index_bounds h w c q Hq) as (B1 & B2 & B3). now apply H.
  Qed.
  Lemma score_growth : exists a k, 0 <= a /\ 0 <= k /\ forall u t M, length u = (h * w * c)%nat -> 0 <= M -> (forall i, (i < h * w * c)%nat -> Rabs (nth i u 0) <= M) ->
    forall i, (i < h * w * c)%nat -> Rabs (nth i (unet_score P dt dim init_dim out_dim groups mults mth h w c u t) 0) <= a + k * M.
  Proof using Hdim Hrun.
    destruct (unet_growth P dt dim init_dim out_dim groups mults mth (h, w, c)) as (a & k & Ha & Hk & H). exists a, k. split; [assumption|]. split; [assumption|]. intros u t M Hl HM HB q Hq.
    destruct (score_runs u t) as (o & Ho & Hs). unfold unet_score. rewrite Ho. rewrite to_entries_nth by assumption.
    specialize (H (of_entries h w c u) (At t) 0%nat M o eq_refl Ho Nat.lt_0_1 HM). assert (HP : picture_bound M (of_entries h w c u) 0).
    { unfold picture_bound. cbn [size of_entries sh sw sc picture dat]. intros i j m Hi Hj Hm. apply HB. now apply index_lt. }
    specialize (H HP). unfold picture_bound in H. rewrite Hs in H. destruct (index_bounds h w c q Hq) as (B1 & B2 & B3). now apply H.
  Qed.
End score.

(** ** The SDEs *)
Lemma drift_coef_bound sde T : 0 <= T -> exists A, 0 <= A /\ forall t, 0 <= t <= T -> Rabs (Sde.drift_coef sde t) <= A.
Proof.
  intros HT. apply compact_bound; [assumption|]. intros t. destruct sde as [a b|m M z z'|a b cc z|]; unfold Sde.drift_coef, Sde.beta; auto_derive; trivial.
Qed.
Lemma dispersion_bound sde T : 0 <= T -> exists G, 0 <= G /\ forall t, 0 <= t <= T -> Sde.dispersion sde t ^ 2 <= G.
Proof.
  intros HT. destruct sde as [a b|m M z z'|a b cc z|]; cbn [Sde.dispersion].
  - exists (b ^ 2). split; [apply pow2_ge_0|]. intros; lra.
  - destruct (compact_bound (Sde.beta m M z z') T HT) as (B & HB & H); [intros t; unfold Sde.beta; auto_derive; trivial|]. exists B. split; [assumption|]. intros t Ht. specialize (H t Ht).
    destruct (Rle_dec 0 (Sde.beta m M z z' t)) as [Hp|Hp]; [rewrite <- Rsqr_pow2, Rsqr_sqrt by assumption; pose proof (Rle_abs (Sde.beta m M z z' t)); lra|].
    rewrite sqrt_neg_0 by lra. lra.
  - destruct (compact_bound (fun t => (b * exp (cc * (t - z) / 2)) ^ 2) T HT) as (B & HB & H); [intros t; auto_derive; trivial|]. exists B. split; [assumption|]. intros t Ht. specialize (H t Ht). pose proof (Rle_abs ((b * exp (cc * (t - z) / 2)) ^ 2)). lra.
  - exists 0. split; [lra|]. intros; lra.
Qed.

Lemma reverse_nth d score sde T u t : length u = d -> length (score u (T - t)) = d -> length (Sim.reverse_drift score (Sde.drift sde) (Sde.dispersion sde) T u t) = d /\
  forall i, (i < d)%nat -> nth i (Sim.reverse_drift score (Sde.drift sde) (Sde.dispersion sde) T u t) 0 =
    - Sde.drift_coef sde (T - t) * nth i u 0 + Sde.dispersion sde (T - t) ^ 2 * nth i (score u (T - t)) 0.
Proof.
  intros Hu Hs. unfold Sim.reverse_drift, Sde.vadd, Sde.drift.
  assert (L1 : length (Sde.vscale (- (1)) (Sde.vscale (Sde.drift_coef sde (T - t)) u)) = d) by now rewrite !SdeProofs.length_vscale.
  assert (L2 : length (Sde.vscale (Sde.dispersion sde (T - t) * Sde.dispersion sde (T - t)) (score u (T - t))) = d) by now rewrite SdeProofs.length_vscale.
  split; [rewrite SdeProofs.length_vmap2; congruence|]. intros i Hi. rewrite SdeProofs.nth_vmap2 by (congruence || lia). rewrite !SdeProofs.nth_vscale. ring.
Qed.

Lemma reverse_lipschitz d score sde T k : 0 <= T -> 0 <= k -> (forall u t, length (score u t) = d) ->
  (forall u v t e, length u = d -> 0 <= e -> near e u v -> near (k * e) (score u t) (score v t)) ->
  exists K, 0 <= K /\ lipschitz_on d 0 T K (Sim.reverse_drift score (Sde.drift sde) (Sde.dispersion sde) T).
Proof.
  intros HT Hk Hl HL. destruct (drift_coef_bound sde T HT) as (A & HA & BA). destruct (dispersion_bound sde T HT) as (G & HG & BG).
  exists (A + G * k). split; [apply Rplus_le_le_0_compat; [assumption|now apply Rmult_le_pos]|]. intros t Ht. assert (Ht' : 0 <= T - t <= T) by lra.
  split; [intros x Hx; now apply reverse_nth|]. intros e x y Hx He [Hn H]. assert (Hy : length y = d) by congruence.
  destruct (reverse_nth d score sde T x t Hx (Hl x _)) as [X1 X2]. destruct (reverse_nth d score sde T y t Hy (Hl y _)) as [Y1 Y2]. split; [congruence|]. rewrite X1. intros i Hi. rewrite X2, Y2 by assumption.
  destruct (HL x y (T - t) e Hx He (conj Hn H)) as [_ S]. rewrite Hl in S. specialize (S i Hi). rewrite Hx in H. specialize (H i Hi).
  replace (_ - _) with (- (Sde.drift_coef sde (T - t)) * (nth i x 0 - nth i y 0) + Sde.dispersion sde (T - t) ^ 2 * (nth i (score x (T - t)) 0 - nth i (score y (T - t)) 0)) by ring.
  eapply Rle_trans; [apply Rabs_triang|]. rewrite !Rabs_mult, Rabs_Ropp, (Rabs_pos_eq (_ ^ 2)) by apply pow2_ge_0. rewrite Rmult_plus_distr_r, Rmult_assoc.
  apply Rplus_le_compat; apply Rmult_le_compat; auto using Rabs_pos, pow2_ge_0.
Qed.
Lemma reverse_grows d score sde T a k : 0 <= T -> 0 <= a -> 0 <= k -> (forall u t, length (score u t) = d) ->
  (forall u t M, length u = d -> 0 <= M -> (forall i, (i < d)%nat -> Rabs (nth i u 0) <= M) -> forall i, (i < d)%nat -> Rabs (nth i (score u t) 0) <= a + k * M) ->
  exists a' k', 0 <= a' /\ 0 <= k' /\ grows_on d 0 T a' k' (Sim.reverse_drift score (Sde.drift sde) (Sde.dispersion sde) T).
Proof.
  intros HT Ha Hk Hl HB. destruct (drift_coef_bound sde T HT) as (A & HA & BA). destruct (dispersion_bound sde T HT) as (G & HG & BG).
  exists (G * a), (A + G * k). split; [now apply Rmult_le_pos|]. split; [apply Rplus_le_le_0_compat; [assumption|now apply Rmult_le_pos]|]. intros t Ht x Hx. assert (Ht' : 0 <= T - t <= T) by lra.
  destruct (reverse_nth d score sde T x t Hx (Hl x _)) as [X1 X2]. split; [assumption|]. intros M HM Hxi i Hi. rewrite X2 by assumption. specialize (HB x (T - t) M Hx HM Hxi i Hi).
  eapply Rle_trans; [apply Rabs_triang|]. rewrite !Rabs_mult, Rabs_Ropp, (Rabs_pos_eq (_ ^ 2)) by apply pow2_ge_0.
  replace (G * a + (A + G * k) * M) with (A * M + G * (a + k * M)) by ring. apply Rplus_le_compat; apply Rmult_le_compat; auto using Rabs_pos, pow2_ge_0.
Qed.

(** ** The sampler *)
Definition unet_sampler P dt dim init_dim out_dim groups mults mth (h w c : nat) (sde : Sde.linear_sde) (n : nat) (u0 ts : list R) (rndss : list (list (list R))) : option (list R) :=
  Sim.reverse_simulator (unet_score P dt dim init_dim out_dim groups mults mth h w c) (Sde.drift sde) (Sde.dispersion sde) n true u0 ts rndss.
Definition unet_sampler_prog (normal : Sde.normal_sampler) (k : key) P dt dim init_dim out_dim groups mults mth (h w c : nat) (sde : Sde.linear_sde) (n : nat) (u0 ts : list R) : prog (option (list R)) :=
  reverse_prog normal k u0 ts (unet_score P dt dim init_dim out_dim groups mults mth h w c) (Sde.drift sde) (Sde.dispersion sde) n.

Lemma sampler_start P dt dim init_dim out_dim groups mults mth h w c sde T : dim <> 2%nat -> unet dim init_dim out_dim groups mults mth (One h w c) Scalar_time = Some (One h w c) -> 0 <= T ->
  exists K, 0 <= K /\ forall n ts rndss u v e, (1 <= n)%nat -> ts <> [] -> 0 <= nth 0 ts 0 -> ascending ts -> last ts 0 = T ->
    Forall (Forall (fun r => length r = (h * w * c)%nat)) rndss -> length u = (h * w * c)%nat -> 0 <= e -> near e u v ->
    exists x y, unet_sampler P dt dim init_dim out_dim groups mults mth h w c sde n u ts rndss = Some x /\ unet_sampler P dt dim init_dim out_dim groups mults mth h w c sde n v ts rndss = Some y /\
      length x = (h * w * c)%nat /\ near (exp (K * T) * e) x y.
Proof.
  intros Hd Hrun HT. destruct (score_lipschitz P dt dim init_dim out_dim groups mults mth h w c Hd Hrun) as (k & Hk & HL).
  destruct (reverse_lipschitz (h * w * c) (unet_score P dt dim init_dim out_dim groups mults mth h w c) sde T k HT Hk (score_length P dt dim init_dim out_dim groups mults mth h w c Hd Hrun) HL) as (K & HK & HLip).
  exists K. split; [assumption|]. intros n ts rndss u v e Hn Hne H0 Has Hlast Hr Hu He Huv. unfold unet_sampler, Sim.reverse_simulator. rewrite Hlast. cbv zeta.
  eexists. eexists. split; [reflexivity|]. split; [reflexivity|]. destruct ts as [|t ts]; [easy|]. cbn [nth] in H0. unfold Sim.em_terminal.
  destruct (carry_near (h * w * c) _ (Sim.reverse_dispersion (Sde.dispersion sde) T) 0 T K HK HLip n ts Hn t rndss u v e H0 Has ltac:(lra) Hr Hu He Huv) as [C1 [C2 C3]]. split; [exact C1|]. split; [exact C2|].
  intros i Hi. eapply Rle_trans; [now apply C3|]. apply Rmult_le_compat_r; [assumption|]. rewrite Hlast. destruct (Req_dec (K * t) 0) as [E|E]; [right; f_equal; lra|]. left. apply exp_increasing. assert (0 <= K * t) by (apply Rmult_le_pos; lra). lra.
Qed.

Lemma sampler_moment P dt dim init_dim out_dim groups mults mth h w c sde T : dim <> 2%nat -> unet dim init_dim out_dim groups mults mth (One h w c) Scalar_time = Some (One h w c) -> 0 <= T ->
  exists C B, 0 <= C /\ 0 <= B /\ forall normal key n N ts D, (1 <= n)%nat -> ts <> [] -> 0 <= nth 0 ts 0 -> ascending ts -> last ts 0 = T ->
    has_moments (h * w * c) N (fun _ => 0) mid -> (forall k, denotes (normal k n (h * w * c)%nat) (dseq (repeat N n))) ->
    is_prob D -> (forall u, In u (map snd D) -> length u = (h * w * c)%nat) ->
    E D (fun u0 => law (unet_sampler_prog normal key P dt dim init_dim out_dim groups mults mth h w c sde n u0 ts) (on_some sq_norm)) <= exp (C * T) * (E D sq_norm + B * T).
Proof.
  intros Hd Hrun HT. destruct (score_growth P dt dim init_dim out_dim groups mults mth h w c Hd Hrun) as (a & k & Ha & Hk & HB).
  destruct (reverse_grows (h * w * c) (unet_score P dt dim init_dim out_dim groups mults mth h w c) sde T a k HT Ha Hk (score_length P dt dim init_dim out_dim groups mults mth h w c Hd Hrun) HB) as (a' & k' & Ha' & Hk' & HG).
  destruct (dispersion_bound sde T HT) as (G & HG0 & BG).
  assert (BG' : forall t, 0 <= t <= T -> Sim.reverse_dispersion (Sde.dispersion sde) T t ^ 2 <= G) by (intros t Ht; unfold Sim.reverse_dispersion; apply BG; lra).
  set (f := Sim.reverse_drift (unet_score P dt dim init_dim out_dim groups mults mth h w c) (Sde.drift sde) (Sde.dispersion sde) T) in *. set (g := Sim.reverse_dispersion (Sde.dispersion sde) T) in *.
  pose proof (rate_nonneg (h * w * c) 0 T k' HT) as R0. pose proof (source_nonneg (h * w * c) g 0 T a' G HT BG') as S0.
  exists (rate (h * w * c) 0 T k'), (source (h * w * c) 0 T a' G). split; [assumption|]. split; [assumption|].
  intros normal key n N ts D Hn Hne H0 Has Hlast HN Hden Dp Dl.
  assert (Hlaw : E D (fun u0 => law (unet_sampler_prog normal key P dt dim init_dim out_dim groups mults mth h w c sde n u0 ts) (on_some sq_norm)) = E (chain_law f g N n ts D) sq_norm).
  { rewrite E_chain_law. apply E_ext. intros x Hx. unfold unet_sampler_prog, reverse_prog. rewrite law_bind, (Dl x Hx), (em_draws_law normal key n (h * w * c) N Hden). apply E_ext'. intros rndss. unfold Sim.reverse_simulator. rewrite Hlast. reflexivity. }
  rewrite Hlaw. destruct ts as [|t ts]; [easy|]. cbn [nth] in H0.
  assert (He : 0 <= E D sq_norm) by (rewrite <- (E_const 0 D Dp); apply ResVariance.E_le; [apply Dp|intros; apply sq_norm_nonneg]).
  destruct (chain_bounded (h * w * c) f g N 0 T a' k' G Ha' Hk' HT HG BG' HN (E D sq_norm) n ts He Hn t D H0 Has ltac:(lra)) as [_ Fin].
  - split; [split; assumption|]. unfold moment_bound. rewrite Rminus_0_r. pose proof (exp_lower (rate (h * w * c) 0 T k' * t)) as Hl. assert (0 <= rate (h * w * c) 0 T k' * t) by now apply Rmult_le_pos.
    assert (0 <= source (h * w * c) 0 T a' G * t) by now apply Rmult_le_pos. nra.
  - unfold moment_bound in Fin. rewrite Hlast, Rminus_0_r in Fin. exact Fin.
Qed.
