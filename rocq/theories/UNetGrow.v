(** The output of the U-Net grows at most linearly with the image, uniformly in the time and in the batch. *)
From Coq Require Import Reals List Lia Lra Bool PeanoNat Psatz.
From Verif Require Import Base Nets UNet UNetVal UNetShape UNetSep.
Import ListNotations.
Open Scope R_scope.

(** element [b] of [x] is bounded by [M] *)
Definition bnd (b : nat) (M : R) (x : tensor) : Prop := forall i j c, (i < sh x)%nat -> (j < sw x)%nat -> (c < sc x)%nat -> Rabs (dat x b i j c) <= M.
Definition s3 (x : tensor) : nat * nat * nat := (sh x, sw x, sc x).
Definition grow_layer (L : temb -> tensor -> option tensor) : Prop := forall s, exists s' a g, 0 <= a /\ 0 <= g /\
  forall te x y b M, s3 x = s -> L te x = Some y -> 0 <= M -> bnd b M x -> s3 y = s' /\ bnd b (a + g * M) y.

Lemma Rsum_abs_le {A} (f g : A -> R) l : (forall a, In a l -> Rabs (f a) <= g a) -> Rabs (Rsum (map f l)) <= Rsum (map g l).
Proof.
  induction l as [|a l IH]; intros H; cbn [map Rsum]; [rewrite Rabs_R0; lra|]. eapply Rle_trans; [apply Rabs_triang|]. apply Rplus_le_compat; [apply H; now left|]. apply IH. intros z Hz. apply H. now right.
Qed.
Lemma le_total (f : nat -> R) n c : (c < n)%nat -> (forall k, 0 <= f k) -> f c <= Rsum (map f (seq 0 n)).
Proof.
  intros Hc Hf. apply Rsum_In_le; [apply Forall_forall; intros z Hz; apply in_map_iff in Hz as (k & <- & _); apply Hf|]. apply in_map, in_seq. lia.
Qed.
Lemma total_nonneg {A} (f : A -> R) l : (forall k, 0 <= f k) -> 0 <= Rsum (map f l).
Proof. intros H. apply Rsum_nonneg, Forall_forall. intros z Hz. apply in_map_iff in Hz as (k & <- & _). apply H. Qed.

(** ** A normalised entry is at most the root of the number of entries *)
Lemma sum_sq_dev l : l <> [] -> Rsum (map (fun z => (z - Rmean l) * (z - Rmean l)) l) = INR (length l) * (Rmean (map (fun z => z * z) l) - Rmean l * Rmean l).
Proof.
  intros Hl. assert (Hn : INR (length l) <> 0) by (apply not_0_INR; destruct l; [congruence|discriminate]). set (m := Rmean l).
  assert (G : forall k, Rsum (map (fun z => (z - m) * (z - m)) k) = Rsum (map (fun z => z * z) k) - 2 * m * Rsum k + INR (length k) * (m * m)).
  { induction k as [|a k IH]; [cbn; ring|]. cbn [map Rsum length]. rewrite IH, S_INR. ring. }
  rewrite G. unfold Rmean at 1. rewrite map_length. assert (Hs : Rsum l = INR (length l) * m) by (unfold m, Rmean; field; assumption). rewrite Hs. field. assumption.
Qed.
Lemma normed_bound eps l a : 0 < eps -> In a l -> Rabs (normed eps l a) <= sqrt (INR (length l)).
Proof.
  intros He Ha. assert (Hl : l <> []) by (intros ->; destruct Ha). unfold normed. set (m := Rmean l). set (V := Rmean (map (fun z => z * z) l) - m * m).
  assert (D : Rsum (map (fun z => (z - m) * (z - m)) l) = INR (length l) * V) by (now apply sum_sq_dev).
  assert (HV : (a - m) * (a - m) <= INR (length l) * V).
  { rewrite <- D. apply (Rsum_In_le (map (fun z => (z - m) * (z - m)) l)); [apply Forall_forall; intros z Hz; apply in_map_iff in Hz as (k & <- & _); apply Rle_0_sqr|]. now apply (in_map (fun z => (z - m) * (z - m))). }
  assert (Hn : 0 < INR (length l)) by (apply lt_0_INR; destruct l; [congruence|cbn; lia]).
  assert (HV0 : 0 <= V) by (pose proof (Rle_0_sqr (a - m)) as Q; unfold Rsqr in Q; destruct (Rle_lt_dec 0 V); [assumption|nra]).
  rewrite Rmax_right by assumption. assert (Hs : 0 < sqrt (V + eps)) by (apply sqrt_lt_R0; lra).
  rewrite <- sqrt_Rsqr_abs. apply sqrt_le_1_alt. unfold Rsqr. replace ((a - m) / sqrt (V + eps) * ((a - m) / sqrt (V + eps))) with ((a - m) * (a - m) / (V + eps)).
  - apply Rmult_le_reg_r with (V + eps); [lra|]. unfold Rdiv. rewrite Rmult_assoc, Rinv_l, Rmult_1_r by lra. nra.
  - rewrite <- (sqrt_sqrt (V + eps)) at 1 by lra. field. lra.
Qed.
Lemma swish_bound a : Rabs (swish a) <= Rabs a.
Proof.
  unfold swish. rewrite Rabs_mult. rewrite <- (Rmult_1_r (Rabs a)) at 2. apply Rmult_le_compat_l; [apply Rabs_pos|]. pose proof (exp_pos (- a)). rewrite Rabs_inv, Rabs_right by lra.
  rewrite <- Rinv_1 at 2. apply Rinv_le_contravar; lra.
Qed.

(** ** The layers *)
Definition conv_gain (K : nat -> nat -> nat -> nat -> R) (features k cin : nat) : R :=
  Rsum (map (fun o => Rsum (map (fun '(di, dj, c) => Rabs (K di dj c o)) (taps k cin))) (seq 0 features)).
Definition total (f : nat -> R) (n : nat) : R := Rsum (map (fun o => Rabs (f o)) (seq 0 n)).
Lemma conv_gain_nonneg K f k c : 0 <= conv_gain K f k c.
Proof. apply total_nonneg. intros o. apply total_nonneg. intros [[? ?] ?]. apply Rabs_pos. Qed.
Lemma abs_total_nonneg f n : 0 <= total f n.
Proof. apply total_nonneg. intros. apply Rabs_pos. Qed.
Lemma pad_bound p x b M i j c : 0 <= M -> bnd b M x -> (c < sc x)%nat -> Rabs (pad p x b i j c) <= M.
Proof.
  intros HM H Hc. unfold pad. destruct (((p <=? i) && (i - p <? sh x) && (p <=? j) && (j - p <? sw x))%nat) eqn:G; [|rewrite Rabs_R0; assumption].
  apply andb_prop in G as [G G4]. apply andb_prop in G as [G G3]. apply andb_prop in G as [G1 G2]. apply Nat.ltb_lt in G2, G4. now apply H.
Qed.
Lemma conv_bound K bias f k s p x b M : 0 <= M -> bnd b M x -> bnd b (total bias f + conv_gain K f k (sc x) * M) (conv_val K bias f k s p x).
Proof.
  intros HM H i j o _ _ Ho. cbn [conv_val sc] in Ho. cbn [conv_val dat]. eapply Rle_trans; [apply Rabs_triang|]. rewrite Rplus_comm. apply Rplus_le_compat.
  - apply (le_total (fun o => Rabs (bias o))); [assumption|intros; apply Rabs_pos].
  - eapply Rle_trans; [apply (Rsum_abs_le _ (fun '(di, dj, c) => Rabs (K di dj c o) * M))|].
    + intros [[di dj] c] Hin. apply in_taps in Hin. rewrite Rabs_mult. apply Rmult_le_compat_l; [apply Rabs_pos|]. apply pad_bound; [assumption|assumption|lia].
    + replace (Rsum (map (fun '(di, dj, c) => Rabs (K di dj c o) * M) (taps k (sc x)))) with (Rsum (map (fun '(di, dj, c) => Rabs (K di dj c o)) (taps k (sc x))) * M).
      * apply Rmult_le_compat_r; [assumption|]. apply (le_total (fun o => Rsum (map (fun '(di, dj, c) => Rabs (K di dj c o)) (taps k (sc x))))); [assumption|].
        intros o'. apply total_nonneg. intros [[? ?] ?]. apply Rabs_pos.
      * rewrite <- Rsum_map_mult_r. apply Rsum_map_ext. intros [[? ?] ?] _. reflexivity.
Qed.
Lemma group_norm_bound scale bias groups x y b : group_norm_val scale bias groups x = Some y ->
  s3 y = s3 x /\ bnd b (sqrt (INR (sh x * sw x * (sc x / groups))) * total scale (sc x) + total bias (sc x)) y.
Proof.
  unfold group_norm_val. intros H. apply check_Some in H as [G H]. injection H as <-. split; [reflexivity|]. intros i j c Hi Hj Hc. cbn [sh sw sc] in Hi, Hj, Hc. cbn [dat].
  apply andb_prop in G as [G1 G2]. apply Nat.leb_le in G1. apply Nat.eqb_eq in G2. apply Nat.mod_divide in G2 as [q Hq]; [|lia].
  assert (Hgs : (sc x / groups = q)%nat) by (rewrite Hq; apply Nat.div_mul; lia). rewrite Hgs. assert (Hq0 : (q <> 0)%nat) by (intros ->; lia).
  eapply Rle_trans; [apply Rabs_triang|]. apply Rplus_le_compat; [|apply (le_total (fun o => Rabs (bias o))); [assumption|intros; apply Rabs_pos]].
  rewrite Rabs_mult. apply Rmult_le_compat; [apply Rabs_pos|apply Rabs_pos| |apply (le_total (fun o => Rabs (scale o))); [assumption|intros; apply Rabs_pos]].
  replace (INR (sh x * sw x * q)) with (INR (length (group_values x b (c / q) q))) by (unfold group_values; rewrite map_length, !prod_length, !seq_length; reflexivity).
  apply normed_bound; [apply Rinv_0_lt_compat; lra|]. unfold group_values. apply in_map_iff. exists (i, j, (c mod q)%nat). split; [f_equal; rewrite (Nat.mul_comm (c / q)); symmetry; now apply Nat.div_mod|].
  rewrite !in_prod_iff, !in_seq. pose proof (Nat.mod_upper_bound c q Hq0). lia.
Qed.
Lemma layer_norm_bound scale x b : bnd b (sqrt (INR (sc x)) * total scale (sc x)) (layer_norm_val scale x).
Proof.
  intros i j c Hi Hj Hc. cbn [sh sw sc layer_norm_val] in Hi, Hj, Hc. cbn [dat layer_norm_val]. rewrite Rabs_mult.
  apply Rmult_le_compat; [apply Rabs_pos|apply Rabs_pos| |apply (le_total (fun o => Rabs (scale o))); [assumption|intros; apply Rabs_pos]].
  replace (INR (sc x)) with (INR (length (map (dat x b i j) (seq 0 (sc x))))) by (now rewrite map_length, seq_length).
  apply normed_bound; [apply Rinv_0_lt_compat; lra|]. apply in_map, in_seq. lia.
Qed.
Lemma tadd_bound x y z b M N : tadd x y = Some z -> bnd b M x -> bnd b N y -> s3 z = s3 x /\ bnd b (M + N) z.
Proof.
  unfold tadd. intros H HM HN. apply check_Some in H as [G H]. apply shape_eqb_true in G. injection G as G1 G2 G3 G4. injection H as <-. split; [reflexivity|].
  intros i j c Hi Hj Hc. cbn [sh sw sc dat] in *. eapply Rle_trans; [apply Rabs_triang|]. apply Rplus_le_compat; [now apply HM|apply HN; lia].
Qed.
Lemma tconcat_bound x y z b M : tconcat x y = Some z -> bnd b M x -> bnd b M y -> s3 z = (sh x, sw x, sc x + sc y)%nat /\ bnd b M z.
Proof.
  unfold tconcat. intros H HM HN. apply check_Some in H as [G H]. injection H as <-. apply andb_prop in G as [G G3]. apply andb_prop in G as [G1 G2]. apply Nat.eqb_eq in G1, G2, G3. split; [reflexivity|].
  intros i j c Hi Hj Hc. cbn [sh sw sc dat] in *. destruct (Nat.ltb_spec c (sc x)); [now apply HM|apply HN; lia].
Qed.
Lemma bnd_weaken b M N x : M <= N -> bnd b M x -> bnd b N x.
Proof. intros H HM i j c Hi Hj Hc. eapply Rle_trans; [now apply HM|assumption]. Qed.

(** resizing averages *)
Lemma tri_total n i : (i < n * 2)%nat -> 0 < Rsum (map (tri i) (seq 0 n)).
Proof.
  intros Hi. apply Rlt_le_trans with (tri i (i / 2)).
  - unfold tri. pose proof (Nat.div_mod i 2 ltac:(lia)) as D. assert (i mod 2 < 2)%nat by (apply Nat.mod_upper_bound; lia). rewrite D at 1. rewrite plus_INR, mult_INR.
    apply Rlt_le_trans with (1 - Rabs ((INR 2 * INR (i / 2) + INR (i mod 2) + / 2) / 2 - / 2 - INR (i / 2))); [|apply Rmax_r].
    replace ((INR 2 * INR (i / 2) + INR (i mod 2) + / 2) / 2 - / 2 - INR (i / 2)) with (INR (i mod 2) / 2 - / 4) by (cbn [INR]; field).
    assert (i mod 2 = 0 \/ i mod 2 = 1)%nat as [ ->| ->] by lia; cbn [INR]; unfold Rabs; destruct Rcase_abs; lra.
  - apply le_total; [apply Nat.div_lt_upper_bound; lia|]. intros k. apply Rmax_l.
Qed.
Lemma resize_weights n i : (i < n * 2)%nat -> (forall k, 0 <= resize_weight n i k) /\ Rsum (map (resize_weight n i) (seq 0 n)) = 1.
Proof.
  intros Hi. pose proof (tri_total n i Hi) as T. split.
  - intros k. apply Rmult_le_pos; [apply Rmax_l|]. left. now apply Rinv_0_lt_compat.
  - unfold resize_weight. unfold Rdiv. rewrite Rsum_map_mult_r. field. lra.
Qed.
Lemma average_bound (w v : nat -> R) n M : (forall k, 0 <= w k) -> Rsum (map w (seq 0 n)) = 1 -> (forall k, (k < n)%nat -> Rabs (v k) <= M) -> Rabs (Rsum (map (fun k => w k * v k) (seq 0 n))) <= M.
Proof.
  intros Hw H1 Hv. eapply Rle_trans; [apply (Rsum_abs_le _ (fun k => w k * M))|].
  - intros k Hk. apply in_seq in Hk. rewrite Rabs_mult, (Rabs_right (w k)) by (apply Rle_ge, Hw). apply Rmult_le_compat_l; [apply Hw|]. apply Hv. lia.
  - rewrite Rsum_map_mult_r, H1. lra.
Qed.
Lemma resize_bound x b M : bnd b M x -> bnd b M (resize2 x).
Proof.
  intros H i j c Hi Hj Hc. cbn [sh sw sc dat resize2] in *. destruct (resize_weights (sh x) i Hi) as [W1 W2]. destruct (resize_weights (sw x) j Hj) as [V1 V2].
  apply average_bound; auto. intros k Hk. apply average_bound; auto.
Qed.
Lemma shuffle_bound x y b M : pixel_shuffle 2 x = Some y -> bnd b M x -> s3 y = (sh x * 2, sw x * 2, sc x / 4)%nat /\ bnd b M y.
Proof.
  unfold pixel_shuffle. cbn [Nat.leb andb]. change (2 * 2)%nat with 4%nat. intros Hy H. destruct (Nat.eqb_spec (sc x mod 4) 0) as [G|]; [|discriminate]. injection Hy as <-. split; [reflexivity|].
  apply Nat.mod_divide in G as [q Hq]; [|lia]. assert (Hd : (sc x / 4 = q)%nat) by (rewrite Hq; apply Nat.div_mul; lia). intros i j c Hi Hj Hc. change (i < sh x * 2)%nat in Hi. change (j < sw x * 2)%nat in Hj. change (c < sc x / 4)%nat in Hc.
  change (Rabs (dat x b (i / 2) (j / 2) ((i mod 2 * 2 + j mod 2) * (sc x / 4) + c)%nat) <= M). rewrite Hd in Hc |- *. apply H.
  - apply Nat.div_lt_upper_bound; lia.
  - apply Nat.div_lt_upper_bound; lia.
  - assert (i mod 2 < 2)%nat by (apply Nat.mod_upper_bound; lia). assert (j mod 2 < 2)%nat by (apply Nat.mod_upper_bound; lia). nia.
Qed.

(** ** Attention averages *)
Lemma Some_eq {A} (a b : A) : Some a = Some b -> a = b.
Proof. congruence. Qed.
Lemma abs_between a V : Rabs a <= V -> - V <= a <= V.
Proof. unfold Rabs. destruct Rcase_abs; lra. Qed.
Lemma attention_bound (lin : bool) H W qkv V i j c : (i < H)%nat -> (j < W)%nat -> (c < 32 * 4)%nat -> 0 <= V ->
  (forall i j c, (i < H)%nat -> (j < W)%nat -> (c < 32 * 4 * 3)%nat -> Rabs (qkv i j c) <= V) ->
  Rabs ((if lin then linear_attention H W 4 32 qkv else attention (/ 10 ^ 12) 10 H W 4 32 qkv) i j c) <= V.
Proof.
  intros Hi Hj Hc HV Hq. pose proof (Nat.div_mod c 32 ltac:(lia)) as D. assert (Hm : (c mod 32 < 32)%nat) by (apply Nat.mod_upper_bound; lia). assert (Hh : (c / 32 < 4)%nat) by (apply Nat.div_lt_upper_bound; lia).
  rewrite (Nat.mul_comm 32) in D. set (h := (c / 32)%nat) in *. set (d := (c mod 32)%nat) in *. rewrite D.
  assert (Hv : forall k, (k < H * W)%nat -> - V <= qkv (k / W)%nat (k mod W)%nat (2 * (32 * 4) + h * 32 + d)%nat <= V).
  { intros k Hk. apply abs_between, Hq; [apply Nat.div_lt_upper_bound; lia|apply Nat.mod_upper_bound; lia|lia]. }
  destruct lin.
  - pose proof (convex_between (H * W) 32 _ _ (- V) V d (linear_attention_convex H W 4 32 qkv i j h Hi Hj Hh ltac:(lia)) Hm Hv) as K. cbv beta in K.
    set (z := linear_attention H W 4 32 qkv i j (h * 32 + d)%nat) in *. assert (1 <= sqrt (INR 32)) by (rewrite <- sqrt_1; apply sqrt_le_1_alt; cbn [INR]; lra).
    assert (1 <= INR (H * W)) by (change 1 with (INR 1); apply le_INR; nia). assert (G : 1 <= sqrt (INR 32) * INR (H * W)) by nra. apply Rabs_le. split; nra.
  - apply Rabs_le. apply (convex_between (H * W) 32 _ _ (- V) V d (attention_convex (/ 10 ^ 12) 10 H W 4 32 qkv i j h Hi Hj Hh ltac:(lia)) Hm Hv).
Qed.
Lemma conv1_s3 K bias f x : s3 (conv_val K bias f 1 1 0 x) = (sh x, sw x, f).
Proof. pose proof (conv1_shp K bias f x) as E. unfold shp, conv1 in E. cbn [bat hei wid cha] in E. injection E as E2 E3. unfold s3, conv_val. cbn [sh sw sc]. now rewrite E2, E3. Qed.
Lemma s3_inv x h w c : s3 x = (h, w, c) -> sh x = h /\ sw x = w /\ sc x = c.
Proof. intros E. injection E as <- <- <-. auto. Qed.

Lemma attn_grow P path lin : grow_layer (fun _ x => attn_block_val P path lin x).
Proof.
  intros [[h w] c]. set (m1 := sqrt (INR c) * total (nscale P (path ++ [0%nat])) c).
  assert (M1 : 0 <= m1) by (apply Rmult_le_pos; [apply sqrt_pos|apply abs_total_nonneg]).
  set (m2 := total (fun _ => 0) (32 * 4 * 3) + conv_gain (kernel P ((path ++ [1%nat]) ++ [0%nat])) (32 * 4 * 3) 1 c * m1).
  assert (M2 : 0 <= m2) by (apply Rplus_le_le_0_compat; [apply abs_total_nonneg|apply Rmult_le_pos; [apply conv_gain_nonneg|assumption]]).
  set (m3 := total (cbias P ((path ++ [1%nat]) ++ [1%nat])) c + conv_gain (kernel P ((path ++ [1%nat]) ++ [1%nat])) c 1 (32 * 4) * m2).
  assert (M3 : 0 <= m3) by (apply Rplus_le_le_0_compat; [apply abs_total_nonneg|apply Rmult_le_pos; [apply conv_gain_nonneg|assumption]]).
  set (m4 := sqrt (INR c) * total (nscale P ((path ++ [1%nat]) ++ [2%nat])) c).
  assert (M4 : 0 <= m4) by (apply Rmult_le_pos; [apply sqrt_pos|apply abs_total_nonneg]).
  exists (h, w, c), (m3 + m4), 1. split; [lra|]. split; [lra|]. intros _ x y b M Hs Hy HM Hb. apply s3_inv in Hs as (H1 & H2 & H3).
  unfold attn_block_val in Hy. apply do_Some in Hy as (o & Ho & Hy). unfold attn_val in Ho. apply check_Some in Ho as [_ Ho]. cbv zeta in Ho. apply Some_eq in Ho. subst o.
  set (ln := layer_norm_val (nscale P (path ++ [0%nat])) x) in *. assert (L1 : bnd b m1 ln) by (unfold m1; rewrite <- H3; apply layer_norm_bound).
  change (sh ln) with (sh x) in Hy. change (sw ln) with (sw x) in Hy. change (sc ln) with (sc x) in Hy. change (sb ln) with (sb x) in Hy.
  set (q := conv_val _ _ _ 1 1 0 ln) in Hy. assert (Q3 : s3 q = (sh x, sw x, 32 * 4 * 3)%nat) by (exact (conv1_s3 _ _ _ ln)). apply s3_inv in Q3 as (Q1 & Q2 & Q3).
  assert (L2 : bnd b m2 q) by (unfold m2; rewrite <- H3; apply (conv_bound _ _ _ 1 1 0 ln); assumption). clearbody q. clear L1.
  set (att := Arr4 (sb x) (sh x) (sw x) (32 * 4)%nat _) in Hy.
  assert (L3 : bnd b m2 att).
  { intros i j k Hi Hj Hk. change (i < sh x)%nat in Hi. change (j < sw x)%nat in Hj. change (k < 32 * 4)%nat in Hk.
    unfold att. change (Rabs ((if lin then linear_attention (sh x) (sw x) 4 32 (dat q b) else attention (/ 10 ^ 12) 10 (sh x) (sw x) 4 32 (dat q b)) i j k) <= m2).
    apply attention_bound; auto. intros i1 j1 c1 G1 G2 G3. apply L2; lia. }
  set (o1 := conv_layer P _ _ 1 1 0 att) in Hy. assert (L4 : bnd b m3 o1) by (unfold m3; rewrite <- H3; apply (conv_bound _ _ _ 1 1 0 att); assumption).
  assert (O3 : s3 o1 = (sh x, sw x, sc x)) by (exact (conv1_s3 _ _ _ att)). apply s3_inv in O3 as (O1 & O2 & O3). clearbody o1.
  set (o2 := if lin then _ else _) in Hy. assert (L5 : bnd b (m3 + m4) o2 /\ s3 o2 = (h, w, c)).
  { unfold o2. destruct lin.
    - split; [|unfold s3; cbn [layer_norm_val sh sw sc]; congruence]. apply bnd_weaken with m4; [lra|]. unfold m4. replace c with (sc o1) by congruence. apply layer_norm_bound.
    - split; [|unfold s3; congruence]. apply bnd_weaken with m3; [lra|assumption]. }
  destruct L5 as [L5 S5]. clearbody o2. destruct (tadd_bound o2 x y b _ M Hy L5 Hb) as [E F]. split; [congruence|]. apply bnd_weaken with (m3 + m4 + M); [lra|assumption].
Qed.
Lemma resnet_bound P path dim groups h w c : exists a g, 0 <= a /\ 0 <= g /\
  forall te x y b M, s3 x = (h, w, c) -> resnet_val P path dim groups te x = Some y -> 0 <= M -> bnd b M x -> s3 y = (h, w, dim) /\ bnd b (a + g * M) y.
Proof.
  set (a1 := sqrt (INR (h * w * (dim / groups))) * total (nscale P (path ++ [4%nat])) dim + total (nbias P (path ++ [4%nat])) dim).
  assert (A1 : 0 <= a1) by (apply Rplus_le_le_0_compat; [apply Rmult_le_pos; [apply sqrt_pos|apply abs_total_nonneg]|apply abs_total_nonneg]).
  set (a2 := total (cbias P (path ++ [5%nat])) dim). assert (A2 : 0 <= a2) by apply abs_total_nonneg. set (g2 := conv_gain (kernel P (path ++ [5%nat])) dim 1 c). assert (G2 : 0 <= g2) by apply conv_gain_nonneg.
  exists (a1 + a2), (1 + g2). split; [lra|]. split; [lra|]. intros te x y b M Hs Hy HM Hb. apply s3_inv in Hs as (H1 & H2 & H3).
  assert (Sy : s3 y = (h, w, dim)).
  { pose proof (resnet_shp P path dim groups te x) as E. rewrite Hy in E. cbn [option_map] in E. symmetry in E. apply resnet_iff in E as (_ & _ & E). unfold shp in E. cbn [bat hei wid cha] in E. injection E as _ E2 E3 E4. unfold s3. congruence. }
  split; [exact Sy|]. unfold resnet_val in Hy. apply check_Some in Hy as [_ Hy]. cbv zeta in Hy. apply do_Some in Hy as (k1 & K1 & Hy). apply do_Some in Hy as (k2 & K2 & Hy).
  set (r := ws_conv _ _ _ 3 1 1 (tmap swish _)) in K2.
  assert (R3 : s3 r = (h, w, dim)).
  { apply (group_norm_bound _ _ _ _ _ b) in K1 as [K1 _]. unfold s3 in K1. cbn [ws_conv conv_val sh sw sc] in K1. rewrite !conv_len_same in K1. injection K1 as E1 E2 E3.
    unfold r, s3. cbn [ws_conv conv_val sh sw sc tmap time_shift]. rewrite !conv_len_same. congruence. }
  apply s3_inv in R3 as (R1 & R2 & R3). clearbody r. apply (group_norm_bound _ _ _ _ _ b) in K2 as [K2 B2]. rewrite R1, R2, R3 in B2. fold a1 in B2.
  assert (B3 : bnd b a1 (tmap swish k2)) by (intros i j k Hi Hj Hk; cbn [tmap dat]; eapply Rle_trans; [apply swish_bound|now apply B2]).
  set (x1 := if (sc x =? dim)%nat then x else _) in Hy. assert (X1 : bnd b (a2 + (1 + g2) * M) x1).
  { unfold x1. destruct (sc x =? dim)%nat; [apply bnd_weaken with M; [nra|assumption]|]. apply bnd_weaken with (a2 + g2 * M); [lra|]. unfold a2, g2. rewrite <- H3. now apply (conv_bound _ _ _ 1 1 0 x). }
  clearbody x1. destruct (tadd_bound x1 _ y b _ _ Hy X1 B3) as [_ F]. apply bnd_weaken with (a2 + (1 + g2) * M + a1); [lra|assumption].
Qed.
Lemma resnet_grow P path dim groups : grow_layer (fun te x => resnet_val P path dim groups te x).
Proof. intros [[h w] c]. destruct (resnet_bound P path dim groups h w c) as (a & g & Ha & Hg & H). exists (h, w, dim), a, g. auto. Qed.
Lemma resnet_same_grow P path groups : grow_layer (fun te x => resnet_val P path (sc x) groups te x).
Proof. intros [[h w] c]. destruct (resnet_bound P path c groups h w c) as (a & g & Ha & Hg & H). exists (h, w, c), a, g. split; [assumption|]. split; [assumption|]. intros te x y b M Hs Hy. pose proof (proj2 (proj2 (s3_inv _ _ _ _ Hs))) as E. rewrite E in Hy. now apply (H te x y b M). Qed.
Lemma conv_grow P path f k s p : grow_layer (fun _ x => Some (conv_layer P path f k s p x)).
Proof.
  intros [[h w] c]. exists (conv_len h k s p, conv_len w k s p, f), (total (cbias P path) f), (conv_gain (kernel P path) f k c). split; [apply abs_total_nonneg|]. split; [apply conv_gain_nonneg|].
  intros _ x y b M Hs Hy HM Hb. apply s3_inv in Hs as (<- & <- & <-). injection Hy as <-. split; [reflexivity|]. now apply conv_bound.
Qed.
Lemma assert_grow n : grow_layer (fun _ x => check (sc x =? n)%nat (Some x)).
Proof. intros s. exists s, 0, 1. split; [lra|]. split; [lra|]. intros _ x y b M Hs Hy HM Hb. apply check_Some in Hy as [_ Hy]. injection Hy as <-. split; [assumption|]. apply bnd_weaken with M; [lra|assumption]. Qed.
Lemma grow_compose (L1 L2 : temb -> tensor -> option tensor) : grow_layer L1 -> grow_layer L2 -> grow_layer (fun te x => match L1 te x with Some y => L2 te y | None => None end).
Proof.
  intros G1 G2 s. destruct (G1 s) as (s1 & a1 & g1 & A1 & B1 & H1). destruct (G2 s1) as (s2 & a2 & g2 & A2 & B2 & H2). exists s2, (a2 + g2 * a1), (g2 * g1).
  split; [apply Rplus_le_le_0_compat; [assumption|now apply Rmult_le_pos]|]. split; [now apply Rmult_le_pos|]. intros te x y b M Hs Hy HM Hb. apply do_Some in Hy as (z & Hz & Hy).
  destruct (H1 te x z b M Hs Hz HM Hb) as [E F]. destruct (H2 te z y b (a1 + g1 * M) E Hy ltac:(apply Rplus_le_le_0_compat; [assumption|now apply Rmult_le_pos]) F) as [E' F']. split; [assumption|].
  replace (a2 + g2 * a1 + g2 * g1 * M) with (a2 + g2 * (a1 + g1 * M)) by ring. assumption.
Qed.
Lemma check_grow (L : temb -> tensor -> option tensor) c : grow_layer L -> grow_layer (fun te x => match L te x with Some y => check (c x y) (Some y) | None => None end).
Proof.
  intros G s. destruct (G s) as (s1 & a1 & g1 & A1 & B1 & H1). exists s1, a1, g1. split; [assumption|]. split; [assumption|]. intros te x y b M Hs Hy HM Hb. apply do_Some in Hy as (z & Hz & Hy). apply check_Some in Hy as [_ Hy]. injection Hy as <-. now apply (H1 te x z b M).
Qed.
Lemma downsample_grow P path dim : grow_layer (fun _ => downsample_val P path dim).
Proof. exact (check_grow (fun _ x => Some (conv_layer P path dim 4 2 1 x)) (fun x y => shape_eqb (shp y) (Shape (sb x) (sh x / 2) (sw x / 2) dim)) (conv_grow P path dim 4 2 1)). Qed.
Lemma upsample_grow P path m dim : grow_layer (fun _ => upsample_val P path m dim).
Proof.
  unfold upsample_val. refine (check_grow (fun _ x => match m with Resize => _ | Pixel_shuffle => _ | Other_method => _ end) (fun x y => shape_eqb (shp y) (Shape (sb x) (sh x * 2) (sw x * 2) dim)) _). destruct m.
  - apply (grow_compose (fun _ x => Some (resize2 x)) (fun _ x => Some (conv_layer P (path ++ [0%nat]) dim 3 1 1 x))); [|apply conv_grow].
    intros [[h w] c]. exists (h * 2, w * 2, c)%nat, 0, 1. split; [lra|]. split; [lra|]. intros _ x y b M Hs Hy HM Hb. injection Hy as <-. apply s3_inv in Hs as (<- & <- & <-). split; [reflexivity|]. apply bnd_weaken with M; [lra|]. now apply resize_bound.
  - apply (grow_compose (fun _ x => pixel_shuffle 2 (conv_layer P (path ++ [0%nat]) (sc x * 4) 3 1 1 x)) (fun _ z => Some (conv_layer P (path ++ [1%nat]) dim 3 1 1 z))); [|apply conv_grow].
    intros [[h w] c]. destruct (conv_grow P (path ++ [0%nat]) (c * 4) 3 1 1 (h, w, c)) as ([[h1 w1] c1] & a & g & A & G & H). exists (h1 * 2, w1 * 2, c1 / 4)%nat, a, g. split; [assumption|]. split; [assumption|].
    intros te x y b M Hs Hy HM Hb. pose proof (proj2 (proj2 (s3_inv _ _ _ _ Hs))) as E. rewrite E in Hy. destruct (H te x _ b M Hs eq_refl HM Hb) as [E1 F1]. apply s3_inv in E1 as (<- & <- & <-). exact (shuffle_bound _ y b _ Hy F1).
  - intros s. exists s, 0, 0. split; [lra|]. split; [lra|]. intros _ x y b M _ Hy. discriminate.
Qed.

(** ** The whole network *)
Definition sbnd (b : nat) (M : R) (st : state) : Prop := bnd b M (fst st) /\ Forall (bnd b M) (snd st).
Definition ss3 (st : state) := (s3 (fst st), map s3 (snd st)).
Definition grow_step (s : step) : Prop := match s with Layer L => grow_layer L | _ => True end.
Lemma run1_grow s : grow_step s -> forall S, exists S' a g, 0 <= a /\ 0 <= g /\
  forall te st st' b M, ss3 st = S -> run1 te s st = Some st' -> 0 <= M -> sbnd b M st -> ss3 st' = S' /\ sbnd b (a + g * M) st'.
Proof.
  intros G [s0 ss]. destruct s as [L| |]; cbn [run1].
  - destruct (G s0) as (s' & a & g & A & C & H). exists (s', ss), a, (1 + g). split; [assumption|]. split; [lra|]. intros te [h hs] st' b M Hs Hr HM [H1 H2]. cbn [fst snd] in *. apply pair_equal_spec in Hs as [Hs Hss]. cbn [fst snd] in *.
    apply do_Some in Hr as (h' & Hh & Hr). injection Hr as <-. destruct (H te h h' b M Hs Hh HM H1) as [E F]. split; [unfold ss3; cbn [fst snd]; now rewrite E, Hss|]. split; cbn [fst snd].
    + apply bnd_weaken with (a + g * M); [lra|assumption].
    + eapply Forall_impl; [|exact H2]. intros x. apply bnd_weaken. nra.
  - exists (s0, s0 :: ss), 0, 1. split; [lra|]. split; [lra|]. intros te [h hs] st' b M Hs Hr HM [H1 H2]. cbn [fst snd] in *. injection Hr as <-. apply pair_equal_spec in Hs as [Hs Hss]. cbn [fst snd] in *. split; [unfold ss3; cbn [fst snd map]; now rewrite Hs, Hss|].
    replace (0 + 1 * M) with M by ring. split; cbn [fst snd]; auto.
  - destruct s0 as [[h0 w0] c0]. exists (h0, w0, (c0 + snd (hd (0, 0, 0)%nat ss))%nat, tl ss), 0, 1. split; [lra|]. split; [lra|]. intros te [h hs] st' b M Hs Hr HM [H1 H2]. cbn [fst snd] in *. apply pair_equal_spec in Hs as [Hs Hss]. cbn [fst snd] in *.
    destruct hs as [|y hs]; cbn [pop fst snd] in Hr; [discriminate|]. apply do_Some in Hr as (h' & Hh & Hr). injection Hr as <-. subst ss. inversion H2 as [|? ? H3 H4]; subst. apply s3_inv in Hs as (<- & <- & <-).
    destruct (tconcat_bound h y h' b M Hh H1 H3) as [E F]. split; [unfold ss3; cbn [fst snd map hd tl]; now rewrite E|]. replace (0 + 1 * M) with M by ring. split; assumption.
Qed.
Lemma run_grow l : Forall grow_step l -> forall S, exists S' a g, 0 <= a /\ 0 <= g /\
  forall te st st' b M, ss3 st = S -> run te l st = Some st' -> 0 <= M -> sbnd b M st -> ss3 st' = S' /\ sbnd b (a + g * M) st'.
Proof.
  induction 1 as [|s l Hs _ IH]; intros S0; cbn [run].
  - exists S0, 0, 1. split; [lra|]. split; [lra|]. intros te st st' b M HS Hr HM Hb. injection Hr as <-. split; [assumption|]. now replace (0 + 1 * M) with M by ring.
  - destruct (run1_grow s Hs S0) as (S1 & a1 & g1 & A1 & B1 & H1). destruct (IH S1) as (S2 & a2 & g2 & A2 & B2 & H2). exists S2, (a2 + g2 * a1), (g2 * g1).
    split; [apply Rplus_le_le_0_compat; [assumption|now apply Rmult_le_pos]|]. split; [now apply Rmult_le_pos|]. intros te st st' b M HS Hr HM Hb. apply do_Some in Hr as (z & Hz & Hy).
    destruct (H1 te st z b M HS Hz HM Hb) as [E F]. destruct (H2 te z st' b (a1 + g1 * M) E Hy ltac:(apply Rplus_le_le_0_compat; [assumption|now apply Rmult_le_pos]) F) as [E' F']. split; [assumption|].
    replace (a2 + g2 * a1 + g2 * g1 * M) with (a2 + g2 * (a1 + g1 * M)) by ring. assumption.
Qed.
Lemma grow_down P dim groups mults : forall ind, Forall grow_step (down_steps P dim groups ind mults).
Proof.
  induction mults as [|m rest IH]; intros ind; cbn [down_steps]; [constructor|]. apply Forall_app. split.
  - repeat (apply Forall_cons; [first [apply resnet_same_grow|apply attn_grow|exact I]|]). constructor.
  - destruct rest as [|m' rest]; [constructor|]. constructor; [apply downsample_grow|apply IH].
Qed.
Lemma grow_up P dim init_dim groups mth rm : Forall grow_step (up_steps P dim init_dim groups mth rm).
Proof.
  induction rm as [|m rest IH]; cbn [up_steps]; [constructor|]. apply Forall_app. split.
  - repeat (apply Forall_cons; [first [apply assert_grow|apply resnet_grow|apply attn_grow|exact I]|]). constructor.
  - destruct rest as [|m' rest]; [constructor|]. constructor; [apply upsample_grow|apply IH].
Qed.
Lemma grow_unet P dim init_dim out_dim groups mults mth mid : Forall grow_step (unet_steps P dim init_dim out_dim groups mults mth mid).
Proof.
  unfold unet_steps. repeat (apply Forall_app; split); try apply grow_down; try apply grow_up;
  repeat (apply Forall_cons; [first [apply conv_grow|apply assert_grow|apply resnet_grow|apply attn_grow|exact I]|]); constructor.
Qed.

(** every entry of element [b] is at most [M] *)
Definition picture_bound (M : R) (x : imgs) (b : nat) : Prop :=
  let '(h, w, c) := size x in forall i j k, (i < h)%nat -> (j < w)%nat -> (k < c)%nat -> Rabs (picture x b i j k) <= M.
Lemma unet_growth P dt dim init_dim out_dim groups mults mth s : exists a g, 0 <= a /\ 0 <= g /\
  forall x t b M o, size x = s -> unet_val P dt dim init_dim out_dim groups mults mth x t = Some o -> (b < batch x)%nat -> 0 <= M -> picture_bound M x b -> picture_bound (a + g * M) o b.
Proof.
  destruct (rev mults) as [|k rk] eqn:Er.
  { exists 0, 0. split; [lra|]. split; [lra|]. intros x t b M o _ H. unfold unet_val in H. rewrite Er in H. destruct time_embedding; discriminate. }
  destruct (run_grow _ (grow_unet P dim init_dim out_dim groups mults mth (dim * k)) (s, [])) as (S' & a & g & A & G & H). exists a, g. split; [assumption|]. split; [assumption|].
  intros x t b M o Hs Ho Hb HM Hp. unfold unet_val in Ho. rewrite Er in Ho. set (y := match x with Img x => _ | Imgs x => x end) in Ho.
  assert (By : sb y = batch x) by (destruct x; reflexivity).
  assert (Hy : ss3 (y, []) = (s, []) /\ sbnd b M (y, [])).
  { destruct x as [x|x]; cbn [size batch] in *; subst s; (split; [reflexivity|]); (split; [|constructor]); exact Hp. }
  clearbody y. destruct time_embedding as [te|]; [|discriminate]. apply do_Some in Ho as ([h hs] & Hr & Ho). cbn [fst] in Ho. destruct (H te (y, []) (h, hs) b M (proj1 Hy) Hr HM (proj2 Hy)) as [_ [F _]]. cbn [fst] in F.
  rewrite By in Ho. destruct (Nat.eqb_spec (batch x) 1) as [E|E]; injection Ho as <-; [assert (b = 0%nat) as -> by lia|]; exact F.
Qed.
