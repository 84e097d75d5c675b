(** The U-Net treats the elements of a batch separately, and its values have the shapes of UNet.v. *)
From Coq Require Import Reals List Lia Lra Bool PeanoNat Psatz.
From Verif Require Import Base Nets UNet UNetVal UNetShape.
Import ListNotations.
Open Scope R_scope.

(** element [b] of [x] and element [b'] of [x'] are the same image *)
Definition same (b b' : nat) (x x' : tensor) : Prop :=
  sh x = sh x' /\ sw x = sw x' /\ sc x = sc x' /\ forall i j c, (i < sh x)%nat -> (j < sw x)%nat -> (c < sc x)%nat -> dat x b i j c = dat x' b' i j c.
Definition trel (B B' b b' : nat) (x x' : tensor) : Prop := sb x = B /\ sb x' = B' /\ same b b' x x'.
Definition orel {A} (Q : A -> A -> Prop) (o o' : option A) : Prop := match o, o' with Some a, Some a' => Q a a' | None, None => True | _, _ => False end.
Definition terel (B B' b b' : nat) (te te' : temb) : Prop :=
  (tbat te =? B)%nat = (tbat te' =? B')%nat /\ tlen te = tlen te' /\ forall i, (i < tlen te)%nat -> tval te b i = tval te' b' i.
Definition srel (B B' b b' : nat) (st st' : state) : Prop := trel B B' b b' (fst st) (fst st') /\ Forall2 (trel B B' b b') (snd st) (snd st').
Definition sep_layer (L : temb -> tensor -> option tensor) : Prop := forall B B' b b' te te' x x', terel B B' b b' te te' -> trel B B' b b' x x' ->
  orel (trel B B' b b') (L te x) (L te' x').

Lemma orel_bind {A C} (Q : A -> A -> Prop) (Q' : C -> C -> Prop) o o' (f f' : A -> option C) : orel Q o o' -> (forall a a', Q a a' -> orel Q' (f a) (f' a')) ->
  orel Q' (match o with Some a => f a | None => None end) (match o' with Some a => f' a | None => None end).
Proof. destruct o, o'; cbn; auto; contradiction. Qed.
Lemma orel_check {A} (Q : A -> A -> Prop) c c' o o' : c = c' -> orel Q o o' -> orel Q (check c o) (check c' o').
Proof. intros -> H. destruct c'; cbn; auto. Qed.

Section Rel.
Context (B B' b b' : nat).
Notation T := (trel B B' b b').
Lemma trel_mk B1 h w c f B1' h' w' c' f' : B1 = B -> B1' = B' -> h = h' -> w = w' -> c = c' -> (forall i j k, (i < h)%nat -> (j < w)%nat -> (k < c)%nat -> f b i j k = f' b' i j k) ->
  T (Arr4 B1 h w c f) (Arr4 B1' h' w' c' f').
Proof. intros. repeat split; cbn; auto. Qed.

Lemma pad_same p x x' i j c : T x x' -> (c < sc x)%nat -> pad p x b i j c = pad p x' b' i j c.
Proof.
  intros (_ & _ & Hh & Hw & Hc & E) H. unfold pad. rewrite <- Hh, <- Hw. destruct (((p <=? i) && (i - p <? sh x) && (p <=? j) && (j - p <? sw x))%nat) eqn:G; [|reflexivity].
  apply andb_prop in G as [G G4]. apply andb_prop in G as [G G3]. apply andb_prop in G as [G1 G2]. apply Nat.ltb_lt in G2, G4. now apply E.
Qed.
Lemma in_taps k cin di dj c : In (di, dj, c) (taps k cin) <-> (di < k /\ dj < k /\ c < cin)%nat.
Proof. unfold taps. rewrite !in_prod_iff, !in_seq. lia. Qed.
Lemma conv_same K bias f k s p x x' : T x x' -> T (conv_val K bias f k s p x) (conv_val K bias f k s p x').
Proof.
  intros H. pose proof H as (HB & HB' & Hh & Hw & Hc & E). unfold conv_val. apply trel_mk; auto; try congruence. intros i j o _ _ _. f_equal. rewrite <- Hc. apply Rsum_map_ext.
  intros [[di dj] c] Hin. apply in_taps in Hin. f_equal. apply pad_same; [assumption|lia].
Qed.
Lemma conv_layer_same P path f k s p x x' : T x x' -> T (conv_layer P path f k s p x) (conv_layer P path f k s p x').
Proof. apply conv_same. Qed.
Lemma ws_same K bias f k s p x x' : T x x' -> T (ws_conv K bias f k s p x) (ws_conv K bias f k s p x').
Proof. intros H. pose proof H as (_ & _ & _ & _ & Hc & _). unfold ws_conv. rewrite <- Hc. now apply conv_same. Qed.
Lemma group_values_same x x' g gs : T x x' -> ((g + 1) * gs <= sc x)%nat -> group_values x b g gs = group_values x' b' g gs.
Proof.
  intros (_ & _ & Hh & Hw & Hc & E) H. unfold group_values. rewrite <- Hh, <- Hw. apply map_ext_in. intros [[i j] c] Hin. rewrite !in_prod_iff, !in_seq in Hin. apply E; nia.
Qed.
Lemma group_norm_same scale bias groups x x' : T x x' -> orel T (group_norm_val scale bias groups x) (group_norm_val scale bias groups x').
Proof.
  intros H. pose proof H as (HB & HB' & Hh & Hw & Hc & E). unfold group_norm_val. rewrite <- Hc.
  destruct ((1 <=? groups) && (sc x mod groups =? 0))%nat eqn:G; cbn [check]; [|exact I]. apply andb_prop in G as [G1 G2]. apply Nat.leb_le in G1. apply Nat.eqb_eq in G2. apply Nat.mod_divide in G2 as [q Hq]; [|lia].
  assert (Hgs : (sc x / groups = q)%nat) by (rewrite Hq; apply Nat.div_mul; lia). rewrite Hgs.
  apply trel_mk; auto. intros i j c Hi Hj Hk. rewrite (E i j c) by assumption. rewrite (group_values_same x x') ; [reflexivity|assumption|].
  assert (c / q < groups)%nat by (apply Nat.div_lt_upper_bound; [intros ->; lia|lia]). nia.
Qed.
Lemma layer_norm_same scale x x' : T x x' -> T (layer_norm_val scale x) (layer_norm_val scale x').
Proof.
  intros H. pose proof H as (HB & HB' & Hh & Hw & Hc & E). unfold layer_norm_val. apply trel_mk; auto. intros i j c Hi Hj Hk. rewrite (E i j c) by assumption. rewrite <- Hc.
  rewrite (map_ext_in (dat x b i j) (dat x' b' i j)); [reflexivity|]. intros a Ha. apply in_seq in Ha. apply E; auto; lia.
Qed.
Lemma tmap_same f x x' : T x x' -> T (tmap f x) (tmap f x').
Proof. intros H. pose proof H as (HB & HB' & Hh & Hw & Hc & E). apply trel_mk; auto. intros. f_equal. now apply E. Qed.
Lemma shp_eqb_same x x' y y' : T x x' -> T y y' -> shape_eqb (shp x) (shp y) = shape_eqb (shp x') (shp y').
Proof. intros (HB & HB' & Hh & Hw & Hc & _) (KB & KB' & Kh & Kw & Kc & _). unfold shape_eqb, shp. cbn [bat hei wid cha]. rewrite HB, HB', KB, KB', Hh, Hw, Hc, Kh, Kw, Kc. now rewrite !Nat.eqb_refl. Qed.
Lemma tadd_same x x' y y' : T x x' -> T y y' -> orel T (tadd x y) (tadd x' y').
Proof.
  intros H K. unfold tadd. rewrite (shp_eqb_same x x' y y') by assumption. destruct (shape_eqb (shp x') (shp y')) eqn:G; cbn [check]; [|exact I].
  apply shape_eqb_true in G. injection G as G1 G2 G3 G4. destruct H as (HB & HB' & Hh & Hw & Hc & E), K as (KB & KB' & Kh & Kw & Kc & F). apply trel_mk; auto.
  intros. rewrite E by assumption. f_equal. apply F; lia.
Qed.
Lemma tconcat_same x x' y y' : T x x' -> T y y' -> orel T (tconcat x y) (tconcat x' y').
Proof.
  intros (HB & HB' & Hh & Hw & Hc & E) (KB & KB' & Kh & Kw & Kc & F). unfold tconcat. rewrite HB, HB', KB, KB', Hh, Hw, Kh, Kw. rewrite !Nat.eqb_refl. cbn [andb].
  destruct ((sh x' =? sh y') && (sw x' =? sw y'))%nat eqn:G; cbn [check]; [|exact I]. apply andb_prop in G as [G1 G2]. apply Nat.eqb_eq in G1, G2.
  apply trel_mk; auto; try congruence. intros i j c Hi Hj Hk. rewrite <- Hc. destruct (Nat.ltb_spec c (sc x)); [apply E; lia|apply F; lia].
Qed.
Lemma resize_same x x' : T x x' -> T (resize2 x) (resize2 x').
Proof.
  intros (HB & HB' & Hh & Hw & Hc & E). unfold resize2. apply trel_mk; auto; try congruence. intros i j c Hi Hj Hk. rewrite <- Hh, <- Hw. apply Rsum_map_ext. intros k Hk1. apply in_seq in Hk1. f_equal.
  apply Rsum_map_ext. intros l Hl. apply in_seq in Hl. f_equal. apply E; lia.
Qed.
Lemma shuffle_same x x' : T x x' -> orel T (pixel_shuffle 2 x) (pixel_shuffle 2 x').
Proof.
  intros (HB & HB' & Hh & Hw & Hc & E). unfold pixel_shuffle. rewrite <- Hc. destruct ((1 <=? 2) && (sc x mod (2 * 2) =? 0))%nat eqn:G; [|exact I].
  apply andb_prop in G as [_ G]. apply Nat.eqb_eq in G. apply Nat.mod_divide in G as [q Hq]; [|lia]. assert (Hd : (sc x / (2 * 2) = q)%nat) by (rewrite Hq; apply Nat.div_mul; lia). rewrite Hd.
  apply trel_mk; auto; try congruence. intros i j c Hi Hj Hk. apply E.
  - apply Nat.div_lt_upper_bound; lia.
  - apply Nat.div_lt_upper_bound; lia.
  - assert (i mod 2 < 2)%nat by (apply Nat.mod_upper_bound; lia). assert (j mod 2 < 2)%nat by (apply Nat.mod_upper_bound; lia). nia.
Qed.
Lemma downsample_same P path dim x x' : T x x' -> orel T (downsample_val P path dim x) (downsample_val P path dim x').
Proof.
  intros H. unfold downsample_val. pose proof (conv_layer_same P path dim 4 2 1 x x' H) as K. apply orel_check; [|exact K].
  destruct H as (HB & HB' & Hh & Hw & Hc & E), K as (KB & KB' & Kh & Kw & Kc & F). unfold shape_eqb, shp. cbn [bat hei wid cha]. rewrite KB, KB', HB, HB', Kh, Kw, Kc, Hh, Hw. now rewrite !Nat.eqb_refl.
Qed.
Lemma upsample_same P path m dim x x' : T x x' -> orel T (upsample_val P path m dim x) (upsample_val P path m dim x').
Proof.
  intros H. unfold upsample_val. apply orel_bind with (Q := T).
  - destruct m; [apply conv_layer_same, resize_same, H| |exact I]. pose proof H as (_ & _ & _ & _ & Hc & _). rewrite <- Hc. apply orel_bind with (Q := T); [apply shuffle_same, conv_layer_same, H|]. intros z z' Hz. now apply conv_layer_same.
  - intros y y' K. apply orel_check; [|exact K]. destruct H as (HB & HB' & Hh & Hw & Hc & E), K as (KB & KB' & Kh & Kw & Kc & F). unfold shape_eqb, shp. cbn [bat hei wid cha]. rewrite KB, KB', HB, HB', Kh, Kw, Kc, Hh, Hw. now rewrite !Nat.eqb_refl.
Qed.
Lemma time_shift_same P path dim te te' x x' : terel B B' b b' te te' -> T x x' -> T (time_shift P path dim te x) (time_shift P path dim te' x').
Proof.
  intros (_ & Hl & He) (HB & HB' & Hh & Hw & Hc & E). unfold time_shift. cbv zeta. apply trel_mk; auto. intros i j c Hi Hj Hk. rewrite (E i j c) by assumption. rewrite <- Hl.
  assert (G : forall o, dense_val (dkernel P path) (dbias P path) (tlen te) (fun i => swish (tval te b i)) o = dense_val (dkernel P path) (dbias P path) (tlen te) (fun i => swish (tval te' b' i)) o).
  { intros o. unfold dense_val. f_equal. apply Rsum_map_ext. intros k Hk1. apply in_seq in Hk1. rewrite He by lia. reflexivity. }
  now rewrite !G.
Qed.
Lemma resnet_same P path dim groups te te' x x' : terel B B' b b' te te' -> T x x' -> orel T (resnet_val P path dim groups te x) (resnet_val P path dim groups te' x').
Proof.
  intros Ht H. unfold resnet_val. apply orel_check; [destruct H as (-> & -> & _); apply Ht|]. cbv zeta.
  apply orel_bind with (Q := T); [now apply group_norm_same, ws_same|]. intros h h' Hh. apply orel_bind with (Q := T); [now apply group_norm_same, ws_same, tmap_same, time_shift_same|].
  intros g g' Hg. apply tadd_same; [|now apply tmap_same]. pose proof H as (_ & _ & _ & _ & Hc & _). rewrite <- Hc. destruct (Nat.eqb (sc x) dim); [assumption|now apply conv_layer_same].
Qed.
End Rel.

(** ** Attention *)
Lemma l2norm_ext eps npos t t' h d n : (n < npos)%nat -> (forall m, (m < npos)%nat -> t m h d = t' m h d) -> l2norm eps npos t n h d = l2norm eps npos t' n h d.
Proof. intros Hn E. unfold l2norm. rewrite (E n Hn). do 3 f_equal. apply Rsum_map_ext. intros m Hm. apply in_seq in Hm. rewrite E by lia. reflexivity. Qed.
Lemma attention_core_ext eps scale npos dh q k v q' k' v' h i d : (i < npos)%nat -> (d < dh)%nat ->
  (forall m e, (m < npos)%nat -> (e < dh)%nat -> q m h e = q' m h e /\ k m h e = k' m h e /\ v m h e = v' m h e) ->
  attention_core eps scale npos dh q k v h i d = attention_core eps scale npos dh q' k' v' h i d.
Proof.
  intros Hi Hd E. unfold attention_core. cbv zeta.
  replace (map (fun j => Rsum (map (fun e => l2norm eps npos q i h e * l2norm eps npos k j h e) (seq 0 dh)) * scale) (seq 0 npos))
    with (map (fun j => Rsum (map (fun e => l2norm eps npos q' i h e * l2norm eps npos k' j h e) (seq 0 dh)) * scale) (seq 0 npos)).
  - apply Rsum_map_ext. intros j Hj. apply in_seq in Hj. f_equal. apply E; lia.
  - apply map_ext_in. intros j Hj. apply in_seq in Hj. f_equal. apply Rsum_map_ext. intros e He. apply in_seq in He. f_equal; symmetry; apply l2norm_ext; try lia; intros m Hm; apply E; lia.
Qed.
Lemma linear_core_ext npos dh q k v q' k' v' h n e : (n < npos)%nat -> (e < dh)%nat ->
  (forall m e, (m < npos)%nat -> (e < dh)%nat -> q m h e = q' m h e /\ k m h e = k' m h e /\ v m h e = v' m h e) ->
  linear_attention_core npos dh q k v h n e = linear_attention_core npos dh q' k' v' h n e.
Proof.
  intros Hn He E. unfold linear_attention_core. cbv zeta. apply Rsum_map_ext. intros d Hd. apply in_seq in Hd. f_equal.
  - apply Rsum_map_ext. intros m Hm. apply in_seq in Hm. f_equal; [f_equal; f_equal; apply map_ext_in; intros a Ha; apply in_seq in Ha; apply E; lia|]. f_equal. apply E; lia.
  - f_equal. f_equal. f_equal. apply map_ext_in. intros a Ha. apply in_seq in Ha. apply E; lia.
Qed.
Lemma heads_ext W H heads dh qkv qkv' p m h e : (p < 3)%nat -> (m < H * W)%nat -> (h < heads)%nat -> (e < dh)%nat ->
  (forall i j c, (i < H)%nat -> (j < W)%nat -> (c < dh * heads * 3)%nat -> qkv i j c = qkv' i j c) -> heads_of W heads dh p qkv m h e = heads_of W heads dh p qkv' m h e.
Proof.
  intros Hp Hm Hh He E. unfold heads_of. apply E.
  - apply Nat.div_lt_upper_bound; [intros ->; lia|lia].
  - apply Nat.mod_upper_bound. intros ->. lia.
  - assert (h * dh + e < heads * dh)%nat by nia. nia.
Qed.
Lemma attention_ext (lin : bool) eps scale H W heads dh qkv qkv' x y c : (x < H)%nat -> (y < W)%nat -> (c < dh * heads)%nat ->
  (forall i j c, (i < H)%nat -> (j < W)%nat -> (c < dh * heads * 3)%nat -> qkv i j c = qkv' i j c) ->
  (if lin then linear_attention H W heads dh qkv else attention eps scale H W heads dh qkv) x y c = (if lin then linear_attention H W heads dh qkv' else attention eps scale H W heads dh qkv') x y c.
Proof.
  intros Hx Hy Hc E. assert (Hdh : (dh <> 0)%nat) by (intros ->; lia). assert (c / dh < heads)%nat by (apply Nat.div_lt_upper_bound; lia). assert (c mod dh < dh)%nat by (now apply Nat.mod_upper_bound).
  assert (x * W + y < H * W)%nat by nia.
  destruct lin; unfold linear_attention, attention, merge_heads; [apply linear_core_ext|apply attention_core_ext]; auto; intros m e Hm He; repeat split; apply (heads_ext W H); auto.
Qed.
Lemma attn_same B B' b b' P path lin x x' : trel B B' b b' x x' -> orel (trel B B' b b') (attn_val P path lin x) (attn_val P path lin x').
Proof.
  intros H. pose proof H as (HB & HB' & Hh & Hw & Hc & E). unfold attn_val. rewrite <- Hh, <- Hw, <- Hc. apply orel_check; [reflexivity|]. cbv zeta.
  set (q := conv_val _ _ _ _ _ _ x). set (q' := conv_val _ _ _ _ _ _ x'). assert (K : trel B B' b b' q q') by (now apply conv_same).
  assert (O : trel B B' b b' (Arr4 (sb x) (sh x) (sw x) (32 * 4) (fun b => if lin then linear_attention (sh x) (sw x) 4 32 (dat q b) else attention (/ 10 ^ 12) 10 (sh x) (sw x) 4 32 (dat q b)))
    (Arr4 (sb x') (sh x) (sw x) (32 * 4) (fun b => if lin then linear_attention (sh x) (sw x) 4 32 (dat q' b) else attention (/ 10 ^ 12) 10 (sh x) (sw x) 4 32 (dat q' b)))).
  { apply trel_mk; auto. intros i j c Hi Hj Hk. apply attention_ext; auto. intros i1 j1 c1 H1 H2 H3. destruct K as (_ & _ & _ & _ & _ & K). apply K.
    - unfold q, conv_val. cbn [sh]. unfold conv_len. rewrite !Nat.div_1_r. destruct (Nat.ltb_spec (sh x + 2 * 0) 1); lia.
    - unfold q, conv_val. cbn [sw]. unfold conv_len. rewrite !Nat.div_1_r. destruct (Nat.ltb_spec (sw x + 2 * 0) 1); lia.
    - exact H3. }
  destruct lin; [apply layer_norm_same|]; now apply conv_layer_same.
Qed.
Lemma attn_block_same B B' b b' P path lin x x' : trel B B' b b' x x' -> orel (trel B B' b b') (attn_block_val P path lin x) (attn_block_val P path lin x').
Proof. intros H. unfold attn_block_val. apply orel_bind with (Q := trel B B' b b'); [now apply attn_same, layer_norm_same|]. intros. now apply tadd_same. Qed.

(** ** The whole network *)
Definition good_step (s : step) : Prop := match s with Layer L => sep_layer L | _ => True end.
Lemma run1_same B B' b b' te te' s st st' : good_step s -> terel B B' b b' te te' -> srel B B' b b' st st' -> orel (srel B B' b b') (run1 te s st) (run1 te' s st').
Proof.
  intros G Ht [H K]. destruct s as [L| |]; cbn [run1].
  - apply orel_bind with (Q := trel B B' b b'); [now apply G|]. intros a a' Ha. now split.
  - split; [assumption|]. now constructor.
  - destruct K as [|y y' l l' Hy Hl]; cbn [pop]; [exact I|]. cbn [fst snd]. apply orel_bind with (Q := trel B B' b b'); [now apply tconcat_same|]. intros a a' Ha. now split.
Qed.
Lemma run_same B B' b b' te te' l st st' : Forall good_step l -> terel B B' b b' te te' -> srel B B' b b' st st' -> orel (srel B B' b b') (run te l st) (run te' l st').
Proof.
  intros G Ht. revert st st'. induction G as [|s l Hs _ IH]; intros st st' H; cbn [run]; [exact H|]. apply orel_bind with (Q := srel B B' b b'); [now apply run1_same|]. exact IH.
Qed.
Lemma good_conv P path f k s p : good_step (s_conv P path f k s p).
Proof. intros B B' b b' te te' x x' _ H. now apply conv_layer_same. Qed.
Lemma good_resnet P path dim groups : good_step (s_resnet P path dim groups).
Proof. intros B B' b b' te te' x x' Ht H. now apply resnet_same. Qed.
Lemma good_resnet_same P path groups : good_step (s_resnet_same P path groups).
Proof. intros B B' b b' te te' x x' Ht H. pose proof H as (_ & _ & _ & _ & <- & _). now apply resnet_same. Qed.
Lemma good_attn P path lin : good_step (s_attn P path lin).
Proof. intros B B' b b' te te' x x' _ H. now apply attn_block_same. Qed.
Lemma good_assert n : good_step (s_assert n).
Proof. intros B B' b b' te te' x x' _ H. pose proof H as (_ & _ & _ & _ & <- & _). now apply orel_check. Qed.
Lemma good_down P dim groups mults : forall ind, Forall good_step (down_steps P dim groups ind mults).
Proof.
  induction mults as [|m rest IH]; intros ind; cbn [down_steps]; [constructor|]. apply Forall_app. split.
  - repeat (apply Forall_cons; [first [apply good_resnet_same|apply good_attn|exact I]|]). constructor.
  - destruct rest as [|m' rest]; [constructor|]. constructor; [|apply IH]. intros B B' b b' te te' x x' _ H. now apply downsample_same.
Qed.
Lemma good_up P dim init_dim groups mth rm : Forall good_step (up_steps P dim init_dim groups mth rm).
Proof.
  induction rm as [|m rest IH]; cbn [up_steps]; [constructor|]. apply Forall_app. split.
  - repeat (apply Forall_cons; [first [apply good_resnet|apply good_attn|apply good_assert|exact I]|]). constructor.
  - destruct rest as [|m' rest]; [constructor|]. constructor; [|apply IH]. intros B B' b b' te te' x x' _ H. now apply upsample_same.
Qed.
Lemma good_unet P dim init_dim out_dim groups mults mth mid : Forall good_step (unet_steps P dim init_dim out_dim groups mults mth mid).
Proof.
  unfold unet_steps. repeat (apply Forall_app; split); try apply good_down; try apply good_up;
  repeat (apply Forall_cons; [first [apply good_conv|apply good_resnet|apply good_attn|apply good_assert|exact I]|]); constructor.
Qed.

(** ** The arguments and the result *)
Definition batch (x : imgs) : nat := match x with Img _ => 1%nat | Imgs x => sb x end.
(** element [b] of a batch, or the single image *)
Definition picture (x : imgs) (b : nat) : nat -> nat -> nat -> R := match x with Img x => dat x 0%nat | Imgs x => dat x b end.
Definition size (x : imgs) : nat * nat * nat := match x with Img x | Imgs x => (sh x, sw x, sc x) end.
Definition same_picture (x x' : imgs) (b b' : nat) : Prop :=
  size x = size x' /\ let '(h, w, c) := size x in forall i j k, (i < h)%nat -> (j < w)%nat -> (k < c)%nat -> picture x b i j k = picture x' b' i j k.
Definition time_of (t : time_arg) (b : nat) : R := match t with At t => t | Each ts => nth b ts 0 end.
Definition time_fits (B : nat) (t : time_arg) : Prop := match t with At _ => True | Each ts => length ts = B end.

Lemma embed_cases dt dim : (forall t, exists e, embed dt dim t = Some e) \/ (forall t, embed dt dim t = None).
Proof.
  destruct (Nat.eq_dec (dim mod 2) 0) as [He|Ho].
  - destruct (Nat.eq_dec dim 2) as [ ->|H2]; [right; intros t; reflexivity|left; intros t; now apply embed_some].
  - right. intros t. unfold embed. rewrite sinusoidal_odd; [reflexivity|]. assert (dim mod 2 < 2)%nat by (apply Nat.mod_upper_bound; lia). lia.
Qed.
Lemma embed_all_nth dt dim ts : (forall t, exists e, embed dt dim t = Some e) ->
  exists es, embed_all dt dim ts = Some es /\ forall b, (b < length ts)%nat -> embed dt dim (nth b ts 0) = Some (nth b es []).
Proof.
  intros H. induction ts as [|t ts (es & IH & Hn)]; cbn [embed_all length]; [exists []; split; [reflexivity|intros; lia]|].
  destruct (H t) as [e He]. rewrite He, IH. exists (e :: es). split; [reflexivity|]. intros [|b] Hb; cbn [nth]; [assumption|]. apply Hn. lia.
Qed.
Lemma time_embedding_same P dt dim B B' b b' t t' : (b < B)%nat -> (b' < B')%nat -> time_fits B t -> time_fits B' t' -> time_of t b = time_of t' b' ->
  orel (terel B B' b b') (time_embedding P dt dim B t) (time_embedding P dt dim B' t').
Proof.
  intros Hb Hb' Hf Hf' E. unfold time_embedding. apply orel_check; [reflexivity|]. destruct (embed_cases dt dim) as [Hs|Hn].
  - assert (K : forall B b t, (b < B)%nat -> time_fits B t -> exists e f, embed dt dim (time_of t b) = Some e /\
      match t with At t => match embed dt dim t with Some e => Some (Temb B (dim * 4) (fun _ => time_mlp P dim e)) | None => None end
        | Each ts => match embed_all dt dim ts with Some es => Some (Temb (length ts) (dim * 4) (fun b => time_mlp P dim (nth b es []))) | None => None end end = Some (Temb B (dim * 4) f) /\ f b = time_mlp P dim e).
    { clear -Hs. intros B b [t|ts] Hb Hf; cbn [time_of].
      - destruct (Hs t) as [e He]. rewrite He. eauto.
      - destruct (embed_all_nth dt dim ts Hs) as (es & H1 & H2). rewrite H1. cbn in Hf. rewrite Hf. exists (nth b es []), (fun b => time_mlp P dim (nth b es [])). split; [apply H2; lia|]. split; reflexivity. }
    destruct (K B b t Hb Hf) as (e & f & K1 & K2 & K3). destruct (K B' b' t' Hb' Hf') as (e' & f' & K1' & K2' & K3'). rewrite K2, K2'. cbn [orel]. split; [cbn; now rewrite !Nat.eqb_refl|]. split; [reflexivity|].
    intros i _. cbn [tval]. rewrite K3, K3'. rewrite E in K1. rewrite K1 in K1'. now injection K1' as <-.
  - assert (K : forall B b t, (b < B)%nat -> time_fits B t -> 
      match t with At t => match embed dt dim t with Some e => Some (Temb B (dim * 4) (fun _ => time_mlp P dim e)) | None => None end
        | Each ts => match embed_all dt dim ts with Some es => Some (Temb (length ts) (dim * 4) (fun b => time_mlp P dim (nth b es []))) | None => None end end = None).
    { clear -Hn. intros B b [t|ts] Hb Hf; [now rewrite Hn|]. destruct ts as [|t ts]; cbn in Hf; [lia|]. cbn [embed_all]. now rewrite Hn. }
    rewrite (K B b t Hb Hf), (K B' b' t' Hb' Hf'). exact I.
Qed.

Lemma unet_separate P dt dim init_dim out_dim groups mults mth x x' t t' b b' :
  (b < batch x)%nat -> (b' < batch x')%nat -> time_fits (batch x) t -> time_fits (batch x') t' -> same_picture x x' b b' -> time_of t b = time_of t' b' ->
  orel (fun o o' => same_picture o o' b b') (unet_val P dt dim init_dim out_dim groups mults mth x t) (unet_val P dt dim init_dim out_dim groups mults mth x' t').
Proof.
  intros Hb Hb' Hf Hf' Hp Et. unfold unet_val.
  set (y := match x with Img x => _ | Imgs x => x end). set (y' := match x' with Img x' => _ | Imgs x' => x' end).
  assert (By : sb y = batch x) by (destruct x; reflexivity). assert (By' : sb y' = batch x') by (destruct x'; reflexivity).
  assert (Hy : trel (batch x) (batch x') b b' y y').
  { split; [exact By|]. split; [exact By'|]. destruct Hp as [Hs Hp]. destruct x as [x|x], x' as [x'|x']; cbn [size picture batch] in *; injection Hs as H1 H2 H3; repeat split; auto. }
  clearbody y y'. apply orel_bind with (Q := terel (batch x) (batch x') b b'); [rewrite By, By'; now apply time_embedding_same|]. intros te te' Hte.
  destruct (rev mults) as [|k rk]; [exact I|]. set (mid := (dim * k)%nat).
  apply orel_bind with (Q := srel (batch x) (batch x') b b'); [apply run_same; [apply good_unet|exact Hte|]; split; [exact Hy|constructor]|].
  intros [h hs] [h' hs'] [(HB & HB' & Hh & Hw & Hc & E) _]. cbn [fst snd] in *. rewrite By, By'. cbn [orel]. split.
  - destruct (batch x =? 1)%nat, (batch x' =? 1)%nat; cbn [size]; congruence.
  - replace (size (if (batch x =? 1)%nat then Img h else Imgs h)) with (sh h, sw h, sc h) by (destruct (batch x =? 1)%nat; reflexivity).
    intros i j k0 Hi Hj Hk. specialize (E i j k0 Hi Hj Hk).
    assert (F : forall B b (h : tensor), (b < B)%nat -> picture (if (B =? 1)%nat then Img h else Imgs h) b = dat h b).
    { intros B0 b0 h0 H0. destruct (Nat.eqb_spec B0 1) as [ ->|]; [|reflexivity]. assert (b0 = 0%nat) as -> by lia. reflexivity. }
    now rewrite !F.
Qed.
