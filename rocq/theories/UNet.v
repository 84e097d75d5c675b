(** Shapes in fbs/nn/unet.py: which inputs the U-Net accepts and what it returns.
    A module is modelled by what it does to the shape of its argument; [None] is an
    exception (failed assertion, concatenation of different shapes, GroupNorm whose
    groups do not divide the channels, an axis einops cannot infer, unknown method). *)
From Coq Require Import List Lia Arith Bool.
Import ListNotations.
Open Scope nat_scope.

Record shape := Shape { bat : nat; hei : nat; wid : nat; cha : nat }.

Definition shape_eqb (x y : shape) : bool :=
  (bat x =? bat y) && (hei x =? hei y) && (wid x =? wid y) && (cha x =? cha y).

Definition check {A} (b : bool) (k : option A) : option A := if b then k else None.
Notation "'do' x <- a ; b" := (match a with Some x => b | None => None end) (at level 200, x name, a at level 100, b at level 200).

(** One spatial axis of a convolution with explicit padding on both sides. *)
Definition conv_len (n kernel stride padding : nat) : nat :=
  if n + 2 * padding <? kernel then 0 else (n + 2 * padding - kernel) / stride + 1.
(** nn.Conv(features, kernel_size=(k, k), strides=(s, s), padding=p) *)
Definition conv (features kernel stride padding : nat) (x : shape) : shape :=
  Shape (bat x) (conv_len (hei x) kernel stride padding) (conv_len (wid x) kernel stride padding) features.
(** nn.Conv(features, kernel_size=(1, 1)), default padding 'SAME', stride one. *)
Definition conv1 (features : nat) (x : shape) : shape := Shape (bat x) (hei x) (wid x) features.

(** nn.GroupNorm: the groups must divide the channels. *)
Definition group_norm (groups : nat) (x : shape) : option shape :=
  check ((1 <=? groups) && (cha x mod groups =? 0)) (Some x).

(** Downsample, lines 43-53 *)
Definition downsample (dim : nat) (x : shape) : option shape :=
  let y := conv dim 4 2 1 x in
  check (shape_eqb y (Shape (bat x) (hei x / 2) (wid x / 2) dim)) (Some y).

(** PixelShuffle(scale=2), fbs/nn/utils.py 53-57 *)
Definition shuffle2 (x : shape) : option shape :=
  check (cha x mod 4 =? 0) (Some (Shape (bat x) (hei x * 2) (wid x * 2) (cha x / 4))).

Inductive method := Resize | Pixel_shuffle | Other_method.

(** Upsample, lines 56-75 *)
Definition upsample (m : method) (dim : nat) (x : shape) : option shape :=
  do y <- match m with
          | Resize => Some (conv dim 3 1 1 (Shape (bat x) (hei x * 2) (wid x * 2) (cha x)))
          | Pixel_shuffle => do z <- shuffle2 (conv (cha x * 4) 3 1 1 x); Some (conv dim 3 1 1 z)
          | Other_method => None
          end;
  check (shape_eqb y (Shape (bat x) (hei x * 2) (wid x * 2) dim)) (Some y).

(** ResnetBlock, lines 123-166; [tb] is the batch size of the time embedding. *)
Definition resnet (dim groups tb : nat) (x : shape) : option shape :=
  check (tb =? bat x) (
  do h <- group_norm groups (conv dim 3 1 1 x);
  do h <- group_norm groups (conv dim 3 1 1 h);
  let x := if cha x =? dim then x else conv1 dim x in
  check (shape_eqb x h) (Some h)).

(** Attention and LinearAttention, lines 169-246: same shapes.  heads = 4, dim_head = 32. *)
Definition attention_shape (x : shape) : option shape :=
  let dim := 32 * 4 in
  let qkv := conv1 (dim * 3) x in
  let part := cha qkv / 3 in
  let npos := hei x * wid x in
  (* softmax needs a position; rearrange infers y from x = H *)
  check ((1 <=? npos) && (part mod 4 =? 0) && (part / 4 =? 32)) (
  let out := Shape (bat x) (hei x) (npos / hei x) (4 * (part / 4)) in
  check (shape_eqb out (Shape (bat x) (hei x) (wid x) dim)) (Some (conv1 (cha x) out))).

(** AttnBlock, lines 249-266 *)
Definition attn_block (x : shape) : option shape :=
  do out <- attention_shape x; check (shape_eqb out x) (Some out).

(** jnp.concatenate([x, y], axis=-1) *)
Definition concat_channels (x y : shape) : option shape :=
  check ((bat x =? bat y) && (hei x =? hei y) && (wid x =? wid y))
        (Some (Shape (bat x) (hei x) (wid x) (cha x + cha y))).

(** UNet.__call__, lines 307-321: the loop over the resolutions.  [hs] has its last
    element first. *)
Fixpoint down_loop (dim groups tb : nat) (mults : list nat) (h : shape) (hs : list shape) : option (shape * list shape) :=
  match mults with
  | [] => Some (h, hs)
  | m :: rest =>
      do h1 <- resnet (cha h) groups tb h;
      do h2 <- resnet (cha h) groups tb h1;
      do h3 <- attn_block h2;
      match rest with
      | [] => Some (h3, h3 :: h1 :: hs)
      | _ => do h4 <- downsample (dim * m) h3; down_loop dim groups tb rest h4 (h3 :: h1 :: hs)
      end
  end.

Definition pop {A} (l : list A) : option (A * list A) := match l with [] => None | a :: r => Some (a, r) end.

(** Lines 336-357; [rmults] is the list of multipliers, last first. *)
Fixpoint up_loop (dim init_dim groups tb : nat) (m : method) (rmults : list nat) (h : shape) (hs : list shape)
  : option (shape * list shape) :=
  match rmults with
  | [] => Some (h, hs)
  | k :: rest =>
      let dim_in := dim * k in
      let dim_out := match rest with k' :: _ => dim * k' | [] => init_dim end in
      check (cha h =? dim_in) (
      do p <- pop hs; do h <- concat_channels h (fst p);
      check (cha h =? dim_in + dim_out) (
      do h <- resnet dim_in groups tb h;
      do p <- pop (snd p); do h <- concat_channels h (fst p);
      check (cha h =? dim_in + dim_out) (
      do h <- resnet dim_in groups tb h;
      do h <- attn_block h;
      check (cha h =? dim_in) (
      match rest with
      | [] => Some (h, snd p)
      | _ => do h <- upsample m dim_out h; up_loop dim init_dim groups tb m rest h (snd p)
      end))))
  end.

(** The argument x: a batch of images or one image; the result likewise. *)
Inductive images := One (h w c : nat) | Batch (b h w c : nat).
(** The argument time: a scalar or a vector of some length. *)
Inductive times := Scalar_time | Time_vector (n : nat).

(** UNet.__call__, lines 269-368; [init_dim] and [out_dim] with their defaults resolved
    as in lines 286 and 362-363. *)
Definition unet (dim init_dim out_dim groups : nat) (mults : list nat) (m : method) (x : images) (t : times) : option images :=
  let x := match x with One h w c => Shape 1 h w c | Batch b h w c => Shape b h w c end in
  let h := conv init_dim 7 1 3 x in
  let h0 := h in
  (* sinusoidal_embedding raises for odd out_dim *)
  check (dim mod 2 =? 0) (
  let tb := match t with Scalar_time => bat x | Time_vector n => n end in
  do r <- down_loop dim groups tb mults h [h];
  (* dim_mults[-1] *)
  do mid_dim <- match rev mults with [] => None | k :: _ => Some (dim * k) end;
  do h <- resnet mid_dim groups tb (conv mid_dim 3 1 1 (fst r));
  do h <- attn_block h;
  do h <- resnet mid_dim groups tb h;
  do r <- up_loop dim init_dim groups tb m (rev mults) h (snd r);
  let h := conv init_dim 3 1 1 (fst r) in
  do p <- pop (snd r); do h <- concat_channels h (fst p);
  check (cha h =? init_dim * 2) (
  do out <- resnet dim groups tb h;
  let out := conv1 out_dim out in
  Some (if bat x =? 1 then One (hei out) (wid out) (cha out) else Batch (bat out) (hei out) (wid out) (cha out)))).

(** * Proofs *)

(** The specification. *)
Definition divides (a b : nat) : Prop := exists q, b = q * a.

Lemma check_Some {A} b (k : option A) y : check b k = Some y <-> b = true /\ k = Some y.
Proof. unfold check. destruct b; intuition congruence. Qed.
Lemma mod_divides a b : 1 <= a -> (b mod a = 0 <-> divides a b).
Proof.
  intros Ha. split.
  - intros H. exists (b / a). pose proof (Nat.div_mod b a ltac:(lia)). lia.
  - intros [q ->]. apply Nat.mod_mul. lia.
Qed.
Lemma shape_eqb_true x y : shape_eqb x y = true <-> x = y.
Proof.
  destruct x, y. unfold shape_eqb. cbn. rewrite !andb_true_iff, !Nat.eqb_eq. split.
  - intros [[[-> ->] ->] ->]. reflexivity.
  - intros H. injection H as -> -> -> ->. tauto.
Qed.

Lemma conv_len_same n : conv_len n 3 1 1 = n.
Proof. unfold conv_len. destruct (Nat.ltb_spec (n + 2 * 1) 3); [lia|]. rewrite Nat.div_1_r. lia. Qed.
Lemma conv_len_same7 n : conv_len n 7 1 3 = n.
Proof. unfold conv_len. destruct (Nat.ltb_spec (n + 2 * 3) 7); [lia|]. rewrite Nat.div_1_r. lia. Qed.
Lemma conv_len_half n : conv_len n 4 2 1 = n / 2.
Proof.
  unfold conv_len. destruct (Nat.ltb_spec (n + 2 * 1) 4) as [H|H].
  - symmetry. apply Nat.div_small. lia.
  - replace (n + 2 * 1 - 4) with (n - 2) by lia. replace n with (n - 2 + 1 * 2) at 2 by lia.
    rewrite Nat.div_add by lia. reflexivity.
Qed.

Definition groups_ok (groups c : nat) : Prop := 1 <= groups /\ divides groups c.

Lemma group_norm_iff groups x y : group_norm groups x = Some y <-> groups_ok groups (cha x) /\ y = x.
Proof.
  unfold group_norm, groups_ok. rewrite check_Some, andb_true_iff, Nat.leb_le, Nat.eqb_eq. split.
  - intros [[H1 H2] H3]. rewrite mod_divides in H2 by exact H1. split; [tauto|congruence].
  - intros [[H1 H2] ->]. rewrite <- mod_divides in H2 by exact H1. tauto.
Qed.

Lemma resnet_iff dim groups tb x y : resnet dim groups tb x = Some y <->
  tb = bat x /\ groups_ok groups dim /\ y = Shape (bat x) (hei x) (wid x) dim.
Proof.
  destruct x as [b h w c]. unfold resnet, conv, conv1. cbn [bat hei wid cha]. rewrite check_Some, Nat.eqb_eq, !conv_len_same.
  destruct (group_norm groups (Shape b h w dim)) as [s|] eqn:E.
  - apply group_norm_iff in E. destruct E as [Hg ->]. cbn [bat hei wid cha] in *. rewrite !conv_len_same.
    destruct (group_norm groups (Shape b h w dim)) as [s|] eqn:E.
    + apply group_norm_iff in E. destruct E as [_ ->]. cbn [bat hei wid cha] in *.
      replace (if c =? dim then Shape b h w c else Shape b h w dim) with (Shape b h w dim).
      * rewrite check_Some, shape_eqb_true. intuition congruence.
      * destruct (Nat.eqb_spec c dim) as [->|]; reflexivity.
    + exfalso. assert (group_norm groups (Shape b h w dim) = Some (Shape b h w dim)) by (apply group_norm_iff; split; [exact Hg|reflexivity]). congruence.
  - split; [intros [_ H]; discriminate|]. intros (_ & Hg & _). exfalso.
    assert (group_norm groups (Shape b h w dim) = Some (Shape b h w dim)) by (apply group_norm_iff; split; [exact Hg|reflexivity]). congruence.
Qed.

Lemma attn_block_iff x y : attn_block x = Some y <-> 1 <= hei x /\ 1 <= wid x /\ y = x.
Proof.
  destruct x as [b h w c]. unfold attn_block, attention_shape, conv1. cbn [bat hei wid cha].
  change (32 * 4 * 3 / 3) with 128. change (128 mod 4 =? 0) with true. change (128 / 4) with 32.
  change (32 =? 32) with true. change (32 * 4) with 128. change (4 * 32) with 128. rewrite !andb_true_r.
  destruct (Nat.leb_spec 1 (h * w)) as [H|H]; cbn [check].
  - assert (1 <= h /\ 1 <= w) by (split; destruct h, w; lia).
    replace (h * w / h) with w by (rewrite Nat.mul_comm, Nat.div_mul; lia).
    replace (shape_eqb (Shape b h w 128) (Shape b h w 128)) with true by (symmetry; now apply shape_eqb_true).
    cbn [check bat hei wid]. replace (shape_eqb (Shape b h w c) (Shape b h w c)) with true by (symmetry; now apply shape_eqb_true).
    cbn [check]. intuition congruence.
  - split; [discriminate|]. intros (H1 & H2 & _). nia.
Qed.

Lemma downsample_eq dim x : downsample dim x = Some (Shape (bat x) (hei x / 2) (wid x / 2) dim).
Proof.
  unfold downsample, conv. rewrite !conv_len_half. apply check_Some. split; [|reflexivity]. now apply shape_eqb_true.
Qed.

Definition method_ok (m : method) : Prop := m <> Other_method.
Lemma upsample_iff m dim x y : upsample m dim x = Some y <-> method_ok m /\ y = Shape (bat x) (hei x * 2) (wid x * 2) dim.
Proof.
  destruct x as [b h w c]. unfold upsample, method_ok. destruct m; unfold conv, shuffle2; cbn [bat hei wid cha]; rewrite ?conv_len_same.
  - rewrite check_Some, shape_eqb_true. intuition congruence.
  - replace (c * 4 mod 4) with 0 by (symmetry; apply Nat.mod_mul; lia). rewrite Nat.div_mul by lia.
    cbn [check Nat.eqb bat hei wid]. rewrite !conv_len_same. rewrite check_Some, shape_eqb_true. intuition congruence.
  - split; [discriminate|]. intros [H _]. now destruct H.
Qed.

Lemma concat_iff x y z : concat_channels x y = Some z <->
  (bat x = bat y /\ hei x = hei y /\ wid x = wid y) /\ z = Shape (bat x) (hei x) (wid x) (cha x + cha y).
Proof. unfold concat_channels. rewrite check_Some, !andb_true_iff, !Nat.eqb_eq. intuition congruence. Qed.

Lemma do_Some {A B} (a : option A) (f : A -> option B) y : (match a with Some x => f x | None => None end) = Some y <-> exists x, a = Some x /\ f x = Some y.
Proof. destruct a; split; [eauto| |discriminate|]; intros (x & H1 & H2); congruence. Qed.

(** The levels: shape at each resolution. *)
Fixpoint levels (dim b h w c : nat) (mults : list nat) : list shape :=
  match mults with
  | [] => []
  | m :: rest => Shape b h w c :: levels dim b (h / 2) (w / 2) (dim * m) rest
  end.
Definition twice {A} (l : list A) : list A := flat_map (fun s => [s; s]) l.
Definition level_ok (groups : nat) (s : shape) : Prop := groups_ok groups (cha s) /\ 1 <= hei s /\ 1 <= wid s.

Lemma last_cons {A} (a : A) l d : l <> [] -> last (a :: l) d = last l d.
Proof. destruct l; [now intros []|reflexivity]. Qed.

Lemma down_iff dim groups tb m ms b h w c hs r : down_loop dim groups tb (m :: ms) (Shape b h w c) hs = Some r <->
  tb = b /\ Forall (level_ok groups) (levels dim b h w c (m :: ms)) /\
  r = (last (levels dim b h w c (m :: ms)) (Shape 0 0 0 0), twice (rev (levels dim b h w c (m :: ms))) ++ hs).
Proof.
  revert m b h w c hs. induction ms as [|m' ms IH]; intros m b h w c hs.
  - cbn [down_loop]. rewrite do_Some. split.
    + intros (h1 & H1 & H). apply resnet_iff in H1. destruct H1 as (-> & Hg & ->). cbn [bat hei wid cha] in *.
      apply do_Some in H. destruct H as (h2 & H2 & H). apply resnet_iff in H2. destruct H2 as (_ & _ & ->). cbn [bat hei wid cha] in *.
      apply do_Some in H. destruct H as (h3 & H3 & H). apply attn_block_iff in H3. destruct H3 as (Hh & Hw & ->). cbn [bat hei wid cha] in *.
      injection H as <-. split; [reflexivity|]. split; [|reflexivity]. repeat constructor; try assumption; apply Hg.
    + intros (-> & HF & ->). cbn [levels] in HF. apply Forall_inv in HF. destruct HF as (Hg & Hh & Hw). cbn [hei wid cha] in *.
      exists (Shape b h w c). split; [now apply resnet_iff|]. apply do_Some. exists (Shape b h w c). split; [now apply resnet_iff|].
      apply do_Some. exists (Shape b h w c). split; [now apply attn_block_iff|]. reflexivity.
  - set (rest := m' :: ms) in *. change (levels dim b h w c (m :: rest)) with (Shape b h w c :: levels dim b (h / 2) (w / 2) (dim * m) rest).
    specialize (IH m' b (h / 2) (w / 2) (dim * m)).
    assert (Hne : levels dim b (h / 2) (w / 2) (dim * m) rest <> []) by discriminate.
    change (down_loop dim groups tb (m :: rest) (Shape b h w c) hs) with
      (do h1 <- resnet c groups tb (Shape b h w c); do h2 <- resnet c groups tb h1; do h3 <- attn_block h2;
       do h4 <- downsample (dim * m) h3; down_loop dim groups tb rest h4 (h3 :: h1 :: hs)).
    rewrite do_Some. split.
    + intros (h1 & H1 & H). apply resnet_iff in H1. destruct H1 as (Ht & Hg & ->). cbn [bat hei wid cha] in *.
      apply do_Some in H. destruct H as (h2 & H2 & H). apply resnet_iff in H2. destruct H2 as (_ & _ & ->). cbn [bat hei wid cha] in *.
      apply do_Some in H. destruct H as (h3 & H3 & H). apply attn_block_iff in H3. destruct H3 as (Hh & Hw & ->). cbn [bat hei wid cha] in *.
      apply do_Some in H. destruct H as (h4 & H4 & H). rewrite downsample_eq in H4. injection H4 as <-. cbn [bat hei wid] in H.
      apply IH in H. destruct H as (_ & HF & ->). split; [exact Ht|]. split; [constructor; [repeat split; try assumption; apply Hg|exact HF]|].
      rewrite (last_cons _ _ _ Hne). f_equal.
      cbn [rev]. unfold twice. rewrite flat_map_app. cbn [flat_map app]. now rewrite <- app_assoc.
    + intros (Ht & HF & ->). pose proof (Forall_inv HF) as (Hg & Hh & Hw). cbn [hei wid cha] in *. apply Forall_inv_tail in HF.
      exists (Shape b h w c). split; [now apply resnet_iff|]. apply do_Some. exists (Shape b h w c). split; [now apply resnet_iff|].
      apply do_Some. exists (Shape b h w c). split; [now apply attn_block_iff|].
      apply do_Some. eexists. split; [apply downsample_eq|]. cbn [bat hei wid]. apply IH.
      split; [exact Ht|]. split; [exact HF|].
      rewrite (last_cons _ _ _ Hne). f_equal.
      cbn [rev]. unfold twice. rewrite flat_map_app. cbn [flat_map app]. now rewrite <- app_assoc.
Qed.

(** Channels of the levels met on the way up. *)
Fixpoint channels_fit (dim init_dim : nat) (rm : list nat) (rl : list shape) : Prop :=
  match rm, rl with
  | [], [] => True
  | _ :: rest, s :: rl' => cha s = match rest with k' :: _ => dim * k' | [] => init_dim end /\ channels_fit dim init_dim rest rl'
  | _, _ => False
  end.
Fixpoint sizes_fit (b h w : nat) (rl : list shape) : Prop :=
  match rl with [] => True | s :: rl' => bat s = b /\ hei s = h /\ wid s = w /\ sizes_fit b (h * 2) (w * 2) rl' end.

Lemma up_iff dim init_dim groups tb m k ks rl b h w hs r : channels_fit dim init_dim (k :: ks) rl ->
  up_loop dim init_dim groups tb m (k :: ks) (Shape b h w (dim * k)) (twice rl ++ hs) = Some r <->
  tb = b /\ 1 <= h /\ 1 <= w /\ sizes_fit b h w rl /\ Forall (fun k => groups_ok groups (dim * k)) (k :: ks) /\
  (ks <> [] -> method_ok m) /\ r = (Shape b (h * 2 ^ length ks) (w * 2 ^ length ks) (dim * last (k :: ks) 0), hs).
Proof.
  revert k rl h w. induction ks as [|k' ks IH]; intros k rl h w Hc.
  - destruct rl as [|s [|s' rl]]; cbn in Hc; try tauto. destruct Hc as [Hc _]. destruct s as [b' h' w' c']. cbn [cha] in Hc. subst c'.
    cbn [up_loop twice flat_map app]. rewrite check_Some, Nat.eqb_eq. cbn [cha pop fst snd]. split.
    + intros [_ H]. apply do_Some in H. destruct H as (z & H1 & H). apply concat_iff in H1. cbn [bat hei wid cha] in H1. destruct H1 as [(<- & <- & <-) ->].
      apply check_Some in H. destruct H as [_ H]. apply do_Some in H. destruct H as (z & H1 & H). apply resnet_iff in H1. cbn [bat hei wid cha] in H1.
      destruct H1 as (-> & Hg & ->). apply do_Some in H. destruct H as (z & H1 & H). apply concat_iff in H1. cbn [bat hei wid cha] in H1. destruct H1 as [_ ->].
      apply check_Some in H. destruct H as [_ H]. apply do_Some in H. destruct H as (z & H1 & H). apply resnet_iff in H1. cbn [bat hei wid cha] in H1.
      destruct H1 as (_ & _ & ->). apply do_Some in H. destruct H as (z & H1 & H). apply attn_block_iff in H1. cbn [bat hei wid cha] in H1.
      destruct H1 as (Hh & Hw & ->). apply check_Some in H. destruct H as [_ H]. injection H as <-.
      cbn. rewrite !Nat.mul_1_r. repeat split; try assumption; try tauto. constructor; [exact Hg|constructor].
    + intros (-> & Hh & Hw & Hs & HF & _ & ->). cbn in Hs. destruct Hs as (-> & -> & -> & _). apply Forall_inv in HF. split; [reflexivity|].
      apply do_Some. eexists. split; [apply concat_iff; cbn [bat hei wid]; split; [tauto|reflexivity]|]. cbn [bat hei wid cha].
      apply check_Some. split; [now apply Nat.eqb_eq|]. apply do_Some. eexists. split; [apply resnet_iff; cbn [bat hei wid]; split; [reflexivity|split; [exact HF|reflexivity]]|].
      apply do_Some. eexists. split; [apply concat_iff; cbn [bat hei wid]; split; [tauto|reflexivity]|]. cbn [bat hei wid cha].
      apply check_Some. split; [now apply Nat.eqb_eq|]. apply do_Some. eexists. split; [apply resnet_iff; cbn [bat hei wid]; split; [reflexivity|split; [exact HF|reflexivity]]|].
      apply do_Some. eexists. split; [apply attn_block_iff; cbn [bat hei wid]; split; [exact Hh|split; [exact Hw|reflexivity]]|].
      cbn [cha]. apply check_Some. split; [now apply Nat.eqb_eq|]. cbn. now rewrite !Nat.mul_1_r.
  - destruct rl as [|s rl]; [now cbn in Hc|]. destruct Hc as [Hcs Hc]. destruct s as [b' h' w' c']. cbn [cha] in Hcs. subst c'.
    change (up_loop dim init_dim groups tb m (k :: k' :: ks) (Shape b h w (dim * k)) (twice (Shape b' h' w' (dim * k') :: rl) ++ hs)) with
      (check (dim * k =? dim * k) (
       do h <- concat_channels (Shape b h w (dim * k)) (Shape b' h' w' (dim * k'));
       check (cha h =? dim * k + dim * k') (
       do h <- resnet (dim * k) groups tb h;
       do h <- concat_channels h (Shape b' h' w' (dim * k'));
       check (cha h =? dim * k + dim * k') (
       do h <- resnet (dim * k) groups tb h;
       do h <- attn_block h;
       check (cha h =? dim * k) (
       do h <- upsample m (dim * k') h; up_loop dim init_dim groups tb m (k' :: ks) h (twice rl ++ hs)))))).
    rewrite check_Some, Nat.eqb_eq. split.
    + intros [_ H]. apply do_Some in H. destruct H as (z & H1 & H). apply concat_iff in H1. cbn [bat hei wid cha] in H1. destruct H1 as [(<- & <- & <-) ->].
      apply check_Some in H. destruct H as [_ H]. apply do_Some in H. destruct H as (z & H1 & H). apply resnet_iff in H1. cbn [bat hei wid cha] in H1.
      destruct H1 as (Ht & Hg & ->). apply do_Some in H. destruct H as (z & H1 & H). apply concat_iff in H1. cbn [bat hei wid cha] in H1. destruct H1 as [_ ->].
      apply check_Some in H. destruct H as [_ H]. apply do_Some in H. destruct H as (z & H1 & H). apply resnet_iff in H1. cbn [bat hei wid cha] in H1.
      destruct H1 as (_ & _ & ->). apply do_Some in H. destruct H as (z & H1 & H). apply attn_block_iff in H1. cbn [bat hei wid cha] in H1.
      destruct H1 as (Hh & Hw & ->). apply check_Some in H. destruct H as [_ H]. apply do_Some in H. destruct H as (z & H1 & H).
      apply upsample_iff in H1. cbn [bat hei wid] in H1. destruct H1 as [Hm ->].
      apply (IH k' rl (h * 2) (w * 2) Hc) in H. destruct H as (_ & _ & _ & Hs & HF & _ & ->).
      split; [exact Ht|]. split; [exact Hh|]. split; [exact Hw|]. split; [cbn; tauto|]. split; [constructor; assumption|]. split; [tauto|].
      assert (Hp : forall z, z * 2 * 2 ^ length ks = z * 2 ^ length (k' :: ks)) by (intros; cbn [length Nat.pow]; lia).
      rewrite !Hp. reflexivity.
    + intros (Ht & Hh & Hw & Hs & HF & Hm & ->). cbn in Hs. destruct Hs as (-> & -> & -> & Hs). pose proof (Forall_inv HF) as Hg. apply Forall_inv_tail in HF.
      split; [reflexivity|].
      apply do_Some. eexists. split; [apply concat_iff; cbn [bat hei wid]; split; [tauto|reflexivity]|]. cbn [bat hei wid cha].
      apply check_Some. split; [now apply Nat.eqb_eq|]. apply do_Some. eexists. split; [apply resnet_iff; cbn [bat hei wid]; split; [exact Ht|split; [exact Hg|reflexivity]]|].
      apply do_Some. eexists. split; [apply concat_iff; cbn [bat hei wid]; split; [tauto|reflexivity]|]. cbn [bat hei wid cha].
      apply check_Some. split; [now apply Nat.eqb_eq|]. apply do_Some. eexists. split; [apply resnet_iff; cbn [bat hei wid]; split; [exact Ht|split; [exact Hg|reflexivity]]|].
      apply do_Some. eexists. split; [apply attn_block_iff; cbn [bat hei wid]; split; [exact Hh|split; [exact Hw|reflexivity]]|].
      cbn [cha]. apply check_Some. split; [now apply Nat.eqb_eq|]. apply do_Some. eexists.
      split; [apply upsample_iff; cbn [bat hei wid]; split; [apply Hm; discriminate|reflexivity]|].
      apply (IH k' rl (h * 2) (w * 2) Hc). split; [exact Ht|]. split; [lia|]. split; [lia|]. split; [exact Hs|]. split; [exact HF|].
      split; [intros _; apply Hm; discriminate|]. assert (Hp : forall z, z * 2 * 2 ^ length ks = z * 2 ^ length (k' :: ks)) by (intros; cbn [length Nat.pow]; lia).
      rewrite !Hp. reflexivity.
Qed.

(** The levels by index. *)
Lemma levels_length dim b h w c ms : length (levels dim b h w c ms) = length ms.
Proof. revert h w c. induction ms as [|m ms IH]; intros; cbn; [reflexivity|now rewrite IH]. Qed.
Lemma div_2_pow h i : h / 2 / 2 ^ i = h / 2 ^ S i.
Proof. rewrite Nat.div_div by (try apply Nat.pow_nonzero; lia). reflexivity. Qed.
Lemma levels_nth dim b h w c ms i s : nth_error (levels dim b h w c ms) i = Some s ->
  bat s = b /\ hei s = h / 2 ^ i /\ wid s = w / 2 ^ i /\ cha s = match i with 0 => c | S j => dim * nth j ms 0 end.
Proof.
  revert h w c i. induction ms as [|m ms IH]; intros h w c i H; [now destruct i|]. destruct i as [|i]; cbn [levels nth_error] in H.
  - injection H as <-. rewrite Nat.pow_0_r, !Nat.div_1_r. cbn [bat hei wid cha]. tauto.
  - apply IH in H. rewrite !div_2_pow in H. destruct H as (? & ? & ? & E). repeat split; try assumption. rewrite E. destruct i; reflexivity.
Qed.

Lemma sizes_fit_iff b h w rl : sizes_fit b h w rl <->
  forall j s, nth_error rl j = Some s -> bat s = b /\ hei s = h * 2 ^ j /\ wid s = w * 2 ^ j.
Proof.
  revert h w. induction rl as [|s rl IH]; intros h w; cbn [sizes_fit].
  - split; [|tauto]. intros _ [|j] s H; discriminate.
  - rewrite IH. split.
    + intros (Hb & Hh & Hw & H) [|j] s' E; cbn in E.
      * injection E as <-. cbn. lia.
      * destruct (H j s' E) as (? & ? & ?). cbn [Nat.pow]. repeat split; lia.
    + intros H. destruct (H 0 s eq_refl) as (Hb & Hh & Hw). cbn in Hh, Hw. split; [exact Hb|]. split; [lia|]. split; [lia|].
      intros j s' E. destruct (H (S j) s' E) as (? & ? & ?). cbn [Nat.pow] in *. repeat split; lia.
Qed.

Lemma nth_error_rev {A} (l : list A) j : j < length l -> nth_error (rev l) j = nth_error l (length l - 1 - j).
Proof.
  intros H. destruct l as [|a l0]; [cbn in H; lia|]. set (l := a :: l0) in *.
  rewrite (nth_error_nth' (rev l) a) by (now rewrite rev_length). rewrite rev_nth by exact H.
  rewrite (nth_error_nth' l a) by lia. f_equal. f_equal. lia.
Qed.

Lemma sizes_divisible dim b h w c ms n : length ms = S n ->
  (sizes_fit b (h / 2 ^ n) (w / 2 ^ n) (rev (levels dim b h w c ms)) <-> divides (2 ^ n) h /\ divides (2 ^ n) w).
Proof.
  intros Hl. rewrite sizes_fit_iff.
  assert (Ll : length (levels dim b h w c ms) = S n) by (now rewrite levels_length).
  assert (Hdiv : forall x, x = x / 2 ^ n * 2 ^ n -> divides (2 ^ n) x) by (intros x E; now exists (x / 2 ^ n)).
  split.
  - intros H. destruct (nth_error (rev (levels dim b h w c ms)) n) as [s|] eqn:E.
    + destruct (H n s E) as (_ & Hh & Hw). rewrite nth_error_rev in E by lia. rewrite Ll in E. replace (S n - 1 - n) with 0 in E by lia.
      apply levels_nth in E. destruct E as (_ & Eh & Ew & _). rewrite Nat.pow_0_r, Nat.div_1_r in Eh, Ew. split; apply Hdiv; lia.
    + apply nth_error_None in E. rewrite rev_length in E. lia.
  - intros [[qh ->] [qw ->]] j s E.
    assert (Hj : j < S n) by (rewrite <- Ll, <- rev_length; apply nth_error_Some; congruence).
    rewrite nth_error_rev in E by lia. rewrite Ll in E. apply levels_nth in E. destruct E as (Eb & Eh & Ew & _).
    split; [exact Eb|]. rewrite !Nat.div_mul by (apply Nat.pow_nonzero; lia).
    assert (P : forall q, q * 2 ^ n / 2 ^ (S n - 1 - j) = q * 2 ^ j).
    { intros q. replace (2 ^ n) with (2 ^ j * 2 ^ (S n - 1 - j)) by (rewrite <- Nat.pow_add_r; f_equal; lia).
      rewrite Nat.mul_assoc. apply Nat.div_mul. apply Nat.pow_nonzero. lia. }
    rewrite Eh, Ew, !P. tauto.
Qed.

Lemma channels_levels dim b h w c ms : channels_fit dim c (rev ms) (rev (levels dim b h w c ms)).
Proof.
  revert h w c. induction ms as [|m ms IH]; intros h w c; [exact I|]. cbn [rev levels].
  assert (A : forall rm rl s init, channels_fit dim (dim * m) rm rl -> cha s = init ->
    channels_fit dim init (rm ++ [m]) (rl ++ [s])).
  { induction rm as [|k rm IHm]; intros rl s init H Hs; destruct rl as [|s0 rl]; cbn in H; try tauto.
    - cbn. tauto.
    - destruct H as [H1 H2]. cbn [app channels_fit]. split; [|now apply IHm]. rewrite H1. destruct rm; reflexivity. }
  apply A; [apply IH|reflexivity].
Qed.

Lemma last_levels dim b h w c ms n : length ms = S n -> exists c', last (levels dim b h w c ms) (Shape 0 0 0 0) = Shape b (h / 2 ^ n) (w / 2 ^ n) c'.
Proof.
  intros Hl. assert (Ll : length (levels dim b h w c ms) = S n) by (now rewrite levels_length).
  destruct (nth_error (levels dim b h w c ms) n) as [s|] eqn:E.
  - exists (cha s). pose proof (levels_nth _ _ _ _ _ _ _ _ E) as (? & ? & ? & _).
    assert (L : last (levels dim b h w c ms) (Shape 0 0 0 0) = s).
    { clear - E Ll. revert n Ll E. generalize (levels dim b h w c ms). induction l as [|a l IH]; intros n Ll E; [discriminate|].
      destruct l as [|a' l]; cbn in Ll.
      - assert (n = 0) by lia. subst. now injection E as ->.
      - destruct n as [|n]; [lia|]. cbn [nth_error] in E. cbn [last]. apply (IH n); [cbn; lia|exact E]. }
    rewrite L. destruct s; cbn in *. congruence.
  - apply nth_error_None in E. lia.
Qed.

(** Which channel counts occur. *)
Lemma levels_groups groups dim b h w c ms n : length ms = S n -> 1 <= h -> 1 <= w -> divides (2 ^ n) h -> divides (2 ^ n) w ->
  groups_ok groups c -> Forall (fun m => groups_ok groups (dim * m)) ms -> Forall (level_ok groups) (levels dim b h w c ms).
Proof.
  intros Hl Hh Hw Dh Dw Hc HF. apply Forall_forall. intros s Hin. apply In_nth_error in Hin. destruct Hin as [i E].
  assert (Hi : i < S n) by (rewrite <- Hl, <- (levels_length dim b h w c); apply nth_error_Some; congruence).
  apply levels_nth in E. destruct E as (_ & Eh & Ew & Ec).
  assert (P : forall x, 1 <= x -> divides (2 ^ n) x -> 1 <= x / 2 ^ i).
  { intros x Hx [q Hq]. apply Nat.div_le_lower_bound; [apply Nat.pow_nonzero; lia|].
    assert (2 ^ i <= 2 ^ n) by (apply Nat.pow_le_mono_r; lia). destruct q; nia. }
  split; [|rewrite Eh, Ew; split; now apply P].
  rewrite Ec. destruct i as [|j]; [exact Hc|]. rewrite Forall_forall in HF. apply HF. apply nth_In. lia.
Qed.

(** ** The theorem *)
Definition batch_of (x : images) : nat := match x with One _ _ _ => 1 | Batch b _ _ _ => b end.
Definition height_of (x : images) : nat := match x with One h _ _ => h | Batch _ h _ _ => h end.
Definition width_of (x : images) : nat := match x with One _ w _ => w | Batch _ _ w _ => w end.

Definition time_fits (b : nat) (t : times) : Prop := match t with Scalar_time => True | Time_vector n => n = b end.

Lemma unet_iff dim init_dim out_dim groups mults m x t out : 1 <= height_of x -> 1 <= width_of x ->
  (unet dim init_dim out_dim groups mults m x t = Some out <->
   mults <> [] /\ divides 2 dim /\ time_fits (batch_of x) t /\ (2 <= length mults -> method_ok m) /\
   1 <= groups /\ divides groups init_dim /\ divides groups dim /\ Forall (fun k => divides groups (dim * k)) mults /\
   divides (2 ^ (length mults - 1)) (height_of x) /\ divides (2 ^ (length mults - 1)) (width_of x) /\
   out = if batch_of x =? 1 then One (height_of x) (width_of x) out_dim
         else Batch (batch_of x) (height_of x) (width_of x) out_dim).
Proof.
  intros Hh Hw.
  set (b := batch_of x) in *. set (h := height_of x) in *. set (w := width_of x) in *.
  assert (Ex : exists c, match x with One h w c => Shape 1 h w c | Batch b h w c => Shape b h w c end = Shape b h w c)
    by (subst b h w; destruct x; cbn; eauto).
  destruct Ex as [c Ex]. unfold unet. rewrite Ex. cbn [bat]. clearbody b h w. clear Ex x. cbv zeta.
  unfold conv at 1 2. cbn [bat hei wid]. rewrite !conv_len_same7. rewrite check_Some, Nat.eqb_eq, mod_divides by lia.
  set (tb := match t with Scalar_time => b | Time_vector n => n end).
  assert (Ht : tb = b <-> time_fits b t) by (subst tb; destruct t; cbn; intuition congruence).
  destruct mults as [|m0 ms].
  { cbn [down_loop rev]. split; [intros [_ H]; discriminate|tauto]. }
  set (mults := m0 :: ms) in *. set (n := length ms). assert (Hl : length mults = S n) by reflexivity.
  replace (length mults - 1) with n by lia.
  destruct (rev mults) as [|k ks] eqn:Er.
  { apply (f_equal (@length nat)) in Er. rewrite rev_length in Er. cbn in Er. lia. }
  assert (Lks : length ks = n) by (apply (f_equal (@length nat)) in Er; rewrite rev_length in Er; cbn in Er; lia).
  set (L := levels dim b h w init_dim mults).
  assert (Hchan : channels_fit dim init_dim (k :: ks) (rev L)) by (rewrite <- Er; apply channels_levels).
  assert (Hlast : last (k :: ks) 0 = m0).
  { rewrite <- Er. subst mults. cbn [rev]. apply last_last. }
  assert (HFrev : Forall (fun k => groups_ok groups (dim * k)) (k :: ks) <-> Forall (fun k => groups_ok groups (dim * k)) mults).
  { rewrite <- Er. rewrite !Forall_forall. split; intros H z Hz; apply H; [now apply in_rev in Hz|now apply in_rev]. }
  assert (Hin : In k mults) by (apply in_rev; rewrite Er; now left).
  assert (Hsize := sizes_divisible dim b h w init_dim mults n Hl). fold L in Hsize.
  destruct (last_levels dim b h w init_dim mults n Hl) as [cl Hll]. fold L in Hll.
  assert (Hpow : forall z, divides (2 ^ n) z -> z / 2 ^ n * 2 ^ n = z).
  { intros z [q ->]. rewrite Nat.div_mul by (apply Nat.pow_nonzero; lia). reflexivity. }
  split.
  - intros [Hev H]. apply do_Some in H. destruct H as (r & H1 & H). apply down_iff in H1. destruct H1 as (Hb & HF & ->). fold mults L in HF, H |- *.
    cbn [fst snd] in H. rewrite Hll in H. apply do_Some in H. destruct H as (z & H1 & H). apply resnet_iff in H1. destruct H1 as (_ & Hg1 & ->).
    unfold conv in H at 1. cbn [bat hei wid conv] in H. rewrite !conv_len_same in H.
    apply do_Some in H. destruct H as (z & H1 & H). apply attn_block_iff in H1. cbn [bat hei wid] in H1. destruct H1 as (Hh1 & Hw1 & ->).
    apply do_Some in H. destruct H as (z & H1 & H). apply resnet_iff in H1. cbn [bat hei wid] in H1. destruct H1 as (_ & _ & ->).
    apply do_Some in H. destruct H as (r & H1 & H). apply up_iff in H1; [|exact Hchan].
    destruct H1 as (_ & _ & _ & Hs & HFm & Hm & ->). cbn [fst snd pop] in H. rewrite Lks in H.
    apply Hsize in Hs. destruct Hs as [Dh Dw]. rewrite (Hpow h Dh), (Hpow w Dw) in H.
    unfold conv in H. cbn [bat hei wid] in H. rewrite !conv_len_same in H.
    apply do_Some in H. destruct H as (z & H1 & H). apply concat_iff in H1. destruct H1 as [_ ->]. cbn [bat hei wid cha] in H.
    apply check_Some in H. destruct H as [_ H]. apply do_Some in H. destruct H as (z & H1 & H). apply resnet_iff in H1. cbn [bat hei wid] in H1.
    destruct H1 as (_ & Hg2 & ->). cbn [conv1 bat hei wid cha] in H. injection H as <-.
    split; [discriminate|]. split; [exact Hev|]. split; [now apply Ht|]. split.
    { intros H2. apply Hm. intros ->. cbn in Lks. lia. }
    split; [apply Hg2|]. split.
    { apply Forall_inv in HF. apply HF. }
    split; [apply Hg2|]. split.
    { apply HFrev in HFm. eapply Forall_impl; [|exact HFm]. cbn. intros z Hz. apply Hz. }
    split; [exact Dh|]. split; [exact Dw|]. reflexivity.
  - intros (_ & Hev & Htf & Hm & Hg & Hgi & Hgd & HFm & Dh & Dw & ->). apply Ht in Htf.
    assert (HFg : Forall (fun k => groups_ok groups (dim * k)) mults) by (eapply Forall_impl; [|exact HFm]; cbn; intros z Hz; split; assumption).
    assert (Hgk : groups_ok groups (dim * k)) by (rewrite Forall_forall in HFg; now apply HFg).
    assert (Hpos : forall z, 1 <= z -> divides (2 ^ n) z -> 1 <= z / 2 ^ n).
    { intros z Hz Dz. specialize (Hpow z Dz). destruct (z / 2 ^ n); lia. }
    split; [exact Hev|]. apply do_Some. eexists. split.
    { apply down_iff. split; [exact Htf|]. split; [|reflexivity]. apply (levels_groups groups dim b h w init_dim mults n); try assumption. now split. }
    fold mults L. cbn [fst snd]. rewrite Hll. apply do_Some. eexists. split; [apply resnet_iff; cbn [bat conv]; split; [exact Htf|split; [exact Hgk|reflexivity]]|].
    unfold conv at 1. cbn [bat hei wid conv]. rewrite !conv_len_same.
    apply do_Some. eexists. split; [apply attn_block_iff; cbn [hei wid]; split; [now apply Hpos|split; [now apply Hpos|reflexivity]]|].
    apply do_Some. eexists. split; [apply resnet_iff; cbn [bat]; split; [exact Htf|split; [exact Hgk|reflexivity]]|]. cbn [bat hei wid].
    apply do_Some. eexists. split.
    { apply up_iff; [exact Hchan|]. split; [exact Htf|]. split; [now apply Hpos|]. split; [now apply Hpos|]. split; [now apply Hsize|].
      split; [now apply HFrev|]. split; [|reflexivity]. intros Hne. apply Hm. destruct ks; [now destruct Hne|]. cbn in Lks. lia. }
    cbn [fst snd pop]. rewrite Lks, (Hpow h Dh), (Hpow w Dw). unfold conv. cbn [bat hei wid]. rewrite !conv_len_same.
    apply do_Some. eexists. split; [apply concat_iff; cbn [bat hei wid]; split; [tauto|reflexivity]|]. cbn [bat hei wid cha].
    apply check_Some. split; [apply Nat.eqb_eq; lia|]. apply do_Some. eexists.
    split; [apply resnet_iff; cbn [bat]; split; [exact Htf|split; [split; [exact Hg|exact Hgd]|reflexivity]]|]. reflexivity.
Qed.
