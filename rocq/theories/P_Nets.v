(** Properties of the network building blocks. *)
From Coq Require Import Reals List Lia Lra.
From Verif Require Import Base Nets UNet NetShapes.
Import ListNotations.
Open Scope R_scope.

(** ** C54 *)
Theorem C54_pixel_shuffle : forall (A : Type) s c (x : arr4 A), (1 <= s -> sc x = s * s * c ->
  exists y, pixel_shuffle s x = Some y /\ sb y = sb x /\ sh y = sh x * s /\ sw y = sw x * s /\ sc y = c /\
    (forall q, in_shape y q -> in_shape x (shuffle_source s c q) /\ entry y q = entry x (shuffle_source s c q)) /\
    (forall q, in_shape x q -> in_shape y (shuffle_target s c q) /\ entry x q = entry y (shuffle_target s c q)) /\
    (forall q, in_shape y q -> shuffle_target s c (shuffle_source s c q) = q) /\
    (forall q, in_shape x q -> shuffle_source s c (shuffle_target s c q) = q))%nat.
Proof. exact @pixel_shuffle_spec. Qed.
Print Assumptions C54_pixel_shuffle.

Theorem C54_invertible : forall (A : Type) s c (x x' y y' : arr4 A), (1 <= s -> sc x = s * s * c ->
  sb x = sb x' -> sh x = sh x' -> sw x = sw x' -> sc x = sc x' ->
  pixel_shuffle s x = Some y -> pixel_shuffle s x' = Some y' ->
  (forall q, in_shape y q -> entry y q = entry y' q) -> forall q, in_shape x q -> entry x q = entry x' q)%nat.
Proof. exact @pixel_shuffle_injective. Qed.
Print Assumptions C54_invertible.

Theorem C54_other_channels_rejected : forall (A : Type) s (x : arr4 A), (sc x mod (s * s) <> 0)%nat -> pixel_shuffle s x = None.
Proof. exact @pixel_shuffle_error. Qed.
Print Assumptions C54_other_channels_rejected.

Example C54_instance : exists y, pixel_shuffle 2 (Arr4 1 1 2 8 (fun _ i j k => 100 * i + 10 * j + k)%nat) = Some y /\
  map (fun q => entry y q) [(0, 0, 0, 0); (0, 0, 0, 1); (0, 0, 1, 0); (0, 1, 0, 0); (0, 1, 3, 1)]%nat = [0; 1; 2; 4; 17]%nat.
Proof. eexists. split; reflexivity. Qed.

(** ** C77: the torch operation, against which the test compares *)
Theorem C77_torch_one_channel : forall (A : Type) s (x y : arr4 A) q, (1 <= s -> sc x = s * s ->
  pixel_shuffle s x = Some y -> in_shape y q -> entry y q = torch_entry s x q)%nat.
Proof. exact @torch_one_channel. Qed.
Print Assumptions C77_torch_one_channel.

Theorem C77_more_channels_refuted : forall s c, (2 <= s -> 2 <= c ->
  exists (x : arr4 nat) y q, sc x = s * s * c /\ pixel_shuffle s x = Some y /\ in_shape y q /\ entry y q <> torch_entry s x q)%nat.
Proof. exact torch_more_channels. Qed.
Print Assumptions C77_more_channels_refuted.

(** Two channels: entry (0, 0, 0, 1) of the result is entry 1 of the input, torch takes entry 4. *)
Example C77_instance : let x := Arr4 1 1 1 8 (fun _ _ _ k => k) in exists y, pixel_shuffle 2 x = Some y /\ in_shape y (0, 0, 0, 1)%nat /\
  entry y (0, 0, 0, 1)%nat = 1%nat /\ torch_entry 2 x (0, 0, 0, 1)%nat = 4%nat.
Proof. cbv zeta. eexists. split; [reflexivity|]. split; [cbn; lia|]. split; reflexivity. Qed.

(** ** C55 *)
Theorem C55_embedding : forall t n P, (2 <= n)%nat -> 0 < P ->
  exists l, sinusoidal_embedding t (2 * n) P = Some (map Some l) /\ length l = (2 * n)%nat /\
    Forall (fun v => -1 <= v <= 1) l /\
    (forall i, (i < n)%nat -> (nth i l 0) ^ 2 + (nth (n + i) l 0) ^ 2 = 1) /\
    nth 0 l 0 = sin t /\ nth n l 0 = cos t /\ nth (n - 1) l 0 = sin (t / P) /\ nth (n + (n - 1)) l 0 = cos (t / P) /\
    exists f, (forall i, (i < n)%nat -> nth i l 0 = sin (t * f i) /\ nth (n + i) l 0 = cos (t * f i)) /\
      f 0%nat = 1 /\ f (n - 1)%nat = / P /\ forall i, f (S (S i)) * f i = f (S i) * f (S i).
Proof. exact sinusoidal_spec. Qed.
Print Assumptions C55_embedding.

Theorem C55_injective : forall t t' n P, (2 <= n)%nat -> 0 < P -> Rabs (t - t') < 2 * PI * P ->
  sinusoidal_embedding t (2 * n) P = sinusoidal_embedding t' (2 * n) P -> t = t'.
Proof. exact sinusoidal_injective. Qed.
Print Assumptions C55_injective.

Theorem C55_odd_raises : forall t n P, (n mod 2 = 1)%nat -> sinusoidal_embedding t n P = None.
Proof. exact sinusoidal_odd. Qed.
Print Assumptions C55_odd_raises.

(** Two output dimensions, outside the claim: not a number. *)
Theorem C55_two_dimensions_refuted : forall t P, sinusoidal_embedding t 2 P = Some [None; None].
Proof. exact sinusoidal_two. Qed.
Print Assumptions C55_two_dimensions_refuted.

Example C55_instance : Rabs (3 - 1000) < 2 * PI * 10000 /\ (2 <= 32)%nat /\ sinusoidal_embedding 1 7 10000 = None.
Proof.
  split; [|split; [lia|reflexivity]]. pose proof PI_RGT_0. pose proof PI2_1. rewrite Rabs_left by lra. unfold PI2 in *. lra.
Qed.

(** ** C82: vectors of times *)
Theorem C82_other_lengths_refuted : forall t n P, (2 <= n)%nat -> length t <> 1%nat -> length t <> n -> sinusoidal_embedding_vec t (2 * n) P = None.
Proof. exact sinusoidal_vec_error. Qed.
Print Assumptions C82_other_lengths_refuted.

Theorem C82_mixed_times_refuted : forall t n P, (2 <= n)%nat -> length t = n ->
  sinusoidal_embedding_vec t (2 * n) P =
  Some (map Some (map (fun i => sin (nth i t 0 * freq P n i)) (seq 0 n) ++ map (fun i => cos (nth i t 0 * freq P n i)) (seq 0 n))).
Proof. exact sinusoidal_vec_mixes. Qed.
Print Assumptions C82_mixed_times_refuted.

(** Times 1 and 2: the first half of the embedding of time 1 is combined with the second half of that of time 2. *)
Example C82_instance : sinusoidal_embedding_vec [1; 2; 3] 4 100 = None /\
  sinusoidal_embedding_vec [1; 2] 4 100 = Some (map Some [sin (1 * freq 100 2 0); sin (2 * freq 100 2 1); cos (1 * freq 100 2 0); cos (2 * freq 100 2 1)]).
Proof.
  split.
  - apply (C82_other_lengths_refuted [1; 2; 3] 2 100); cbn; lia.
  - exact (C82_mixed_times_refuted [1; 2] 2 100 ltac:(lia) eq_refl).
Qed.

(** ** C56 *)
Theorem C56_unet : forall dim init_dim out_dim groups mults m x t out, (1 <= height_of x -> 1 <= width_of x ->
  (unet dim init_dim out_dim groups mults m x t = Some out <->
   mults <> [] /\ divides 2 dim /\ time_fits (batch_of x) t /\ (2 <= length mults -> method_ok m) /\
   1 <= groups /\ divides groups init_dim /\ divides groups dim /\ Forall (fun k => divides groups (dim * k)) mults /\
   divides (2 ^ (length mults - 1)) (height_of x) /\ divides (2 ^ (length mults - 1)) (width_of x) /\
   out = if batch_of x =? 1 then One (height_of x) (width_of x) out_dim
         else Batch (batch_of x) (height_of x) (width_of x) out_dim))%nat.
Proof. exact unet_iff. Qed.
Print Assumptions C56_unet.

Example C56_instance :
  unet 64 64 1 8 [1; 2; 4]%nat Pixel_shuffle (Batch 2 28 28 1) (Time_vector 2) = Some (Batch 2 28 28 1) /\
  unet 64 64 3 8 [1; 2; 4]%nat Resize (One 64 64 3) Scalar_time = Some (One 64 64 3) /\
  unet 64 64 1 8 [1; 2; 4; 8]%nat Pixel_shuffle (Batch 2 28 28 1) (Time_vector 2) = None.
Proof.
  split; [|split].
  - apply C56_unet; cbn; try lia. repeat split; try (exists 32%nat; reflexivity); try (exists 7%nat; reflexivity); try (exists 8%nat; reflexivity); try lia; try discriminate.
    repeat constructor; [exists 8%nat|exists 16%nat|exists 32%nat]; reflexivity.
  - apply C56_unet; cbn; try lia. repeat split; try (exists 32%nat; reflexivity); try (exists 16%nat; reflexivity); try (exists 8%nat; reflexivity); try lia; try discriminate.
    repeat constructor; [exists 8%nat|exists 16%nat|exists 32%nat]; reflexivity.
  - match goal with |- ?u = None => destruct u as [o|] eqn:E; [|reflexivity] end.
    apply C56_unet in E; [|cbn; lia|cbn; lia]. destruct E as (_ & _ & _ & _ & _ & _ & _ & _ & [q Hq] & _). cbn in Hq. lia.
Qed.

(** ** C57 *)
Theorem C57_closed_form : forall start every decay e0 p n, (1 <= every)%nat ->
  ema_run start every decay e0 p n =
  Some (geometric_average decay (if (Nat.min n start =? 0)%nat then e0 else p (Nat.min n start - 1)%nat) (map p (averaged start every n))).
Proof. exact ema_closed. Qed.
Print Assumptions C57_closed_form.

Theorem C57_before_start : forall start every decay e0 p n, (n < start)%nat -> ema_run start every decay e0 p (S n) = Some (p n).
Proof. exact ema_before. Qed.
Print Assumptions C57_before_start.

Theorem C57_step : forall start every decay e0 p n e, (1 <= every)%nat -> (start <= n)%nat -> ema_run start every decay e0 p n = Some e ->
  ema_run start every decay e0 p (S n) = Some (if (n mod every =? 0)%nat then decay * e + (1 - decay) * p n else e).
Proof. exact ema_step. Qed.
Print Assumptions C57_step.

Theorem C57_range : forall start every decay e0 p n lo hi, (1 <= every)%nat -> 0 <= decay <= 1 ->
  ((start = 0 \/ n = 0)%nat -> lo <= e0 <= hi) -> (forall i, (i < n)%nat -> lo <= p i <= hi) ->
  exists e, ema_run start every decay e0 p n = Some e /\ lo <= e <= hi.
Proof. exact ema_range. Qed.
Print Assumptions C57_range.

Theorem C57_zero_every_raises : forall start decay e0 p n, (start < n)%nat -> ema_run start 0 decay e0 p n = None.
Proof. exact ema_zero_every. Qed.
Print Assumptions C57_zero_every_raises.

Example C57_instance : averaged 3 2 9 = [4; 6; 8]%nat /\ ema_run 1 1 (1/2) 7 INR 3 = Some (5/4).
Proof. split; [reflexivity|]. cbn. unfold ema_update. f_equal. lra. Qed.

(** ** C78: the average kept by the training script *)
Theorem C78_last_epoch_only_refuted : forall start every decay e0 p nsteps i, (1 <= start)%nat -> (1 <= nsteps)%nat -> (1 <= every)%nat ->
  ema_train start every decay e0 p nsteps (S i) = ema_run start every decay e0 (p i) nsteps.
Proof. exact ema_train_last_epoch. Qed.
Print Assumptions C78_last_epoch_only_refuted.

Theorem C78_short_epochs_refuted : forall every decay e0 p nsteps i, (1 <= nsteps <= 300)%nat -> (1 <= every)%nat ->
  ema_train 300 every decay e0 p nsteps (S i) = Some (p i (nsteps - 1)%nat).
Proof. exact ema_train_short_epochs. Qed.
Print Assumptions C78_short_epochs_refuted.

(** Two epochs of two steps with parameters 1, 2 and then 3, 4: the average kept is the last parameter. *)
Example C78_instance : ema_train 300 10 (99 / 100) 0 (fun e j => INR (2 * e + j + 1)) 2 2 = Some 4.
Proof. rewrite C78_short_epochs_refuted by lia. f_equal. cbn. lra. Qed.

(** ** C58 *)
Theorem C58_convex : forall eps scale H W heads dim_head qkv x y h,
  (x < H)%nat -> (y < W)%nat -> (h < heads)%nat -> (1 <= dim_head)%nat ->
  convex_of (H * W) dim_head
    (fun j d => qkv (j / W)%nat (j mod W)%nat (2 * (dim_head * heads) + h * dim_head + d)%nat)
    (fun d => attention eps scale H W heads dim_head qkv x y (h * dim_head + d)%nat).
Proof. exact attention_convex. Qed.
Print Assumptions C58_convex.

Theorem C58_between : forall npos dim_head v out lo hi d, convex_of npos dim_head v out -> (d < dim_head)%nat ->
  (forall j, (j < npos)%nat -> lo <= v j d <= hi) -> lo <= out d <= hi.
Proof. exact convex_between. Qed.
Print Assumptions C58_between.

Theorem C58_softmax : forall l i, l <> [] -> (i < length l)%nat -> nth i (softmax l) 0 = exp (nth i l 0) / Rsum (map exp l).
Proof. exact softmax_nth. Qed.
Print Assumptions C58_softmax.

Theorem C58_norm_over_positions : forall eps npos t h d, 0 < eps ->
  eps <= sqrt (Rsum (map (fun m => (t m h d) ^ 2) (seq 0 npos))) ->
  Rsum (map (fun n => (l2norm eps npos t n h d) ^ 2) (seq 0 npos)) = 1.
Proof. exact l2norm_over_positions. Qed.
Print Assumptions C58_norm_over_positions.

(** Queries and keys are not unit vectors. *)
Theorem C58_unit_vectors_refuted : forall eps npos dim_head t h, 0 < eps -> npos <> dim_head ->
  (forall d, (d < dim_head)%nat -> eps <= sqrt (Rsum (map (fun m => (t m h d) ^ 2) (seq 0 npos)))) ->
  ~ (forall n, (n < npos)%nat -> Rsum (map (fun d => (l2norm eps npos t n h d) ^ 2) (seq 0 dim_head)) = 1).
Proof. exact l2norm_not_unit. Qed.
Print Assumptions C58_unit_vectors_refuted.

Example C58_instance : let t := fun _ _ _ : nat => 1 in
  forall d : nat, (d < 32)%nat -> 1 / 1000 <= sqrt (Rsum (map (fun m => (t m 0%nat d) ^ 2) (seq 0 49))).
Proof.
  intros t d _. apply Rle_trans with 1; [lra|]. rewrite <- sqrt_1 at 1. apply sqrt_le_1_alt. unfold t. rewrite Rsum_map_const, seq_length. apply (Rle_trans _ (INR 1 * 1 ^ 2)); [cbn; lra|]. apply Rmult_le_compat_r; [lra|]. apply le_INR. lia.
Qed.

(** ** C79 *)
Theorem C79_linear_attention : forall H W heads dim_head qkv x y h,
  (x < H)%nat -> (y < W)%nat -> (h < heads)%nat -> (1 <= dim_head)%nat ->
  convex_of (H * W) dim_head
    (fun j d => qkv (j / W)%nat (j mod W)%nat (2 * (dim_head * heads) + h * dim_head + d)%nat)
    (fun d => sqrt (INR dim_head) * INR (H * W) * linear_attention H W heads dim_head qkv x y (h * dim_head + d)%nat).
Proof. exact linear_attention_convex. Qed.
Print Assumptions C79_linear_attention.

(** On a single pixel with one channel per head the result is the value itself. *)
Example C79_instance : forall qkv, linear_attention 1 1 2 1 qkv 0 0 1 = qkv 0%nat 0%nat 5%nat.
Proof.
  intros qkv. destruct (C79_linear_attention 1 1 2 1 qkv 0 0 1) as (w & [_ Hw] & Hl & H); try lia.
  specialize (H 0%nat ltac:(lia)). destruct w as [|a [|b w]]; try discriminate Hl. cbn [Rsum] in Hw. rewrite Rplus_0_r in Hw. subst a.
  revert H. cbn - [linear_attention]. rewrite sqrt_1. intros H. etransitivity; [|etransitivity; [exact H|]]; ring.
Qed.

(** ** C80 *)
Theorem C80_default_network_refuted : forall embed_dim b d ds, make_simple_st_nn (d :: ds) b embed_dim = None.
Proof. exact make_simple_fails. Qed.
Print Assumptions C80_default_network_refuted.

Theorem C80_single_vector : forall embed_dim d, (2 <= d -> embed_dim mod 2 = 0 -> classic_mlp embed_dim [d] [] = Some [d])%nat.
Proof. exact classic_mlp_single. Qed.
Print Assumptions C80_single_vector.

Theorem C80_batch_of_times_refuted : forall embed_dim x b,
  (b <> 1 -> embed_dim / 2 <> 1 -> b <> embed_dim / 2 -> classic_mlp embed_dim x [b] = None)%nat.
Proof. exact classic_mlp_times_fail. Qed.
Print Assumptions C80_batch_of_times_refuted.

Theorem C80_auto_encoder_refuted : forall b d ds, mnist_auto_encoder (b :: d :: ds) [] = None.
Proof. exact mnist_auto_encoder_batch_fails. Qed.
Print Assumptions C80_auto_encoder_refuted.

Example C80_instance : classic_mlp 128 [3]%nat [] = Some [3]%nat /\ mnist_auto_encoder [1568]%nat [] = Some [1568]%nat.
Proof. split; reflexivity. Qed.

(** ** C81 *)
Theorem C81_pixel_shuffle_decoder : forall n, (2 <= n)%nat ->
  mnist_res_conv true [n; 28; 28]%nat = Some [n; 784]%nat /\ mnist_res_conv true [n; 784]%nat = Some [n; 784]%nat.
Proof. exact mnist_res_conv_batch. Qed.
Print Assumptions C81_pixel_shuffle_decoder.

Theorem C81_other_decoder_refuted : forall x, mnist_res_conv false x = None.
Proof. exact mnist_res_conv_other_decoder. Qed.
Print Assumptions C81_other_decoder_refuted.
