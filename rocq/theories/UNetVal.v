(** The values computed by fbs/nn/unet.py, with arbitrary parameters.  UNet.v has the shapes.
    Simplifications: numbers are reals, so the dtype conversions are left out; a NaN in the time
    embedding (dim = 2, see Nets.v) is treated as an exception. *)
From Coq Require Import Reals List Lia Lra Bool PeanoNat Psatz.
From Verif Require Import Base Nets UNet.
Import ListNotations.
Open Scope R_scope.

Notation tensor := (arr4 R).
Definition shp (x : tensor) : shape := Shape (sb x) (sh x) (sw x) (sc x).

(** ** Layers of flax *)

(** the entries of a kernel that one output channel uses *)
Definition taps (k cin : nat) : list (nat * nat * nat) := list_prod (list_prod (seq 0 k) (seq 0 k)) (seq 0 cin).
(** the image with [p] zeros around it *)
Definition pad (p : nat) (x : tensor) (b i j c : nat) : R :=
  if ((p <=? i) && (i - p <? sh x) && (p <=? j) && (j - p <? sw x))%nat then dat x b (i - p) (j - p) c else 0.
(** nn.Conv(features, kernel_size=(k, k), strides=(s, s), padding=p) *)
Definition conv_val (K : nat -> nat -> nat -> nat -> R) (bias : nat -> R) (features k s p : nat) (x : tensor) : tensor :=
  Arr4 (sb x) (conv_len (sh x) k s p) (conv_len (sw x) k s p) features
    (fun b i j o => Rsum (map (fun '(di, dj, c) => K di dj c o * pad p x b (i * s + di) (j * s + dj) c) (taps k (sc x))) + bias o).

(** (a - mean) / sqrt(var + eps) in flax's normalisation layers; the variance is the mean of the
    squares less the square of the mean, never below zero *)
Definition normed (eps : R) (l : list R) (a : R) : R :=
  (a - Rmean l) / sqrt (Rmax 0 (Rmean (map (fun z => z * z) l) - Rmean l * Rmean l) + eps).
(** the channels [g * gs, ..., (g + 1) * gs - 1] of one element of the batch *)
Definition group_values (x : tensor) (b g gs : nat) : list R :=
  map (fun '(i, j, c) => dat x b i j (g * gs + c)%nat) (list_prod (list_prod (seq 0 (sh x)) (seq 0 (sw x))) (seq 0 gs)).
(** nn.GroupNorm(num_groups), epsilon 1e-6 *)
Definition group_norm_val (scale bias : nat -> R) (groups : nat) (x : tensor) : option tensor :=
  check ((1 <=? groups) && (sc x mod groups =? 0))%nat
    (let gs := (sc x / groups)%nat in
     Some (Arr4 (sb x) (sh x) (sw x) (sc x) (fun b i j c => normed (/ 10 ^ 6) (group_values x b (c / gs) gs) (dat x b i j c) * scale c + bias c))).
(** nn.LayerNorm(epsilon=1e-5, use_bias=False) *)
Definition layer_norm_val (scale : nat -> R) (x : tensor) : tensor :=
  Arr4 (sb x) (sh x) (sw x) (sc x) (fun b i j c => normed (/ 10 ^ 5) (map (dat x b i j) (seq 0 (sc x))) (dat x b i j c) * scale c).
(** nn.Dense *)
Definition dense_val (K : nat -> nat -> R) (bias : nat -> R) (n : nat) (v : nat -> R) : nat -> R :=
  fun o => Rsum (map (fun i => v i * K i o) (seq 0 n)) + bias o.
Definition swish (a : R) : R := a * / (1 + exp (- a)).
(** approximate=True is the default *)
Definition gelu (a : R) : R := a / 2 * (1 + tanh (sqrt (2 / PI) * (a + 44715 / 10 ^ 6 * a ^ 3))).
Definition tmap (f : R -> R) (x : tensor) : tensor := Arr4 (sb x) (sh x) (sw x) (sc x) (fun b i j c => f (dat x b i j c)).
Definition tadd (x y : tensor) : option tensor :=
  check (shape_eqb (shp x) (shp y)) (Some (Arr4 (sb x) (sh x) (sw x) (sc x) (fun b i j c => dat x b i j c + dat y b i j c))).
(** jnp.concatenate([x, y], axis=-1) *)
Definition tconcat (x y : tensor) : option tensor :=
  check ((sb x =? sb y) && (sh x =? sh y) && (sw x =? sw y))%nat
    (Some (Arr4 (sb x) (sh x) (sw x) (sc x + sc y) (fun b i j c => if Nat.ltb c (sc x) then dat x b i j c else dat y b i j (c - sc x)%nat))).
(** jax.image.resize(x, (B, 2H, 2W, C), 'linear'): triangle weights around (i + 1/2)/2 - 1/2, divided by their sum *)
Definition tri (i k : nat) : R := Rmax 0 (1 - Rabs ((INR i + / 2) / 2 - / 2 - INR k)).
Definition resize_weight (n i k : nat) : R := tri i k / Rsum (map (tri i) (seq 0 n)).
Definition resize2 (x : tensor) : tensor :=
  Arr4 (sb x) (sh x * 2) (sw x * 2) (sc x)
    (fun b i j c => Rsum (map (fun k => resize_weight (sh x) i k * Rsum (map (fun l => resize_weight (sw x) j l * dat x b k l c) (seq 0 (sw x)))) (seq 0 (sh x)))).

(** ** Parameters: every module has its own path *)
Record params := Params {
  kernel : list nat -> nat -> nat -> nat -> nat -> R; cbias : list nat -> nat -> R;
  nscale : list nat -> nat -> R; nbias : list nat -> nat -> R;
  dkernel : list nat -> nat -> nat -> R; dbias : list nat -> nat -> R }.

Definition conv_layer (P : params) (path : list nat) (features k s p : nat) : tensor -> tensor := conv_val (kernel P path) (cbias P path) features k s p.

(** WeightStandardizedConv, lines 77-124: mean and variance over all axes but the last, eps = 1e-5 *)
Definition ws_eps : R := / 10 ^ 5.
Definition kernel_mean (k cin : nat) (K : nat -> nat -> nat -> nat -> R) (o : nat) : R := Rmean (map (fun '(di, dj, c) => K di dj c o) (taps k cin)).
Definition kernel_var (k cin : nat) (K : nat -> nat -> nat -> nat -> R) (o : nat) : R :=
  Rmean (map (fun '(di, dj, c) => (K di dj c o - kernel_mean k cin K o) * (K di dj c o - kernel_mean k cin K o)) (taps k cin)).
Definition standardized (k cin : nat) (K : nat -> nat -> nat -> nat -> R) : nat -> nat -> nat -> nat -> R :=
  fun di dj c o => (K di dj c o - kernel_mean k cin K o) / sqrt (kernel_var k cin K o + ws_eps).
Definition ws_conv (K : nat -> nat -> nat -> nat -> R) (bias : nat -> R) (features k s p : nat) (x : tensor) : tensor :=
  conv_val (standardized k (sc x) K) bias features k s p x.

(** ** Blocks.  The time embedding: its batch size, its length and its values *)
Record temb := Temb { tbat : nat; tlen : nat; tval : nat -> nat -> R }.

(** Downsample, lines 43-53 *)
Definition downsample_val (P : params) (path : list nat) (dim : nat) (x : tensor) : option tensor :=
  let y := conv_layer P path dim 4 2 1 x in
  check (shape_eqb (shp y) (Shape (sb x) (sh x / 2) (sw x / 2) dim)) (Some y).
(** Upsample, lines 56-75 *)
Definition upsample_val (P : params) (path : list nat) (m : method) (dim : nat) (x : tensor) : option tensor :=
  do y <- match m with
          | Resize => Some (conv_layer P (path ++ [0])%nat dim 3 1 1 (resize2 x))
          | Pixel_shuffle => do z <- pixel_shuffle 2 (conv_layer P (path ++ [0])%nat (sc x * 4) 3 1 1 x); Some (conv_layer P (path ++ [1])%nat dim 3 1 1 z)
          | Other_method => None
          end;
  check (shape_eqb (shp y) (Shape (sb x) (sh x * 2) (sw x * 2) dim)) (Some y).
(** ResnetBlock, lines 127-176; [h * (1 + scale) + shift] with the two halves of the time features *)
Definition time_shift (P : params) (path : list nat) (dim : nat) (te : temb) (h : tensor) : tensor :=
  let e := fun b => dense_val (dkernel P path) (dbias P path) (tlen te) (fun i => swish (tval te b i)) in
  Arr4 (sb h) (sh h) (sw h) (sc h) (fun b i j c => dat h b i j c * (1 + e b c) + e b (dim + c)%nat).
Definition resnet_val (P : params) (path : list nat) (dim groups : nat) (te : temb) (x : tensor) : option tensor :=
  check (tbat te =? sb x)%nat (
  let h := ws_conv (kernel P (path ++ [0])%nat) (cbias P (path ++ [0])%nat) dim 3 1 1 x in
  do h <- group_norm_val (nscale P (path ++ [1])%nat) (nbias P (path ++ [1])%nat) groups h;
  let h := time_shift P (path ++ [2])%nat dim te h in
  let h := tmap swish h in
  let h := ws_conv (kernel P (path ++ [3])%nat) (cbias P (path ++ [3])%nat) dim 3 1 1 h in
  do h <- group_norm_val (nscale P (path ++ [4])%nat) (nbias P (path ++ [4])%nat) groups h;
  let h := tmap swish h in
  let x := if (sc x =? dim)%nat then x else conv_layer P (path ++ [5])%nat dim 1 1 0 x in
  tadd x h).
(** Attention and LinearAttention, lines 179-256, heads = 4, dim_head = 32; Nets.v has what happens
    to one element of the batch between the convolutions *)
Definition attn_val (P : params) (path : list nat) (linear : bool) (x : tensor) : option tensor :=
  check (1 <=? sh x * sw x)%nat (
  let qkv := conv_val (kernel P (path ++ [0])%nat) (fun _ => 0) (32 * 4 * 3) 1 1 0 x in
  let out := Arr4 (sb x) (sh x) (sw x) (32 * 4) (fun b =>
    if linear then linear_attention (sh x) (sw x) 4 32 (dat qkv b) else attention (/ 10 ^ 12) 10 (sh x) (sw x) 4 32 (dat qkv b)) in
  let out := conv_layer P (path ++ [1])%nat (sc x) 1 1 0 out in
  Some (if linear then layer_norm_val (nscale P (path ++ [2])%nat) out else out)).
(** AttnBlock, lines 259-276 *)
Definition attn_block_val (P : params) (path : list nat) (linear : bool) (x : tensor) : option tensor :=
  do out <- attn_val P (path ++ [1])%nat linear (layer_norm_val (nscale P (path ++ [0])%nat) x); tadd out x.

(** ** UNet.__call__, lines 279-378, as the list of its steps on [h] and the stack [hs] *)
Inductive step :=
| Layer (L : temb -> tensor -> option tensor)   (* h = L(h) *)
| Push                                          (* hs.append(h) *)
| PopCat.                                       (* h = jnp.concatenate([h, hs.pop()], axis=-1) *)
Definition state := (tensor * list tensor)%type.
Definition run1 (te : temb) (s : step) (st : state) : option state :=
  match s with
  | Layer L => do h <- L te (fst st); Some (h, snd st)
  | Push => Some (fst st, fst st :: snd st)
  | PopCat => do p <- pop (snd st); do h <- tconcat (fst st) (fst p); Some (h, snd p)
  end.
Fixpoint run (te : temb) (l : list step) (st : state) : option state :=
  match l with [] => Some st | s :: l' => do st' <- run1 te s st; run te l' st' end.

Definition s_conv P path f k s p : step := Layer (fun _ x => Some (conv_layer P path f k s p x)).
Definition s_resnet P path dim groups : step := Layer (fun te x => resnet_val P path dim groups te x).
(** with [dim=h.shape[-1]] *)
Definition s_resnet_same P path groups : step := Layer (fun te x => resnet_val P path (sc x) groups te x).
Definition s_attn P path linear : step := Layer (fun _ x => attn_block_val P path linear x).
Definition s_assert (n : nat) : step := Layer (fun _ x => check (sc x =? n)%nat (Some x)).

(** lines 311-325.  In the second resnet block [dim_in] is the number of channels before the first one: the same. *)
Fixpoint down_steps (P : params) (dim groups ind : nat) (mults : list nat) : list step :=
  match mults with
  | [] => []
  | m :: rest =>
      [s_resnet_same P [1; ind; 0]%nat groups; Push; s_resnet_same P [1; ind; 1]%nat groups; s_attn P [1; ind; 2]%nat true; Push] ++
      match rest with
      | [] => []
      | _ => Layer (fun _ => downsample_val P [1; ind; 3]%nat (dim * m)) :: down_steps P dim groups (S ind) rest
      end
  end.
(** lines 340-361; [rmults] is the list of multipliers, last first *)
Fixpoint up_steps (P : params) (dim init_dim groups : nat) (mth : method) (rmults : list nat) : list step :=
  match rmults with
  | [] => []
  | k :: rest =>
      let dim_in := (dim * k)%nat in
      let dim_out := match rest with k' :: _ => (dim * k')%nat | [] => init_dim end in
      let ind := length rest in
      [s_assert dim_in; PopCat; s_assert (dim_in + dim_out); s_resnet P [3; ind; 0]%nat dim_in groups;
       PopCat; s_assert (dim_in + dim_out); s_resnet P [3; ind; 1]%nat dim_in groups; s_attn P [3; ind; 2]%nat true; s_assert dim_in] ++
      match rest with
      | [] => []
      | _ => Layer (fun _ => upsample_val P [3; ind; 3]%nat mth dim_out) :: up_steps P dim init_dim groups mth rest
      end
  end.
Definition unet_steps (P : params) (dim init_dim out_dim groups : nat) (mults : list nat) (mth : method) (mid_dim : nat) : list step :=
  [s_conv P [0; 0]%nat init_dim 7 1 3; Push] ++ down_steps P dim groups 0 mults ++
  [s_conv P [2; 0]%nat mid_dim 3 1 1; s_resnet P [2; 1]%nat mid_dim groups; s_attn P [2; 2]%nat false; s_resnet P [2; 3]%nat mid_dim groups] ++
  up_steps P dim init_dim groups mth (rev mults) ++
  [s_conv P [4; 0]%nat init_dim 3 1 1; PopCat; s_assert (init_dim * 2); s_resnet P [4; 1]%nat dim groups; s_conv P [4; 2]%nat out_dim 1 1 0].

(** lines 301-307: the time embedding, through two dense layers *)
Fixpoint no_nan (l : list (option R)) : option (list R) :=
  match l with
  | [] => Some []
  | Some a :: l' => match no_nan l' with Some r => Some (a :: r) | None => None end
  | None :: _ => None
  end.
Definition embed (dt : R) (dim : nat) (t : R) : option (list R) := do e <- sinusoidal_embedding (t / dt) dim (10 ^ 4); no_nan e.
Fixpoint embed_all (dt : R) (dim : nat) (ts : list R) : option (list (list R)) :=
  match ts with
  | [] => Some []
  | t :: ts' => do e <- embed dt dim t; do r <- embed_all dt dim ts'; Some (e :: r)
  end.
Definition time_mlp (P : params) (dim : nat) (e : list R) : nat -> R :=
  let h := dense_val (dkernel P [5; 0]%nat) (dbias P [5; 0]%nat) dim (fun i => nth i e 0) in
  dense_val (dkernel P [5; 1]%nat) (dbias P [5; 1]%nat) (dim * 4) (fun i => gelu (h i)).
Inductive time_arg := At (t : R) | Each (ts : list R).
(** an odd [dim] raises while the function is traced, also for an empty vector *)
Definition time_embedding (P : params) (dt : R) (dim B : nat) (t : time_arg) : option temb :=
  check (dim mod 2 =? 0)%nat
  match t with
  | At t => do e <- embed dt dim t; Some (Temb B (dim * 4) (fun _ => time_mlp P dim e))
  | Each ts => do es <- embed_all dt dim ts; Some (Temb (length ts) (dim * 4) (fun b => time_mlp P dim (nth b es [])))
  end.

(** the arguments: one image ([x.ndim < 4]) or a batch; the result is [out[0]] when B = 1 *)
Inductive imgs := Img (x : tensor) | Imgs (x : tensor).
Definition unet_val (P : params) (dt : R) (dim init_dim out_dim groups : nat) (mults : list nat) (mth : method) (x : imgs) (t : time_arg) : option imgs :=
  let x := match x with Img x => Arr4 1 (sh x) (sw x) (sc x) (fun _ => dat x 0%nat) | Imgs x => x end in
  do te <- time_embedding P dt dim (sb x) t;
  do mid_dim <- match rev mults with [] => None | k :: _ => Some (dim * k)%nat end;
  do st <- run te (unet_steps P dim init_dim out_dim groups mults mth mid_dim) (x, []);
  Some (if (sb x =? 1)%nat then Img (fst st) else Imgs (fst st)).
