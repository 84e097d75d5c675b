(** Model of the corruption of images, fbs/data/images.py:10-127 and 413-421.

    An image of shape [(n1, n2, c)] is a function of three indices, looked at only for
    indices below [n1], [n2], [c]. *)
From Coq Require Import ZArith String.
From Verif Require Import Base Prog Images.
Open Scope nat_scope.

Definition image := nat -> nat -> nat -> R.

(** ** Nearest neighbour resizing *)

(** [jax.image.resize(x, ..., 'nearest')] from [m] to [n] along one axis: output index [i]
    reads input index floor((i + 0.5) * m / n) (exact arithmetic instead of float32). *)
Definition nearest (m n i : nat) : nat := (2 * i + 1) * m / (2 * n).

(** images.py:22-24: down to [int(w / ratio)] and back *)
Definition down_index (w ratio i : nat) : nat := nearest w (w / ratio) (nearest (w / ratio) w i).
Definition down (w h ratio : nat) (img : image) : image :=
  fun i j c => img (down_index w ratio i) (down_index h ratio j) c.

(** images.py:18-27.  [None]: an axis of the small image is empty (an error). *)
Definition ratios : list nat := [4; 8].
Definition downsample (k : key) (w h : nat) (img : image) : prog (option image) :=
  if existsb (fun r => (w / r =? 0) || (h / r =? 0)) ratios then Ret None
  else i <- choice_unif k (length ratios) ;; Ret (Some (down w h (nth i ratios 1) img)).

(** ** Random rectangle *)

(** Python slice bounds: [x[i:...]] on an axis of length [n]. *)
Definition slice_bound (n : nat) (i : Z) : Z :=
  if (i <? 0)%Z then Z.max 0 (i + Z.of_nat n) else Z.min i (Z.of_nat n).

(** images.py:61-62: [int(stride * i)] for [stride = (h - rectangle_size) / 3], truncated towards zero
    ((x / 3) * 3 = x in floating point, so that the exact quotient is the right model). *)
Definition starts (n rs : nat) : list Z :=
  map (fun i => Z.quot ((Z.of_nat n - Z.of_nat rs) * Z.of_nat i) 3) (seq 0 4).

(** images.py:64-66 *)
Definition in_slice (n rs : nat) (start : Z) (i : nat) : bool :=
  ((slice_bound n start <=? Z.of_nat i) && (Z.of_nat i <? slice_bound n (start + Z.of_nat rs)))%Z.
Definition rect_mask (h w rs : nat) (ij : Z * Z) : image :=
  fun i j _ => if in_slice h rs (fst ij) i && in_slice w rs (snd ij) j then 0%R else 1%R.

(** images.py:56-70 *)
Definition paint (k : key) (h w : nat) (img : image) (rs : nat) : prog image :=
  let masks := map (rect_mask h w rs) (list_prod (starts h rs) (starts w rs)) in
  i <- choice_unif k (length masks) ;;
  let m := nth i masks (fun _ _ _ => 1%R) in
  Ret (fun a b c => (img a b c * m a b c)%R).

(** ** Normalisation, images.py:413-421 *)

Open Scope R_scope.
Definition clip01 (x : R) : R :=
  let x := if Rlt_dec x 0 then 0 else x in if Rlt_dec 1 x then 1 else x.
Definition normalise_clip (img : image) : image := fun i j c => clip01 (img i j c).

(** The values of a channel, and their extremes. *)
Definition channel (n1 n2 : nat) (img : image) (c : nat) : list R :=
  map (fun p => img (fst p) (snd p) c) (list_prod (seq 0 n1) (seq 0 n2)).
Definition Rmin_list (l : list R) : R := match l with [] => 0 | x :: l' => fold_right Rmin x l' end.

(** method='norm': 0/0 is NaN, represented by [None]. *)
Definition normalise_norm (n1 n2 : nat) (img : image) : nat -> nat -> nat -> option R :=
  fun i j c =>
    let mn := Rmin_list (channel n1 n2 img c) in
    let mx := Rmax_list (channel n1 n2 img c) in
    if Req_EM_T mx mn then None else Some ((img i j c - mn) / (mx - mn)).

(** ** Random blur, images.py:29-54 *)

(** [jnp.linspace(-1, 1, n)] *)
Definition linspace11 (n i : nat) : R := match n with 1%nat => -1 | _ => -1 + 2 * INR i / INR (n - 1) end.
(** the kernel: the same for each pair of input and output channel *)
Definition blur_kernel (variance : R) (n a b : nat) : R :=
  exp (- (linspace11 n b) ^ 2 / variance) * exp (- (linspace11 n a) ^ 2 / variance).

(** [conv_general_dilated(img, kernel, (1, 1), 'SAME')]: zero padding [(n-1)/2] before. *)
Definition padded (n1 n2 pad : nat) (img : image) (i j c : nat) : R :=
  if ((pad <=? i) && (i <? pad + n1) && (pad <=? j) && (j <? pad + n2))%nat
  then img (i - pad)%nat (j - pad)%nat c else 0.
Definition conv_image (n1 n2 nc n : nat) (kernel : nat -> nat -> nat -> nat -> R) (img : image) : image :=
  fun i j o => Rsum (map (fun c => Rsum (map (fun a => Rsum (map (fun b =>
    padded n1 n2 ((n - 1) / 2) img (i + a)%nat (j + b)%nat c * kernel c o a b) (seq 0 n))) (seq 0 n))) (seq 0 nc)).

Definition conv (k : key) (n1 n2 nc : nat) (img : image) (n : nat) : prog (nat -> nat -> nat -> option R) :=
  Unif k 1 (fun us =>
    let variance := 0.1 + nth 0 us 0 * (5 - 0.1) in
    Ret (normalise_norm n1 n2 (conv_image n1 n2 nc n (fun _ _ a b => blur_kernel variance n a b) img))).

(** images.py:72-82.  [None]: an exception; inside an image [None] is NaN. *)
Definition some_image (img : image) : nat -> nat -> nat -> option R := fun i j c => Some (img i j c).
Definition corrupt (k : key) (task : string) (n1 n2 nc : nat) (img : image) :
  prog (option (nat -> nat -> nat -> option R)) :=
  if in_task "inpaint" task then
    match parse_int (last_field task) with
    | Some rs => y <- paint k n1 n2 img rs ;; Ret (Some (some_image y))
    | None => Ret None
    end
  else if in_task "deconv" task then
    match parse_int (last_field task) with
    | Some n => y <- conv k n1 n2 nc img n ;; Ret (Some y)
    | None => Ret None
    end
  else if in_task "supr" task then
    y <- downsample k n1 n2 img ;; Ret (match y with Some y => Some (some_image y) | None => None end)
  else Ret None.

(** images.py:84-99 *)
Definition image_sampler (k : key) (xs : list image) (task : string) (n1 n2 nc : nat) :
  prog (image * option (nat -> nat -> nat -> option R)) :=
  i <- choice_unif (split_key k 0) (length xs) ;;
  let x := nth i xs (fun _ _ _ => 0) in
  y <- corrupt (split_key k 1) task n1 n2 nc x ;; Ret (x, y).

(** images.py:102-116: a batch; the i-th image is corrupted with the i-th child key *)
Fixpoint corrupt_batch (k : key) (i : nat) (task : string) (n1 n2 nc : nat) (xs : list image) :
  prog (list (option (nat -> nat -> nat -> option R))) :=
  match xs with
  | [] => Ret []
  | x :: xs' => y <- corrupt (split_key k i) task n1 n2 nc x ;;
                ys <- corrupt_batch k (S i) task n1 n2 nc xs' ;; Ret (y :: ys)
  end.
Definition enumerate_images (k : key) (task : string) (n1 n2 nc : nat) (xs : list image) :
  prog (list image * option (list (option (nat -> nat -> nat -> option R)))) :=
  if String.eqb task "none" then Ret (xs, None)
  else ys <- corrupt_batch k 0 task n1 n2 nc xs ;; Ret (xs, Some ys).
