(** Model of the image restoration dataset of fbs/data/images.py: task strings, masks,
    [unpack]/[concat]. *)
From Coq Require Import Ascii String.
From Verif Require Import Base Prog.
Open Scope nat_scope.

(** ** Task strings *)

(** Python's [sub in task]. *)
Definition in_task (sub task : string) : bool :=
  match String.index 0 sub task with Some _ => true | None => false end.

(** Python's [task.split('-')[-1]]: the part after the last dash. *)
Fixpoint last_field_from (acc s : string) : string :=
  match s with
  | EmptyString => acc
  | String c s' => if Ascii.eqb c "-" then last_field_from EmptyString s'
                   else last_field_from (acc ++ String c EmptyString) s'
  end.
Definition last_field (s : string) : string := last_field_from EmptyString s.

(** Python's [int(s)] on non-empty strings of decimal digits; anything else is a [ValueError]
    (Python also accepts blanks, a sign and underscores, which is not modelled). *)
Definition digit (c : ascii) : option nat :=
  let n := nat_of_ascii c in if (48 <=? n) && (n <=? 57) then Some (n - 48) else None.
Fixpoint digits_from (acc : nat) (s : string) : option nat :=
  match s with
  | EmptyString => Some acc
  | String c s' => match digit c with Some d => digits_from (10 * acc + d) s' | None => None end
  end.
Definition parse_int (s : string) : option nat :=
  match s with EmptyString => None | _ => digits_from 0 s end.

(** ** Index arithmetic *)

(** [jnp.ravel_multi_index([i, j], (w, h), mode='clip')] *)
Definition ravel (w h : nat) (ij : nat * nat) : nat :=
  clip_index w (fst ij) * h + clip_index h (snd ij).

(** [range(0, n, step)], [step >= 1] *)
Definition range_step (n step : nat) : list nat :=
  map (fun k => k * step) (seq 0 ((n + step - 1) / step)).

Definition mem (i : nat) (l : list nat) : bool := existsb (Nat.eqb i) l.

(** [jnp.setdiff1d(a, b, assume_unique=True, size=size)]: the elements of [a] not in [b], in
    the order of [a], truncated to [size] or padded with zeros. *)
Definition setdiff1d (a b : list nat) (size : nat) : list nat :=
  let l := filter (fun i => negb (mem i b)) a in
  firstn size l ++ repeat 0 (size - length l).

(** Elementwise combination of two arrays of lengths equal or 1 (broadcasting); other
    lengths raise. *)
Definition broadcast2 {A B} (xs : list A) (ys : list B) : option (list (A * B)) :=
  if length xs =? length ys then Some (combine xs ys)
  else match xs, ys with
       | [x], _ => Some (map (fun y => (x, y)) ys)
       | _, [y] => Some (map (fun x => (x, y)) xs)
       | _, _ => None
       end.

(** A flat array of length [2 m] seen as an array of shape [(m, 2)]. *)
Fixpoint pairs (l : list nat) : list (nat * nat) :=
  match l with a :: b :: l' => (a, b) :: pairs l' | _ => [] end.

(** ** Masks (images.py:212-225); the fields which [unpack] and [concat] do not use are kept
    only for the inpainting mask. *)
Record mask := mk_mask { m_width : nat; m_height : nat; unobs_inds : list nat; obs_inds : list nat }.

(** images.py:258-282 [_gen_supr_mask].  [None] is an exception: rate 0, an empty image, or
    shapes that do not broadcast.  [int(img_w * img_h / rate ** 2)] is a natural division
    (exact as long as the product is below 2^53). *)
Definition supr_mask (w h rate : nat) (shifts : list (nat * nat)) : option mask :=
  let nblocks := w * h / (rate * rate) in
  let block_inds := list_prod (range_step w rate) (range_step h rate) in
  let all_inds := list_prod (seq 0 w) (seq 0 h) in
  match broadcast2 block_inds shifts with
  | None => None
  | Some bs =>
      let block := map (fun p => ravel w h (fst (fst p) + fst (snd p), snd (fst p) + snd (snd p))) bs in
      let all := map (ravel w h) all_inds in
      Some (mk_mask rate rate (setdiff1d all block (w * h - nblocks)) block)
  end.

Definition gen_supr_mask (k : key) (w h rate : nat) (random : bool) : prog (option mask) :=
  if (rate =? 0) || (w * h =? 0) then Ret None
  else let nblocks := w * h / (rate * rate) in
       if random then Rint k (2 * nblocks) rate (fun l => Ret (supr_mask w h rate (pairs l)))
       else Ret (supr_mask w h rate (repeat (rate / 2, rate / 2) nblocks)).

(** images.py:284-302 [_gen_inpaint_mask].  [None] is an exception: an empty window or image. *)
Definition inpaint_mask (w h width height shift : nat) : mask :=
  let rect_inds := list_prod (seq 0 width) (seq 0 height) in
  let all_inds := list_prod (seq 0 w) (seq 0 h) in
  let rect := map (fun p => ravel w h (fst p + shift, snd p + shift)) rect_inds in
  let all := map (ravel w h) all_inds in
  mk_mask width height rect (setdiff1d all rect (w * h - width * height)).

Definition gen_inpaint_mask (k : key) (w h width height : nat) : prog (option mask) :=
  let width := Nat.min width w in
  let height := Nat.min height h in
  if (width * height =? 0) || (w * h =? 0) then Ret None
  else let max_shift := Nat.min w h - Nat.max width height in
       Rint k 1 max_shift (fun l => Ret (Some (inpaint_mask w h width height (nth 0 l 0)))).

(** images.py:304-312 [gen_mask] *)
Definition gen_mask (k : key) (task : string) (w h : nat) (sr_random : bool) : prog (option mask) :=
  if in_task "inpaint" task then
    match parse_int (last_field task) with
    | Some s => gen_inpaint_mask k w h s s
    | None => Ret None
    end
  else if in_task "supr" task then
    match parse_int (last_field task) with
    | Some rate => gen_supr_mask k w h rate sr_random
    | None => Ret None
    end
  else Ret None.

(** images.py:234-246 [__init__]: the attribute [unobs_shape], channels left out.
    [int(w * h * (s ** 2 - 1) / s ** 2)]; division by zero raises. *)
Definition unobs_shape (task : string) (w h : nat) : option nat :=
  match parse_int (last_field task) with
  | None => None
  | Some s => if in_task "inpaint" task then Some (s * s)
              else if in_task "supr" task then
                if s =? 0 then None else Some (w * h * (s * s - 1) / (s * s))
              else None
  end.

(** ** Images: [w] rows of [h] pixels; a pixel is a vector of channels.  One image at a time
    (the code also maps over leading axes). *)

Section Pixels.
  Context {A : Type} (zero : A).

  (** [jnp.reshape(xy, (img_w * img_h, img_c))] and back *)
  Definition ravel_image (img : list (list A)) : list A := concat img.
  Definition unravel_image (w h : nat) (l : list A) : list (list A) :=
    map (fun i => firstn h (skipn (i * h) l)) (seq 0 w).

  (** [img.at[..., inds, :].set(x)], [length x = length inds] *)
  Definition scatter (img : list A) (inds : list nat) (x : list A) : list A :=
    fold_left (fun im p => set_nth (fst p) (snd p) im) (combine inds x) img.

  (** images.py:333-353 *)
  Definition unpack (xy : list (list A)) (m : mask) : list A * list A :=
    let l := ravel_image xy in (gather zero l (unobs_inds m), gather zero l (obs_inds m)).

  (** images.py:355-363 *)
  Definition concat_parts (w h : nat) (x y : list A) (m : mask) : list (list A) :=
    let img := repeat zero (w * h) in
    let img := scatter img (unobs_inds m) x in
    let img := scatter img (obs_inds m) y in
    unravel_image w h img.
End Pixels.

(** images.py:314-331 [sampler]: the true image, its observed part and the mask. *)
Definition restore_sampler {A} (zero : A) (xs : list (list (list A))) (n : nat) (task : string)
    (w h : nat) (sr_random : bool) (k : key) : prog (list (list A) * option (list A * mask)) :=
  i <- choice_unif (split_key k 0) n ;;
  m <- gen_mask (split_key k 1) task w h sr_random ;;
  let x := nth i xs [] in
  Ret (x, match m with Some m => Some (snd (unpack zero x m), m) | None => None end).

(** images.py:118-127 [Image.concat] (expand=False) and [Image.unpack]: concatenation and
    splitting along the channel axis. *)
Definition channel_concat {A} (x y : list (list (list A))) : list (list (list A)) :=
  map (fun r => map (fun p => fst p ++ snd p) (combine (fst r) (snd r))) (combine x y).
Definition channel_unpack {A} (c : nat) (xy : list (list (list A))) :
  list (list (list A)) * list (list (list A)) :=
  (map (map (firstn c)) xy, map (map (skipn c)) xy).
