(** The values computed by the small networks of fbs/nn/models.py, with arbitrary parameters (NetShapes.v has shapes of two of them).
    Numbers are reals; the parameters are those made for the width of the input. *)
From Coq Require Import Reals List Lia Lra Bool PeanoNat Psatz.
From Verif Require Import Base Nets UNet UNetVal.
Import ListNotations.
Open Scope R_scope.

(** ** Arrays of at most two axes *)
Record rows := Rows { rn : nat; rd : nat; rv : nat -> nat -> R }.
Inductive arr := Scal (a : R) | Vect (d : nat) (v : nat -> R) | Table (x : rows).
Definition dims (x : arr) : list nat := match x with Scal _ => [] | Vect d _ => [d] | Table x => [rn x; rd x] end.
(** entry of the flattened array *)
Definition get (x : arr) (q : nat) : R := match x with Scal a => a | Vect _ v => v q | Table x => rv x (q / rd x) (q mod rd x) end.
(** nn.Dense, elementwise functions, broadcasting along the first axis, jnp.concatenate(axis=-1), jnp.squeeze *)
Definition rdense (P : params) (path : list nat) (features : nat) (x : rows) : rows :=
  Rows (rn x) features (fun b => dense_val (dkernel P path) (dbias P path) (rd x) (rv x b)).
Definition rmap (f : R -> R) (x : rows) : rows := Rows (rn x) (rd x) (fun b i => f (rv x b i)).
Definition bcast (m n : nat) : option nat := if (m =? n)%nat then Some m else if (m =? 1)%nat then Some n else if (n =? 1)%nat then Some m else None.
Definition pick (n b : nat) : nat := if (n =? 1)%nat then 0%nat else b.
Definition rbin (op : R -> R -> R) (x y : rows) : option rows :=
  check (rd x =? rd y)%nat (do n <- bcast (rn x) (rn y); Some (Rows n (rd x) (fun b i => op (rv x (pick (rn x) b) i) (rv y (pick (rn y) b) i)))).
Definition rconcat (x y : rows) : option rows :=
  check (rn x =? rn y)%nat (Some (Rows (rn x) (rd x + rd y) (fun b i => if Nat.ltb i (rd x) then rv x b i else rv y b (i - rd x)%nat))).
Definition rsqueeze (x : rows) : arr :=
  if (rn x =? 1)%nat then if (rd x =? 1)%nat then Scal (rv x 0%nat 0%nat) else Vect (rd x) (rv x 0%nat)
  else if (rd x =? 1)%nat then Vect (rn x) (fun b => rv x b 0%nat) else Table x.
Definition relu (a : R) : R := Rmax 0 a.
(** jnp.expand_dims(sinusoidal_embedding(t / dt, 32), 0) for a scalar time, else one row per time *)
Definition time_rows (dt : R) (dim : nat) (t : time_arg) : option rows :=
  match t with
  | At t => do e <- embed dt dim t; Some (Rows 1 dim (fun _ i => nth i e 0))
  | Each ts => do es <- embed_all dt dim ts; Some (Rows (length ts) dim (fun b i => nth i (nth b es []) 0))
  end.

(** ** CrescentMLP, lines 11-43 *)
(** _CrescentTimeBlock, lines 16-20 *)
Definition time_block (P : params) (path : list nat) (nfeatures : nat) (te : rows) : rows :=
  rdense P (path ++ [1])%nat nfeatures (rmap gelu (rdense P (path ++ [0])%nat nfeatures te)).
(** lines 37-41 *)
Fixpoint crescent_blocks (P : params) (ind : nat) (hiddens : list nat) (te x : rows) : option rows :=
  match hiddens with
  | [] => Some x
  | h :: hs =>
      do y <- rbin Rmult (rdense P [0; ind; 0]%nat h x) (time_block P [0; ind; 1]%nat h te);
      do z <- rbin Rplus y (time_block P [0; ind; 2]%nat h te);
      crescent_blocks P (S ind) hs te (rmap gelu z)
  end.
(** A vector of shape (d,) meets arrays of shape (n, h) in the first block: the same as one row.  [hiddens] is a class attribute. *)
Definition crescent_hiddens : list nat := [256; 256; 128; 64; 32; 16]%nat.
Definition crescent_val (P : params) (dt : R) (dim : nat) (hiddens : list nat) (x : arr) (t : time_arg) : option arr :=
  do te <- time_rows dt 32 t;
  do x0 <- match x with Scal _ => None | Vect d v => Some (Rows 1 d (fun _ => v)) | Table x => Some x end;
  do y <- crescent_blocks P 0 hiddens te x0;
  Some (rsqueeze (rdense P [1]%nat dim y)).

(** ** GMSBMLP, lines 63-114 (the lines that are not commented out) *)
Definition gmsb_rows (P : params) (dim : nat) (te x : rows) : option rows :=
  let te := rmap gelu (rdense P [0]%nat 32 te) in
  let x := rmap gelu (rdense P [1]%nat 16 x) in
  let x := rmap gelu (rdense P [2]%nat 32 x) in
  (* jnp.broadcast_to(time_emb, (x.shape[0], 32)) *)
  do te <- check ((rn te =? 1) || (rn te =? rn x))%nat (Some (Rows (rn x) 32 (fun b => rv te (pick (rn te) b))));
  do h <- rconcat x te;
  let h := rmap gelu (rdense P [3]%nat 64 h) in
  let h := rmap gelu (rdense P [4]%nat 16 h) in
  Some (rdense P [5]%nat dim h).
(** A vector: x.shape[0] is 32, the concatenation of arrays with one and two axes raises. *)
Definition gmsb_val (P : params) (dt : R) (dim : nat) (x : arr) (t : time_arg) : option arr :=
  do te <- time_rows dt 32 t;
  match x with Table x => do y <- gmsb_rows P dim te x; Some (Table y) | _ => None end.

(** ** ClassicMLP in make_simple_st_nn, lines 229-252, and MNISTAutoEncoder, lines 124-141: one vector and a scalar time (a batch raises, C80) *)
Definition vec_net (P : params) (embed_dim out : nat) (w1 w2 u1 u2 : nat) (zs : list nat) (d : nat) (x : nat -> R) (t : R) : option arr :=
  do e <- embed 1 embed_dim t;
  let x := rdense P [1]%nat w2 (rmap relu (rdense P [0]%nat w1 (Rows 1 d (fun _ => x)))) in
  let t := rdense P [3]%nat u2 (rmap relu (rdense P [2]%nat u1 (Rows 1 embed_dim (fun _ i => nth i e 0)))) in
  do z <- rconcat x t;
  let z := fst (fold_left (fun '(z, i) f => (rmap relu (rdense P [4; i]%nat f z), S i)) zs (z, 0%nat)) in
  Some (rsqueeze (rdense P [5]%nat out z)).
Definition classic_val (P : params) (embed_dim : nat) (x : arr) (t : R) : option arr :=
  match x with Vect d v => vec_net P embed_dim d 16 8 16 8 [32; 8]%nat d v t | _ => None end.
Definition autoencoder_val (P : params) (x : arr) (t : R) : option arr :=
  match x with Vect d v => vec_net P 128 (784 * 2) 128 32 64 32 [128; 256]%nat d v t | _ => None end.
