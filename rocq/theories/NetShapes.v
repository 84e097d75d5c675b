(** Shapes in fbs/nn/models.py. *)
From Coq Require Import List Lia Arith Bool.
From Verif Require Import UNet.
Import ListNotations.
Open Scope nat_scope.

(** numpy broadcasting of two axis lengths and of two shapes (last axis first). *)
Definition broadcast_axis (a b : nat) : option nat :=
  if a =? b then Some a else if a =? 1 then Some b else if b =? 1 then Some a else None.
Fixpoint broadcast_rev (x y : list nat) : option (list nat) :=
  match x, y with
  | [], _ => Some y
  | _, [] => Some x
  | a :: x', b :: y' => do c <- broadcast_axis a b; do r <- broadcast_rev x' y'; Some (c :: r)
  end.
Definition broadcast_shapes (x y : list nat) : option (list nat) := do r <- broadcast_rev (rev x) (rev y); Some (rev r).

(** nn.Dense(features): acts on the last axis; fails on scalars. *)
Definition dense (features : nat) (x : list nat) : option (list nat) :=
  match rev x with [] => None | _ :: r => Some (rev r ++ [features]) end.

(** jnp.concatenate([x, y], axis=-1): same rank, same leading axes. *)
Definition list_eqb (x y : list nat) : bool := if list_eq_dec Nat.eq_dec x y then true else false.
Definition concat_last (x y : list nat) : option (list nat) :=
  match rev x, rev y with
  | a :: r, b :: r' => if list_eqb r r' then Some (rev r ++ [a + b]) else None
  | _, _ => None
  end.

(** jnp.squeeze *)
Definition squeeze (x : list nat) : list nat := filter (fun a => negb (a =? 1)) x.

(** sinusoidal_embedding, fbs/nn/base.py 44-77 *)
Definition embedding_shape (t : list nat) (out_dim : nat) : option (list nat) :=
  do e <- broadcast_shapes t [out_dim / 2]; check (negb (out_dim mod 2 =? 1)) (concat_last e e).

(** ClassicMLP.__call__ in make_simple_st_nn, fbs/nn/models.py 226-253 *)
Definition classic_mlp (embed_dim : nat) (x t : list nat) : option (list nat) :=
  do d <- match rev x with [] => None | d :: _ => Some d end;
  do x <- dense 16 x; do x <- dense 8 x;
  do t <- embedding_shape t embed_dim; do t <- dense 16 t; do t <- dense 8 t;
  do z <- concat_last x t;
  do z <- dense 32 z; do z <- dense 8 z; do z <- dense d z;
  Some (squeeze z).

(** make_simple_st_nn, lines 215-259, with the default network: initialises it twice. *)
Definition make_simple_st_nn (dim_in : list nat) (batch_size embed_dim : nat) : option unit :=
  do _u <- classic_mlp embed_dim (batch_size :: dim_in) [];
  do _v <- classic_mlp embed_dim (batch_size :: dim_in) [batch_size];
  Some tt.

(** MNISTAutoEncoder.__call__, lines 118-145 *)
Definition mnist_auto_encoder (xy t : list nat) : option (list nat) :=
  do xy <- dense 128 xy; do xy <- dense 32 xy;
  do t <- embedding_shape t 128; do t <- dense 64 t; do t <- dense 32 t;
  do z <- concat_last xy t;
  do z <- dense 128 z; do z <- dense 256 z; do z <- dense (784 * 2) z;
  Some (squeeze z).

(** nn.Conv with the default padding 'SAME'. *)
Definition conv_same (features stride : nat) (x : shape) : shape :=
  Shape (bat x) ((hei x + stride - 1) / stride) ((wid x + stride - 1) / stride) features.
(** x + y with equal shapes (all that occurs) *)
Definition add_shapes (x y : shape) : option shape := check (shape_eqb x y) (Some x).

(** MNISTResConv.__call__, lines 148-212, for a scalar time.  The input is flat or a batch;
    [None] in the second branch: self.batch_spatial does not exist. *)
Definition mnist_res_conv (pixel : bool) (x : list nat) : option (list nat) :=
  let batch_size := match x with [] | [_] => 1 | n :: _ => n end in
  check (fold_right Nat.mul 1 x =? batch_size * 28 * 28) (
  do x1 <- group_norm 8 (conv_same 32 1 (Shape batch_size 28 28 1));
  do x2 <- group_norm 8 (conv_same 64 1 (conv_same 32 2 x1));
  let x := conv_same 64 2 x2 in
  do t <- embedding_shape [] 32; do t <- dense 64 t; do t <- dense 128 t;
  (* t1 and t2 have 64 channels each, as x *)
  check (list_eqb t [128] && (cha x =? 64)) (
  if pixel then
    do x <- shuffle2 (conv_same (64 * 4) 1 x);
    do x <- group_norm 8 (conv_same 64 1 x);
    do x <- add_shapes x x2;
    do x <- shuffle2 (conv_same (32 * 4) 1 x);
    do x <- group_norm 8 (conv_same 32 1 x);
    do x <- add_shapes x x1;
    let x := conv_same 1 1 x in
    Some (squeeze [batch_size; hei x * wid x * cha x])
  else None)).

(** * Proofs *)
Lemma dense_snoc f l a : dense f (l ++ [a]) = Some (l ++ [f]).
Proof. unfold dense. rewrite rev_app_distr. cbn. now rewrite rev_involutive. Qed.

Lemma concat_rank x y z : concat_last x y = Some z -> length x = length y.
Proof.
  unfold concat_last. destruct (rev x) as [|a r] eqn:Ex; [discriminate|]. destruct (rev y) as [|b r'] eqn:Ey; [discriminate|].
  unfold list_eqb. destruct (list_eq_dec Nat.eq_dec r r') as [->|]; [|discriminate]. intros _.
  rewrite <- (rev_length x), <- (rev_length y), Ex, Ey. reflexivity.
Qed.
Lemma dense_rank f x y : dense f x = Some y -> length y = length x.
Proof.
  unfold dense. destruct (rev x) as [|a r] eqn:Ex; [discriminate|]. intros H. injection H as <-.
  rewrite app_length, rev_length. cbn. rewrite <- (rev_length x), Ex. cbn. lia.
Qed.

Lemma embedding_scalar_shape n : (n mod 2 = 0 -> embedding_shape [] n = Some [n])%nat.
Proof.
  intros H. unfold embedding_shape, broadcast_shapes. cbn [rev app broadcast_rev]. rewrite H. cbn [Nat.eqb negb check]. unfold concat_last. cbn [rev app].
  change (list_eqb [] []) with true. cbv iota. f_equal. f_equal. pose proof (Nat.div_mod n 2 ltac:(lia)). lia.
Qed.

(** The default network of make_simple_st_nn cannot be initialised. *)
Lemma classic_mlp_batch_fails embed_dim b d ds : classic_mlp embed_dim (b :: d :: ds) [] = None.
Proof.
  unfold classic_mlp.
  destruct (rev (b :: d :: ds)); [reflexivity|].
  destruct (dense 16 (b :: d :: ds)) as [x|] eqn:E1; [|reflexivity]. apply dense_rank in E1.
  destruct (dense 8 x) as [x'|] eqn:E2; [|reflexivity]. apply dense_rank in E2.
  destruct (embedding_shape [] embed_dim) as [t|] eqn:E3; [|reflexivity].
  assert (Ht : length t = 1%nat).
  { unfold embedding_shape, broadcast_shapes in E3. cbn [rev app broadcast_rev] in E3. unfold check in E3. destruct (negb _); [|discriminate].
    unfold concat_last in E3. cbn [rev app] in E3. change (list_eqb [] []) with true in E3. cbv iota in E3. now injection E3 as <-. }
  destruct (dense 16 t) as [t'|] eqn:E4; [|reflexivity]. apply dense_rank in E4.
  destruct (dense 8 t') as [t''|] eqn:E5; [|reflexivity]. apply dense_rank in E5.
  destruct (concat_last x' t'') as [z|] eqn:E6; [|reflexivity]. apply concat_rank in E6. cbn in E1. lia.
Qed.
Lemma make_simple_fails embed_dim b d ds : make_simple_st_nn (d :: ds) b embed_dim = None.
Proof. unfold make_simple_st_nn. now rewrite classic_mlp_batch_fails. Qed.

(** A batch of times is broadcast against the frequencies: only lengths 1 and embed_dim / 2 survive. *)
Lemma classic_mlp_times_fail embed_dim x b : (b <> 1 -> embed_dim / 2 <> 1 -> b <> embed_dim / 2 -> classic_mlp embed_dim x [b] = None)%nat.
Proof.
  intros H1 H2 H3. unfold classic_mlp. destruct (rev x) as [|d r]; [reflexivity|].
  destruct (dense 16 x) as [y|]; [|reflexivity]. destruct (dense 8 y) as [z|]; [|reflexivity].
  unfold embedding_shape, broadcast_shapes. cbn [rev app broadcast_rev]. unfold broadcast_axis.
  rewrite (proj2 (Nat.eqb_neq _ _) H3), (proj2 (Nat.eqb_neq _ _) H1), (proj2 (Nat.eqb_neq _ _) H2). reflexivity.
Qed.

(** On a single vector it works. *)
Lemma classic_mlp_single embed_dim d : (2 <= d -> embed_dim mod 2 = 0 -> classic_mlp embed_dim [d] [] = Some [d])%nat.
Proof.
  intros Hd He. unfold classic_mlp. cbn [rev app]. change [d] with ([] ++ [d]). rewrite !dense_snoc, embedding_scalar_shape by exact He.
  change [embed_dim] with ([] ++ [embed_dim]). rewrite !dense_snoc. cbn. unfold squeeze. cbn.
  destruct (Nat.eqb_spec d 1); [lia|reflexivity].
Qed.

Lemma mnist_res_conv_batch n : (2 <= n -> mnist_res_conv true [n; 28; 28] = Some [n; 784] /\ mnist_res_conv true [n; 784] = Some [n; 784])%nat.
Proof.
  intros Hn.
  assert (G : forall l, match l with [] | [_] => 1 | a :: _ => a end = n -> fold_right Nat.mul 1 l = n * 28 * 28 -> mnist_res_conv true l = Some [n; 784]).
  { intros l Hb Hf. unfold mnist_res_conv. rewrite Hb, Hf, Nat.eqb_refl. cbn [check].
    unfold group_norm, conv_same. cbn [bat hei wid cha]. change ((1 <=? 8) && (32 mod 8 =? 0)) with true. change ((1 <=? 8) && (64 mod 8 =? 0)) with true.
    cbn [check bat hei wid cha]. change (embedding_shape [] 32) with (Some [32]). change (dense 64 [32]) with (Some [64]). change (dense 128 [64]) with (Some [128]).
    change (list_eqb [128] [128] && (64 =? 64)) with true. cbn [check].
    unfold shuffle2. cbn [bat hei wid cha]. change (64 * 4 mod 4 =? 0) with true. change (32 * 4 mod 4 =? 0) with true. change (64 * 4 / 4) with 64. change (32 * 4 / 4) with 32.
    cbn [check bat hei wid cha]. change ((1 <=? 8) && (32 mod 8 =? 0)) with true. change ((1 <=? 8) && (64 mod 8 =? 0)) with true. cbn [check bat hei wid cha].
    unfold add_shapes.
    match goal with |- context [shape_eqb ?a ?b] => replace (shape_eqb a b) with true by (symmetry; apply shape_eqb_true; reflexivity) end.
    cbn [check bat hei wid cha]. change ((1 <=? 8) && (32 mod 8 =? 0)) with true. cbn [check bat hei wid cha].
    match goal with |- context [shape_eqb ?a ?b] => replace (shape_eqb a b) with true by (symmetry; apply shape_eqb_true; reflexivity) end.
    cbn [check bat hei wid cha].
    match goal with |- context [squeeze [n; ?z]] => change z with 784 end.
    unfold squeeze. cbn [filter]. destruct (Nat.eqb_spec n 1); [lia|]. reflexivity. }
  split; apply G; cbn [fold_right]; lia.
Qed.
Lemma mnist_res_conv_other_decoder x : mnist_res_conv false x = None.
Proof.
  unfold mnist_res_conv, check. destruct (_ =? _); [|reflexivity]. destruct (group_norm _ _); [|reflexivity]. destruct (group_norm _ _); [|reflexivity].
  destruct (embedding_shape _ _); [|reflexivity]. destruct (dense _ _); [|reflexivity]. destruct (dense _ _); [|reflexivity]. now destruct (_ && _).
Qed.

(** The auto-encoder takes no batches with a scalar time. *)
Lemma mnist_auto_encoder_batch_fails b d ds : mnist_auto_encoder (b :: d :: ds) [] = None.
Proof.
  unfold mnist_auto_encoder.
  destruct (dense 128 (b :: d :: ds)) as [x|] eqn:E1; [|reflexivity]. apply dense_rank in E1.
  destruct (dense 32 x) as [x'|] eqn:E2; [|reflexivity]. apply dense_rank in E2.
  change (embedding_shape [] 128) with (Some [128]). cbv beta iota. change (dense 64 [128]) with (Some [64]). cbv beta iota.
  change (dense 32 [64]) with (Some [32]). cbv beta iota. destruct (concat_last x' [32]) as [z|] eqn:E6; [|reflexivity]. apply concat_rank in E6. cbn in E1, E6. lia.
Qed.
