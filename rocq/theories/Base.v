(** Lists of reals, index arithmetic and numpy/JAX array primitives shared by all models. *)
From Coq Require Export Reals List Lra Lia Arith Bool.
Export ListNotations.
Open Scope R_scope.

(** ** Sums *)

Fixpoint Rsum (l : list R) : R := match l with [] => 0 | x :: l' => x + Rsum l' end.

Definition Rmean (l : list R) : R := Rsum l / INR (length l).

(** [jnp.cumsum] of [p], started from [c]. *)
Fixpoint cumsum_from (c : R) (p : list R) : list R :=
  match p with [] => [] | x :: p' => (c + x) :: cumsum_from (c + x) p' end.
Definition cumsum (p : list R) : list R := cumsum_from 0 p.

(** [jnp.searchsorted(a, v)] (default side='left') on a sorted array: the first index whose
    entry is not below [v], or [length a].  JAX bisects; on sorted arrays the result is the same. *)
Fixpoint searchsorted (a : list R) (v : R) : nat :=
  match a with [] => 0 | x :: a' => if Rlt_dec x v then S (searchsorted a' v) else 0 end.

(** [jnp.clip(idx, 0, n - 1)] on natural indices. *)
Definition clip_index (n i : nat) : nat := Nat.min i (n - 1).

(** [x.at[i].set(a)]: JAX drops out-of-range updates. *)
Fixpoint set_nth {A} (i : nat) (a : A) (l : list A) : list A :=
  match l, i with
  | [], _ => []
  | _ :: l', O => a :: l'
  | x :: l', S i' => x :: set_nth i' a l'
  end.

(** [jnp.take(l, A, axis=0)] / [l[A]].  The default [d] is only reached for out-of-range
    indices (JAX would clamp or fill with NaN there); the range theorems exclude this. *)
Definition gather {A} (d : A) (l : list A) (idx : list nat) : list A := map (fun i => nth i l d) idx.

Definition Rmax_list (l : list R) : R :=
  match l with [] => 0 | x :: l' => fold_right Rmax x l' end.

Definition in01 (u : R) : Prop := 0 <= u < 1.

(** normalised weight vectors *)
Definition weights_ok (w : list R) : Prop := Forall (fun x => 0 <= x) w /\ Rsum w = 1.

(** number of occurrences of [i] *)
Definition count (i : nat) (l : list nat) : nat := count_occ Nat.eq_dec l i.

(** ** Lemmas *)

Lemma Rsum_app l1 l2 : Rsum (l1 ++ l2) = Rsum l1 + Rsum l2.
Proof. induction l1; simpl; lra. Qed.

Lemma Rsum_map_ext {A} (f g : A -> R) l :
  (forall a, In a l -> f a = g a) -> Rsum (map f l) = Rsum (map g l).
Proof.
  induction l as [|x l IH]; simpl; intros H; [reflexivity|].
  rewrite (H x) by (now left). rewrite IH; [reflexivity|]. intros a Ha; apply H; now right.
Qed.

Lemma Rsum_map_plus {A} (f g : A -> R) l :
  Rsum (map (fun a => f a + g a) l) = Rsum (map f l) + Rsum (map g l).
Proof. induction l; simpl; lra. Qed.

Lemma Rsum_map_mult_l {A} c (f : A -> R) l :
  Rsum (map (fun a => c * f a) l) = c * Rsum (map f l).
Proof. induction l as [|x l IH]; simpl; [lra|]. rewrite IH; lra. Qed.

Lemma Rsum_map_mult_r {A} c (f : A -> R) l :
  Rsum (map (fun a => f a * c) l) = Rsum (map f l) * c.
Proof. induction l as [|x l IH]; simpl; [lra|]. rewrite IH; lra. Qed.

Lemma Rsum_map_const {A} c (l : list A) : Rsum (map (fun _ => c) l) = INR (length l) * c.
Proof.
  induction l as [|x l IH]; [simpl; lra|].
  cbn [map Rsum length]. rewrite IH, S_INR. lra.
Qed.

Lemma Rsum_exchange {A B} (f : A -> B -> R) la lb :
  Rsum (map (fun a => Rsum (map (fun b => f a b) lb)) la)
  = Rsum (map (fun b => Rsum (map (fun a => f a b) la)) lb).
Proof.
  induction la as [|a la IH]; simpl.
  - symmetry. induction lb; simpl; lra.
  - rewrite IH, <- Rsum_map_plus. reflexivity.
Qed.

Lemma Rsum_nonneg l : Forall (fun x => 0 <= x) l -> 0 <= Rsum l.
Proof. induction 1; simpl; lra. Qed.

Lemma Rsum_pos l : l <> [] -> Forall (fun x => 0 < x) l -> 0 < Rsum l.
Proof.
  intros Hne H. destruct H as [|x l Hx H]; [easy|]. simpl.
  assert (0 <= Rsum l); [|lra].
  apply Rsum_nonneg. eapply Forall_impl; [|exact H]. simpl; intros; lra.
Qed.

Lemma Rsum_repeat c n : Rsum (repeat c n) = INR n * c.
Proof. induction n as [|n IH]; [simpl; lra|]. cbn [repeat Rsum]. rewrite IH, S_INR; lra. Qed.

Lemma Rsum_In_le l x : Forall (fun y => 0 <= y) l -> In x l -> x <= Rsum l.
Proof.
  induction 1 as [|y l Hy H IH]; simpl; [easy|].
  pose proof (Rsum_nonneg l H). intros [->|Hin]; [lra|]. specialize (IH Hin). lra.
Qed.

Lemma Rsum_map_le {A} (f g : A -> R) l :
  (forall a, In a l -> f a <= g a) -> Rsum (map f l) <= Rsum (map g l).
Proof.
  induction l as [|x l IH]; simpl; intros H; [lra|].
  assert (f x <= g x) by (apply H; now left).
  assert (Rsum (map f l) <= Rsum (map g l)) by (apply IH; intros; apply H; now right). lra.
Qed.

Lemma length_cumsum_from c p : length (cumsum_from c p) = length p.
Proof. revert c; induction p; simpl; intros; [reflexivity|now rewrite IHp]. Qed.

Lemma searchsorted_le_length a v : (searchsorted a v <= length a)%nat.
Proof. induction a as [|x a IH]; simpl; [lia|]. destruct (Rlt_dec x v); lia. Qed.

(** When [v] does not exceed the last entry, the index found is inside the array. *)
Lemma searchsorted_cumsum_lt c p v :
  p <> [] -> v <= c + Rsum p -> (searchsorted (cumsum_from c p) v < length p)%nat.
Proof.
  revert c; induction p as [|x p IH]; intros c Hne Hv; [easy|]. simpl.
  destruct (Rlt_dec (c + x) v) as [Hlt|]; [|lia].
  destruct p as [|y p].
  - simpl in Hv. lra.
  - apply -> Nat.succ_lt_mono. apply IH; [easy|]. simpl in Hv |- *. lra.
Qed.

Lemma searchsorted_mono a v1 v2 : v1 <= v2 -> (searchsorted a v1 <= searchsorted a v2)%nat.
Proof.
  intros Hv; induction a as [|x a IH]; simpl; [lia|].
  destruct (Rlt_dec x v1), (Rlt_dec x v2); try lia. lra.
Qed.

Lemma length_set_nth {A} i (a : A) l : length (set_nth i a l) = length l.
Proof. revert i; induction l; destruct i; simpl; auto. Qed.

Lemma nth_set_nth_eq {A} i (a d : A) l : (i < length l)%nat -> nth i (set_nth i a l) d = a.
Proof. revert i; induction l; destruct i; simpl; intros; try lia; auto. apply IHl; lia. Qed.

Lemma nth_set_nth_neq {A} i j (a d : A) l : i <> j -> nth j (set_nth i a l) d = nth j l d.
Proof.
  revert i j; induction l; destruct i, j; simpl; intros; try easy; auto.
Qed.

Lemma nth_error_set_nth {A} i j (a : A) l :
  nth_error (set_nth i a l) j =
  if Nat.eqb i j then (if Nat.ltb i (length l) then Some a else None) else nth_error l j.
Proof.
  revert i j; induction l as [|x l IH]; intros i j.
  - destruct i, j; simpl; auto. destruct (Nat.eqb i j); reflexivity.
  - destruct i, j; simpl; auto. rewrite IH. reflexivity.
Qed.

Lemma Forall_set_nth {A} (P : A -> Prop) i a l : P a -> Forall P l -> Forall P (set_nth i a l).
Proof.
  intros Pa H; revert i; induction H; destruct i; simpl; constructor; auto.
Qed.

Lemma length_gather {A} (d : A) l idx : length (gather d l idx) = length idx.
Proof. apply map_length. Qed.

Lemma gather_nth {A} (d : A) l idx j :
  (j < length idx)%nat -> nth j (gather d l idx) d = nth (nth j idx 0%nat) l d.
Proof.
  intros Hj. unfold gather.
  rewrite (nth_indep _ d (nth 0%nat l d)) by now rewrite map_length.
  now rewrite (map_nth (fun i => nth i l d)).
Qed.

Lemma nth_map_seq {A} (f : nat -> A) d n i : (i < n)%nat -> nth i (map f (seq 0 n)) d = f i.
Proof.
  intros Hi. rewrite (nth_indep _ d (f 0%nat)) by (now rewrite map_length, seq_length).
  rewrite map_nth, seq_nth by assumption. reflexivity.
Qed.

Lemma map_nth_seq {A} (d : A) l : map (fun i => nth i l d) (seq 0 (length l)) = l.
Proof.
  induction l as [|x l IH]; simpl; [reflexivity|]. f_equal.
  rewrite <- seq_shift, map_map. exact IH.
Qed.

Lemma Rmax_list_ge l x : In x l -> x <= Rmax_list l.
Proof.
  destruct l as [|y l]; [easy|]. simpl. revert y.
  induction l as [|z l IH]; intros y H; simpl in *.
  - destruct H as [->|[]]; lra.
  - destruct H as [->|[->|H]].
    + eapply Rle_trans; [|apply Rmax_r]. apply IH; now left.
    + apply Rmax_l.
    + eapply Rle_trans; [|apply Rmax_r]. apply IH; now right.
Qed.

Lemma Rmax_list_In l : l <> [] -> In (Rmax_list l) l.
Proof.
  destruct l as [|y l]; [easy|]. intros _. simpl.
  induction l as [|z l IH]; simpl; [now left|].
  apply (Rmax_case z (fold_right Rmax y l) (fun m => y = m \/ z = m \/ In m l)).
  - right; left; reflexivity.
  - destruct IH as [H|H]; [left|right; right]; exact H.
Qed.

Lemma Forall_nth_lt {A} (P : A -> Prop) l d i : Forall P l -> (i < length l)%nat -> P (nth i l d).
Proof. intros H Hi. rewrite Forall_forall in H. apply H. now apply nth_In. Qed.

Lemma weights_ok_le1 w x : weights_ok w -> In x w -> 0 <= x <= 1.
Proof.
  intros [Hp Hs] Hin. split.
  - rewrite Forall_forall in Hp; auto.
  - rewrite <- Hs. now apply Rsum_In_le.
Qed.

Lemma weights_ok_nonempty w : weights_ok w -> w <> [].
Proof. intros [_ Hs] ->. simpl in Hs. lra. Qed.

Lemma weights_ok_Rmax_pos w : weights_ok w -> 0 < Rmax_list w.
Proof.
  intros Hw. pose proof (weights_ok_nonempty _ Hw) as Hne. destruct Hw as [Hp Hs].
  destruct (Rle_lt_dec (Rmax_list w) 0) as [Hle|]; [|assumption].
  exfalso. assert (Rsum w <= 0); [|lra].
  assert (HH : Forall (fun x => x <= 0) w).
  { apply Forall_forall. intros x Hx. pose proof (Rmax_list_ge _ _ Hx). lra. }
  clear -HH. induction HH; simpl; lra.
Qed.
