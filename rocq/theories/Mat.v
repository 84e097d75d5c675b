(** Square real matrices of size [d], as functions of two indices compared on the
    indices below [d].  Only what [make_gaussian_bw_sb] needs. *)
From Coquelicot Require Import Coquelicot.
From Coq Require Import Reals List Lia Lra Morphisms Setoid.
From Verif Require Import Base Dist.
Import ListNotations.
Open Scope R_scope.

Definition mat := nat -> nat -> R.
Definition vec := nat -> R.

Definition meq (d : nat) (A B : mat) : Prop := forall i j, (i < d)%nat -> (j < d)%nat -> A i j = B i j.
Definition veq (d : nat) (a b : vec) : Prop := forall i, (i < d)%nat -> a i = b i.

Definition mid : mat := fun i j => if Nat.eqb i j then 1 else 0.
Definition madd (A B : mat) : mat := fun i j => A i j + B i j.
Definition msub (A B : mat) : mat := fun i j => A i j - B i j.
Definition mscale (c : R) (A : mat) : mat := fun i j => c * A i j.
Definition mtr (A : mat) : mat := fun i j => A j i.
Definition mmul (d : nat) (A B : mat) : mat := fun i j => Rsum (map (fun k => A i k * B k j) (seq 0 d)).
Definition mvec (d : nat) (A : mat) (x : vec) : vec := fun i => Rsum (map (fun k => A i k * x k) (seq 0 d)).
Definition vadd (a b : vec) : vec := fun i => a i + b i.
Definition vsub (a b : vec) : vec := fun i => a i - b i.
Definition vscale (c : R) (a : vec) : vec := fun i => c * a i.

Definition symmetric (d : nat) (A : mat) : Prop := meq d (mtr A) A.

#[global] Instance meq_equiv d : Equivalence (meq d).
Proof.
  split; red; unfold meq.
  - reflexivity.
  - intros A B H i j Hi Hj. symmetry. now apply H.
  - intros A B C H1 H2 i j Hi Hj. now rewrite H1, H2.
Qed.
#[global] Instance madd_proper d : Proper (meq d ==> meq d ==> meq d) madd.
Proof. intros A B H A' B' H' i j Hi Hj. unfold madd. now rewrite H, H'. Qed.
#[global] Instance msub_proper d : Proper (meq d ==> meq d ==> meq d) msub.
Proof. intros A B H A' B' H' i j Hi Hj. unfold msub. now rewrite H, H'. Qed.
#[global] Instance mscale_proper d c : Proper (meq d ==> meq d) (mscale c).
Proof. intros A B H i j Hi Hj. unfold mscale. now rewrite H. Qed.
#[global] Instance mtr_proper d : Proper (meq d ==> meq d) mtr.
Proof. intros A B H i j Hi Hj. unfold mtr. now rewrite H. Qed.
#[global] Instance mmul_proper d : Proper (meq d ==> meq d ==> meq d) (mmul d).
Proof.
  intros A B H A' B' H' i j Hi Hj. unfold mmul. apply Rsum_map_ext. intros k Hk.
  apply in_seq in Hk. rewrite H, H' by lia. reflexivity.
Qed.

(** Entrywise expansion of products. *)
Lemma mmul_add_l d A B C i j : mmul d (madd A B) C i j = mmul d A C i j + mmul d B C i j.
Proof. unfold mmul, madd. rewrite <- Rsum_map_plus. apply Rsum_map_ext. intros; ring. Qed.
Lemma mmul_add_r d A B C i j : mmul d A (madd B C) i j = mmul d A B i j + mmul d A C i j.
Proof. unfold mmul, madd. rewrite <- Rsum_map_plus. apply Rsum_map_ext. intros; ring. Qed.
Lemma mmul_scale_l d c A B i j : mmul d (mscale c A) B i j = c * mmul d A B i j.
Proof. unfold mmul, mscale. rewrite <- Rsum_map_mult_l. apply Rsum_map_ext. intros; ring. Qed.
Lemma mmul_scale_r d c A B i j : mmul d A (mscale c B) i j = c * mmul d A B i j.
Proof. unfold mmul, mscale. rewrite <- Rsum_map_mult_l. apply Rsum_map_ext. intros; ring. Qed.
Lemma mmul_sub_l d A B C i j : mmul d (msub A B) C i j = mmul d A C i j - mmul d B C i j.
Proof.
  transitivity (mmul d (madd A (mscale (-(1)) B)) C i j).
  - unfold mmul, msub, madd, mscale. apply Rsum_map_ext. intros; ring.
  - rewrite mmul_add_l, mmul_scale_l. ring.
Qed.
Lemma mmul_sub_r d A B C i j : mmul d A (msub B C) i j = mmul d A B i j - mmul d A C i j.
Proof.
  transitivity (mmul d A (madd B (mscale (-(1)) C)) i j).
  - unfold mmul, msub, madd, mscale. apply Rsum_map_ext. intros; ring.
  - rewrite mmul_add_r, mmul_scale_r. ring.
Qed.
Lemma mmul_id_l d A i j : (i < d)%nat -> mmul d mid A i j = A i j.
Proof.
  intros Hi. unfold mmul, mid. rewrite <- (Rsum_indicator d i (fun k => A k j)) by exact Hi.
  apply Rsum_map_ext. intros k _. now rewrite Nat.eqb_sym.
Qed.
Lemma mmul_id_r d A i j : (j < d)%nat -> mmul d A mid i j = A i j.
Proof.
  intros Hj. unfold mmul, mid. rewrite <- (Rsum_indicator d j (fun k => A i k)) by exact Hj.
  apply Rsum_map_ext. intros k _. ring.
Qed.
Lemma mmul_tr d A B i j : mmul d (mtr B) (mtr A) i j = mmul d A B j i.
Proof. unfold mmul, mtr. apply Rsum_map_ext. intros; ring. Qed.

Lemma mmul_assoc d A B C : meq d (mmul d A (mmul d B C)) (mmul d (mmul d A B) C).
Proof.
  intros i j _ _. unfold mmul.
  transitivity (Rsum (map (fun k => Rsum (map (fun l => A i k * B k l * C l j) (seq 0 d))) (seq 0 d))).
  - apply Rsum_map_ext. intros k _. rewrite <- Rsum_map_mult_l. apply Rsum_map_ext. intros; ring.
  - rewrite Rsum_exchange. apply Rsum_map_ext. intros k _. now rewrite <- Rsum_map_mult_r.
Qed.
Lemma mmul_1_l d A : meq d (mmul d mid A) A.
Proof. intros i j Hi _. now apply mmul_id_l. Qed.
Lemma mmul_1_r d A : meq d (mmul d A mid) A.
Proof. intros i j _ Hj. now apply mmul_id_r. Qed.
Lemma mtr_mul d A B : meq d (mtr (mmul d A B)) (mmul d (mtr B) (mtr A)).
Proof. intros i j _ _. rewrite mmul_tr. reflexivity. Qed.

(** Rewrite an entry of a product of linear combinations into a linear combination
    of entries of products. *)
Ltac mexpand := repeat first
  [ rewrite mmul_add_l | rewrite mmul_add_r | rewrite mmul_sub_l | rewrite mmul_sub_r
  | rewrite mmul_scale_l | rewrite mmul_scale_r | rewrite mmul_id_l by assumption | rewrite mmul_id_r by assumption ].

Lemma mvec_mul d A B x : veq d (mvec d A (mvec d B x)) (mvec d (mmul d A B) x).
Proof.
  intros i _. unfold mvec, mmul.
  transitivity (Rsum (map (fun k => Rsum (map (fun l => A i k * B k l * x l) (seq 0 d))) (seq 0 d))).
  - apply Rsum_map_ext. intros k _. rewrite <- Rsum_map_mult_l. apply Rsum_map_ext. intros; ring.
  - rewrite Rsum_exchange. apply Rsum_map_ext. intros k _. now rewrite <- Rsum_map_mult_r.
Qed.

Lemma mvec_zero d A x : veq d x (fun _ => 0) -> veq d (mvec d A x) (fun _ => 0).
Proof.
  intros H i _. unfold mvec. transitivity (Rsum (map (fun _ => 0) (seq 0 d))).
  - apply Rsum_map_ext. intros k Hk. apply in_seq in Hk. rewrite H by lia. ring.
  - rewrite Rsum_map_const. ring.
Qed.

(** Entrywise derivative of a product. *)
Lemma is_derive_Rsum_map (G : nat -> R -> R) (G' : nat -> R) l t :
  (forall k, In k l -> is_derive (G k) t (G' k)) ->
  is_derive (fun u => Rsum (map (fun k => G k u) l)) t (Rsum (map G' l)).
Proof.
  induction l as [|a l IH]; intros H.
  - cbn. apply (is_derive_const (K := R_AbsRing) (V := R_NormedModule) 0 t).
  - cbn [map Rsum fold_right].
    apply (is_derive_plus (K := R_AbsRing) (V := R_NormedModule)).
    + apply H. now left.
    + apply IH. intros k Hk. apply H. now right.
Qed.

Lemma is_derive_mmul d (A B : R -> mat) A' B' t :
  (forall i j, (i < d)%nat -> (j < d)%nat -> is_derive (fun u => A u i j) t (A' i j)) ->
  (forall i j, (i < d)%nat -> (j < d)%nat -> is_derive (fun u => B u i j) t (B' i j)) ->
  forall i j, (i < d)%nat -> (j < d)%nat ->
  is_derive (fun u => mmul d (A u) (B u) i j) t (mmul d A' (B t) i j + mmul d (A t) B' i j).
Proof.
  intros HA HB i j Hi Hj. unfold mmul. rewrite <- Rsum_map_plus.
  apply (is_derive_Rsum_map (fun k u => A u i k * B u k j) (fun k => A' i k * B t k j + A t i k * B' k j)).
  intros k Hk. apply in_seq in Hk.
  apply (is_derive_mult (fun u => A u i k) (fun u => B u k j)).
  - apply HA; lia.
  - apply HB; lia.
  - intros; apply Rmult_comm.
Qed.
