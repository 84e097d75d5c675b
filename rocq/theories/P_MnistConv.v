(** C133: the values of MNISTResConv. *)
From Coq Require Import Reals List Lia Lra Bool PeanoNat.
From Verif Require Import Base Nets UNet UNetVal Mlp MlpProofs MlpMain MnistConv.
Import ListNotations.
Open Scope R_scope.

(** Accepted are vectors of 784 entries and batches of rows of 784 entries ([mnist_ok]); the result has no axis of size one. *)
Theorem C133_shape : forall P dt x t s, option_map dims (mnist_val P dt x t) = Some s <-> mnist_ok x /\ s = no_ones [row_count x; 784%nat].
Proof. exact mnist_shape. Qed.
Print Assumptions C133_shape.
(** Images in a batch do not influence each other. *)
Theorem C133_rows : forall P dt x t o, mnist_val P dt x t = Some o -> forall b, (b < row_count x)%nat ->
  exists p, mnist_val P dt (Vect 784 (row x b)) t = Some p /\ forall i, (i < 784)%nat -> get o (b * 784 + i) = get p i.
Proof. exact mnist_separate. Qed.
Print Assumptions C133_rows.
(** One constant for all pairs of images and times (members of batches of any sizes) *)
Theorem C133_lipschitz : forall P dt, exists k, 0 <= k /\ forall x x' t t' b b' e, mnist_ok x -> mnist_ok x' -> (b < row_count x)%nat -> (b' < row_count x')%nat ->
  0 <= e -> close 784 e (row x b) (row x' b') -> Rabs (t - t') <= e ->
  exists o o', mnist_val P dt x t = Some o /\ mnist_val P dt x' t' = Some o' /\ forall i, (i < 784)%nat -> Rabs (get o (b * 784 + i) - get o' (b' * 784 + i)) <= k * e.
Proof. exact mnist_lipschitz. Qed.
Print Assumptions C133_lipschitz.
(** The normalisation at the entrance makes the network bounded over all images and times, *)
Theorem C133_bounded : forall P dt, exists M, 0 <= M /\ forall x t o, mnist_val P dt x t = Some o -> forall q, (q < row_count x * 784)%nat -> Rabs (get o q) <= M.
Proof. exact mnist_bounded. Qed.
Print Assumptions C133_bounded.
(** so for no parameters is it uniformly close to a score with a linear part, such as that of noised Gaussian data. *)
Theorem C133_affine_score_refuted : forall P dt c s i t K, (i < 784)%nat -> c <> 0 -> exists v o, mnist_val P dt (Vect 784 v) t = Some o /\ K < Rabs (get o i - (c * v i + s)).
Proof. exact mnist_affine_refuted. Qed.
Print Assumptions C133_affine_score_refuted.

Example C133_example : forall P, let x := Table (Rows 3 784 (fun b i => INR (b + i))) in
  option_map dims (mnist_val P (1 / 200) x 1) = Some [3; 784]%nat /\ option_map dims (mnist_val P (1 / 200) (Vect 784 (fun i => INR i)) 1) = Some [784]%nat /\
  mnist_val P (1 / 200) (Vect 28 (fun i => INR i)) 1 = None /\
  (exists o p, mnist_val P (1 / 200) x 1 = Some o /\ mnist_val P (1 / 200) (Vect 784 (fun i => INR (2 + i))) 1 = Some p /\ forall i, (i < 784)%nat -> get o (2 * 784 + i)%nat = get p i) /\
  (exists o, mnist_val P (1 / 200) (Vect 784 (fun i => INR i)) 1 = Some o) /\ forall K, exists v o, mnist_val P (1 / 200) (Vect 784 v) 1 = Some o /\ K < Rabs (get o 3%nat - (- 1 * v 3%nat + 0)).
Proof.
  intros P x. assert (S1 : option_map dims (mnist_val P (1 / 200) x 1) = Some [3; 784]%nat) by (apply C133_shape; split; [now right|reflexivity]).
  assert (S2 : option_map dims (mnist_val P (1 / 200) (Vect 784 (fun i => INR i)) 1) = Some [784]%nat) by (apply C133_shape; split; reflexivity).
  split; [exact S1|]. split; [exact S2|].
  split. { destruct (mnist_val P (1 / 200) (Vect 28 (fun i => INR i)) 1) as [o|] eqn:H; [|reflexivity]. assert (G : option_map dims (mnist_val P (1 / 200) (Vect 28 (fun i => INR i)) 1) = Some (dims o)) by now rewrite H. apply C133_shape in G as [G _]. discriminate G. }
  split. { destruct (mnist_val P (1 / 200) x 1) as [o|] eqn:Ho; [|discriminate S1]. destruct (C133_rows P (1 / 200) x 1 o Ho 2%nat) as (p & Hp & Hv); [cbn; lia|]. exists o, p. split; [reflexivity|]. split; [exact Hp|exact Hv]. }
  split. { destruct (mnist_val P (1 / 200) (Vect 784 (fun i => INR i)) 1) as [o|]; [now exists o|discriminate S2]. }
  intros K. apply C133_affine_score_refuted; [lia|lra].
Qed.
