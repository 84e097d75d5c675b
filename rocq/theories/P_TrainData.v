(** C51, C96: the image training loop. *)
From Coq Require Import Permutation.
From Coquelicot Require Import Coquelicot.
From Verif Require Import Base Dist Prog Dataset Hygiene Train TrainData Demo.
Open Scope R_scope.

(** over e epochs the optimiser is given every used image exactly e times, whatever it does with the batches *)
Theorem C51_training_visits : forall (A P : Type) (dflt : A) (xs : list A) b choose (kernel : P -> key -> list A -> prog P) e k p, (1 <= b)%nat -> (b <= length xs)%nat ->
  (forall k, safe (choose k) (fun perm => Permutation perm (seq 0 (enumeration_size (length xs) b)))) ->
  safe (train_epochs (P * list (list A)) (list A) choose (image_batch dflt xs b) (logged kernel) (length xs / b) k e (p, []))
    (fun r => Permutation (concat (snd r)) (concat (repeat (firstn (enumeration_size (length xs) b) xs) e))).
Proof. intros A P. exact (@training_visits A P). Qed.
Print Assumptions C51_training_visits.

(** the permutations of different epochs use different keys (the clash of C96_image_training_refuted is with the optimiser's) *)
Theorem C96_permutation_keys_partial : forall (P X : Type) (choose : key -> prog (list nat)) (batch : nat -> list nat -> X) (upd : P -> X -> P) nsteps, (forall k, good [k] (choose k)) ->
  forall e k p, good [k] (train_epochs P X choose batch (fun p _ x => Ret (upd p x)) nsteps k e p).
Proof. intros P X. exact (@permutation_keys P X). Qed.
Print Assumptions C96_permutation_keys_partial.

(** Seven images in batches of three, two epochs: four batches of three out of the first six images. *)
Example C51_training_example : forall k,
  safe (train_epochs (nat * list (list nat)) (list nat) (fun k => Fin k [1/2; 1/2]%R (fun i => Ret (nth i [[4; 0; 2; 5; 1; 3]; [0; 1; 2; 3; 4; 5]] [] )))
     (image_batch 0 [10; 11; 12; 13; 14; 15; 16] 3) (logged (fun p k x => Ret (p + length x))) 2 k 2 (0, []))%nat
    (fun r => Permutation (concat (snd r)) [10; 11; 12; 13; 14; 15; 10; 11; 12; 13; 14; 15])%nat.
Proof.
  intros k. apply (C51_training_visits nat nat 0%nat [10; 11; 12; 13; 14; 15; 16]%nat 3); [lia|cbn; lia|].
  intros k' tr a (i & tr' & -> & Hi & [_ Ha]). subst a. cbn [length] in Hi. cbn.
  destruct i as [|[|i]]; [|apply Permutation_refl|lia]. cbn.
  apply NoDup_Permutation; [repeat constructor; cbn; intuition lia|repeat constructor; cbn; intuition lia|]. intros x. cbn. intuition lia.
Qed.
