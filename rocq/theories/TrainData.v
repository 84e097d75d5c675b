(** What the image training loop feeds to the optimiser, and the keys of its permutations. *)
From Coq Require Import Permutation.
From Coquelicot Require Import Coquelicot.
From Verif Require Import Base Dist Prog Dataset Hygiene Train.
Open Scope R_scope.

Section data.
Context {P X : Type} (kernel : P -> key -> X -> prog P).
(** the optimiser step, keeping a list of the batches it was given *)
Definition logged (ph : P * list X) (k : key) (x : X) : prog (P * list X) := p' <- kernel (fst ph) k x ;; Ret (p', snd ph ++ [x]).

Lemma steps_batches (batch : nat -> list nat -> X) perm n : forall k j p h,
  safe (train_steps (P * list X) X batch logged perm k j n (p, h)) (fun r => snd r = h ++ map (fun i => batch i perm) (seq j n)).
Proof.
  induction n as [|n IH]; intros k j p h; cbn [train_steps seq map].
  - apply safe_ret. cbn [snd]. now rewrite app_nil_r.
  - apply (safe_bind _ _ (fun r => snd r = h ++ [batch j perm])).
    + unfold logged. apply (safe_bind _ _ (fun _ => True)); [intros ? ? ?; exact I|]. intros p' _. now apply safe_ret.
    + intros [p' h'] Hh. cbn [snd] in Hh. subst h'. eapply safe_weaken; [|apply IH]. intros r Hr. cbv beta in Hr. rewrite Hr, <- app_assoc. reflexivity.
Qed.
Lemma epochs_batches (choose : key -> prog (list nat)) (batch : nat -> list nat -> X) nsteps (Q : list nat -> Prop) : (forall k, safe (choose k) Q) ->
  forall e k p h, safe (train_epochs (P * list X) X choose batch logged nsteps k e (p, h))
    (fun r => exists perms, length perms = e /\ Forall Q perms /\ snd r = h ++ concat (map (fun perm => map (fun i => batch i perm) (seq 0 nsteps)) perms)).
Proof.
  intros Hc. induction e as [|e IH]; intros k p h; cbn [train_epochs].
  - apply safe_ret. exists []. cbn. rewrite app_nil_r. auto.
  - apply (safe_bind _ _ (fun r => exists perm, Q perm /\ snd r = h ++ map (fun i => batch i perm) (seq 0 nsteps))).
    + unfold train_epoch. apply (safe_bind _ _ Q); [apply Hc|]. intros perm HQ. eapply safe_weaken; [|apply steps_batches]. intros r Hr. exists perm. now split.
    + intros [p' h'] (perm & HQ & Hh). cbn [snd] in Hh. subst h'. eapply safe_weaken; [|apply IH].
      intros r (perms & Hl & HF & Hr). exists (perm :: perms). cbn [length map concat]. split; [congruence|]. split; [now constructor|]. rewrite Hr, <- app_assoc. reflexivity.
Qed.
End data.

(** imgs/train.py 112-118 with the data set of base.py/images.py: [init_enumeration(subkey, train_nsamples)],
    [nsteps_per_epoch = data_size // train_nsamples] *)
Definition image_batch {A} (dflt : A) (xs : list A) (b : nat) (j : nat) (perm : list nat) : list A :=
  match init_enumeration (length xs) b perm with Some ps => enumerate_subset dflt xs ps j | None => [] end.

Lemma training_visits {A P} (dflt : A) (xs : list A) b choose (kernel : P -> key -> list A -> prog P) e k p : (1 <= b)%nat -> (b <= length xs)%nat ->
  (forall k, safe (choose k) (fun perm => Permutation perm (seq 0 (enumeration_size (length xs) b)))) ->
  safe (train_epochs (P * list (list A)) (list A) choose (image_batch dflt xs b) (logged kernel) (length xs / b) k e (p, []))
    (fun r => Permutation (concat (snd r)) (concat (repeat (firstn (enumeration_size (length xs) b) xs) e))).
Proof.
  intros Hb Hn Hc. eapply safe_weaken; [|apply (epochs_batches kernel choose (image_batch dflt xs b) (length xs / b) _ Hc)].
  intros r (perms & Hl & HF & Hr). cbn [app] in Hr. rewrite Hr. clear r Hr. revert e Hl. induction HF as [|perm perms Hp HF IH]; intros e Hl; cbn [length] in Hl; subst e; [constructor|].
  cbn [map repeat concat]. rewrite concat_app. apply Permutation_app; [|now apply IH].
  destruct (epoch_data dflt xs (length xs) b perm eq_refl Hb Hn Hp) as (ps & E & HP). unfold image_batch. rewrite E. exact HP.
Qed.

(** the permutations: fresh keys in every epoch, when the optimiser draws nothing *)
Lemma permutation_keys {P X} (choose : key -> prog (list nat)) (batch : nat -> list nat -> X) (upd : P -> X -> P) nsteps : (forall k, good [k] (choose k)) ->
  forall e k p, good [k] (train_epochs P X choose batch (fun p _ x => Ret (upd p x)) nsteps k e p).
Proof.
  intros Hc. induction e as [|e IH]; intros k p; cbn [train_epochs]; [apply good_ret|].
  apply (good_under k [1; 0]%nat), (good_seq k [1%nat] [0%nat]); [key_disjoint|keys_in| |intros p'; apply IH].
  unfold train_epoch. rewrite <- (app_nil_r (map (split_key k) [1%nat])). apply good_bind; [intros ? ? _ []|apply Hc|].
  intros perm. clear IH. generalize 0%nat as j, (split_key k 1) as k'. revert p. induction nsteps as [|n IHn]; intros p j k'; cbn [train_steps]; [apply good_ret|]. cbn [bind]. apply IHn.
Qed.
