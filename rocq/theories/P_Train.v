(** Properties of the training scripts experiments/imgs/train.py and experiments/sb_imgs/train.py. *)
From Coq Require Import Reals List Lia Lra Permutation.
From Coquelicot Require Import Coquelicot.
From Verif Require Import Base Dist Prog Hygiene Train.
Import ListNotations.
Open Scope R_scope.

(** ** C96: keys of the training loops *)
(** without the permutation draws, every key of the image training is used once, *)
Theorem C96_loss_keys_partial : forall (P X : Type) (batch : nat -> list nat -> X) (kernel : P -> key -> X -> prog P) perms nsteps k p,
  (forall p k x, good [k] (kernel p k x)) -> good [k] (loss_epochs P X batch kernel perms nsteps k p).
Proof. intros. now apply loss_epochs_good. Qed.
Print Assumptions C96_loss_keys_partial.
Theorem C96_setup_keys_partial : forall (D P : Type) (load : key -> prog D) (init : D -> key -> prog P) (loop : D -> key -> P -> prog P) root,
  (forall k, good [k] (load k)) -> (forall d k, good [k] (init d k)) -> (forall d k p, good [k] (loop d k p)) -> good [root] (train_part D P load init loop root).
Proof. intros. now apply train_part_good. Qed.
Print Assumptions C96_setup_keys_partial.
(** but the key that draws the permutation of an epoch is split again for the steps, in every run *)
Theorem C96_image_training_refuted : forall (P X : Type) (choose : key -> prog (list nat)) (batch : nat -> list nat -> X) (kernel : P -> key -> X -> prog P) nsteps k e p tr p',
  (forall p k x, good [k] (kernel p k x)) -> (forall k tr a, runs (choose k) tr a -> In k tr) -> (forall p k x tr a, runs (kernel p k x) tr a -> tr <> []) ->
  (1 <= nsteps)%nat -> (1 <= e)%nat -> runs (train_epochs P X choose batch kernel nsteps k e p) tr p' -> ~ ForallOrdPairs incomp tr.
Proof. intros P X choose batch kernel nsteps k e p tr p' H1 H2 H3. now apply train_epochs_clash. Qed.
Print Assumptions C96_image_training_refuted.
(** the forward half of the bridge training draws with a key and splits it in the next step: right for one step per epoch only *)
Theorem C96_bridge_one_step_partial : forall (P X : Type) (kernel : P -> key -> X -> prog P) (normal : key -> prog X) e k p,
  (forall k, good [k] (normal k)) -> (forall p k x, good [k] (kernel p k x)) -> good [k] (sb_fwd_epochs P X kernel normal 1 k e p).
Proof. intros P X kernel normal e k p H1 H2. exact (sb_fwd_one_step_good P X kernel normal H1 H2 e k p). Qed.
Print Assumptions C96_bridge_one_step_partial.
Theorem C96_bridge_training_refuted : forall (P X : Type) (kernel : P -> key -> X -> prog P) (normal : key -> prog X) nsteps k e p tr p',
  (forall k tr a, runs (normal k) tr a -> In k tr) -> (2 <= nsteps)%nat -> (1 <= e)%nat ->
  runs (sb_fwd_epochs P X kernel normal nsteps k e p) tr p' -> ~ ForallOrdPairs incomp tr.
Proof. intros P X kernel normal nsteps k e p tr p' H1. now apply sb_fwd_clash. Qed.
Print Assumptions C96_bridge_training_refuted.
(** both networks of the bridge are initialised with one key *)
Theorem C96_bridge_networks_refuted : forall (A : Type) (init : key -> prog A) k tr r, (forall k tr a, runs (init k) tr a -> In k tr) ->
  runs (sb_params init k) tr r -> ~ ForallOrdPairs incomp tr.
Proof. intros A init k tr r. apply sb_params_clash. Qed.
Print Assumptions C96_bridge_networks_refuted.
(** the check after the training draws with the root of all training keys, whatever the loop does *)
Theorem C96_check_refuted : forall (D P Y : Type) (load : key -> prog D) (init : D -> key -> prog P) (loop : D -> key -> P -> prog P) (check : D -> P -> key -> prog Y) root tr r,
  (forall d k p, good [k] (loop d k p)) -> (forall d k p tr a, runs (loop d k p) tr a -> tr <> []) -> (forall d p k tr a, runs (check d p k) tr a -> In k tr) ->
  runs (train_script D P Y load init loop check root) tr r -> ~ ForallOrdPairs incomp tr.
Proof. intros D P Y load init loop check root tr r H1 H2 H3. now apply train_script_clash. Qed.
Print Assumptions C96_check_refuted.
(** a run of the model: one epoch of one step, the kernel draws one uniform *)
Example C96_example :
  runs (train_epochs R unit (fun k => Rint k 1 2 (fun l => Ret l)) (fun _ _ => tt) (fun p k x => Unif k 1 (fun us => Ret (p + nth 0 us 0))) 1 [666; 1]%nat 1 0)
    [[666; 1; 1]; [666; 1; 1; 1]]%nat (0 + / 2) /\
  ~ ForallOrdPairs incomp [[666; 1; 1]; [666; 1; 1; 1]]%nat.
Proof.
  assert (H : runs (train_epochs R unit (fun k => Rint k 1 2 (fun l => Ret l)) (fun _ _ => tt) (fun p k x => Unif k 1 (fun us => Ret (p + nth 0 us 0))) 1 [666; 1]%nat 1 0)
    [[666; 1; 1]; [666; 1; 1; 1]]%nat (0 + / 2)).
  { cbn. exists [0%nat], [[666; 1; 1; 1]]%nat. repeat split; [repeat constructor|]. exists [/ 2], []. repeat split. constructor; [|constructor]. unfold in01. lra. }
  split; [exact H|]. eapply C96_image_training_refuted; [| | |apply (le_n 1)|apply (le_n 1)|exact H].
  - intros p k x. apply good_unif.
  - intros k tr a (l & tr' & -> & _). now left.
  - intros p k x tr a (l & tr' & -> & _). easy.
Qed.

(** ** C97: checkpoints *)
(** [param_after epoch p0 n]: the parameters after [n] epochs *)
Theorem C97_contents : forall (P : Type) (epoch : nat -> P -> P) p0 nepochs i p,
  In (i, p) (checkpoints epoch p0 nepochs) -> (i < nepochs)%nat /\ p = param_after epoch p0 (i + 1).
Proof. intros P epoch p0 n i p H. apply in_checkpoints in H as (H1 & _ & ->). rewrite Nat.add_1_r. auto. Qed.
Print Assumptions C97_contents.
Theorem C97_one_file_per_epoch : forall (P : Type) (epoch : nat -> P -> P) p0 nepochs, NoDup (map fst (checkpoints epoch p0 nepochs)).
Proof. intros. apply checkpoints_no_dup. Qed.
Print Assumptions C97_one_file_per_epoch.
(** the trained parameters are saved exactly when 100 divides the number of epochs, *)
Theorem C97_final_saved_iff_refuted : forall (P : Type) (epoch : nat -> P -> P) p0 nepochs, (1 <= nepochs)%nat ->
  (In (nepochs - 1, param_after epoch p0 nepochs)%nat (checkpoints epoch p0 nepochs) <-> exists q, nepochs = (100 * q)%nat).
Proof.
  intros P epoch p0 n Hn. rewrite in_checkpoints. split.
  - intros (_ & [q Hq] & _). exists q. lia.
  - intros [q Hq]. split; [lia|]. split; [exists q; lia|]. f_equal. lia.
Qed.
Print Assumptions C97_final_saved_iff_refuted.
(** nothing is saved below 100 epochs, in particular with the default of 40, *)
Theorem C97_default_saves_nothing_refuted : forall (P : Type) (epoch : nat -> P -> P) p0 nepochs, (nepochs < 100)%nat -> checkpoints epoch p0 nepochs = [].
Proof.
  intros P epoch p0 n Hn. destruct (checkpoints epoch p0 n) as [|[i p] l] eqn:E; [reflexivity|]. exfalso.
  assert (H : In (i, p) (checkpoints epoch p0 n)) by (rewrite E; now left). apply in_checkpoints in H as (H1 & [q Hq] & _). lia.
Qed.
Print Assumptions C97_default_saves_nothing_refuted.
(** and the file read by the test scripts (epoch 2999) is there after 3000 epochs or more *)
Theorem C97_test_epoch_iff : forall (P : Type) (epoch : nat -> P -> P) p0 nepochs,
  (exists p, In (2999%nat, p) (checkpoints epoch p0 nepochs)) <-> (3000 <= nepochs)%nat.
Proof.
  intros P epoch p0 n. split.
  - intros [p H]. apply in_checkpoints in H. lia.
  - intros H. exists (param_after epoch p0 3000). apply in_checkpoints. split; [lia|]. split; [now exists 30%nat|reflexivity].
Qed.
Print Assumptions C97_test_epoch_iff.
Theorem C97_bridge_saved : forall (P : Type) (iter : nat -> P -> P) p0 nsbs i p, In (i, p) (sb_checkpoints iter p0 nsbs) <-> (i < nsbs)%nat /\ p = param_after iter p0 (i + 1).
Proof. intros P iter p0 n i p. rewrite Nat.add_1_r. apply in_sb_checkpoints. Qed.
Print Assumptions C97_bridge_saved.
Example C97_example : checkpoints (fun i p => (p + i)%nat) 0%nat 250 = [(99, 4950); (199, 19900)]%nat /\ checkpoints (fun i p => (p + i)%nat) 0%nat 40 = [].
Proof. split; vm_compute; reflexivity. Qed.

(** ** C98: learning rates *)
(** the schedule of train.py: defined from two epochs on, starts at lr, never increases, ends at lr / 100 *)
Theorem C98_defined_iff_refuted : forall lr nepochs spe count, (exists r, train_rate lr nepochs spe count = Some r) <-> (2 <= nepochs /\ 1 <= spe)%nat.
Proof. intros lr n spe c. unfold train_rate. rewrite cosine_defined. apply until_steps_pos. Qed.
Print Assumptions C98_defined_iff_refuted.
Theorem C98_starts_at_lr : forall lr nepochs spe, (2 <= nepochs)%nat -> (1 <= spe)%nat -> train_rate lr nepochs spe 0 = Some lr.
Proof. intros lr n spe Hn Hs. apply cosine_start. now apply until_steps_pos. Qed.
Print Assumptions C98_starts_at_lr.
Theorem C98_never_increases : forall lr nepochs spe c c' r r', 0 <= lr -> (c <= c')%nat -> train_rate lr nepochs spe c = Some r -> train_rate lr nepochs spe c' = Some r' -> r' <= r.
Proof. intros lr n spe c c' r r' Hl. apply cosine_decreasing; lra. Qed.
Print Assumptions C98_never_increases.
Theorem C98_range : forall lr nepochs spe c r, 0 <= lr -> train_rate lr nepochs spe c = Some r -> lr / 100 <= r <= lr.
Proof. intros lr n spe c r Hl H. apply cosine_range in H; lra. Qed.
Print Assumptions C98_range.
Theorem C98_ends_at_floor : forall lr nepochs spe c, (2 <= nepochs)%nat -> (1 <= spe)%nat -> (95 * nepochs / 100 * spe <= c)%nat -> train_rate lr nepochs spe c = Some (lr / 100).
Proof. intros lr n spe c Hn Hs Hc. unfold train_rate. rewrite cosine_end; [f_equal; field|now apply until_steps_pos|exact Hc]. Qed.
Print Assumptions C98_ends_at_floor.
(** bridge training: [sb_updates] lists the rates of each bridge iteration; the first follows the schedule, *)
Theorem C98_bridge_first_partial : forall lr nepochs spe nsbs, (1 <= nsbs)%nat ->
  nth 0 (sb_updates (train_rate lr nepochs spe) (nepochs * spe) nsbs 0) [] = map (train_rate lr nepochs spe) (seq 0 (nepochs * spe)).
Proof. exact sb_rates_first. Qed.
Print Assumptions C98_bridge_first_partial.
(** all later ones are run at a hundredth of the rate throughout *)
Theorem C98_bridge_refuted : forall lr nepochs spe nsbs s, (2 <= nepochs)%nat -> (1 <= spe)%nat -> (1 <= s < nsbs)%nat ->
  nth s (sb_updates (train_rate lr nepochs spe) (nepochs * spe) nsbs 0) [] = repeat (Some (lr / 100)) (nepochs * spe).
Proof. exact sb_rates_floor. Qed.
Print Assumptions C98_bridge_refuted.
Theorem C98_exp : forall lr spe c, 0 < lr -> (1 <= spe)%nat ->
  exp_schedule lr (96 / 100) spe 0 = lr /\ exp_schedule lr (96 / 100) spe (c + spe) = 96 / 100 * exp_schedule lr (96 / 100) spe c /\ 0 < exp_schedule lr (96 / 100) spe c.
Proof.
  intros lr spe c Hl Hs. assert (Hn : INR spe <> 0) by (apply not_0_INR; lia). unfold exp_schedule. split; [|split].
  - cbn [INR]. replace (0 / INR spe) with 0 by (field; exact Hn). rewrite Rpower_O by lra. ring.
  - rewrite plus_INR. replace ((INR c + INR spe) / INR spe) with (INR c / INR spe + 1) by (field; exact Hn). rewrite Rpower_plus, Rpower_1 by lra. ring.
  - apply Rmult_lt_0_compat; [exact Hl|]. unfold Rpower. apply exp_pos.
Qed.
Print Assumptions C98_exp.
(** 4 epochs of 2 steps: decay over 6 steps, half way after 3; then the second bridge iteration *)
Example C98_example : train_rate 1 4 2 3 = Some ((1 + 1 / 100) / 2) /\ train_rate 1 1 2 0 = None /\
  nth 1 (sb_updates (train_rate 1 4 2) 8 20 0) [] = repeat (Some (1 / 100)) 8.
Proof.
  split; [|split; [reflexivity|exact (C98_bridge_refuted 1 4 2 20 1 ltac:(lia) ltac:(lia) ltac:(lia))]].
  unfold train_rate, cosine_schedule. change (until_steps 4 2) with 6%nat. cbn [Nat.eqb Nat.min]. f_equal.
  replace (PI * INR 3 / INR 6) with (PI / 2) by (cbn; field). rewrite cos_PI2. field.
Qed.

(** ** C100: random time grids *)
(** [grid_between le a b n ts]: n + 1 times from a to b, consecutive ones related by le *)
Theorem C100_grid : forall sort k T nsteps, (forall l, Permutation (sort l) l) -> (forall l i, (S i < length l)%nat -> nth i (sort l) 0 <= nth (S i) (sort l) 0) ->
  / 100000 <= T -> (1 <= nsteps)%nat -> safe (rnd_ts sort k T nsteps) (grid_between Rle 0 T nsteps).
Proof. intros. now apply rnd_ts_spec. Qed.
Print Assumptions C100_grid.
Theorem C100_reversed : forall T n ts, grid_between Rle 0 T n ts -> grid_between Rge T 0 n (reversed_grid T ts).
Proof. exact reversed_spec. Qed.
Print Assumptions C100_reversed.
(** the hypotheses are met by insertion sort *)
Fixpoint ins (x : R) (l : list R) : list R := match l with [] => [x] | y :: l' => if Rle_dec x y then x :: l else y :: ins x l' end.
Definition isort (l : list R) : list R := fold_right ins [] l.
Lemma ins_perm x l : Permutation (ins x l) (x :: l).
Proof. induction l as [|y l IH]; cbn; [reflexivity|]. destruct (Rle_dec x y); [reflexivity|]. rewrite IH. apply perm_swap. Qed.
Lemma isort_perm l : Permutation (isort l) l.
Proof. induction l as [|x l IH]; cbn; [reflexivity|]. rewrite ins_perm. now constructor. Qed.
Definition sorted (l : list R) : Prop := forall i, (S i < length l)%nat -> nth i l 0 <= nth (S i) l 0.
Lemma ins_sorted x l : sorted l -> sorted (ins x l).
Proof.
  induction l as [|y l IH]; intros H; [intros [|i] Hi; cbn in Hi; lia|]. cbn [ins]. destruct (Rle_dec x y) as [Hle|Hlt].
  - intros [|i] Hi; [exact Hle|]. apply (H i). cbn in *. lia.
  - assert (Hl : sorted l) by (intros i Hi; apply (H (S i)); cbn; lia). specialize (IH Hl).
    intros [|i] Hi; [|apply (IH i); cbn [length] in Hi; lia]. cbn [nth]. destruct l as [|z l]; [cbn; lra|]. cbn [ins]. destruct (Rle_dec x z); cbn [nth]; [lra|].
    apply (H 0%nat). cbn. lia.
Qed.
Lemma isort_sorted l : sorted (isort l).
Proof. induction l as [|x l IH]; [intros i Hi; cbn in Hi; lia|]. cbn [isort fold_right]. now apply ins_sorted. Qed.
Example C100_example : forall k, safe (rnd_ts isort k 2 3) (fun ts => grid_between Rle 0 2 3 ts /\ grid_between Rge 2 0 3 (reversed_grid 2 ts)).
Proof.
  intros k. eapply safe_weaken; [|apply (C100_grid isort k 2 3 isort_perm); [|lra|lia]].
  - intros ts H. split; [exact H|now apply C100_reversed].
  - intros l i Hi. apply isort_sorted. rewrite (Permutation_length (isort_perm l)). exact Hi.
Qed.
