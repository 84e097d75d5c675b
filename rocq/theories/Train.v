(** Model of the training scripts experiments/imgs/train.py and experiments/sb_imgs/train.py:
    random keys, checkpoints, learning rates and random time grids. *)
From Coq Require Import Permutation.
From Coquelicot Require Import Coquelicot.
From Verif Require Import Base Dist Prog Dataset Hygiene.
Open Scope R_scope.

(** ** Keys *)
Section Keys.
  Variables (P X : Type).
  Variable choose : key -> prog (list nat).          (** jax.random.choice without replacement, base.py 44-46 *)
  Variable batch : nat -> list nat -> X.             (** RestoreData.enumerate_subset, images.py 252-256: ignores its key *)
  Variable kernel : P -> key -> X -> prog P.         (** one optimiser step *)

  (** train.py 116-118: [subkey, subkey2 = split(subkey)]; the kernel gets [subkey2] *)
  Fixpoint train_steps (perm : list nat) (k : key) (j n : nat) (p : P) : prog P :=
    match n with
    | O => Ret p
    | S n' => p' <- kernel p (split_key k 1) (batch j perm) ;; train_steps perm (split_key k 0) (S j) n' p'
    end.
  (** train.py 114-118: the permutation is drawn with the key that is split afterwards *)
  Definition train_epoch (nsteps : nat) (subkey : key) (p : P) : prog P :=
    perm <- choose subkey ;; train_steps perm subkey 0 nsteps p.
  (** train.py 113-118: [data_key, subkey = split(data_key)] *)
  Fixpoint train_epochs (nsteps : nat) (data_key : key) (nepochs : nat) (p : P) : prog P :=
    match nepochs with
    | O => Ret p
    | S e => p' <- train_epoch nsteps (split_key data_key 1) p ;; train_epochs nsteps (split_key data_key 0) e p'
    end.

  Variable normal : key -> prog X.                   (** jax.random.normal, sb_imgs/train.py 192 *)
  (** sb_imgs/train.py 190-193 *)
  Fixpoint sb_fwd_steps (k : key) (n : nat) (p : P) : prog P :=
    match n with
    | O => Ret p
    | S n' => x <- normal (split_key k 0) ;; p' <- kernel p (split_key k 1) x ;; sb_fwd_steps (split_key k 0) n' p'
    end.
  (** sb_imgs/train.py 188-193 *)
  Fixpoint sb_fwd_epochs (nsteps : nat) (key_data : key) (nepochs : nat) (p : P) : prog P :=
    match nepochs with
    | O => Ret p
    | S e => p' <- sb_fwd_steps (split_key key_data 1) nsteps p ;; sb_fwd_epochs nsteps (split_key key_data 0) e p'
    end.

  Hypothesis choose_good : forall k, good [k] (choose k).
  Hypothesis normal_good : forall k, good [k] (normal k).
  Hypothesis kernel_good : forall p k x, good [k] (kernel p k x).

  Lemma train_steps_good perm n : forall k j p, good [k] (train_steps perm k j n p).
  Proof.
    induction n as [|n IH]; intros k j p; cbn [train_steps]; [apply good_ret|].
    apply (good_under k [1; 0]%nat), (good_seq k [1%nat] [0%nat]); [key_disjoint|keys_in|apply kernel_good|]. intros p'. apply IH.
  Qed.
  (** with the permutations drawn elsewhere every key is used once *)
  Fixpoint loss_epochs (perms : list (list nat)) (nsteps : nat) (data_key : key) (p : P) : prog P :=
    match perms with
    | [] => Ret p
    | perm :: rest => p' <- train_steps perm (split_key data_key 1) 0 nsteps p ;; loss_epochs rest nsteps (split_key data_key 0) p'
    end.
  Lemma loss_epochs_good perms nsteps : forall k p, good [k] (loss_epochs perms nsteps k p).
  Proof.
    induction perms as [|perm rest IH]; intros k p; cbn [loss_epochs]; [apply good_ret|].
    apply (good_under k [1; 0]%nat), (good_seq k [1%nat] [0%nat]); [key_disjoint|keys_in|apply train_steps_good|]. intros p'. apply IH.
  Qed.
  Lemma sb_fwd_one_step_good nepochs : forall k p, good [k] (sb_fwd_epochs 1 k nepochs p).
  Proof using normal_good kernel_good.
    clear batch. induction nepochs as [|e IH]; intros k p; cbn [sb_fwd_epochs]; [apply good_ret|].
    apply (good_under k [1; 0]%nat), (good_seq k [1%nat] [0%nat]); [key_disjoint|keys_in| |intros p'; apply IH].
    cbn [sb_fwd_steps map]. apply (good_under (split_key k 1) [0; 1]%nat), (good_seq _ [0%nat] [1%nat]); [key_disjoint|keys_in|apply normal_good|].
    intros x. apply good_bind_ret, kernel_good.
  Qed.

  (** *** the keys of the scripts clash *)
  Hypothesis choose_uses : forall k tr a, runs (choose k) tr a -> In k tr.
  Hypothesis normal_uses : forall k tr a, runs (normal k) tr a -> In k tr.
  Hypothesis kernel_uses : forall p k x tr a, runs (kernel p k x) tr a -> tr <> [].

  Lemma uses_below p k x tr a : runs (kernel p k x) tr a -> exists k', In k' tr /\ prefix k k'.
  Proof.
    intros H. pose proof (kernel_uses _ _ _ _ _ H). destruct (kernel_good p k x) as [_ Ho]. specialize (Ho _ _ H).
    destruct tr as [|k' tr]; [easy|]. exists k'. split; [now left|]. apply Forall_inv in Ho. apply Exists_exists in Ho as (k0 & [<-|[]] & Hp). exact Hp.
  Qed.
  Lemma clash tr1 tr2 k k' : In k tr1 -> In k' tr2 -> prefix k k' -> ~ ForallOrdPairs incomp (tr1 ++ tr2).
  Proof.
    intros H1 H2 Hp. induction tr1 as [|a tr1 IH]; [easy|]. intros HF. inversion_clear HF as [|? ? HA HF']. destruct H1 as [ ->|H1]; [|now apply IH].
    rewrite Forall_forall in HA. destruct (HA k') as [Hn _]; [apply in_or_app; now right|]. contradiction.
  Qed.
  Lemma FOP_app_l {A} (Q : A -> A -> Prop) l l' : ForallOrdPairs Q (l ++ l') -> ForallOrdPairs Q l.
  Proof. induction l as [|a l IH]; intros H; [constructor|]. inversion_clear H as [|? ? Ha H']. apply Forall_app in Ha as [Ha _]. constructor; [exact Ha|now apply IH]. Qed.
  Lemma FOP_app_r {A} (Q : A -> A -> Prop) l l' : ForallOrdPairs Q (l ++ l') -> ForallOrdPairs Q l'.
  Proof. induction l as [|a l IH]; intros H; [exact H|]. inversion_clear H. now apply IH. Qed.

  Lemma prefix_split k i : prefix k (split_key k i).
  Proof. exists [i]. reflexivity. Qed.

  Lemma train_epochs_clash nsteps k e p tr p' : (1 <= nsteps)%nat -> (1 <= e)%nat -> runs (train_epochs nsteps k e p) tr p' -> ~ ForallOrdPairs incomp tr.
  Proof.
    intros Hn He. destruct e as [|e]; [lia|]. destruct nsteps as [|n]; [lia|]. cbn [train_epochs train_epoch]. intros H HF.
    apply runs_bind in H as (tr1 & q & tr2 & -> & H1 & _). apply FOP_app_l in HF. revert HF.
    unfold train_epoch in H1. apply runs_bind in H1 as (t1 & perm & t2 & -> & H1 & H2). cbn [train_steps] in H2.
    apply runs_bind in H2 as (t3 & q' & t4 & -> & H3 & _). destruct (uses_below _ _ _ _ _ H3) as (k' & Hk' & Hp).
    apply (clash t1 (t3 ++ t4) (split_key k 1) k'); [now apply (choose_uses _ _ _ H1)|apply in_or_app; now left|].
    eapply prefix_trans; [apply prefix_split|exact Hp].
  Qed.
  Lemma sb_fwd_clash nsteps k e p tr p' : (2 <= nsteps)%nat -> (1 <= e)%nat -> runs (sb_fwd_epochs nsteps k e p) tr p' -> ~ ForallOrdPairs incomp tr.
  Proof.
    intros Hn He. destruct e as [|e]; [lia|]. destruct nsteps as [|[|n]]; [lia|lia|]. cbn [sb_fwd_epochs sb_fwd_steps]. intros H HF.
    apply runs_bind in H as (tr1 & q & tr2 & -> & H1 & _). apply FOP_app_l in HF. revert HF.
    apply runs_bind in H1 as (t1 & x & t2 & -> & H1 & H2). apply runs_bind in H2 as (t3 & q' & t4 & -> & _ & H3).
    apply runs_bind in H3 as (t5 & x' & t6 & -> & H5 & _).
    apply (clash t1 (t3 ++ t5 ++ t6) (split_key (split_key k 1) 0) (split_key (split_key (split_key k 1) 0) 0));
      [now apply (normal_uses _ _ _ H1)| |apply prefix_split].
    apply in_or_app. right. apply in_or_app. left. now apply (normal_uses _ _ _ H5).
  Qed.
End Keys.

(** ** Whole scripts *)
(** sb_imgs/train.py 84-89: both networks of the bridge are initialised with the same [subkey] *)
Definition sb_params {A} (init : key -> prog A) (k : key) : prog (A * A) := a <- init k ;; b <- init k ;; Ret (a, b).

(** train.py 44-45 and 53-85: [key, data_key = split(PRNGKey(666))]; the data set and the network take later children of [key];
    112-118: training starts from [data_key]; 143-145: the check afterwards starts again from [PRNGKey(666)].
    sb_imgs/train.py 45-46, 54, 84, 204-207, 228-232 has the same shape with [key_sb] for [data_key]. *)
Section Script.
  Variables (D P Y : Type) (load : key -> prog D) (init : D -> key -> prog P) (loop : D -> key -> P -> prog P) (check : D -> P -> key -> prog Y).
  Definition train_script (root : key) : prog (P * Y) :=
    let data_key := split_key root 1 in let key1 := split_key root 0 in
    d <- load (split_key key1 1) ;;
    let key2 := split_key key1 0 in
    p0 <- init d (split_key key2 1) ;;
    p <- loop d data_key p0 ;;
    y <- check d p (split_key root 1) ;;
    Ret (p, y).
  (** the training part alone *)
  Definition train_part (root : key) : prog P :=
    d <- load (split_key (split_key root 0) 1) ;; p0 <- init d (split_key (split_key (split_key root 0) 0) 1) ;; loop d (split_key root 1) p0.

  Hypothesis load_good : forall k, good [k] (load k).
  Hypothesis init_good : forall d k, good [k] (init d k).
  Hypothesis loop_good : forall d k p, good [k] (loop d k p).
  Lemma train_part_good root : good [root] (train_part root).
  Proof.
    apply (good_weaken [split_key (split_key root 0) 1; split_key (split_key (split_key root 0) 0) 1; split_key root 1]).
    { intros k [<-|[<-|[<-|[]]]]; constructor; unfold split_key, prefix; rewrite <- ?app_assoc; eexists; reflexivity. }
    assert (HI : forall s s', (forall t, s ++ t <> s') -> (forall t, s' ++ t <> s) -> incomp (root ++ s) (root ++ s')).
    { intros s s' H H'. split; intros [t Ht]; rewrite <- app_assoc in Ht; apply app_inv_head in Ht; [apply (H t)|apply (H' t)]; congruence. }
    apply (good_bind [split_key (split_key root 0) 1] [split_key (split_key (split_key root 0) 0) 1; split_key root 1]); [|apply load_good|intros d].
    { intros a b [<-|[]] [<-|[<-|[]]]; unfold split_key; rewrite <- ?app_assoc; apply HI; intros t; easy. }
    apply (good_bind [split_key (split_key (split_key root 0) 0) 1] [split_key root 1]); [|apply init_good|intros p0; apply loop_good].
    intros a b [<-|[]] [<-|[]]; unfold split_key; rewrite <- ?app_assoc; apply HI; intros t; easy.
  Qed.
  Hypothesis loop_uses : forall d k p tr a, runs (loop d k p) tr a -> tr <> [].
  Hypothesis check_uses : forall d p k tr a, runs (check d p k) tr a -> In k tr.
  Lemma train_script_clash root tr r : runs (train_script root) tr r -> ~ ForallOrdPairs incomp tr.
  Proof.
    unfold train_script. intros H HF.
    apply runs_bind in H as (t1 & d & t2 & -> & _ & H). apply FOP_app_r in HF.
    apply runs_bind in H as (t3 & p0 & t4 & -> & _ & H). apply FOP_app_r in HF.
    apply runs_bind in H as (t5 & p & t6 & -> & H5 & H). apply runs_bind in H as (t7 & y & t8 & -> & H7 & _).
    pose proof (loop_uses _ _ _ _ _ H5) as Hne. destruct (loop_good d (split_key root 1) p0) as [_ Ho]. specialize (Ho _ _ H5).
    destruct t5 as [|k' t5]; [easy|]. apply Forall_inv in Ho. apply Exists_exists in Ho as (k0 & [<-|[]] & Hp).
    inversion_clear HF as [|? ? HA _]. rewrite Forall_forall in HA.
    destruct (HA (split_key root 1)) as [_ Hn]; [|contradiction]. apply in_or_app. right. apply in_or_app. left. now apply (check_uses _ _ _ _ _ H7).
  Qed.
End Script.
Lemma sb_params_clash {A} (init : key -> prog A) k tr r : (forall k tr a, runs (init k) tr a -> In k tr) -> runs (sb_params init k) tr r -> ~ ForallOrdPairs incomp tr.
Proof.
  intros Hi H. unfold sb_params in H. apply runs_bind in H as (t1 & a & t2 & -> & H1 & H). apply runs_bind in H as (t3 & b & t4 & -> & H3 & _).
  apply (clash t1 (t3 ++ t4) k k); [now apply (Hi _ _ _ H1)|apply in_or_app; left; now apply (Hi _ _ _ H3)|apply prefix_refl].
Qed.

(** ** Checkpoints *)
(** train.py 112-124: epochs [i] with [(i + 1) % 100 == 0]; a file maps its epoch to the parameters after that epoch *)
Definition saved_epochs (nepochs : nat) : list nat := filter (fun i => ((i + 1) mod 100 =? 0)%nat) (seq 0 nepochs).
Fixpoint param_after {P} (epoch : nat -> P -> P) (p0 : P) (n : nat) : P := match n with O => p0 | S m => epoch m (param_after epoch p0 m) end.
Definition checkpoints {P} (epoch : nat -> P -> P) (p0 : P) (nepochs : nat) : list (nat * P) :=
  map (fun i => (i, param_after epoch p0 (S i))) (saved_epochs nepochs).
(** sb_imgs/train.py 204-210: one file for every Schrodinger bridge iteration *)
Definition sb_checkpoints {P} (iter : nat -> P -> P) (p0 : P) (nsbs : nat) : list (nat * P) :=
  map (fun i => (i, param_after iter p0 (S i))) (seq 0 nsbs).

Lemma in_saved n i : In i (saved_epochs n) <-> (i < n /\ exists q, i + 1 = 100 * q)%nat.
Proof.
  unfold saved_epochs. rewrite filter_In, in_seq, Nat.eqb_eq. split.
  - intros [H1 H2]. split; [lia|]. apply Nat.mod_divide in H2; [|lia]. destruct H2 as [q Hq]. exists q. lia.
  - intros [H1 [q Hq]]. split; [lia|]. rewrite Hq, Nat.mul_comm. apply Nat.mod_mul. lia.
Qed.
Lemma in_checkpoints {P} (epoch : nat -> P -> P) p0 n i p :
  In (i, p) (checkpoints epoch p0 n) <-> (i < n)%nat /\ (exists q, i + 1 = 100 * q)%nat /\ p = param_after epoch p0 (S i).
Proof.
  unfold checkpoints. rewrite in_map_iff. split.
  - intros (j & E & H). injection E as <- <-. apply in_saved in H as [H1 H2]. auto.
  - intros (H1 & H2 & ->). exists i. split; [reflexivity|]. apply in_saved. auto.
Qed.
Lemma checkpoints_no_dup {P} (epoch : nat -> P -> P) p0 n : NoDup (map fst (checkpoints epoch p0 n)).
Proof. unfold checkpoints. rewrite map_map. cbn [fst]. rewrite map_id. apply NoDup_filter, seq_NoDup. Qed.
Lemma in_sb_checkpoints {P} (iter : nat -> P -> P) p0 n i p : In (i, p) (sb_checkpoints iter p0 n) <-> (i < n)%nat /\ p = param_after iter p0 (S i).
Proof.
  unfold sb_checkpoints. rewrite in_map_iff. split.
  - intros (j & E & H). injection E as <- <-. apply in_seq in H. split; [lia|reflexivity].
  - intros (H & ->). exists i. split; [reflexivity|]. apply in_seq. lia.
Qed.

(** ** Learning rates *)
(** optax.cosine_decay_schedule(init_value, decay_steps, alpha): raises unless decay_steps > 0 *)
Definition cosine_schedule (lr alpha : R) (decay_steps count : nat) : option R :=
  if (decay_steps =? 0)%nat then None
  else Some (lr * ((1 - alpha) * (/ 2 * (1 + cos (PI * INR (Nat.min count decay_steps) / INR decay_steps))) + alpha)).
(** optax.exponential_decay(lr, transition_steps, rate) with transition_steps > 0 *)
Definition exp_schedule (lr rate : R) (transition_steps count : nat) : R := lr * Rpower rate (INR count / INR transition_steps).
(** train.py 93: [int(0.95 * nepochs) * nsteps_per_epoch] *)
Definition until_steps (nepochs nsteps_per_epoch : nat) : nat := (95 * nepochs / 100) * nsteps_per_epoch.
(** train.py 94 with [alpha=1e-2] *)
Definition train_rate (lr : R) (nepochs spe count : nat) : option R := cosine_schedule lr (1 / 100) (until_steps nepochs spe) count.

(** rates of [n] optimiser updates; the optimiser state counts the updates *)
Fixpoint updates {A} (sched : nat -> A) (n c : nat) : list A * nat :=
  match n with O => ([], c) | S m => let '(l, c') := updates sched m (S c) in (sched c :: l, c') end.
(** sb_imgs/train.py 201-207: the optimiser state of a direction is carried over the bridge iterations *)
Fixpoint sb_updates {A} (sched : nat -> A) (per_iter nsbs c : nat) : list (list A) :=
  match nsbs with O => [] | S s => let '(l, c') := updates sched per_iter c in l :: sb_updates sched per_iter s c' end.

Lemma updates_spec {A} (sched : nat -> A) n : forall c, updates sched n c = (map sched (seq c n), (c + n)%nat).
Proof. induction n as [|n IH]; intros c; cbn [updates seq map]; [now rewrite Nat.add_0_r|]. rewrite IH. f_equal. lia. Qed.
Lemma sb_updates_spec {A} (sched : nat -> A) per n : forall c s, (s < n)%nat -> nth s (sb_updates sched per n c) [] = map sched (seq (c + s * per) per).
Proof.
  induction n as [|n IH]; intros c s H; [lia|]. cbn [sb_updates]. rewrite updates_spec. destruct s as [|s]; cbn [nth].
  - f_equal. f_equal. lia.
  - rewrite IH by lia. f_equal. f_equal. lia.
Qed.

Lemma cosine_defined lr a d c : (exists r, cosine_schedule lr a d c = Some r) <-> (1 <= d)%nat.
Proof. unfold cosine_schedule. destruct (Nat.eqb_spec d 0) as [->|H]; split; intros HH; [now destruct HH|exfalso; lia|lia|now eexists]. Qed.

Lemma cosine_start lr a d : (1 <= d)%nat -> cosine_schedule lr a d 0 = Some lr.
Proof.
  intros H. unfold cosine_schedule. destruct (Nat.eqb_spec d 0); [lia|]. f_equal. cbn [Nat.min INR].
  replace (PI * 0 / INR d) with 0 by (field; apply not_0_INR; lia). rewrite cos_0. field.
Qed.
Lemma cosine_end lr a d c : (1 <= d)%nat -> (d <= c)%nat -> cosine_schedule lr a d c = Some (a * lr).
Proof.
  intros H Hc. unfold cosine_schedule. destruct (Nat.eqb_spec d 0); [lia|]. f_equal. rewrite Nat.min_r by lia.
  replace (PI * INR d / INR d) with PI by (field; apply not_0_INR; lia). rewrite cos_PI. field.
Qed.
Lemma cosine_arg d c : (1 <= d)%nat -> 0 <= PI * INR (Nat.min c d) / INR d <= PI.
Proof.
  intros H. assert (Hd : 0 < INR d) by (apply lt_0_INR; lia). pose proof PI_RGT_0. split.
  - apply Rmult_le_pos; [apply Rmult_le_pos; [lra|apply pos_INR]|left; now apply Rinv_0_lt_compat].
  - apply Rmult_le_reg_r with (INR d); [exact Hd|]. unfold Rdiv. rewrite Rmult_assoc, Rinv_l, Rmult_1_r by lra.
    apply Rmult_le_compat_l; [lra|]. apply le_INR. lia.
Qed.
Lemma cosine_decreasing lr a d c c' r r' : 0 <= lr -> a <= 1 -> (c <= c')%nat -> cosine_schedule lr a d c = Some r -> cosine_schedule lr a d c' = Some r' -> r' <= r.
Proof.
  intros Hl Ha Hc. unfold cosine_schedule. destruct (Nat.eqb_spec d 0) as [|Hd]; [easy|]. intros [= <-] [= <-].
  destruct (cosine_arg d c ltac:(lia)) as [H1 H2]. destruct (cosine_arg d c' ltac:(lia)) as [H3 H4].
  assert (Hle : PI * INR (Nat.min c d) / INR d <= PI * INR (Nat.min c' d) / INR d).
  { unfold Rdiv. apply Rmult_le_compat_r; [left; apply Rinv_0_lt_compat, lt_0_INR; lia|]. apply Rmult_le_compat_l; [pose proof PI_RGT_0; lra|]. apply le_INR. lia. }
  assert (Hcos : cos (PI * INR (Nat.min c' d) / INR d) <= cos (PI * INR (Nat.min c d) / INR d)) by (apply cos_decr_1; assumption).
  apply Rmult_le_compat_l; [assumption|]. apply Rplus_le_compat_r, Rmult_le_compat_l; lra.
Qed.
Lemma cosine_range lr a d c r : 0 <= lr -> a <= 1 -> cosine_schedule lr a d c = Some r -> a * lr <= r <= lr.
Proof.
  intros Hl Ha H. assert (Hd : (1 <= d)%nat) by (apply (cosine_defined lr a d c); now exists r). split.
  - apply (cosine_decreasing lr a d c (Nat.max c d) r (a * lr)); try assumption; [lia|]. apply cosine_end; lia.
  - apply (cosine_decreasing lr a d 0 c lr r); try assumption; [lia|]. now apply cosine_start.
Qed.

Lemma until_steps_pos nepochs spe : (1 <= until_steps nepochs spe)%nat <-> (2 <= nepochs /\ 1 <= spe)%nat.
Proof.
  unfold until_steps. assert (H : (1 <= 95 * nepochs / 100 <-> 2 <= nepochs)%nat).
  { split; intros H.
    - destruct (le_lt_dec 2 nepochs) as [|Hl]; [assumption|]. exfalso. assert (E : (95 * nepochs / 100 = 0)%nat) by (apply Nat.div_small; lia). lia.
    - apply Nat.div_le_lower_bound; lia. }
  destruct (95 * nepochs / 100)%nat as [|q]; destruct spe as [|s]; split; intros HH; cbn in *; try lia.
Qed.
Lemma until_steps_le nepochs spe : (until_steps nepochs spe <= nepochs * spe)%nat.
Proof. unfold until_steps. apply Nat.mul_le_mono_r. apply Nat.div_le_upper_bound; lia. Qed.

(** every update from the second bridge iteration on uses a hundredth of the initial rate *)
Lemma sb_rates_floor lr nepochs spe nsbs s : (2 <= nepochs)%nat -> (1 <= spe)%nat -> (1 <= s < nsbs)%nat ->
  nth s (sb_updates (train_rate lr nepochs spe) (nepochs * spe) nsbs 0) [] = repeat (Some (lr / 100)) (nepochs * spe).
Proof.
  intros He Hs Hsb. rewrite sb_updates_spec by lia. pose proof (until_steps_pos nepochs spe) as HU. pose proof (until_steps_le nepochs spe) as HL.
  set (per := (nepochs * spe)%nat) in *. assert (Hge : (until_steps nepochs spe <= 0 + s * per)%nat).
  { apply Nat.le_trans with (1 * per)%nat; [lia|]. rewrite Nat.add_0_l. apply Nat.mul_le_mono_r. lia. }
  remember (0 + s * per)%nat as c0 eqn:Ec. clear Ec. generalize per. intros m. revert c0 Hge. induction m as [|m IH]; intros c0 Hge; [reflexivity|].
  cbn [seq map repeat]. rewrite IH by lia. f_equal. unfold train_rate. rewrite cosine_end by (assumption || lia). f_equal. field.
Qed.
Lemma sb_rates_first lr nepochs spe nsbs : (1 <= nsbs)%nat ->
  nth 0 (sb_updates (train_rate lr nepochs spe) (nepochs * spe) nsbs 0) [] = map (train_rate lr nepochs spe) (seq 0 (nepochs * spe)).
Proof. intros H. rewrite sb_updates_spec by lia. reflexivity. Qed.

(** ** Random time grids, sb_imgs/train.py 117-119: [hstack([0., sort(uniform(key, (nsteps - 1,), 1e-5, T)), T])] *)
Definition to_range (lo hi u : R) : R := lo + u * (hi - lo).
Section Grid.
  Variable sort : list R -> list R.   (** jnp.sort *)
  Definition rnd_grid (lo T : R) (us : list R) : list R := 0 :: sort (map (to_range lo T) us) ++ [T].
  Definition rnd_ts (k : key) (T : R) (nsteps : nat) : prog (list R) := Unif k (nsteps - 1) (fun us => Ret (rnd_grid (/ 100000) T us)).
  (** sb_imgs/train.py 141: the forward drift is trained on the reversed times *)
  Definition reversed_grid (T : R) (ts : list R) : list R := map (fun t => T - t) ts.

  (** spec: [ts] runs from [a] to [b], [n] intervals, all steps in the relation [le] *)
  Definition grid_between (le : R -> R -> Prop) (a b : R) (n : nat) (ts : list R) : Prop :=
    length ts = S n /\ nth 0 ts 0 = a /\ last ts 0 = b /\ forall i, (i < n)%nat -> le (nth i ts 0) (nth (S i) ts 0).

  Hypothesis sort_perm : forall l, Permutation (sort l) l.
  Hypothesis sort_sorted : forall l i, (S i < length l)%nat -> nth i (sort l) 0 <= nth (S i) (sort l) 0.

  Lemma rnd_grid_spec lo T us : 0 <= lo -> lo <= T -> Forall in01 us -> grid_between Rle 0 T (S (length us)) (rnd_grid lo T us).
  Proof.
    intros Hlo HT HF. unfold rnd_grid. set (s := sort _). assert (Hl : length s = length us) by (unfold s; now rewrite (Permutation_length (sort_perm _)), map_length).
    assert (HR : Forall (fun t => lo <= t <= T) s).
    { apply Forall_forall. intros t Ht. apply (Permutation_in _ (sort_perm _)) in Ht. apply in_map_iff in Ht as (u & <- & Hu).
      rewrite Forall_forall in HF. specialize (HF u Hu). unfold in01 in HF. unfold to_range. nra. }
    unfold grid_between. split; [cbn [length]; rewrite app_length; cbn [length]; lia|]. split; [reflexivity|]. split.
    { change (0 :: s ++ [T]) with ((0 :: s) ++ [T]). apply last_last. }
    intros i Hi. destruct i as [|i]; cbn [nth].
    - destruct s as [|a s']; cbn [app nth]; [lra|]. apply Forall_inv in HR. lra.
    - destruct (lt_dec (S i) (length s)) as [H|H].
      + rewrite !app_nth1 by lia. unfold s. apply sort_sorted. rewrite map_length. lia.
      + rewrite app_nth1 by lia. rewrite app_nth2 by lia. replace (S i - length s)%nat with 0%nat by lia. cbn [nth].
        rewrite Forall_forall in HR. apply HR. apply nth_In. lia.
  Qed.
  Lemma reversed_spec T n ts : grid_between Rle 0 T n ts -> grid_between Rge T 0 n (reversed_grid T ts).
  Proof.
    intros (H1 & H2 & H3 & H4). unfold grid_between, reversed_grid.
    assert (Hn : forall i, (i < S n)%nat -> nth i (map (fun t => T - t) ts) 0 = T - nth i ts 0).
    { intros i Hi. rewrite (nth_indep _ 0 (T - 0)) by (rewrite map_length; lia). apply (map_nth (fun t => T - t)). }
    split; [now rewrite map_length|]. split; [rewrite Hn, H2 by lia; ring|]. split.
    - destruct ts as [|t ts] using rev_ind; [discriminate|]. rewrite last_last in H3. rewrite map_app. cbn [map]. rewrite last_last. subst. ring.
    - intros i Hi. rewrite !Hn by lia. specialize (H4 i Hi). lra.
  Qed.
  Lemma rnd_ts_spec k T nsteps : / 100000 <= T -> (1 <= nsteps)%nat -> safe (rnd_ts k T nsteps) (grid_between Rle 0 T nsteps).
  Proof.
    intros HT Hn tr ts (us & tr' & _ & Hl & HF & [_ ->]). replace nsteps with (S (length us)) by lia. apply rnd_grid_spec; [lra|assumption|assumption].
  Qed.
End Grid.
