(** Proofs about fbs/samplers/csmc/resamplings.py. *)
From Coq Require Import ZArith Permutation.
From Coquelicot Require Import Coquelicot.
From Verif Require Export CondResampling ResamplingProofs.
Open Scope R_scope.

(** ** Spec: conditional resampling *)

(** [cres k w i j] is an exact conditional version of the unconditional law [r w]:
    drawing the ancestor [i] of slot [j] from the weights and then running the conditional
    scheme gives the joint law of (A_j, A) under [r]. *)
Definition cond_exact (cres : key -> list R -> nat -> nat -> prog (list nat)) (r : list R -> dist (list nat)) : Prop :=
  forall w k j F, weights_ok w -> (j < length w)%nat ->
  Rsum (map (fun i => nth i w 0 * law (cres k w i j) (F i)) (seq 0 (length w)))
  = E (r w) (fun A => F (nth j A 0%nat) A).

(** Bayes form: the conditional scheme's law is the conditional law of [r] given A_j = i. *)
Lemma cond_exact_bayes cres r w k i j f :
  cond_exact cres r -> weights_ok w -> (j < length w)%nat -> (i < length w)%nat ->
  nth i w 0 * law (cres k w i j) f = E (r w) (fun A => (if Nat.eqb (nth j A 0%nat) i then 1 else 0) * f A).
Proof.
  intros HC Hw Hj Hi.
  rewrite <- (HC w k j (fun i' A => (if Nat.eqb i' i then 1 else 0) * f A) Hw Hj).
  rewrite (Rsum_map_ext _ (fun i' => (if Nat.eqb i' i then 1 else 0) * (nth i' w 0 * law (cres k w i' j) f))).
  - now rewrite (Rsum_indicator (length w) i (fun i' => nth i' w 0 * law (cres k w i' j) f) Hi).
  - intros i' _. destruct (Nat.eqb i' i).
    + rewrite Rmult_1_l. f_equal. apply law_ext. intros; ring.
    + rewrite Rmult_0_l. rewrite (law_ext _ _ (fun _ => 0)) by (intros; ring). rewrite law_zero. ring.
Qed.

(** ** Multinomial *)

Definition multinomial_dist (w : list R) : dist (list nat) := dseq (repeat (dcat w) (length w)).

Lemma Forall_repeat {A} (P : A -> Prop) a n : P a -> Forall P (repeat a n).
Proof. intros H; induction n; simpl; constructor; auto. Qed.

Lemma nth_error_repeat_lt {A} (a : A) n j : (j < n)%nat -> nth_error (repeat a n) j = Some a.
Proof. revert j; induction n; intros [|j] H; simpl; try lia; [reflexivity|apply IHn; lia]. Qed.

Theorem cmultinomial_exact : cond_exact (fun k w i j => cmultinomial k w i j true) multinomial_dist.
Proof.
  intros w k j F Hw Hj. unfold cmultinomial.
  rewrite (Rsum_map_ext _ (fun i => nth i w 0 * E (multinomial_dist w) (fun A => F (nth j (set_nth j i A) 0%nat) (set_nth j i A)))).
  - rewrite <- E_dcat. unfold multinomial_dist.
    rewrite (E_dseq_set_nth (repeat (dcat w) (length w)) j (dcat w) (fun A => F (nth j A 0%nat) A)); [reflexivity| |].
    + apply Forall_repeat. now apply is_prob_dcat.
    + now apply nth_error_repeat_lt.
  - intros i _. f_equal. rewrite law_bind. rewrite (choices_denotes _ w _ Hw). apply E_ext.
    intros A HA. cbn [law]. apply dseq_length in HA. rewrite repeat_length in HA.
    rewrite nth_set_nth_eq by lia. reflexivity.
Qed.

Theorem cmultinomial_uncond w k i j : weights_ok w ->
  denotes (cmultinomial k w i j false) (multinomial_dist w).
Proof.
  intros Hw f. unfold cmultinomial. rewrite law_bind, (choices_denotes _ w _ Hw). reflexivity.
Qed.

(** ** Killing *)

Lemma roll_src_lt n s l : (0 < n)%nat -> (roll_src n s l < n)%nat.
Proof.
  intros Hn. unfold roll_src. pose proof (Z.mod_pos_bound (Z.of_nat l - s) (Z.of_nat n) ltac:(lia)). lia.
Qed.

Lemma length_roll {A} (d : A) s x : length (roll d s x) = length x.
Proof. unfold roll. now rewrite map_length, seq_length. Qed.

Lemma roll_src_J n j J : (J < n)%nat -> (j < n)%nat -> roll_src n (Z.of_nat j - Z.of_nat J) j = J.
Proof.
  intros HJ Hj. unfold roll_src. replace (Z.of_nat j - (Z.of_nat j - Z.of_nat J))%Z with (Z.of_nat J) by lia.
  rewrite Z.mod_small by lia. lia.
Qed.

Lemma roll_src_inj n s l l' : (l < n)%nat -> (l' < n)%nat -> roll_src n s l = roll_src n s l' -> l = l'.
Proof.
  intros Hl Hl' H. unfold roll_src in H.
  pose proof (Z.mod_pos_bound (Z.of_nat l - s) (Z.of_nat n) ltac:(lia)).
  pose proof (Z.mod_pos_bound (Z.of_nat l' - s) (Z.of_nat n) ltac:(lia)).
  assert (He : ((Z.of_nat l - s) mod Z.of_nat n = (Z.of_nat l' - s) mod Z.of_nat n)%Z) by lia.
  assert (H3 : ((Z.of_nat l - Z.of_nat l') mod Z.of_nat n = 0)%Z).
  { replace (Z.of_nat l - Z.of_nat l')%Z with ((Z.of_nat l - s) - (Z.of_nat l' - s))%Z by lia.
    rewrite Zminus_mod, He, Z.sub_diag. apply Z.mod_0_l. lia. }
  apply Z.mod_divide in H3; [|lia]. destruct H3 as [q Hq].
  assert (q = 0)%Z by nia. lia.
Qed.

Lemma roll_nth {A} (d : A) s x l : (l < length x)%nat -> nth l (roll d s x) d = nth (roll_src (length x) s l) x d.
Proof. intros Hl. unfold roll. now rewrite (nth_map_seq (fun l => nth (roll_src (length x) s l) x d)). Qed.

(** setting slot j after rolling by j - J = setting slot J before rolling *)
Lemma set_nth_roll (x : list nat) (i j J : nat) :
  (J < length x)%nat -> (j < length x)%nat ->
  set_nth j i (roll 0%nat (Z.of_nat j - Z.of_nat J)%Z x) = roll 0%nat (Z.of_nat j - Z.of_nat J)%Z (set_nth J i x).
Proof.
  intros HJ Hj. apply nth_ext with (d := 0%nat) (d' := 0%nat).
  - now rewrite length_set_nth, !length_roll, length_set_nth.
  - intros l Hl. rewrite length_set_nth, length_roll in Hl.
    rewrite roll_nth by (rewrite length_set_nth; assumption). rewrite length_set_nth.
    destruct (Nat.eq_dec j l) as [->|Hne].
    + rewrite nth_set_nth_eq by now rewrite length_roll.
      rewrite roll_src_J by assumption. now rewrite nth_set_nth_eq.
    + rewrite nth_set_nth_neq, roll_nth by assumption.
      rewrite nth_set_nth_neq; [reflexivity|]. intros HJ'.
      apply Hne. symmetry. apply (roll_src_inj (length x) (Z.of_nat j - Z.of_nat J) l j Hl Hj).
      rewrite <- HJ'. now rewrite roll_src_J.
Qed.

Lemma roll_mod {A} (d : A) s (x : list A) : roll d (s mod Z.of_nat (length x))%Z x = roll d s x.
Proof.
  unfold roll. apply map_ext_in. intros l Hl. apply in_seq in Hl. f_equal. unfold roll_src. f_equal.
  rewrite Zminus_mod, Z.mod_mod, <- Zminus_mod by lia. reflexivity.
Qed.

(** sums over rotated index sets *)
Lemma Rsum_perm l l' : Permutation l l' -> Rsum l = Rsum l'.
Proof. induction 1; simpl; lra. Qed.

Lemma Rsum_reindex (f : nat -> R) g n :
  (forall i, (i < n)%nat -> (g i < n)%nat) ->
  (forall i j, (i < n)%nat -> (j < n)%nat -> g i = g j -> i = j) ->
  Rsum (map (fun i => f (g i)) (seq 0 n)) = Rsum (map f (seq 0 n)).
Proof.
  intros Hr Hi. rewrite <- (map_map g f). apply Rsum_perm, Permutation_map.
  apply NoDup_Permutation_bis.
  - assert (Hnd : forall l, NoDup l -> (forall i, In i l -> (i < n)%nat) -> NoDup (map g l)).
    { induction 1 as [|a l Ha Hl IH]; intros Hin; simpl; constructor.
      - intros Hm. apply in_map_iff in Hm. destruct Hm as (b & Hb & Hbl). apply Ha.
        replace a with b; [assumption|]. apply Hi; [apply Hin; now right|apply Hin; now left|assumption].
      - apply IH. intros; apply Hin; now right. }
    apply Hnd; [apply seq_NoDup|]. intros i Hin. apply in_seq in Hin. lia.
  - rewrite map_length. reflexivity.
  - intros a Ha. apply in_map_iff in Ha. destruct Ha as (i & <- & Hin). apply in_seq in Hin.
    apply in_seq. specialize (Hr i). lia.
Qed.

(** The unconditional law behind conditional killing: a uniformly rotated killing vector. *)
Definition rolled_killing_dist (w : list R) : dist (list nat) :=
  dbind (dunif (length w)) (fun s => dmap (roll 0%nat (Z.of_nat s)) (killing_dist w)).

Lemma killing_dist_length w A : In A (map snd (killing_dist w)) -> length A = length w.
Proof. intros H. apply dseq_length in H. now rewrite map_length, seq_length in H. Qed.

Lemma rolled_killing_shift w j F : (j < length w)%nat ->
  / INR (length w) * Rsum (map (fun J => E (killing_dist w) (fun A => F (roll 0%nat (Z.of_nat j - Z.of_nat J)%Z A))) (seq 0 (length w)))
  = E (rolled_killing_dist w) F.
Proof.
  intros Hj. unfold rolled_killing_dist. rewrite E_dbind, E_dunif. f_equal.
  set (n := length w) in *.
  rewrite <- (Rsum_reindex (fun s => E (dmap (roll 0%nat (Z.of_nat s)) (killing_dist w)) F)
                (fun J => Z.to_nat ((Z.of_nat j - Z.of_nat J) mod Z.of_nat n)%Z) n).
  - apply Rsum_map_ext. intros J HJ. rewrite E_dmap. apply E_ext. intros A HA.
    apply killing_dist_length in HA. fold n in HA. f_equal.
    pose proof (Z.mod_pos_bound (Z.of_nat j - Z.of_nat J) (Z.of_nat n) ltac:(lia)).
    rewrite Z2Nat.id by lia. rewrite <- HA. now rewrite roll_mod.
  - intros J HJ. pose proof (Z.mod_pos_bound (Z.of_nat j - Z.of_nat J) (Z.of_nat n) ltac:(lia)). lia.
  - intros J J' HJ HJ' He.
    pose proof (Z.mod_pos_bound (Z.of_nat j - Z.of_nat J) (Z.of_nat n) ltac:(lia)).
    pose proof (Z.mod_pos_bound (Z.of_nat j - Z.of_nat J') (Z.of_nat n) ltac:(lia)).
    assert (He' : ((Z.of_nat j - Z.of_nat J) mod Z.of_nat n = (Z.of_nat j - Z.of_nat J') mod Z.of_nat n)%Z) by lia.
    assert (H3 : ((Z.of_nat J' - Z.of_nat J) mod Z.of_nat n = 0)%Z).
    { replace (Z.of_nat J' - Z.of_nat J)%Z with ((Z.of_nat j - Z.of_nat J) - (Z.of_nat j - Z.of_nat J'))%Z by lia.
      rewrite Zminus_mod, He', Z.sub_diag. apply Z.mod_0_l. lia. }
    apply Z.mod_divide in H3; [|lia]. destruct H3 as [q Hq]. assert (q = 0)%Z by nia. lia.
Qed.

(** probability that slot J of the killing vector equals i *)
Definition slot_prob (w : list R) (J i : nat) : R :=
  (if Nat.eqb i J then nth J w 0 / Rmax_list w else 0) + (1 - nth J w 0 / Rmax_list w) * nth i w 0.

Lemma E_killing_slot w J h : (J < length w)%nat ->
  E (killing_slot w J) h = Rsum (map (fun i => slot_prob w J i * h i) (seq 0 (length w))).
Proof.
  intros HJ. unfold killing_slot. rewrite E_dbind, !E_cons, E_dret.
  change (E (@nil (R * bool)) _) with 0. rewrite E_dcat, Rplus_0_r.
  rewrite (Rsum_map_ext (fun i => slot_prob w J i * h i)
    (fun i => (if Nat.eqb i J then 1 else 0) * (nth J w 0 / Rmax_list w * h i) + (1 - nth J w 0 / Rmax_list w) * (nth i w 0 * h i))).
  - rewrite Rsum_map_plus, Rsum_map_mult_l.
    rewrite (Rsum_indicator (length w) J (fun i => nth J w 0 / Rmax_list w * h i) HJ). reflexivity.
  - intros i _. unfold slot_prob. destruct (Nat.eqb i J); ring.
Qed.

Lemma is_prob_killing_slot w i : weights_ok w -> is_prob (killing_slot w i).
Proof.
  intros Hw. pose proof (nth_In_bounds w i Hw) as Hb. assert (H0 := weights_ok_Rmax_pos w Hw).
  assert (Hc : 0 <= nth i w 0 / Rmax_list w <= 1).
  { assert (Hm' := Rinv_0_lt_compat _ H0). split; [apply Rmult_le_pos; lra|].
    apply Rmult_le_reg_r with (Rmax_list w); [assumption|].
    unfold Rdiv. rewrite Rmult_assoc, Rinv_l; lra. }
  apply is_prob_dbind.
  - split; [|unfold E; simpl; lra].
    apply Forall_cons; [simpl; lra|apply Forall_cons; [simpl; lra|apply Forall_nil]].
  - intros [|] _; [apply is_prob_dret|now apply is_prob_dcat].
Qed.

Lemma Rsum_set_nth i a l : (i < length l)%nat -> Rsum (set_nth i a l) = Rsum l - nth i l 0 + a.
Proof.
  revert i; induction l as [|x l IH]; intros i Hi; simpl in *; [lia|].
  destruct i as [|i]; simpl; [ring|]. rewrite IH by lia. ring.
Qed.

Lemma set_nth_twice {A} i (a b : A) l : set_nth i a (set_nth i b l) = set_nth i a l.
Proof. revert i; induction l as [|x l IH]; intros [|i]; simpl; try reflexivity. now rewrite IH. Qed.

Lemma J_probs_ok w i : weights_ok w -> (i < length w)%nat ->
  weights_ok (J_probs w i) /\ length (J_probs w i) = length w /\
  forall J, (J < length w)%nat -> nth i w 0 * nth J (J_probs w i) 0 = / INR (length w) * slot_prob w J i.
Proof.
  intros Hw Hi. assert (H0 := weights_ok_Rmax_pos w Hw).
  assert (Hn : 0 < INR (length w)) by (apply lt_0_INR; lia).
  assert (Hinv := Rinv_0_lt_compat _ Hn). assert (Hm' := Rinv_0_lt_compat _ H0).
  unfold J_probs. set (n := length w) in *. set (m := Rmax_list w) in *.
  set (q := map (fun x => (1 - x / m) / INR n) w).
  assert (Hlq : length q = n) by (unfold q; now rewrite map_length).
  assert (Hq : Forall (fun x => 0 <= x) q).
  { unfold q. apply Forall_map, Forall_forall. intros x Hx. pose proof (Rmax_list_ge w x Hx) as Hxm. fold m in Hxm.
    apply Rmult_le_pos; [|lra]. assert (x / m <= 1); [|lra].
    apply Rmult_le_reg_r with m; [assumption|]. unfold Rdiv. rewrite Rmult_assoc, Rinv_l; lra. }
  assert (Hqs : Rsum q = 1 - / (INR n * m)).
  { unfold q. rewrite (Rsum_map_ext _ (fun x => / INR n + - (/ INR n * / m) * x)) by (intros; field; lra).
    rewrite Rsum_map_plus, Rsum_map_const, Rsum_map_mult_l, map_id. destruct Hw as [_ Hs]. rewrite Hs.
    fold n. field. lra. }
  assert (Hqn : forall J, (J < n)%nat -> nth J q 0 = (1 - nth J w 0 / m) / INR n).
  { intros J HJ. unfold q. rewrite (nth_indep _ 0 ((fun x => (1 - x / m) / INR n) 0)) by (now rewrite map_length).
    now rewrite (map_nth (fun x => (1 - x / m) / INR n)). }
  assert (Hs0 : Rsum (set_nth i 0 q) = 1 - / (INR n * m) - nth i q 0).
  { rewrite Rsum_set_nth by lia. rewrite Hqs. ring. }
  assert (Hwi : 0 <= nth i w 0 <= m) by (apply (nth_In_bounds w i Hw)).
  assert (Hpos : 0 <= 1 - Rsum (set_nth i 0 q)).
  { rewrite Hs0. rewrite (Hqn i Hi). assert (0 < / (INR n * m)) by (apply Rinv_0_lt_compat, Rmult_lt_0_compat; lra).
    assert (0 <= (1 - nth i w 0 / m) / INR n); [|lra].
    rewrite <- (Hqn i Hi). apply Forall_nth_lt; [assumption|lia]. }
  rewrite Rmax_left by lra. rewrite set_nth_twice. split; [split|split].
  - apply Forall_set_nth; assumption.
  - rewrite Rsum_set_nth by lia. rewrite Hs0, Hqs. ring.
  - now rewrite length_set_nth.
  - intros J HJ. unfold slot_prob. fold m. destruct (Nat.eqb_spec i J) as [<-|Hne].
    + rewrite nth_set_nth_eq by lia. rewrite Hs0, (Hqn i Hi). field. lra.
    + rewrite nth_set_nth_neq by assumption. rewrite (Hqn J HJ). field. lra.
Qed.

Theorem ckilling_exact : cond_exact (fun k w i j => ckilling k w i j true) rolled_killing_dist.
Proof.
  intros w k j F Hw Hj. set (n := length w).
  assert (Hlaw : forall i, (i < n)%nat -> forall f,
    law (ckilling k w i j true) f =
    E (killing_dist w) (fun A => E (dcat (J_probs w i)) (fun J => f (set_nth j i (roll 0%nat (Z.of_nat j - Z.of_nat J)%Z A))))).
  { intros i Hi f. destruct (J_probs_ok w i Hw Hi) as (HJ & _ & _).
    rewrite <- (killing_denotes w k Hw). unfold ckilling, killing. rewrite !law_bind. apply law_ext. intros us.
    rewrite !law_bind. apply law_ext. intros cs. rewrite law_bind, (choice_denotes _ _ HJ). reflexivity. }
  assert (Hpk : Forall is_prob (map (killing_slot w) (seq 0 n))).
  { apply Forall_forall. intros d Hd. apply in_map_iff in Hd. destruct Hd as (i & <- & _). now apply is_prob_killing_slot. }
  rewrite <- (rolled_killing_shift w j (fun A => F (nth j A 0%nat) A) Hj). fold n.
  rewrite (Rsum_map_ext _ (fun i => Rsum (map (fun J => / INR n * (slot_prob w J i *
      E (killing_dist w) (fun A => F (nth j (roll 0%nat (Z.of_nat j - Z.of_nat J)%Z (set_nth J i A)) 0%nat) (roll 0%nat (Z.of_nat j - Z.of_nat J)%Z (set_nth J i A))))) (seq 0 n)))).
  2:{ intros i Hi. apply in_seq in Hi. rewrite Hlaw by lia. destruct (J_probs_ok w i Hw ltac:(fold n; lia)) as (_ & HJl & HJp).
      rewrite E_exchange, E_dcat, HJl. fold n. rewrite <- Rsum_map_mult_l. apply Rsum_map_ext. intros J HJ. apply in_seq in HJ.
      rewrite <- Rmult_assoc, HJp by (fold n; lia). rewrite Rmult_assoc. fold n. f_equal. f_equal.
      apply E_ext. intros A HA. apply killing_dist_length in HA. fold n in HA.
      rewrite set_nth_roll by lia. f_equal.
      rewrite <- set_nth_roll by lia. rewrite nth_set_nth_eq by (rewrite length_roll; lia). reflexivity. }
  rewrite Rsum_exchange, <- Rsum_map_mult_l. apply Rsum_map_ext. intros J HJ. apply in_seq in HJ.
  rewrite Rsum_map_mult_l. f_equal. rewrite <- (E_killing_slot w J) by (fold n; lia).
  unfold killing_dist. fold n.
  rewrite (E_dseq_set_nth (map (killing_slot w) (seq 0 n)) J (killing_slot w J)
    (fun A => F (nth j (roll 0%nat (Z.of_nat j - Z.of_nat J)%Z A) 0%nat) (roll 0%nat (Z.of_nat j - Z.of_nat J)%Z A)) Hpk); [reflexivity|].
  rewrite nth_error_map. rewrite (nth_error_nth' _ 0%nat) by (rewrite seq_length; lia).
  simpl. f_equal. f_equal. rewrite seq_nth; lia.
Qed.

Theorem ckilling_uncond w k i j : weights_ok w -> denotes (ckilling k w i j false) (killing_dist w).
Proof.
  intros Hw f. rewrite <- (killing_denotes w k Hw). reflexivity.
Qed.

(** ** Pinning and range, for every outcome (C06) *)

Lemma cmultinomial_safe k w i j : weights_ok w -> (i < length w)%nat -> (j < length w)%nat ->
  safe (cmultinomial k w i j true) (fun A => valid_indices (length w) A /\ nth j A 0%nat = i).
Proof.
  intros Hw Hi Hj. unfold cmultinomial. eapply safe_bind; [now apply choices_safe|].
  intros A [HA1 HA2]. apply safe_ret. split; [split|].
  - now rewrite length_set_nth.
  - now apply Forall_set_nth.
  - apply nth_set_nth_eq. lia.
Qed.

Lemma roll_Forall {A} (P : A -> Prop) d s x : Forall P x -> Forall P (roll d s x).
Proof.
  intros H. unfold roll. apply Forall_map, Forall_forall. intros l Hl. apply in_seq in Hl.
  apply Forall_nth_lt; [assumption|]. apply roll_src_lt. lia.
Qed.

Lemma ckilling_safe k w i j : weights_ok w -> (i < length w)%nat -> (j < length w)%nat ->
  safe (ckilling k w i j true) (fun A => valid_indices (length w) A /\ nth j A 0%nat = i).
Proof.
  intros Hw Hi Hj. unfold ckilling.
  apply safe_bind with (P := fun us => length us = length w).
  { apply safe_unif. intros us Hl _. now apply safe_ret. }
  intros us Hus. eapply safe_bind; [now apply choices_safe|]. intros cs [Hcl Hcs].
  destruct (J_probs_ok w i Hw Hi) as (HJ & HJl & _).
  eapply safe_bind; [now apply choice_safe|]. intros J HJlt. apply safe_ret.
  assert (Hk : Forall (fun a => (a < length w)%nat) (killing_select w us cs)).
  { apply Forall_forall. intros a Ha. apply (In_nth _ _ 0%nat) in Ha. destruct Ha as (l & Hl & <-).
    rewrite killing_select_length in Hl by assumption. rewrite killing_select_nth by assumption.
    destruct (Rle_dec _ _); [|assumption]. apply Forall_nth_lt; [assumption|lia]. }
  split; [split|].
  - now rewrite length_set_nth, length_roll, killing_select_length.
  - apply Forall_set_nth; [assumption|]. now apply roll_Forall.
  - apply nth_set_nth_eq. now rewrite length_roll, killing_select_length.
Qed.

(** In exact arithmetic the unclipped systematic draw equals the clipped one. *)
Lemma csystematic_of_eq w u : weights_ok w -> in01 u -> csystematic_of w u = systematic_of w u.
Proof.
  intros Hw Hu. unfold csystematic_of, systematic_of, inverse_cdf_indices. apply map_ext_in.
  intros v Hv. unfold strat_points in Hv. rewrite repeat_length in Hv.
  assert (Hn : 0 < INR (length w)) by (apply lt_0_INR, weights_ok_length_pos; assumption).
  apply in_map_iff in Hv. destruct Hv as ([k u'] & <- & Hin). cbn [fst snd].
  assert (Hk := in_combine_l _ _ _ _ Hin). assert (Hu' := in_combine_r _ _ _ _ Hin).
  apply repeat_spec in Hu'. subst u'. apply in_seq in Hk.
  assert (Hk' : (k + 1 <= length w)%nat) by lia. apply le_INR in Hk'. rewrite plus_INR in Hk'. simpl in Hk'.
  unfold in01 in Hu. pose proof (weights_ok_nonempty w Hw) as Hne. destruct Hw as [Hp Hs].
  assert (Hv1 : (INR k + u) / INR (length w) <= 0 + Rsum w).
  { rewrite Hs. apply Rmult_le_reg_r with (INR (length w)); [assumption|].
    unfold Rdiv. rewrite Rmult_assoc, Rinv_l by lra. lra. }
  pose proof (searchsorted_cumsum_lt 0 w _ Hne Hv1). unfold clip_index, cumsum. lia.
Qed.

(** Without clipping, weights that fall short of one (rounding in [exp(log_ws)]) give index N. *)
Lemma csystematic_out_of_range :
  exists w u, Forall (fun x => 0 < x) w /\ Rsum w < 1 /\ in01 u /\
    ~ Forall (fun i => (i < length w)%nat) (csystematic_of w u).
Proof.
  exists [1/2; 2/5], (95/100). split; [repeat constructor; lra|]. split; [simpl; lra|].
  split; [unfold in01; lra|]. intros H.
  assert (Hc : csystematic_of [1/2; 2/5] (95/100) = [0; 2]%nat).
  { unfold csystematic_of, strat_points, cumsum. simpl.
    repeat match goal with |- context [Rlt_dec ?a ?b] => destruct (Rlt_dec a b); try lra end. reflexivity. }
  rewrite Hc in H. inversion H; subst. inversion H3; subst. simpl in *. lia.
Qed.

(** ** Key discipline *)

Lemma cmultinomial_good k w i j b : good [k] (cmultinomial k w i j b).
Proof. apply good_bind_ret, good_choices. Qed.

Lemma ckilling_good k w i j b : good [k] (ckilling k w i j b).
Proof.
  apply (good_under k [0; 1; 2]%nat). unfold ckilling.
  apply good_bind_under with (is := [0%nat]) (js := [1; 2]%nat); [key_disjoint|apply good_unif|].
  intros us. apply good_bind_under with (is := [1%nat]) (js := [2%nat]); [key_disjoint|apply good_choices|].
  intros cs. destruct b; [|apply good_ret]. apply good_bind_ret, good_choice.
Qed.

(** ** Marginals of the unconditional laws *)

Lemma multinomial_slot_marginal w j f : weights_ok w -> (j < length w)%nat ->
  E (multinomial_dist w) (fun A => f (nth j A 0%nat)) = Rsum (map (fun i => nth i w 0 * f i) (seq 0 (length w))).
Proof.
  intros Hw Hj. unfold multinomial_dist. rewrite <- E_dcat.
  apply (E_dseq_nth (repeat (dcat w) (length w)) j (dcat w) 0%nat f).
  - apply Forall_repeat. now apply is_prob_dcat.
  - now apply nth_error_repeat_lt.
Qed.

Lemma is_prob_killing_dist w : weights_ok w -> is_prob (killing_dist w).
Proof.
  intros Hw. apply is_prob_dseq. apply Forall_forall. intros d Hd. apply in_map_iff in Hd.
  destruct Hd as (i & <- & _). now apply is_prob_killing_slot.
Qed.

Lemma is_prob_rolled_killing w : weights_ok w -> is_prob (rolled_killing_dist w).
Proof.
  intros Hw. apply is_prob_dbind; [apply is_prob_dunif; now apply weights_ok_length_pos|].
  intros s _. apply is_prob_dmap. now apply is_prob_killing_dist.
Qed.

Lemma killing_slot_marginal w j f : weights_ok w -> (j < length w)%nat ->
  E (rolled_killing_dist w) (fun A => f (nth j A 0%nat)) = Rsum (map (fun i => nth i w 0 * f i) (seq 0 (length w))).
Proof.
  intros Hw Hj. rewrite <- (ckilling_exact w [] j (fun i _ => f i) Hw Hj). apply Rsum_map_ext. intros i Hi.
  apply in_seq in Hi. f_equal. unfold ckilling. destruct (J_probs_ok w i Hw ltac:(lia)) as (HJ & _ & _).
  rewrite law_bind. cbn [law].
  rewrite (uint_ext _ _ (fun _ => f i)); [apply uint_const|]. intros us _.
  rewrite law_bind, (choices_denotes _ w _ Hw).
  rewrite (E_ext' _ _ (fun _ => f i)).
  - apply E_const, is_prob_dseq, Forall_repeat. now apply is_prob_dcat.
  - intros cs. cbv beta zeta. rewrite law_bind, (choice_denotes _ _ HJ). cbn [law]. apply E_const. now apply is_prob_dcat.
Qed.

Lemma choice_law_index k p i : weights_ok p -> (i < length p)%nat ->
  law (choice k p) (fun a => if Nat.eqb a i then 1 else 0) = nth i p 0.
Proof.
  intros Hp Hi. rewrite (choice_denotes k p Hp), E_dcat.
  rewrite (Rsum_map_ext _ (fun a => (if Nat.eqb a i then 1 else 0) * nth a p 0)) by (intros; ring).
  now apply (Rsum_indicator (length p) i (fun a => nth a p 0)).
Qed.

Lemma choice_unif_law_index k n i : (i < n)%nat ->
  law (choice_unif k n) (fun a => if Nat.eqb a i then 1 else 0) = / INR n.
Proof.
  intros Hi. rewrite (choice_unif_denotes k n) by lia. rewrite E_dunif.
  rewrite (Rsum_map_ext _ (fun a => (if Nat.eqb a i then 1 else 0) * 1)) by (intros; ring).
  rewrite (Rsum_indicator n i (fun _ => 1) Hi). ring.
Qed.
