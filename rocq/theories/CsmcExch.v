(** Conditional resampling seen from the reference particle: the other slots are exchangeable, whatever the slots of the
    reference before and after. *)
From Coq Require Import Permutation ZArith.
From Verif Require Export FinLaw CsmcInv.
From Verif Require Import ResVariance.
Open Scope R_scope.

(** ** Lists without one position *)
Definition rm {A} (b : nat) (l : list A) : list A := firstn b l ++ skipn (S b) l.

Lemma rm_0 {A} (a : A) l : rm 0 (a :: l) = l.
Proof. reflexivity. Qed.
Lemma rm_S {A} b (a : A) l : rm (S b) (a :: l) = a :: rm b l.
Proof. reflexivity. Qed.
Lemma rm_map {A B} (f : A -> B) b l : rm b (map f l) = map f (rm b l).
Proof. revert l; induction b as [|b IH]; intros [|a l]; try reflexivity. cbn [map]. rewrite !rm_S. cbn [map]. now rewrite IH. Qed.
Lemma rm_set_nth {A} b (x : A) l : rm b (set_nth b x l) = rm b l.
Proof. revert l; induction b as [|b IH]; intros [|a l]; try reflexivity. cbn [set_nth]. rewrite !rm_S. now rewrite IH. Qed.
Lemma rm_length {A} b (l : list A) : (b < length l)%nat -> length (rm b l) = (length l - 1)%nat.
Proof.
  revert l; induction b as [|b IH]; intros [|a l] H; cbn [length] in *; try lia; [rewrite rm_0; lia|].
  rewrite rm_S. cbn [length]. rewrite IH; lia.
Qed.
Lemma rm_perm {A} b (l : list A) d : (b < length l)%nat -> Permutation (nth b l d :: rm b l) l.
Proof.
  revert l; induction b as [|b IH]; intros [|a l] H; cbn [length] in H; try lia; [reflexivity|].
  rewrite rm_S. cbn [nth]. rewrite perm_swap. constructor. apply IH. lia.
Qed.
Lemma rm_repeat {A} b (a : A) n : (b < n)%nat -> rm b (repeat a n) = repeat a (n - 1).
Proof.
  revert b; induction n as [|n IH]; intros [|b] H; try lia; cbn [repeat].
  - rewrite rm_0. f_equal. lia.
  - rewrite rm_S, IH by lia. replace (S n - 1)%nat with (S (n - 1)) by lia. reflexivity.
Qed.
Lemma rm_In {A} b (l : list A) x : In x (rm b l) -> In x l.
Proof.
  unfold rm. rewrite in_app_iff. intros [H|H].
  - rewrite <- (firstn_skipn b l). apply in_app_iff. now left.
  - rewrite <- (firstn_skipn (S b) l). apply in_app_iff. now right.
Qed.

Lemma E_dseq_rm {A} (ds : list (dist A)) b F : Forall is_prob ds -> (b < length ds)%nat ->
  E (dseq ds) (fun l => F (rm b l)) = E (dseq (rm b ds)) F.
Proof.
  revert b F. induction ds as [|d ds IH]; intros b F Hp Hb; cbn [length] in Hb; [lia|].
  rewrite E_dseq_cons. destruct b as [|b].
  - rewrite rm_0. rewrite (E_ext' d _ (fun _ => E (dseq ds) F)); [apply E_const, (Forall_inv Hp)|]. intros a. reflexivity.
  - rewrite rm_S, E_dseq_cons. apply E_ext'. intros a.
    rewrite <- (IH b (fun l => F (a :: l)) (Forall_inv_tail Hp)) by lia. reflexivity.
Qed.

(** ** Symmetric functionals *)
Definition perm_inv {A B} (F : list A -> B) : Prop := forall l l', Permutation l l' -> F l = F l'.

Lemma perm_inv_cons {A B} (F : list A -> B) a : perm_inv F -> perm_inv (fun l => F (a :: l)).
Proof. intros H l l' P. apply H. now constructor. Qed.

Lemma E_dseq_perm {A} (ds ds' : list (dist A)) : Permutation ds ds' -> forall F : list A -> R, perm_inv F -> E (dseq ds) F = E (dseq ds') F.
Proof.
  induction 1 as [|d ds ds' H IH|d e ds|ds1 ds2 ds3 H1 IH1 H2 IH2]; intros F HF.
  - reflexivity.
  - rewrite !E_dseq_cons. apply E_ext'. intros a. apply IH. now apply perm_inv_cons.
  - rewrite !E_dseq_cons. rewrite (E_ext' e _ (fun a => E d (fun b => E (dseq ds) (fun l => F (a :: b :: l))))) by (intros; now rewrite E_dseq_cons).
    rewrite E_exchange. apply E_ext'. intros a. rewrite E_dseq_cons. apply E_ext'. intros b. apply E_ext'. intros l. apply HF. constructor.
  - now rewrite IH1, IH2.
Qed.

Lemma E_dseq_laws {A} (ds ds' : list (dist A)) : Forall2 (fun d d' => forall f, E d f = E d' f) ds ds' ->
  forall F, E (dseq ds) F = E (dseq ds') F.
Proof.
  induction 1 as [|d d' ds ds' Hd _ IH]; intros F; [reflexivity|]. rewrite !E_dseq_cons, Hd. apply E_ext'. intros a. apply IH.
Qed.

Lemma E_dseq_dmap {A B} (g : A -> B) ds F : E (dseq ds) (fun l => F (map g l)) = E (dseq (map (dmap g) ds)) F.
Proof.
  revert F. induction ds as [|d ds IH]; intros F; [reflexivity|].
  cbn [map]. rewrite !E_dseq_cons, E_dmap. apply E_ext'. intros a. cbn [map]. now rewrite <- IH.
Qed.

Lemma E_perm {A} (d d' : dist A) f : Permutation d d' -> E d f = E d' f.
Proof. intros H. unfold E. apply Rsum_perm. now apply Permutation_map. Qed.

(** a weighted list is the law that draws its elements *)
Lemma E_dcat_zip {X} (l : list (R * X)) dx f : E (dcat (map fst l)) (fun i => f (nth i (map snd l) dx)) = E l f.
Proof.
  rewrite E_dcat, map_length. unfold E. induction l as [|[w x] l IH]; [reflexivity|]. cbn [length seq map Rsum nth fst snd].
  rewrite <- seq_shift, map_map, <- IH. reflexivity.
Qed.

(** all ways of taking one element out *)
Fixpoint picks {A} (l : list A) : list (A * list A) :=
  match l with [] => [] | a :: l' => (a, l') :: map (fun p => (fst p, a :: snd p)) (picks l') end.
Lemma picks_seq {A} (l : list A) d : picks l = map (fun J => (nth J l d, rm J l)) (seq 0 (length l)).
Proof.
  induction l as [|a l IH]; [reflexivity|]. cbn [picks length seq map]. f_equal. rewrite IH, <- seq_shift, !map_map. reflexivity.
Qed.
Lemma picks_perm {A} (l l' : list A) : Permutation l l' -> forall g : A -> list A -> R, (forall a, perm_inv (g a)) ->
  Rsum (map (fun p => g (fst p) (snd p)) (picks l)) = Rsum (map (fun p => g (fst p) (snd p)) (picks l')).
Proof.
  induction 1 as [|a l l' H IH|a b l|l1 l2 l3 H1 IH1 H2 IH2]; intros g Hg.
  - reflexivity.
  - cbn [picks map Rsum fst snd]. rewrite !map_map. cbn [fst snd]. rewrite (Hg a l l' H). f_equal.
    apply (IH (fun x r => g x (a :: r))). intros x. now apply perm_inv_cons.
  - cbn [picks map Rsum fst snd]. rewrite !map_map. cbn [fst snd].
    rewrite (Rsum_map_ext (fun x => g (fst x) (b :: a :: snd x)) (fun x => g (fst x) (a :: b :: snd x))); [lra|].
    intros p _. apply Hg. constructor.
  - rewrite IH1, IH2 by assumption. reflexivity.
Qed.

(** ** The schemes *)
(** multinomial: the other slots are drawn from the weights *)
Definition phi_multinomial {X} (ref : R * X) (rest : list (R * X)) (W : X -> list X -> R) : R :=
  E (dseq (repeat (ref :: rest) (length rest))) (W (snd ref)).
(** killing: one slot J is given to the reference; the others survive or are redrawn *)
Definition kill_law {X} (l : list (R * X)) (y : R * X) : dist X :=
  let s := fst y / Rmax_list (map fst l) in (s, snd y) :: dscale (1 - s) l.
Definition kill_p {X} (l : list (R * X)) (y : R * X) : R := (1 - fst y / Rmax_list (map fst l)) / INR (length l).
Definition phi_killing {X} (ref : R * X) (rest : list (R * X)) (W : X -> list X -> R) : R :=
  let l := ref :: rest in
  let Psi r := E (dseq (map (kill_law l) r)) (W (snd ref)) in
  (1 - Rsum (map (kill_p l) rest)) * Psi rest + Rsum (map (fun p => kill_p l (fst p) * Psi (ref :: snd p)) (picks rest)).

Definition phi_law (cres : key -> list R -> nat -> nat -> bool -> prog (list nat))
  (Phi : forall X, R * X -> list (R * X) -> (X -> list X -> R) -> R) : Prop :=
  forall X (dx : X) l k b b1 W, weights_ok (map fst l) -> (b < length l)%nat -> (b1 < length l)%nat -> (forall x, perm_inv (W x)) ->
  law (cres k (map fst l) b b1 true) (fun A => W (nth b1 (gather dx (map snd l) A) dx) (rm b1 (gather dx (map snd l) A)))
  = Phi X (nth b l (0, dx)) (rm b l) W.

Lemma nth_snd {X} (l : list (R * X)) b dx : nth b (map snd l) dx = snd (nth b l (0, dx)).
Proof. exact (map_nth snd l (0, dx) b). Qed.
Lemma nth_fst {X} (l : list (R * X)) b dx : nth b (map fst l) 0 = fst (nth b l (0, dx)).
Proof. exact (map_nth fst l (0, dx) b). Qed.

Lemma gather_set_nth {X} (dx : X) xs A b1 b : gather dx xs (set_nth b1 b A) = set_nth b1 (nth b xs dx) (gather dx xs A).
Proof. unfold gather. revert b1. induction A as [|a A IH]; intros [|b1]; try reflexivity. cbn [set_nth map]. now rewrite IH. Qed.

Lemma phi_multinomial_law : phi_law cmultinomial (@phi_multinomial).
Proof.
  intros X dx l k b b1 W Hw Hb Hb1 HW. unfold cmultinomial. rewrite law_bind, (choices_denotes _ _ _ Hw), map_length.
  unfold phi_multinomial. rewrite rm_length by assumption.
  rewrite (E_ext _ _ (fun A => W (snd (nth b l (0, dx))) (map (fun i => nth i (map snd l) dx) (rm b1 A)))).
  - assert (Hp : Forall is_prob (repeat (dcat (map fst l)) (length l))) by (apply Forall_repeat; now apply is_prob_dcat).
    rewrite (E_dseq_rm _ b1 (fun A => W (snd (nth b l (0, dx))) (map (fun i => nth i (map snd l) dx) A)) Hp) by now rewrite repeat_length.
    rewrite rm_repeat by assumption. rewrite E_dseq_dmap. apply E_dseq_laws.
    generalize (length l - 1)%nat. intros m. induction m as [|m IH]; cbn [repeat map]; constructor; [|exact IH].
    intros f. rewrite E_dmap, E_dcat_zip. symmetry. apply E_perm. now apply rm_perm.
  - intros A HA. apply dseq_length in HA. rewrite repeat_length in HA. cbn [law].
    rewrite gather_set_nth, rm_set_nth, nth_set_nth_eq, nth_snd by (rewrite length_gather; lia).
    unfold gather. now rewrite rm_map.
Qed.

Lemma NoDup_map_inj {A B} (f : A -> B) l : (forall i j, In i l -> In j l -> f i = f j -> i = j) -> NoDup l -> NoDup (map f l).
Proof.
  intros Hf Hl. induction Hl as [|a l Ha Hl IH]; cbn [map]; constructor.
  - intros Hm. apply in_map_iff in Hm. destruct Hm as (b & Hb & Hbl). apply Ha. replace a with b; [assumption|].
    apply Hf; [now right|now left|assumption].
  - apply IH. intros i j Hi Hj. apply Hf; now right.
Qed.

Lemma roll_perm (s : Z) (x : list nat) : Permutation (roll 0%nat s x) x.
Proof.
  destruct x as [|a x]; [reflexivity|]. set (l := a :: x). unfold roll.
  transitivity (map (fun i => nth i l 0%nat) (seq 0 (length l))); [|now rewrite map_nth_seq]. rewrite <- (map_map (roll_src (length l) s) (fun i => nth i l 0%nat)). apply Permutation_map.
  apply NoDup_Permutation_bis.
  - apply NoDup_map_inj; [|apply seq_NoDup]. intros i j Hi Hj He. apply in_seq in Hi, Hj. eapply roll_src_inj; [| |exact He]; lia.
  - rewrite map_length. reflexivity.
  - intros i Hi. apply in_map_iff in Hi. destruct Hi as (j & <- & Hj). apply in_seq in Hj. apply in_seq. split; [lia|].
    apply roll_src_lt. unfold l. cbn [length]. lia.
Qed.

Lemma rm_roll_perm (A : list nat) j J : (j < length A)%nat -> (J < length A)%nat ->
  Permutation (rm j (roll 0%nat (Z.of_nat j - Z.of_nat J) A)) (rm J A).
Proof.
  intros Hj HJ. apply (Permutation_cons_inv (a := nth J A 0%nat)). rewrite (rm_perm J A 0%nat HJ).
  replace (nth J A 0%nat) with (nth j (roll 0%nat (Z.of_nat j - Z.of_nat J) A) 0%nat) by (rewrite roll_nth, roll_src_J by assumption; reflexivity).
  rewrite rm_perm by now rewrite length_roll. apply roll_perm.
Qed.

Lemma ckilling_law w k i j f : weights_ok w -> (i < length w)%nat ->
  law (ckilling k w i j true) f =
  E (killing_dist w) (fun A => E (dcat (J_probs w i)) (fun J => f (set_nth j i (roll 0%nat (Z.of_nat j - Z.of_nat J)%Z A)))).
Proof.
  intros Hw Hi. destruct (J_probs_ok w i Hw Hi) as (HJ & _ & _).
  rewrite <- (killing_denotes w k Hw). unfold ckilling, killing. rewrite !law_bind. apply law_ext. intros us.
  rewrite !law_bind. apply law_ext. intros cs. cbn [law]. rewrite law_bind, (choice_denotes _ _ HJ). reflexivity.
Qed.

Lemma Rmax_list_perm l l' : Permutation l l' -> Rmax_list l = Rmax_list l'.
Proof.
  intros P. destruct l as [|a l]; [apply Permutation_nil in P; now subst|].
  destruct l' as [|a' l']; [apply Permutation_sym, Permutation_nil in P; discriminate|].
  apply Rle_antisym; apply Rmax_list_ge.
  - eapply Permutation_in; [exact P|]. now apply Rmax_list_In.
  - eapply Permutation_in; [symmetry; exact P|]. now apply Rmax_list_In.
Qed.

Lemma Rsum_split_at {A} (l : list A) b d h (g : A -> list A -> R) : (b < length l)%nat -> (forall a, perm_inv (g a)) ->
  Rsum (map (fun J => if Nat.eqb J b then h else g (nth J l d) (rm J l)) (seq 0 (length l)))
  = h + Rsum (map (fun p => g (fst p) (nth b l d :: snd p)) (picks (rm b l))).
Proof.
  intros Hb Hg.
  assert (Hs : Rsum (map (fun J => g (nth J l d) (rm J l)) (seq 0 (length l)))
    = g (nth b l d) (rm b l) + Rsum (map (fun p => g (fst p) (nth b l d :: snd p)) (picks (rm b l)))).
  { transitivity (Rsum (map (fun p => g (fst p) (snd p)) (picks l))); [now rewrite (picks_seq l d), map_map|].
    rewrite <- (picks_perm _ _ (rm_perm b l d Hb) g Hg). cbn [picks map Rsum fst snd]. now rewrite map_map. }
  rewrite (Rsum_map_ext _ (fun J => g (nth J l d) (rm J l) + (if Nat.eqb J b then 1 else 0) * (h - g (nth J l d) (rm J l)))).
  2:{ intros J _. destruct (Nat.eqb J b); ring. }
  rewrite Rsum_map_plus, Hs, (Rsum_indicator (length l) b (fun J => h - g (nth J l d) (rm J l)) Hb). ring.
Qed.

Lemma kill_law_perm {X} (l l' : list (R * X)) y f : Permutation l l' -> E (kill_law l y) f = E (kill_law l' y) f.
Proof.
  intros P. unfold kill_law. rewrite (Rmax_list_perm _ _ (Permutation_map fst P)). rewrite !E_cons, !E_dscale, (E_perm _ _ _ P). reflexivity.
Qed.
Lemma kill_p_perm {X} (l l' : list (R * X)) y : Permutation l l' -> kill_p l y = kill_p l' y.
Proof. intros P. unfold kill_p. now rewrite (Rmax_list_perm _ _ (Permutation_map fst P)), (Permutation_length P). Qed.

Lemma killing_slot_zip {X} (l : list (R * X)) dx i f : E (dmap (fun i => nth i (map snd l) dx) (killing_slot (map fst l) i)) f
  = E (kill_law l (nth i l (0, dx))) f.
Proof.
  rewrite E_dmap. unfold killing_slot, kill_law. rewrite E_dbind, !E_cons, E_dret, E_dcat_zip, E_dscale, nth_snd, (nth_fst l i dx).
  change (E (@nil (R * bool)) _) with 0. ring.
Qed.

Definition surv {X} (l : list (R * X)) (y : R * X) : R := fst y / Rmax_list (map fst l).
Lemma surv_bounds {X} (l : list (R * X)) y : Forall (fun y => 0 <= fst y) l -> In y l -> 0 <= surv l y <= 1.
Proof.
  intros Hl Hy. unfold surv. set (m := Rmax_list (map fst l)).
  assert (Hm : fst y <= m) by (apply Rmax_list_ge; now apply in_map). rewrite Forall_forall in Hl. specialize (Hl _ Hy).
  destruct (Rle_lt_dec m 0) as [Hm0|Hm0].
  - replace (fst y) with 0 by lra. unfold Rdiv. rewrite Rmult_0_l. lra.
  - assert (0 < / m) by now apply Rinv_0_lt_compat. split; [apply Rmult_le_pos; lra|].
    apply Rmult_le_reg_r with m; [assumption|]. unfold Rdiv. rewrite Rmult_assoc, Rinv_l; lra.
Qed.
Lemma kill_p_surv {X} (l : list (R * X)) y : kill_p l y = (1 - surv l y) * / INR (length l).
Proof. reflexivity. Qed.
Lemma kill_p_sum {X} (ref : R * X) rest : Forall (fun y => 0 <= fst y) (ref :: rest) ->
  Rsum (map (kill_p (ref :: rest)) rest) <= 1.
Proof.
  intros Hl. assert (Hn : 0 < INR (S (length rest))) by (apply lt_0_INR; lia).
  apply Rle_trans with (Rsum (map (fun _ : R * X => / INR (S (length rest))) rest)).
  - apply Rsum_map_le. intros y Hy. rewrite kill_p_surv. cbn [length]. rewrite <- (Rmult_1_l (/ INR (S (length rest)))) at 2.
    apply Rmult_le_compat_r; [left; now apply Rinv_0_lt_compat|]. pose proof (surv_bounds _ y Hl (or_intror Hy)). lra.
  - rewrite Rsum_map_const. apply Rmult_le_reg_r with (INR (S (length rest))); [assumption|].
    rewrite Rmult_assoc, Rinv_l by lra. rewrite S_INR. lra.
Qed.

Lemma phi_killing_law : phi_law ckilling (@phi_killing).
Proof.
  intros X dx l k b b1 W Hw Hb Hb1 HW. assert (Hlw : length (map fst l) = length l) by apply map_length.
  rewrite ckilling_law by (try assumption; now rewrite Hlw). rewrite E_exchange, E_dcat.
  destruct (J_probs_ok (map fst l) b Hw ltac:(now rewrite Hlw)) as (HJok & HJl & _). rewrite HJl, Hlw.
  set (ref := nth b l (0, dx)). set (rest := rm b l). assert (HP : Permutation (ref :: rest) l) by now apply rm_perm.
  set (Psi := fun r => E (dseq (map (kill_law (ref :: rest)) r)) (W (snd ref))).
  assert (HPsi : perm_inv Psi).
  { intros r r' Hr. apply E_dseq_perm; [now apply Permutation_map|apply HW]. }
  assert (Hslot : Forall is_prob (map (killing_slot (map fst l)) (seq 0 (length l)))).
  { apply Forall_forall. intros d Hd. apply in_map_iff in Hd. destruct Hd as (i & <- & _). now apply is_prob_killing_slot. }
  assert (Hin : forall J, (J < length l)%nat -> E (killing_dist (map fst l)) (fun A =>
    let A' := set_nth b1 b (roll 0%nat (Z.of_nat b1 - Z.of_nat J) A) in
    W (nth b1 (gather dx (map snd l) A') dx) (rm b1 (gather dx (map snd l) A'))) = Psi (rm J l)).
  { intros J HJ. rewrite (E_ext _ _ (fun A => W (snd ref) (map (fun i => nth i (map snd l) dx) (rm J A)))).
    - unfold killing_dist. rewrite Hlw.
      rewrite (E_dseq_rm _ J (fun A => W (snd ref) (map (fun i => nth i (map snd l) dx) A)) Hslot) by now rewrite map_length, seq_length.
      rewrite E_dseq_dmap. unfold Psi. apply E_dseq_laws. rewrite rm_map, map_map.
      rewrite <- (map_nth_seq (0, dx) l) at 2. rewrite rm_map, map_map.
      generalize (rm J (seq 0 (length l))). intros ids. induction ids as [|i ids IH]; cbn [map]; constructor; [|exact IH].
      intros f. rewrite killing_slot_zip. apply kill_law_perm. now symmetry.
    - intros A HA. apply killing_dist_length in HA. rewrite Hlw in HA. cbv zeta.
      rewrite gather_set_nth, rm_set_nth, nth_set_nth_eq, nth_snd by (rewrite length_gather, length_roll; lia). fold ref.
      apply HW. unfold gather. rewrite rm_map. apply Permutation_map. apply rm_roll_perm; lia. }
  rewrite (Rsum_map_ext _ (fun J => if Nat.eqb J b then (1 - Rsum (map (kill_p (ref :: rest)) rest)) * Psi rest
    else kill_p (ref :: rest) (nth J l (0, dx)) * Psi (rm J l))).
  - rewrite (Rsum_split_at l b (0, dx) _ (fun y r => kill_p (ref :: rest) y * Psi r) Hb).
    + unfold phi_killing. fold ref. fold rest. reflexivity.
    + intros a r r' Hr. now rewrite (HPsi r r' Hr).
  - intros J HJ. apply in_seq in HJ. rewrite Hin by lia.
    set (q := map (fun w => (1 - w / Rmax_list (map fst l)) / INR (length (map fst l))) (map fst l)).
    assert (Hq : q = map (kill_p (ref :: rest)) l).
    { unfold q. rewrite map_map. apply map_ext. intros y. rewrite (kill_p_perm _ l y HP). unfold kill_p. now rewrite Hlw. }
    assert (Hql : length q = length l) by (rewrite Hq; apply map_length).
    assert (Hqn : forall J, (J < length l)%nat -> nth J q 0 = kill_p (ref :: rest) (nth J l (0, dx))).
    { intros J' HJ'. rewrite Hq, (nth_indep _ 0 (kill_p (ref :: rest) (0, dx))) by now rewrite map_length. apply map_nth. }
    assert (Hqs : Rsum (set_nth b 0 q) = Rsum (map (kill_p (ref :: rest)) rest)).
    { rewrite Rsum_set_nth, Hqn by lia. rewrite Hq, <- (Rsum_perm _ _ (Permutation_map (kill_p (ref :: rest)) HP)).
      cbn [map Rsum]. unfold ref. ring. }
    unfold J_probs. fold q. rewrite set_nth_twice, Hqs. destruct (Nat.eqb_spec J b) as [->|Hne].
    + rewrite nth_set_nth_eq by lia. f_equal. apply Rmax_left.
      pose proof (kill_p_sum ref rest). destruct Hw as [Hw _]. rewrite Forall_map in Hw.
      assert (0 <= 1 - Rsum (map (kill_p (ref :: rest)) rest)); [|lra]. assert (Hf : Forall (fun y => 0 <= fst y) (ref :: rest)).
      { eapply Permutation_Forall; [symmetry; exact HP|exact Hw]. } specialize (H Hf). lra.
    + rewrite nth_set_nth_neq by congruence. rewrite Hqn by lia. reflexivity.
Qed.

Lemma picks_Permutation {A} (l : list A) p : In p (picks l) -> Permutation (fst p :: snd p) l.
Proof.
  revert p. induction l as [|a l IH]; intros p Hp; [destruct Hp|]. cbn [picks] in Hp. destruct Hp as [<-|Hp]; [reflexivity|].
  apply in_map_iff in Hp. destruct Hp as (q & <- & Hq). cbn [fst snd]. rewrite perm_swap. constructor. now apply IH.
Qed.
Lemma picks_fst {A} (l : list A) (f : A -> R) : Rsum (map (fun p => f (fst p)) (picks l)) = Rsum (map f l).
Proof.
  induction l as [|a l IH]; [reflexivity|]. cbn [picks map Rsum fst]. rewrite map_map. cbn [fst]. now rewrite IH.
Qed.

(** ** What is used of a scheme *)
Record exch_scheme (Phi : forall X, R * X -> list (R * X) -> (X -> list X -> R) -> R) (kappa : nat -> R) : Prop := {
  xs_perm : forall X ref rest rest' W, Permutation rest rest' -> (forall x, perm_inv (W x)) -> Phi X ref rest W = Phi X ref rest' W;
  xs_mono : forall X ref rest W W', Forall (fun y => 0 <= fst y) (ref :: rest) ->
    (forall xs, length xs = length rest -> W (snd ref) xs <= W' (snd ref) xs) -> Phi X ref rest W <= Phi X ref rest W';
  xs_scal : forall X ref rest c W, Phi X ref rest (fun x xs => c * W x xs) = c * Phi X ref rest W;
  xs_plus : forall X ref rest W W', Phi X ref rest (fun x xs => W x xs + W' x xs) = Phi X ref rest W + Phi X ref rest W';
  xs_spread : forall X ref rest h, weights_ok (map fst (ref :: rest)) -> (forall x, 0 <= h x) ->
    kappa (length rest) * E rest h <= Phi X ref rest (fun _ xs => Rsum (map h xs));
  xs_kappa : forall n, (0 < n)%nat -> 0 < kappa n }.

Lemma E_dseq_sum {A} (ds : list (dist A)) h : Forall is_prob ds -> E (dseq ds) (fun l => Rsum (map h l)) = Rsum (map (fun d => E d h) ds).
Proof.
  induction 1 as [|d ds Hd Hds IH]; [cbn [dseq]; rewrite E_dret; reflexivity|]. rewrite E_dseq_cons. cbn [map Rsum].
  rewrite (E_ext' d _ (fun a => h a + Rsum (map (fun d => E d h) ds))).
  - rewrite E_plus, E_const by assumption. reflexivity.
  - intros a. cbn [map Rsum]. rewrite E_plus, E_const by now apply is_prob_dseq. now rewrite IH.
Qed.

Lemma weights_is_prob {X} (l : list (R * X)) : weights_ok (map fst l) -> is_prob l.
Proof.
  intros [H1 H2]. split; [now rewrite Forall_map in H1|]. unfold E. rewrite (Rsum_map_ext _ fst) by (intros; ring). exact H2.
Qed.

Lemma dseq_nonneg {A} (ds : list (dist A)) : Forall (Forall (fun pa => 0 <= fst pa)) ds -> Forall (fun pa => 0 <= fst pa) (dseq ds).
Proof.
  induction 1 as [|d ds Hd _ IH]; [repeat constructor; cbn; lra|]. cbn [dseq]. unfold dbind. apply Forall_flat_map.
  eapply Forall_impl; [|exact Hd]. intros [p a] Hp. apply Forall_map. cbn [fst snd] in *. apply Forall_map.
  eapply Forall_impl; [|exact IH]. intros [q l] Hq. cbn [fst snd] in *. now apply Rmult_le_pos.
Qed.

Lemma exch_multinomial : exch_scheme (@phi_multinomial) (fun n => INR n).
Proof.
  constructor; unfold phi_multinomial.
  - intros X ref rest rest' W P HW. rewrite <- (Permutation_length P). apply E_dseq_laws.
    generalize (length rest). intros m. induction m as [|m IH]; cbn [repeat]; constructor; [|exact IH].
    intros f. apply E_perm. now constructor.
  - intros X ref rest W W' Hl HW. apply E_le.
    + apply dseq_nonneg. now apply Forall_repeat.
    + intros xs Hxs. apply HW. apply dseq_length in Hxs. now rewrite repeat_length in Hxs.
  - intros X ref rest c W. apply E_mult_l.
  - intros X ref rest W W'. apply E_plus.
  - intros X ref rest h Hw Hh. apply weights_is_prob in Hw. rewrite E_dseq_sum by now apply Forall_repeat.
    rewrite (Rsum_map_ext _ (fun _ => E (ref :: rest) h)) by (intros d Hd; now rewrite (repeat_spec _ _ _ Hd)).
    rewrite Rsum_map_const, repeat_length. apply Rmult_le_compat_l; [apply pos_INR|]. destruct ref as [w x]. rewrite E_cons.
    destruct Hw as [Hw _]. apply Forall_inv in Hw. cbn [fst snd] in *. pose proof (Rmult_le_pos _ _ Hw (Hh x)). lra.
  - intros n Hn. now apply lt_0_INR.
Qed.

Lemma kill_law_prob {X} (l : list (R * X)) y : is_prob l -> In y l -> is_prob (kill_law l y).
Proof.
  intros Hl Hy. pose proof (surv_bounds l y (proj1 Hl) Hy) as Hs. unfold surv in Hs. unfold kill_law. split.
  - constructor; [cbn; lra|]. unfold dscale. apply Forall_map. destruct Hl as [Hl _]. eapply Forall_impl; [|exact Hl].
    intros p Hp. cbn [fst]. apply Rmult_le_pos; lra.
  - rewrite E_cons, E_dscale. destruct Hl as [_ ->]. lra.
Qed.

Lemma kill_law_nonneg {X} (l : list (R * X)) y : Forall (fun y => 0 <= fst y) l -> In y l -> Forall (fun pa => 0 <= fst pa) (kill_law l y).
Proof.
  intros Hl Hy. pose proof (surv_bounds l y Hl Hy) as Hs. unfold surv in Hs. unfold kill_law.
  constructor; [cbn; lra|]. unfold dscale. apply Forall_map. eapply Forall_impl; [|exact Hl].
  intros p Hp. cbn [fst]. apply Rmult_le_pos; lra.
Qed.

Lemma kill_spread_arith N m tb ty rho Q : 0 <= tb <= 1 -> 0 <= ty <= 1 -> 0 <= Q <= rho -> rho <= N - 2 -> 2 <= N ->
  m * (N - tb - (ty + rho)) = 1 ->
  (N - 2 + 2 / N) <= (1 - ty / N) * / m + (ty + rho) + (ty + rho) * tb / N - (Q + ty * ty) / N.
Proof.
  intros Hb Hy HQ Hr HN Hm. assert (Hm' : / m = N - tb - (ty + rho)).
  { apply Rmult_eq_reg_l with m; [|nra]. rewrite Rinv_r by nra. lra. }
  rewrite Hm'. apply Rmult_le_reg_r with N; [lra|].
  replace ((N - 2 + 2 / N) * N) with (N * N - 2 * N + 2) by (field; lra).
  replace (((1 - ty / N) * (N - tb - (ty + rho)) + (ty + rho) + (ty + rho) * tb / N - (Q + ty * ty) / N) * N)
    with (N * (N - tb - ty) + (2 * tb * ty + rho * (ty + tb) - Q)) by (field; lra).
  destruct (Rle_lt_dec 1 (ty + tb)) as [Hs|Hs].
  - assert (0 <= rho * (ty + tb - 1)) by (apply Rmult_le_pos; lra).
    assert (0 <= (N - 2) * (2 - tb - ty)) by (apply Rmult_le_pos; lra).
    assert (0 <= (1 - tb) * (1 - ty)) by (apply Rmult_le_pos; lra). nra.
  - assert (0 <= (N - 2 - rho) * (1 - ty - tb)) by (apply Rmult_le_pos; lra).
    assert (0 <= tb * ty) by (apply Rmult_le_pos; lra). nra.
Qed.

Lemma exch_killing : exch_scheme (@phi_killing) (fun n => INR n - 1 + 2 / INR (S n)).
Proof.
  constructor; unfold phi_killing.
  - intros X ref rest rest' W P HW. set (l := ref :: rest). set (l' := ref :: rest'). assert (HP : Permutation l l') by now constructor.
    assert (HE : forall r, E (dseq (map (kill_law l) r)) (W (snd ref)) = E (dseq (map (kill_law l') r)) (W (snd ref))).
    { intros r. apply E_dseq_laws. induction r as [|y r IH]; cbn [map]; constructor; [|exact IH]. intros f. now apply kill_law_perm. }
    assert (Hpi : perm_inv (fun r => E (dseq (map (kill_law l') r)) (W (snd ref)))).
    { intros r r' Hr. apply E_dseq_perm; [now apply Permutation_map|apply HW]. }
    f_equal.
    + f_equal; [|rewrite HE; now apply Hpi]. f_equal. rewrite <- (Rsum_perm _ _ (Permutation_map (kill_p l') P)).
      apply Rsum_map_ext. intros y _. now apply kill_p_perm.
    + rewrite <- (picks_perm _ _ P (fun y r => kill_p l' y * E (dseq (map (kill_law l') (ref :: r))) (W (snd ref)))).
      * apply Rsum_map_ext. intros p _. now rewrite (kill_p_perm _ _ _ HP), HE.
      * intros y r r' Hr. f_equal. apply (Hpi (ref :: r) (ref :: r')). now constructor.
  - intros X ref rest W W' Hl HW. set (l := ref :: rest) in *.
    assert (HE : forall r, (forall y, In y r -> In y l) -> length r = length rest ->
      E (dseq (map (kill_law l) r)) (W (snd ref)) <= E (dseq (map (kill_law l) r)) (W' (snd ref))).
    { intros r Hr Hlen. apply E_le.
      - apply dseq_nonneg, Forall_map, Forall_forall. intros y Hy. apply kill_law_nonneg; auto.
      - intros xs Hxs. apply HW. apply dseq_length in Hxs. rewrite map_length in Hxs. lia. }
    apply Rplus_le_compat.
    + apply Rmult_le_compat_l; [pose proof (kill_p_sum ref rest Hl); unfold l; lra|]. apply HE; [intros; now right|reflexivity].
    + apply Rsum_map_le. intros p Hp. apply picks_Permutation in Hp. apply Rmult_le_compat_l.
      * rewrite kill_p_surv. assert (Hin : In (fst p) l) by (right; eapply Permutation_in; [exact Hp|now left]).
        pose proof (surv_bounds l (fst p) Hl Hin). apply Rmult_le_pos; [lra|]. left. apply Rinv_0_lt_compat, lt_0_INR. unfold l. cbn; lia.
      * apply HE; [|cbn [length]; rewrite <- (Permutation_length Hp); reflexivity].
        intros y [<-|Hy]; [now left|]. right. eapply Permutation_in; [exact Hp|now right].
  - intros X ref rest c W. set (l := ref :: rest). rewrite E_mult_l. rewrite Rmult_plus_distr_l, <- Rsum_map_mult_l. f_equal; [ring|].
    apply Rsum_map_ext. intros p _. rewrite E_mult_l. ring.
  - intros X ref rest W W'. set (l := ref :: rest). rewrite E_plus.
    rewrite (Rsum_map_ext _ (fun p : (R * X) * list (R * X) => kill_p l (fst p) * E (dseq (map (kill_law l) (ref :: snd p))) (W (snd ref))
      + kill_p l (fst p) * E (dseq (map (kill_law l) (ref :: snd p))) (W' (snd ref)))) by (intros p _; rewrite E_plus; ring).
    rewrite Rsum_map_plus. ring.
  - intros X ref rest h Hw Hh. set (l := ref :: rest) in *. assert (Hl := weights_is_prob l Hw).
    set (N := INR (S (length rest))). assert (HN : 0 < N) by (apply lt_0_INR; lia).
    set (m := Rmax_list (map fst l)). assert (Hm : 0 < m) by now apply weights_ok_Rmax_pos.
    set (t := fun y => 1 - surv l y). assert (Ht : forall y, In y l -> 0 <= t y <= 1).
    { intros y Hy. unfold t. pose proof (surv_bounds l y (proj1 Hl) Hy). lra. }
    set (H := E l h). set (q := fun y => surv l y * h (snd y) + t y * H).
    assert (Hq : forall r, (forall y, In y r -> In y l) -> E (dseq (map (kill_law l) r)) (fun xs => Rsum (map h xs)) = Rsum (map q r)).
    { intros r Hr. rewrite E_dseq_sum by (apply Forall_map, Forall_forall; intros y Hy; apply kill_law_prob; auto).
      rewrite map_map. apply Rsum_map_ext. intros y _. unfold kill_law. rewrite E_cons, E_dscale. reflexivity. }
    rewrite Hq by (intros; now right).
    set (tau := Rsum (map t rest)). set (Q := Rsum (map q rest)).
    assert (Hkp : forall y, kill_p l y = t y * / N) by reflexivity.
    rewrite (Rsum_map_ext (kill_p l) (fun y => t y * / N)) by (intros; apply Hkp). rewrite Rsum_map_mult_r. fold tau.
    rewrite (Rsum_map_ext _ (fun p : (R * X) * list (R * X) => (fun y => t y * / N * (q ref + Q - q y)) (fst p))).
    2:{ intros p Hp. apply picks_Permutation in Hp. rewrite Hkp. f_equal. rewrite Hq.
        - cbn [map Rsum]. unfold Q. rewrite <- (Rsum_perm _ _ (Permutation_map q Hp)). cbn [map Rsum]. ring.
        - intros y [<-|Hy]; [now left|]. right. eapply Permutation_in; [exact Hp|now right]. }
    rewrite (picks_fst rest (fun y => t y * / N * (q ref + Q - q y))).
    assert (Hs : (1 - tau * / N) * Q + Rsum (map (fun y => t y * / N * (q ref + Q - q y)) rest)
      = Rsum (map (fun y => (1 - t y / N) * q y + t y / N * q ref) rest)).
    { unfold tau, Q. rewrite (Rsum_map_ext (fun y => t y * / N * (q ref + Rsum (map q rest) - q y))
        (fun y => (t y * / N) * Rsum (map q rest) + (t y / N * q ref - t y / N * q y))) by (intros; unfold Rdiv; ring).
      rewrite Rsum_map_plus, !Rsum_map_mult_r.
      rewrite (Rsum_map_ext (fun y => (1 - t y / N) * q y + t y / N * q ref) (fun y => q y + (t y / N * q ref - t y / N * q y))) by (intros; ring).
      rewrite Rsum_map_plus. ring. }
    rewrite Hs. clear Hs.
    assert (Hnn : Forall (fun y => 0 <= fst y) l) by exact (proj1 Hl). rewrite Forall_forall in Hnn.
    set (Q2 := Rsum (map (fun y => t y * t y) rest)). set (tb := t ref).
    assert (Htb : 0 <= tb <= 1) by (apply Ht; now left).
    assert (Htau : 0 <= Q2 <= tau).
    { split; [apply Rsum_nonneg, Forall_map, Forall_forall; intros y Hy; specialize (Ht y (or_intror Hy)); nra|].
      apply Rsum_map_le. intros y Hy. specialize (Ht y (or_intror Hy)). nra. }
    assert (Hfw : forall y, surv l y = fst y * / m) by reflexivity.
    assert (HHr : 0 <= E rest h /\ E rest h <= H).
    { split.
      - apply E_nonneg; [|intros; apply Hh]. apply Forall_forall. intros y Hy. apply Hnn. now right.
      - unfold H, l. destruct ref as [w x]. rewrite E_cons. specialize (Hnn (w, x) (or_introl eq_refl)). cbn [fst] in Hnn.
        pose proof (Rmult_le_pos _ _ Hnn (Hh x)). lra. }
    assert (Hsum : m * (N - tb - tau) = 1).
    { destruct Hw as [_ Hw1]. cbn [map Rsum] in Hw1. unfold tb, tau, t.
      rewrite (Rsum_map_ext (fun y => 1 - surv l y) (fun y => 1 + (- / m) * fst y)) by (intros; rewrite Hfw; ring).
      rewrite Rsum_map_plus, Rsum_map_const, Rsum_map_mult_l, Hfw. unfold N. rewrite S_INR.
      replace (Rsum (map fst rest)) with (1 - fst ref) by (unfold l in Hw1; cbn [map Rsum] in Hw1; lra). field. lra. }
    set (K := tau + tau * tb / N - Q2 / N).
    assert (HK : 0 <= K).
    { assert (HiN : 0 < / N) by now apply Rinv_0_lt_compat. unfold K, Rdiv.
      assert (0 <= tau * tb * / N) by (apply Rmult_le_pos; [apply Rmult_le_pos; lra|lra]).
      assert (Q2 * / N <= tau * 1).
      { apply Rmult_le_compat; try lra. rewrite <- Rinv_1. apply Rinv_le_contravar; [lra|]. unfold N. rewrite S_INR. pose proof (pos_INR (length rest)). lra. }
      lra. }
    apply Rle_trans with (Rsum (map (fun y => ((1 - t y / N) * / m + K) * (fst y * h (snd y))) rest)).
    + unfold E. rewrite <- Rsum_map_mult_l. apply Rsum_map_le. intros y Hy. apply Rmult_le_compat_r.
      { apply Rmult_le_pos; [apply Hnn; now right|apply Hh]. }
      destruct (In_nth rest y (0, snd ref) Hy) as (J & HJ & HJy). pose proof (rm_perm J rest (0, snd ref) HJ) as HP. rewrite HJy in HP.
      set (r := rm J rest) in *. assert (Hr : forall z, In z r -> In z l) by (intros z Hz; right; eapply Permutation_in; [exact HP|now right]).
      assert (Etau : tau = t y + Rsum (map t r)) by (unfold tau; now rewrite <- (Rsum_perm _ _ (Permutation_map t HP))).
      assert (EQ : Q2 = t y * t y + Rsum (map (fun z => t z * t z) r)).
      { unfold Q2. now rewrite <- (Rsum_perm _ _ (Permutation_map (fun z => t z * t z) HP)). }
      assert (Hlr : S (length r) = length rest) by (rewrite <- (Permutation_length HP); reflexivity).
      assert (Hrho : Rsum (map t r) <= INR (length r)).
      { rewrite <- (Rmult_1_r (INR (length r))), <- (Rsum_map_const 1 r). apply Rsum_map_le. intros z Hz. apply Ht. now apply Hr. }
      assert (HQr : 0 <= Rsum (map (fun z => t z * t z) r) <= Rsum (map t r)).
      { split; [apply Rsum_nonneg, Forall_map, Forall_forall; intros z Hz; specialize (Ht z (Hr z Hz)); nra|].
        apply Rsum_map_le. intros z Hz. specialize (Ht z (Hr z Hz)). nra. }
      pose proof (pos_INR (length r)).
      assert (HNr : N = INR (length r) + 2) by (unfold N; rewrite <- Hlr, !S_INR; lra).
      pose proof (kill_spread_arith N m tb (t y) (Rsum (map t r)) (Rsum (map (fun z => t z * t z) r)) Htb (Ht y (or_intror Hy)) HQr) as HA.
      rewrite Etau in Hsum. specialize (HA ltac:(lra) ltac:(lra) Hsum). unfold K. rewrite Etau, EQ.
      replace (INR (length rest) - 1 + 2 / N) with (N - 2 + 2 / N) by (unfold N; rewrite S_INR; lra). lra.
    + apply Rle_trans with (Rsum (map (fun y => (1 - t y / N) * (surv l y * h (snd y)) + (t y - t y * t y / N + t y / N * tb) * H) rest)).
      * rewrite Rsum_map_plus, Rsum_map_mult_r.
        rewrite (Rsum_map_ext (fun y => t y - t y * t y / N + t y / N * tb) (fun y => t y * (1 + tb / N) + (t y * t y) * (- / N))) by (intros; unfold Rdiv; ring).
        rewrite Rsum_map_plus, !Rsum_map_mult_r. fold tau. fold Q2.
        rewrite (Rsum_map_ext (fun y => ((1 - t y / N) * / m + K) * (fst y * h (snd y))) (fun y => (1 - t y / N) * (surv l y * h (snd y)) + K * (fst y * h (snd y)))) by (intros; rewrite Hfw; ring).
        rewrite Rsum_map_plus, Rsum_map_mult_l. apply Rplus_le_compat_l. change (Rsum (map (fun y => fst y * h (snd y)) rest)) with (E rest h).
        replace (tau * (1 + tb / N) + Q2 * - / N) with K by (unfold K, Rdiv; ring). apply Rmult_le_compat_l; lra.
      * apply Rsum_map_le. intros y Hy. specialize (Ht y (or_intror Hy)). unfold q. fold tb.
        assert (0 <= t y / N * (surv l ref * h (snd ref))); [|lra].
        apply Rmult_le_pos; [apply Rmult_le_pos; [lra|left; now apply Rinv_0_lt_compat]|]. apply Rmult_le_pos; [|apply Hh].
        apply (surv_bounds l ref (proj1 Hl)). now left.
  - intros n Hn. assert (1 <= INR n) by (apply (le_INR 1); lia). assert (0 < INR (S n)) by (apply lt_0_INR; lia).
    assert (0 < 2 / INR (S n)) by (apply Rdiv_lt_0_compat; lra). lra.
Qed.
