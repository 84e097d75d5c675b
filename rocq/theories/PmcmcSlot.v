(** The single particle kept by pmcmc_kernel: fair under permutation-equivariant resampling. *)
From Verif Require Export Pmcmc.
Open Scope R_scope.

(** exchange of entries j and j+1 *)
Fixpoint aswap {A} (j : nat) (l : list A) : list A :=
  match j, l with
  | O, a :: b :: l' => b :: a :: l'
  | S j', a :: l' => a :: aswap j' l'
  | _, _ => l
  end.
Definition sigma (j x : nat) : nat := if Nat.eqb x j then S j else if Nat.eqb x (S j) then j else x.

Lemma aswap_length {A} j (l : list A) : length (aswap j l) = length l.
Proof. revert l; induction j as [|j IH]; intros [|a [|b l]]; simpl; try reflexivity; rewrite ?IH; reflexivity. Qed.

Lemma aswap_map {A B} (f : A -> B) j l : map f (aswap j l) = aswap j (map f l).
Proof.
  revert l; induction j as [|j IH]; intros [|a l]; [reflexivity|destruct l; reflexivity|reflexivity|].
  cbn [aswap map]. now rewrite IH.
Qed.

Lemma aswap_invol {A} j (l : list A) : aswap j (aswap j l) = l.
Proof.
  revert l; induction j as [|j IH]; intros [|a l]; [reflexivity|destruct l; reflexivity|reflexivity|].
  cbn [aswap]. now rewrite IH.
Qed.

Lemma aswap_repeat {A} (a : A) j n : aswap j (repeat a n) = repeat a n.
Proof.
  revert n; induction j as [|j IH]; intros [|n]; [reflexivity|destruct n; reflexivity|reflexivity|].
  cbn [aswap repeat]. now rewrite IH.
Qed.

Lemma Rsum_aswap j l : Rsum (aswap j l) = Rsum l.
Proof.
  revert l; induction j as [|j IH]; intros [|a l]; [reflexivity|destruct l; [reflexivity|simpl; ring]|reflexivity|].
  cbn [aswap Rsum]. now rewrite IH.
Qed.

Lemma nth_aswap {A} j (l : list A) x d : (S j < length l)%nat -> nth x (aswap j l) d = nth (sigma j x) l d.
Proof.
  revert l x; induction j as [|j IH]; intros [|a l] x Hj; cbn [length] in Hj; try lia.
  - destruct l as [|b l]; cbn [length] in Hj; [lia|]. destruct x as [|[|x]]; reflexivity.
  - cbn [aswap]. destruct x as [|x]; [reflexivity|]. cbn [nth]. rewrite IH by lia.
    unfold sigma. cbn [Nat.eqb]. destruct (Nat.eqb x j); [reflexivity|]. destruct x as [|x]; [reflexivity|].
    change (Nat.eqb (S (S x)) (S (S j))) with (Nat.eqb (S x) (S j)).
    destruct (Nat.eqb (S x) (S j)); reflexivity.
Qed.

Lemma sigma_invol j x : sigma j (sigma j x) = x.
Proof.
  unfold sigma. destruct (Nat.eqb_spec x j) as [->|H1].
  - rewrite Nat.eqb_refl. destruct (Nat.eqb_spec (S j) j); [lia|reflexivity].
  - destruct (Nat.eqb_spec x (S j)) as [->|H2].
    + now rewrite Nat.eqb_refl.
    + destruct (Nat.eqb_spec x j); [lia|]. destruct (Nat.eqb_spec x (S j)); [lia|reflexivity].
Qed.

Lemma sigma_lt j x n : (S j < n)%nat -> (x < n)%nat -> (sigma j x < n)%nat.
Proof. unfold sigma. intros. destruct (Nat.eqb_spec x j); [lia|]. destruct (Nat.eqb_spec x (S j)); lia. Qed.

Lemma E_dseq_aswap {A} j (ds : list (dist A)) f : E (dseq (aswap j ds)) f = E (dseq ds) (fun l => f (aswap j l)).
Proof.
  revert ds f; induction j as [|j IH]; intros [|d ds] f.
  - reflexivity.
  - destruct ds as [|e ds].
    + apply E_ext. intros l Hl. apply dseq_length in Hl. destruct l as [|a [|b l]]; simpl in Hl; try lia. reflexivity.
    + cbn [aswap]. rewrite !E_dseq_cons.
      transitivity (E e (fun b => E d (fun a => E (dseq ds) (fun l => f (b :: a :: l))))).
      { apply E_ext'. intros b. now rewrite E_dseq_cons. }
      rewrite E_exchange. apply E_ext'. intros a. rewrite E_dseq_cons. reflexivity.
  - reflexivity.
  - cbn [aswap]. rewrite !E_dseq_cons. apply E_ext'. intros a. rewrite IH. reflexivity.
Qed.

(** A resampling law that does not depend on how the particles are numbered. *)
Definition equivariant (r : list R -> dist (list nat)) : Prop :=
  forall w j f, weights_ok w -> (S j < length w)%nat ->
  E (r (aswap j w)) f = E (r w) (fun A => f (map (sigma j) (aswap j A))).

Lemma aswap_In {A} j (l : list A) x : In x (aswap j l) -> In x l.
Proof.
  revert l; induction j as [|j IH]; intros [|a l]; [easy|destruct l as [|b l]; simpl; tauto|easy|].
  cbn [aswap]. intros [H|H]; [now left|right; auto].
Qed.

Lemma Rmax_list_aswap j w : Rmax_list (aswap j w) = Rmax_list w.
Proof.
  destruct w as [|a w]; [destruct j; reflexivity|].
  assert (Hne : aswap j (a :: w) <> []).
  { intros H. apply (f_equal (@length R)) in H. rewrite aswap_length in H. discriminate. }
  apply Rle_antisym; apply Rmax_list_ge.
  - apply (aswap_In j), Rmax_list_In; assumption.
  - apply (aswap_In j). rewrite aswap_invol. now apply Rmax_list_In.
Qed.

Lemma aswap_seq j n : (S j < n)%nat -> map (sigma j) (aswap j (seq 0 n)) = seq 0 n.
Proof.
  intros H. apply nth_ext with (d := sigma j 0) (d' := 0%nat).
  - now rewrite map_length, aswap_length.
  - intros x Hx. rewrite map_length, aswap_length, seq_length in Hx. rewrite map_nth.
    rewrite nth_aswap by now rewrite seq_length. rewrite !seq_nth by (try apply sigma_lt; lia). apply sigma_invol.
Qed.

Lemma E_dcat_aswap w j h : (S j < length w)%nat -> E (dcat (aswap j w)) h = E (dcat w) (fun i => h (sigma j i)).
Proof.
  intros Hj. rewrite !E_dcat, aswap_length.
  rewrite <- (Rsum_aswap j (map (fun i => nth i w 0 * h (sigma j i)) _)). rewrite <- aswap_map.
  rewrite (map_ext_in (fun i => nth i w 0 * h (sigma j i)) (fun i => nth (sigma j i) (aswap j w) 0 * h (sigma j i))).
  - rewrite <- (map_map (sigma j) (fun i => nth i (aswap j w) 0 * h i)). now rewrite aswap_seq.
  - intros i _. rewrite nth_aswap by assumption. now rewrite sigma_invol.
Qed.

Lemma killing_slot_aswap w j x h : (S j < length w)%nat ->
  E (killing_slot (aswap j w) x) h = E (killing_slot w (sigma j x)) (fun i => h (sigma j i)).
Proof.
  intros Hj. unfold killing_slot. rewrite !E_dbind, !E_cons, !E_dret, sigma_invol, Rmax_list_aswap, nth_aswap, E_dcat_aswap by assumption.
  reflexivity.
Qed.

Lemma E_dseq_ext_map {A B} (g : A -> B) (ds : list (dist B)) (es : list (dist A)) f :
  Forall2 (fun d e => forall h, E d h = E e (fun a => h (g a))) ds es -> E (dseq ds) f = E (dseq es) (fun l => f (map g l)).
Proof.
  intros H; revert f; induction H as [|d e ds es Hd H IH]; intros f.
  - simpl. now rewrite !E_dret.
  - rewrite !E_dseq_cons, Hd. apply E_ext'. intros a. now rewrite IH.
Qed.

Theorem killing_equivariant : equivariant killing_dist.
Proof.
  intros w j f Hw Hj. unfold killing_dist. rewrite aswap_length.
  rewrite (E_dseq_ext_map (sigma j) _ (aswap j (map (killing_slot w) (seq 0 (length w))))).
  - rewrite E_dseq_aswap. reflexivity.
  - rewrite <- aswap_map. rewrite <- (aswap_seq j (length w)) at 1 by assumption. rewrite map_map.
    generalize (aswap j (seq 0 (length w))). intros l. induction l as [|x l IH]; cbn [map]; constructor; [|exact IH].
    intros h. rewrite killing_slot_aswap, sigma_invol by assumption. reflexivity.
Qed.

(** plain multinomial resampling (independent draws) is equivariant as well *)
Theorem multinomial_equivariant : equivariant multinomial_dist.
Proof.
  intros w j f Hw Hj. unfold multinomial_dist. rewrite aswap_length.
  rewrite (E_dseq_ext_map (sigma j) _ (repeat (dcat w) (length w))).
  - rewrite <- (aswap_repeat (dcat w) j (length w)) at 1. rewrite E_dseq_aswap. reflexivity.
  - apply Forall2_repeat. intros h. now apply E_dcat_aswap.
Qed.

Section slot.
Context {U V : Type} (udef : U) (vdef : V).
Variable transition_sampler : list U -> V -> R -> key -> prog (list U).
Variable measurement_cond_pdf : V -> list U -> V -> R -> list R.
Variable resampling : list R -> key -> prog (list nat).
Variable M : V -> R -> U -> dist U.
Variable lg : V -> V -> R -> U -> R.
Hypothesis Hfo : filter_ok transition_sampler measurement_cond_pdf resampling M lg.
Variable r : list R -> dist (list nat).
Hypothesis Hr : forall w k, weights_ok w -> denotes (resampling w k) (r w).
Hypothesis Hv : forall w A, weights_ok w -> In A (map snd (r w)) -> valid_indices (length w) A.
Hypothesis Hp : forall w, weights_ok w -> is_prob (r w).
Hypothesis He : equivariant r.
Variable m0 : V -> dist U.
Hypothesis Hm0 : forall v, is_prob (m0 v).
Variable init_sampler : key -> V -> nat -> prog (list U).
Hypothesis Hinit : forall k v n, denotes (init_sampler k v n) (dseq (repeat (m0 v) n)).
Variable n : nat.
Hypothesis Hn : (0 < n)%nat.

Notation pf := (pf_scan udef transition_sampler measurement_cond_pdf resampling n).

Lemma gather_aswap j (us : list U) A : (S j < length us)%nat -> (S j < length A)%nat ->
  gather udef (aswap j us) (map (sigma j) (aswap j A)) = aswap j (gather udef us A).
Proof.
  intros H1 H2. unfold gather. rewrite map_map, aswap_map. f_equal.
  apply map_ext. intros x. rewrite nth_aswap by assumption. now rewrite sigma_invol.
Qed.

Lemma normalise_aswap j l : normalise (aswap j l) = aswap j (normalise l).
Proof.
  unfold normalise, normalise_log, logsumexp. rewrite <- (Rsum_aswap j (map exp l)), <- aswap_map. now rewrite <- !aswap_map.
Qed.

Lemma pf_scan_aswap j k sd : (S j < n)%nat -> forall i us ell F, length us = n ->
  law (pf k i sd (aswap j us, ell)) F = law (pf k i sd (us, ell)) (fun c => F (aswap j (fst c), snd c)).
Proof.
  intros Hj. induction sd as [|[[v vp] t] sd IH]; intros i us ell F Hl; [reflexivity|].
  cbn [pf_scan]. rewrite !law_bind. unfold pf_body. rewrite !law_bind, !(fo_lik _ _ _ _ _ Hfo).
  destruct (weights_lik_ok lg n Hn v vp t us Hl) as [Hw Hwl].
  assert (Hl' : length (aswap j us) = n) by now rewrite aswap_length.
  destruct (weights_lik_ok lg n Hn v vp t _ Hl') as [Hw' Hwl'].
  change (map exp (map (fun x => x - logsumexp (map (lg v vp t) us)) (map (lg v vp t) us))) with (normalise (map (lg v vp t) us)).
  change (map exp (map (fun x => x - logsumexp (map (lg v vp t) (aswap j us))) (map (lg v vp t) (aswap j us))))
    with (normalise (map (lg v vp t) (aswap j us))).
  rewrite (Hr _ _ Hw _), (Hr _ _ Hw' _).
  replace (logsumexp (map (lg v vp t) (aswap j us))) with (logsumexp (map (lg v vp t) us)).
  2:{ unfold logsumexp. rewrite !aswap_map. now rewrite Rsum_aswap. }
  rewrite aswap_map, normalise_aswap, He by (try assumption; lia).
  apply E_ext. intros A HA. apply Hv in HA; [|assumption]. destruct HA as [HA _]. rewrite Hwl in HA.
  rewrite gather_aswap by lia. rewrite !law_bind, !(fo_trans _ _ _ _ _ Hfo _ _ _ _ _).
  rewrite aswap_map, E_dseq_aswap. apply E_ext. intros us' Hin. apply dseq_length in Hin.
  rewrite map_length in Hin. unfold gather in Hin. rewrite map_length in Hin. cbn [law]. apply IH. lia.
Qed.

Lemma E_dseq_nth_sum vs ts k1 k2 phi :
  law (run_filter udef vdef transition_sampler measurement_cond_pdf resampling init_sampler n ts k1 k2 vs)
    (fun c => exp (snd c) * Rsum (map (fun j => phi (nth j (fst c) udef)) (seq 0 n)))
  = INR n * E (filter_target vdef M lg m0 vs ts) (fun p => phi (last p udef)).
Proof.
  rewrite <- (pmcmc_filter_unbiased udef vdef _ _ _ M lg Hfo m0 Hm0 init_sampler Hinit vs ts k1 k2 n phi Hn).
  assert (Hlaw : forall w, weights_ok w -> has_laws (valid_indices (length w)) (resampling w)).
  { intros w Hw. apply (has_laws_denotes _ _ (r w)); auto. }
  destruct (run_filter_has_laws udef vdef _ _ _ M lg Hfo m0 Hm0 init_sampler Hinit Hlaw n ts vs (fun _ => k1) (fun _ => k2) Hn)
    as (d & _ & Hd & Hs).
  rewrite !(Hd []), <- E_mult_l. apply E_ext. intros c Hc. specialize (Hs c Hc).
  rewrite <- Hs at 1. rewrite <- (Rsum_gather phi udef). assert (0 < INR n) by (apply lt_0_INR; lia). field. lra.
Qed.

Theorem kept_particle_fair vs ts k1 k2 which phi : (which < n)%nat ->
  law (run_filter udef vdef transition_sampler measurement_cond_pdf resampling init_sampler n ts k1 k2 vs)
    (fun c => exp (snd c) * phi (nth which (fst c) udef))
  = E (filter_target vdef M lg m0 vs ts) (fun p => phi (last p udef)).
Proof.
  set (L := law (run_filter udef vdef transition_sampler measurement_cond_pdf resampling init_sampler n ts k1 k2 vs)).
  assert (Hlaw : forall w, weights_ok w -> has_laws (valid_indices (length w)) (resampling w)).
  { intros w Hw. apply (has_laws_denotes _ _ (r w)); auto. }
  destruct (run_filter_has_laws udef vdef _ _ _ M lg Hfo m0 Hm0 init_sampler Hinit Hlaw n ts vs (fun _ => k1) (fun _ => k2) Hn)
    as (d & _ & Hd & Hs).
  specialize (Hd []). cbv beta in Hd. fold L in Hd.
  assert (Hsym : forall j, (S j < n)%nat -> L (fun c => exp (snd c) * phi (nth (S j) (fst c) udef)) = L (fun c => exp (snd c) * phi (nth j (fst c) udef))).
  { intros j Hj. unfold L, run_filter. rewrite !law_bind, !(Hinit _ _ _ _).
    rewrite <- (aswap_repeat (m0 (nth 0 vs vdef)) j n) at 2. rewrite E_dseq_aswap. apply E_ext. intros us Hin.
    apply (init_length m0) in Hin. unfold pmcmc_filter_step. rewrite pf_scan_aswap by assumption.
    destruct (pf_scan_has_laws udef _ _ _ M lg Hfo Hlaw n (filter_inputs vs ts) 0 us 0 Hn Hin) as (d' & _ & Hd' & Hs').
    rewrite !(Hd' k2). apply E_ext. intros c Hc. specialize (Hs' c Hc). cbn [fst snd]. do 2 f_equal.
    rewrite nth_aswap by lia. unfold sigma. now rewrite Nat.eqb_refl. }
  assert (H0 : forall j, (j < n)%nat -> L (fun c => exp (snd c) * phi (nth j (fst c) udef)) = L (fun c => exp (snd c) * phi (nth 0 (fst c) udef))).
  { induction j as [|j IH]; intros Hj; [reflexivity|]. rewrite Hsym by assumption. apply IH. lia. }
  intros Hw. assert (HN : 0 < INR n) by (apply lt_0_INR; lia).
  apply (Rmult_eq_reg_l (INR n)); [|lra].
  rewrite <- (E_dseq_nth_sum vs ts k1 k2 phi). fold L. rewrite Hd.
  rewrite (Hd (fun c => exp (snd c) * Rsum (map (fun j => phi (nth j (fst c) udef)) (seq 0 n)))).
  rewrite (E_ext' d (fun c => exp (snd c) * Rsum _) (fun c => Rsum (map (fun j => exp (snd c) * phi (nth j (fst c) udef)) (seq 0 n))))
    by (intros; now rewrite Rsum_map_mult_l).
  rewrite E_Rsum. rewrite (Rsum_map_ext _ (fun _ => E d (fun c => exp (snd c) * phi (nth which (fst c) udef)))).
  - rewrite Rsum_map_const, seq_length. reflexivity.
  - intros j Hj. apply in_seq in Hj. rewrite <- !Hd. rewrite H0 by lia. now rewrite (H0 which).
Qed.
End slot.
