(** Multinomial resampling (resampling.py:62-68) inside the particle MCMC filter (smc.py:pmcmc_filter_step). *)
From Coquelicot Require Import Coquelicot.
From Verif Require Export MultinomialLaw PmcmcBias.
Open Scope R_scope.

Theorem multinomial_good_res : good_res multinomial.
Proof.
  constructor; [intros w k Hw|exact multinomial_unbiased].
  intros tr A Hr. exact (proj1 (multinomial_safe w k (weights_ok_nonempty w Hw) tr A Hr)).
Qed.

(** ** The smallest of the draws *)
Lemma hd_ninsert x l d : hd d (ninsert x l) = match l with [] => x | y :: _ => Nat.min x y end.
Proof. destruct l as [|y l]; [reflexivity|]. cbn. destruct (Nat.leb_spec x y); cbn; lia. Qed.

Lemma tail_sum w i : (i <= length w)%nat ->
  Rsum (map (fun j => nth j w 0 * (if Nat.leb i j then 1 else 0)) (seq 0 (length w))) = Rsum w - Rsum (firstn i w).
Proof.
  revert i. induction w as [|x w IH]; intros i Hi; [destruct i; cbn; ring|].
  cbn [length seq map Rsum nth]. rewrite <- seq_shift, map_map. destruct i as [|i].
  - specialize (IH 0%nat ltac:(lia)). cbn [Nat.leb firstn Rsum] in IH |- *. cbn [nth]. rewrite IH. ring.
  - cbn in Hi. specialize (IH i ltac:(lia)). cbn [Nat.leb firstn Rsum nth]. cbn [Nat.leb] in IH. rewrite IH. ring.
Qed.

Lemma min_draws w i n : (i <= length w)%nat -> weights_ok w ->
  E (dseq (repeat (dcat w) n)) (fun A => if match nsort A with [] => true | a :: _ => Nat.leb i a end then 1 else 0) = (1 - Rsum (firstn i w)) ^ n.
Proof.
  intros Hi Hw. induction n as [|n IH]; [cbn; unfold E; cbn; ring|]. cbn [repeat pow]. rewrite E_dseq_cons, <- IH.
  rewrite (E_ext' _ _ (fun a => (if Nat.leb i a then 1 else 0) * E (dseq (repeat (dcat w) n)) (fun A => if match nsort A with [] => true | a :: _ => Nat.leb i a end then 1 else 0))).
  - rewrite E_mult_r. f_equal. rewrite E_dcat.
    rewrite tail_sum by lia. rewrite (proj2 Hw). reflexivity.
  - intros a. rewrite <- E_mult_l. apply E_ext'. intros A. cbn [nsort].
    assert (H : match ninsert a (nsort A) with [] => true | b :: _ => Nat.leb i b end = Nat.leb i a && match nsort A with [] => true | b :: _ => Nat.leb i b end).
    { destruct (nsort A) as [|y l]; cbn [ninsert]; [now rewrite andb_true_r|].
      destruct (Nat.leb_spec a y), (Nat.leb_spec i a), (Nat.leb_spec i y); cbn; try reflexivity; try lia;
      try (apply Nat.leb_gt; lia); try (apply Nat.leb_le; lia). }
    rewrite H. destruct (Nat.leb i a), (match nsort A with [] => true | b :: _ => Nat.leb i b end); cbn [andb]; ring.
Qed.

Theorem multinomial_first w k i : weights_ok w -> (i <= length w)%nat ->
  law (multinomial w k) (fun A => if Nat.leb i (nth 0 A 0%nat) then 1 else 0) = (1 - Rsum (firstn i w)) ^ length w.
Proof.
  intros Hw Hi. rewrite multinomial_law by assumption. rewrite <- (min_draws w i (length w) Hi Hw). apply E_ext. intros A HA.
  apply dseq_length in HA. rewrite repeat_length in HA. rewrite <- (nsort_length A) in HA.
  pose proof (weights_ok_nonempty w Hw). destruct (nsort A) as [|a l]; [destruct w; [congruence|discriminate]|]. reflexivity.
Qed.

(** ** Bias of the kept particle *)
Definition first3 (w : list R) (h : nat -> R) : R := E (dseq (repeat (dcat w) 3)) (fun A => h (nth 0 (nsort A) 0%nat)).
Definition inner3 (a b c : bool) : R :=
  let S := g3 a + g3 b + g3 c in
  first3 [g3 a / S; g3 b / S; g3 c / S] (fun i => S / 3 * b2r (nth i [a; b; c] false)).

Lemma first3_value x y z h : x + y + z = 1 -> first3 [x; y; z] h = (1 - (y + z) ^ 3) * h 0%nat + ((y + z) ^ 3 - z ^ 3) * h 1%nat + z ^ 3 * h 2%nat.
Proof.
  intros H. unfold first3, dcat. cbn [length seq combine repeat]. rewrite !E_dseq_cons. unfold E. cbn [map fst snd Rsum dseq dret]. cbn.
  replace x with (1 - y - z) by lra. ring.
Qed.

Lemma inner3_values : inner3 false false false = 0 /\ inner3 true false false = 39/25 /\ inner3 false true false = 21/25 /\
  inner3 false false true = 9/25 /\ inner3 true true false = 114/49 /\ inner3 true false true = 102/49 /\ inner3 false true true = 72/49 /\ inner3 true true true = 3.
Proof. unfold inner3, g3, b2r. repeat split; rewrite first3_value by lra; cbn [nth]; lra. Qed.

Lemma bias_inner3 k a b c :
  law (pmcmc_filter_step false id_trans b_lik multinomial k [tt; tt] [a; b; c] [0; 1] 3)
    (fun c => exp (snd c) * b2r (nth 0 (fst c) false)) = inner3 a b c.
Proof.
  pose proof (gr_valid _ multinomial_good_res) as Hv. unfold pmcmc_filter_step. cbn [filter_inputs pf_scan]. rewrite law_bind. unfold pf_body. rewrite law_bind.
  set (ll := b_lik tt [a; b; c] tt 0).
  assert (Hne : ll <> []) by discriminate.
  assert (HS : Rsum (map exp ll) = g3 a + g3 b + g3 c).
  { unfold ll, b_lik. cbn [map Rsum]. rewrite !b_exp. unfold g3. ring. }
  assert (HSp : 0 < g3 a + g3 b + g3 c) by (unfold g3; destruct a, b, c; lra).
  change (map exp (map (fun x => x - logsumexp ll) ll)) with (normalise ll).
  transitivity (law (multinomial (normalise ll) (split_key (split_key k 0) 1))
     (fun A => (fun i => (g3 a + g3 b + g3 c) / 3 * b2r (nth i [a; b; c] false)) (nth 0 A 0%nat))).
  - eapply law_ext_safe; [apply Hv; now apply normalise_ok|]. intros A [HA _]. rewrite law_bind. cbn [id_trans law fst snd].
    f_equal.
    + unfold Rminus. rewrite !exp_plus, exp_Ropp, exp_0. unfold logsumexp. rewrite HS.
      replace (INR 3) with 3 by (simpl; lra). rewrite !exp_ln by lra. field.
    + unfold gather. destruct A as [|i A]; [discriminate|]. reflexivity.
  - rewrite multinomial_law by (now apply normalise_ok).
    unfold inner3, first3. cbv zeta. rewrite normalise_eq, HS by assumption.
    unfold ll, b_lik. cbn [map length]. now rewrite !b_exp.
Qed.

Lemma bias_value3 k1 k2 :
  law (run_filter false tt id_trans b_lik multinomial b_init 3 [0; 1] k1 k2 [tt; tt])
    (fun c => exp (snd c) * b2r (nth 0 (fst c) false)) = 1782 / 1225.
Proof.
  unfold run_filter. rewrite law_bind. unfold b_init. rewrite (b_draws_denotes _ 3 _ _).
  cbn [repeat]. rewrite E_dseq_cons.
  rewrite (E_ext' half _ (fun a => E half (fun b => E half (fun c => inner3 a b c)))).
  - destruct inner3_values as (H1 & H2 & H3 & H4 & H5 & H6 & H7 & H8).
    unfold half, E. cbn [map fst snd Rsum]. rewrite H1, H2, H3, H4, H5, H6, H7, H8. lra.
  - intros a. rewrite E_dseq_cons. apply E_ext'. intros b. rewrite E_dseq_cons. apply E_ext'. intros c.
    cbn [dseq]. rewrite E_dret. apply bias_inner3.
Qed.
