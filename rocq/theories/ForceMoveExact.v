(** When the acceptance probability reported by force_move is the true one. *)
From Verif Require Export ForceMove.
Open Scope R_scope.

Lemma Rsum_map_lt {A} (f g : A -> R) l a : (forall x, In x l -> f x <= g x) -> In a l -> f a < g a -> Rsum (map f l) < Rsum (map g l).
Proof.
  induction l as [|b l IH]; intros H Hin Hlt; [destruct Hin|]. cbn [map Rsum].
  pose proof (H b (or_introl eq_refl)) as Hb. destruct Hin as [ <-|Hin].
  - assert (Rsum (map f l) <= Rsum (map g l)) by (apply Rsum_map_le; intros; apply H; now right). lra.
  - assert (Rsum (map f l) < Rsum (map g l)) by (apply IH; auto; intros; apply H; now right). lra.
Qed.

Theorem fm_alpha_exact_iff k w k0 : weights_ok w -> (k0 < length w)%nat -> nth k0 w 0 < fm_threshold (length w) ->
  (fm_alpha w k0 = law (force_move k w k0) (moves k0) <->
   (forall i, (i < length w)%nat -> nth i w 0 <= nth k0 w 0) \/ (forall i, (i < length w)%nat -> 0 < nth i w 0 -> nth k0 w 0 <= nth i w 0)).
Proof.
  intros Hw Hk Ht. pose proof (fm_threshold_lt1 (length w)) as Ht1.
  pose proof (fm_rest_ok w k0 Hw Hk) as Hro.
  assert (Hr0 : forall i, 0 <= nth i (fm_rest w k0) 0) by (intros i; apply w_bounds; exact Hro).
  assert (Hr1 : Rsum (map (fun i => nth i (fm_rest w k0) 0) (seq 0 (length w))) = 1).
  { rewrite <- (length_fm_rest w k0), map_nth_seq. apply Hro. }
  split.
  - intros He. destruct (Forall_Exists_dec (fun i => nth i w 0 <= nth k0 w 0) (fun i => Rle_dec _ _) (seq 0 (length w))) as [HF|HE1].
    { left. intros i Hi. rewrite Forall_forall in HF. apply HF. apply in_seq. lia. }
    destruct (Forall_Exists_dec (fun j => 0 < nth j w 0 -> nth k0 w 0 <= nth j w 0)
      (fun j => match Rlt_dec 0 (nth j w 0) with
                | left H => match Rle_dec (nth k0 w 0) (nth j w 0) with left H' => left (fun _ => H') | right H' => right (fun G => H' (G H)) end
                | right H => left (fun H' => False_ind _ (H H')) end) (seq 0 (length w))) as [HF|HE2].
    { right. intros i Hi. rewrite Forall_forall in HF. apply HF. apply in_seq. lia. }
    exfalso. apply Exists_exists in HE1. destruct HE1 as (i & Hi & Hwi). apply Exists_exists in HE2. destruct HE2 as (j & Hj & Hwj).
    apply in_seq in Hi, Hj. apply Rnot_le_lt in Hwi.
    assert (Hj0 : 0 < nth j w 0) by (destruct (Rlt_dec 0 (nth j w 0)) as [H|H]; [exact H|exfalso; apply Hwj; intros; contradiction]).
    assert (Hjk : nth j w 0 < nth k0 w 0) by (destruct (Rle_or_lt (nth k0 w 0) (nth j w 0)) as [H|H]; [exfalso; apply Hwj; auto|exact H]).
    assert (Hik : i <> k0) by (intros ->; lra). assert (Hjk' : j <> k0) by (intros ->; lra). assert (Hij : i <> j) by (intros ->; lra).
    assert (Hlt1 : forall m, (m < length w)%nat -> nth m w 0 < 1).
    { intros m Hm. pose proof (w_bounds w m Hw) as Hb. destruct (Rle_lt_or_eq_dec _ _ (proj2 Hb)) as [H|H]; [exact H|].
      destruct (Nat.eq_dec m i) as [->|Hne].
      - rewrite (other_zero w i j) in Hj0 by (assumption || lia). lra.
      - rewrite (other_zero w m i) in Hwi by (assumption || lia). lra. }
    assert (Hq1 : Rsum (map (fun m => nth m (fm_rest w k0) 0 * acc (1 - nth m w 0) (1 - nth k0 w 0)) (seq 0 (length w))) < 1).
    { eapply Rlt_le_trans; [|right; exact Hr1]. apply (Rsum_map_lt _ _ _ j).
      - intros m _. rewrite <- (Rmult_1_r (nth m (fm_rest w k0) 0)) at 2. apply Rmult_le_compat_l; [apply Hr0|apply acc_bounds].
      - apply in_seq. lia.
      - rewrite fm_rest_low by (assumption || lia). rewrite (proj2 (Nat.eqb_neq j k0)) by assumption.
        rewrite <- (Rmult_1_r (nth j w 0 / (1 - nth k0 w 0))) at 2. apply Rmult_lt_compat_l; [apply Rdiv_lt_0_compat; lra|].
        unfold acc. destruct (Rle_dec (1 - nth k0 w 0) 0); [lra|]. destruct (Rle_dec (1 - nth j w 0) (1 - nth k0 w 0)); [lra|].
        apply (Rmult_lt_reg_r (1 - nth j w 0)); [lra|]. unfold Rdiv. rewrite Rmult_assoc, Rinv_l by lra. lra. }
    assert (Hqs : Rsum (map (fun m => nth m (fm_rest w k0) 0 * acc (1 - nth m w 0) (1 - nth k0 w 0)) (seq 0 (length w))) <
                  Rsum (map (fun m => nth m (fm_rest w k0) 0 * ((1 - nth k0 w 0) / (1 - nth m w 0))) (seq 0 (length w)))).
    { apply (Rsum_map_lt _ _ _ i).
      - intros m Hm. apply in_seq in Hm. apply Rmult_le_compat_l; [apply Hr0|]. specialize (Hlt1 m ltac:(lia)). unfold acc.
        destruct (Rle_dec (1 - nth k0 w 0) 0); [lra|]. destruct (Rle_dec (1 - nth m w 0) (1 - nth k0 w 0)); [|lra].
        apply (Rmult_le_reg_r (1 - nth m w 0)); [lra|]. unfold Rdiv. rewrite Rmult_assoc, Rinv_l by lra. lra.
      - apply in_seq. lia.
      - specialize (Hlt1 i ltac:(lia)). rewrite fm_rest_low by (assumption || lia). rewrite (proj2 (Nat.eqb_neq i k0)) by assumption.
        pose proof (w_bounds w k0 Hw). apply Rmult_lt_compat_l; [apply Rdiv_lt_0_compat; lra|].
        unfold acc. destruct (Rle_dec (1 - nth k0 w 0) 0); [lra|]. destruct (Rle_dec (1 - nth i w 0) (1 - nth k0 w 0)); [|lra].
        apply (Rmult_lt_reg_r (1 - nth i w 0)); [lra|]. unfold Rdiv. rewrite Rmult_assoc, Rinv_l by lra. lra. }
    rewrite acceptance_eq in He by assumption. rewrite E_dcat, length_fm_rest in He.
    unfold fm_alpha in He. cbv zeta in He. rewrite combine_as_seq in He by apply length_fm_rest. rewrite map_map in He. cbn [fst snd] in He.
    rewrite (fm_sum_eq _ (map (fun m => nth m (fm_rest w k0) 0 * ((1 - nth k0 w 0) / (1 - nth m w 0))) (seq 0 (length w)))) in He.
    2:{ apply Forall2_map_same. intros m Hm. apply in_seq in Hm. specialize (Hlt1 m ltac:(lia)). unfold fm_term. destruct Req_EM_T as [H0|H0]; [lra|]. f_equal. field. lra. }
    set (s := Rsum (map (fun m => nth m (fm_rest w k0) 0 * ((1 - nth k0 w 0) / (1 - nth m w 0))) (seq 0 (length w)))) in *.
    set (q := Rsum (map (fun m => nth m (fm_rest w k0) 0 * acc (1 - nth m w 0) (1 - nth k0 w 0)) (seq 0 (length w)))) in *.
    pose proof (Rmax_l s 0). unfold Rmin in He. destruct (Rle_dec (Rmax s 0) 1); lra.
  - intros [H|H].
    + apply fm_alpha_exact; try assumption. apply Forall_forall. intros x Hx. destruct (In_nth _ _ 0 Hx) as (i & Hi & <-). now apply H.
    + pose proof (fm_alpha_upper k w k0 Hw Hk Ht) as Hup. pose proof (fm_alpha_bounds w k0) as Hb.
      assert (Hone : law (force_move k w k0) (moves k0) = 1); [|lra].
      rewrite acceptance_eq by assumption. rewrite E_dcat, length_fm_rest. refine (eq_trans _ Hr1). apply Rsum_map_ext. intros i Hi. apply in_seq in Hi.
      rewrite fm_rest_low by (assumption || lia). destruct (Nat.eqb i k0); [unfold Rdiv; ring|].
      pose proof (w_bounds w i Hw) as Hbi. destruct (Rle_lt_or_eq_dec _ _ (proj1 Hbi)) as [H0|H0].
      * specialize (H i ltac:(lia) H0). unfold acc. destruct (Rle_dec (1 - nth k0 w 0) 0); [lra|].
        destruct (Rle_dec (1 - nth i w 0) (1 - nth k0 w 0)); [ring|lra].
      * rewrite <- H0. unfold Rdiv. ring.
Qed.
