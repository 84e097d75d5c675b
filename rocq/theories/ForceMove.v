(** The forced-move index update (gibbs.py:171-214): law, detailed balance, reported acceptance. *)
From Coquelicot Require Import Coquelicot.
From Verif Require Export Gibbs FinLaw.
Open Scope R_scope.

(** probability that [u * c < t] for u uniform on [0,1) *)
Definition acc (c t : R) : R := if Rle_dec t 0 then 0 else if Rle_dec c t then 1 else t / c.

Lemma acc_bounds c t : 0 <= acc c t <= 1.
Proof.
  unfold acc. destruct (Rle_dec t 0); [lra|]. destruct (Rle_dec c t); [lra|]. split.
  - apply Rlt_le, Rdiv_lt_0_compat; lra.
  - apply (Rmult_le_reg_r c); [lra|]. unfold Rdiv. rewrite Rmult_assoc, Rinv_l by lra. lra.
Qed.

Lemma is_RInt_acc (h : bool -> R) c t : 0 <= c -> 0 <= t ->
  is_RInt (fun u => h (if Rlt_dec (u * c) t then true else false)) 0 1 (acc c t * h true + (1 - acc c t) * h false).
Proof.
  intros Hc Ht. pose proof (is_RInt_below h (acc c t) (acc_bounds c t)) as H. unfold E in H. cbn [map fst snd Rsum] in H.
  rewrite Rplus_0_r in H. eapply is_RInt_ext; [|exact H].
  intros u Hu. rewrite Rmin_left, Rmax_right in Hu by lra. cbv beta. f_equal. unfold acc.
  destruct (Rle_dec t 0) as [Ht0|Ht0].
  - destruct (Rlt_dec u 0); [lra|]. destruct (Rlt_dec (u * c) t) as [H1|]; [|reflexivity].
    assert (0 <= u * c) by (apply Rmult_le_pos; lra). lra.
  - destruct (Rle_dec c t) as [Hct|Hct].
    + destruct (Rlt_dec u 1); [|lra]. destruct (Rlt_dec (u * c) t) as [|H1]; [reflexivity|]. exfalso. apply H1.
      apply Rle_lt_trans with (u * t); [apply Rmult_le_compat_l; lra|].
      rewrite <- (Rmult_1_l t) at 2. apply Rmult_lt_compat_r; lra.
    + assert (Hc0 : 0 < c) by lra.
      destruct (Rlt_dec u (t / c)) as [H1|H1], (Rlt_dec (u * c) t) as [H2|H2]; try reflexivity; exfalso.
      * apply H2. apply (Rmult_lt_compat_r c) in H1; [|assumption]. unfold Rdiv in H1. rewrite Rmult_assoc, Rinv_l in H1 by lra. lra.
      * apply H1. apply (Rmult_lt_reg_r c); [assumption|]. unfold Rdiv. rewrite Rmult_assoc, Rinv_l by lra. lra.
Qed.

Lemma fm_threshold_lt1 M : fm_threshold M < 1.
Proof.
  unfold fm_threshold. pose proof (exp_pos (- INR M)). apply Rmax_lub_lt; [lra|].
  assert (0 < / 10 ^ 12) by (apply Rinv_0_lt_compat, pow_lt; lra). lra.
Qed.

Lemma fm_threshold_ge M : 1 - / 10 ^ 12 <= fm_threshold M.
Proof. apply Rmax_r. Qed.

Lemma length_fm_rest w k0 : length (fm_rest w k0) = length w.
Proof. unfold fm_rest. destruct Rlt_dec; [now rewrite map_length, length_set_nth|apply repeat_length]. Qed.

Lemma fm_rest_low w k0 i : nth k0 w 0 < fm_threshold (length w) -> (i < length w)%nat -> (k0 < length w)%nat ->
  nth i (fm_rest w k0) 0 = if Nat.eqb i k0 then 0 else nth i w 0 / (1 - nth k0 w 0).
Proof.
  intros H Hi Hk. unfold fm_rest. cbv zeta. destruct Rlt_dec as [_|]; [|contradiction].
  set (g := fun x => x / (1 - nth k0 w 0)). rewrite (nth_indep _ 0 (g 0)) by (rewrite map_length, length_set_nth; lia).
  rewrite map_nth. unfold g. destruct (Nat.eqb_spec i k0) as [->|Hne].
  - rewrite nth_set_nth_eq by assumption. unfold Rdiv. ring.
  - rewrite nth_set_nth_neq by congruence. reflexivity.
Qed.

Lemma Rsum_map_div c l : Rsum (map (fun x => x / c) l) = Rsum l / c.
Proof. unfold Rdiv. rewrite Rsum_map_mult_r, map_id. reflexivity. Qed.

Lemma fm_rest_ok w k0 : weights_ok w -> (k0 < length w)%nat -> weights_ok (fm_rest w k0).
Proof.
  intros [Hp Hs] Hk. unfold fm_rest. cbv zeta. pose proof (fm_threshold_lt1 (length w)) as Ht.
  destruct Rlt_dec as [H|H].
  - split.
    + apply Forall_map. apply Forall_forall. intros x Hx. apply Rmult_le_pos; [|apply Rlt_le, Rinv_0_lt_compat; lra].
      assert (HF := Forall_set_nth (fun x => 0 <= x) k0 0 w (Rle_refl 0) Hp). rewrite Forall_forall in HF. now apply HF.
    + rewrite Rsum_map_div, Rsum_set_nth, Hs by assumption. field. lra.
  - replace (1 / INR (length w)) with (/ INR (length w)) by (unfold Rdiv; ring). apply weights_ok_unif. lia.
Qed.

Lemma w_bounds w i : weights_ok w -> 0 <= nth i w 0 <= 1.
Proof.
  intros Hw. destruct (le_lt_dec (length w) i) as [H|H].
  - rewrite nth_overflow by assumption. lra.
  - apply (weights_ok_le1 w); [assumption|]. now apply nth_In.
Qed.

Theorem force_move_law k w k0 f : weights_ok w -> (k0 < length w)%nat ->
  law (force_move k w k0) f =
  E (dcat (fm_rest w k0)) (fun i =>
    let a := acc (1 - nth i w 0) (1 - nth k0 w 0) in a * f (i, fm_alpha w k0) + (1 - a) * f (k0, fm_alpha w k0)).
Proof.
  intros Hw Hk. unfold force_move. rewrite law_bind, (choice_denotes _ _ (fm_rest_ok w k0 Hw Hk)).
  apply E_ext'. intros i. cbn [law]. rewrite uint1. cbn [nth]. cbv zeta.
  pose proof (w_bounds w i Hw). pose proof (w_bounds w k0 Hw).
  apply is_RInt_unique.
  apply (is_RInt_acc (fun b : bool => f (if b then i else k0, fm_alpha w k0))); lra.
Qed.

(** the flow from index a to index i, before swapping *)
Definition fm_flow (w : list R) (a i : nat) : R :=
  nth a w 0 * (nth i (fm_rest w a) 0 * acc (1 - nth i w 0) (1 - nth a w 0)).

Definition fm_regular (w : list R) : Prop := Forall (fun x => x < fm_threshold (length w) \/ x = 1) w.

Lemma other_zero w a i : weights_ok w -> (a < length w)%nat -> (i < length w)%nat -> a <> i -> nth a w 0 = 1 -> nth i w 0 = 0.
Proof.
  intros Hw Ha Hi Hne H1.
  assert (Hz : Rsum (set_nth a 0 w) = 0) by (rewrite Rsum_set_nth, (proj2 Hw), H1 by assumption; ring).
  assert (HF : Forall (fun x => 0 <= x) (set_nth a 0 w)) by (apply Forall_set_nth; [lra|apply Hw]).
  assert (Hin : In (nth i (set_nth a 0 w) 0) (set_nth a 0 w)) by (apply nth_In; now rewrite length_set_nth).
  pose proof (Rsum_In_le _ _ HF Hin) as Hle. rewrite nth_set_nth_neq in Hle by congruence.
  pose proof (w_bounds w i Hw). lra.
Qed.

Lemma acc_div c t : 0 < t -> 0 < c -> acc c t / t = / Rmax c t.
Proof.
  intros Ht Hc. unfold acc. destruct (Rle_dec t 0); [lra|]. destruct (Rle_dec c t) as [H|H].
  - rewrite Rmax_right by assumption. unfold Rdiv. ring.
  - rewrite Rmax_left by lra. field. lra.
Qed.

Lemma fm_flow_sym w a i : weights_ok w -> fm_regular w -> (a < length w)%nat -> (i < length w)%nat ->
  fm_flow w a i = fm_flow w i a.
Proof.
  intros Hw Hr Ha Hi. destruct (Nat.eq_dec a i) as [->|Hne]; [reflexivity|].
  unfold fm_regular in Hr. pose proof (Forall_nth_lt _ w 0 a Hr Ha) as Hra. pose proof (Forall_nth_lt _ w 0 i Hr Hi) as Hri.
  cbv beta in Hra, Hri. pose proof (fm_threshold_lt1 (length w)) as Ht.
  assert (Hone : forall x y, (x < length w)%nat -> (y < length w)%nat -> x <> y -> nth x w 0 = 1 -> fm_flow w x y = 0 /\ fm_flow w y x = 0).
  { intros x y Hx Hy Hxy H1. unfold fm_flow. split.
    - unfold acc. rewrite H1. destruct (Rle_dec (1 - 1) 0); [ring|lra].
    - rewrite (other_zero w x y) by assumption. ring. }
  destruct Hra as [Hra|Hra]; [|destruct (Hone a i Ha Hi Hne Hra); lra].
  destruct Hri as [Hri|Hri]; [|destruct (Hone i a Hi Ha (not_eq_sym Hne) Hri); lra].
  unfold fm_flow. rewrite !fm_rest_low by assumption.
  rewrite (proj2 (Nat.eqb_neq i a)) by congruence. rewrite (proj2 (Nat.eqb_neq a i)) by congruence.
  transitivity (nth a w 0 * nth i w 0 * (acc (1 - nth i w 0) (1 - nth a w 0) / (1 - nth a w 0))); [field; lra|].
  transitivity (nth a w 0 * nth i w 0 * (acc (1 - nth a w 0) (1 - nth i w 0) / (1 - nth i w 0))); [|field; lra].
  rewrite !acc_div by lra. now rewrite Rmax_comm.
Qed.

Lemma force_move_flow k w f : weights_ok w ->
  E (dcat w) (fun a => law (force_move k w a) (fun r => f a (fst r))) =
  Rsum (map (fun a => Rsum (map (fun i => fm_flow w a i * f a i) (seq 0 (length w)))) (seq 0 (length w))) +
  Rsum (map (fun a => Rsum (map (fun i => nth a w 0 * (nth i (fm_rest w a) 0 * (1 - acc (1 - nth i w 0) (1 - nth a w 0)))) (seq 0 (length w))) * f a a) (seq 0 (length w))).
Proof.
  intros Hw. rewrite E_dcat, <- Rsum_map_plus. apply Rsum_map_ext. intros a Ha. apply in_seq in Ha.
  rewrite force_move_law by (assumption || lia). rewrite E_dcat, length_fm_rest. cbn [fst]. cbv zeta.
  rewrite <- Rsum_map_mult_l, <- Rsum_map_mult_r, <- Rsum_map_plus. apply Rsum_map_ext. intros i _. unfold fm_flow. ring.
Qed.

Theorem force_move_reversible k w f : weights_ok w -> fm_regular w ->
  E (dcat w) (fun a => law (force_move k w a) (fun r => f a (fst r))) =
  E (dcat w) (fun a => law (force_move k w a) (fun r => f (fst r) a)).
Proof.
  intros Hw Hr. rewrite (force_move_flow k w f Hw), (force_move_flow k w (fun a i => f i a) Hw). f_equal.
  rewrite Rsum_exchange. apply Rsum_map_ext. intros a Ha. apply in_seq in Ha. apply Rsum_map_ext. intros i Hi. apply in_seq in Hi.
  rewrite (fm_flow_sym w i a) by (assumption || lia). reflexivity.
Qed.

Lemma force_move_const k w a c : weights_ok w -> (a < length w)%nat -> law (force_move k w a) (fun _ => c) = c.
Proof.
  intros Hw Ha. rewrite force_move_law by assumption. rewrite (E_ext' _ _ (fun _ => c)) by (intros; cbv zeta; ring).
  apply E_const, is_prob_dcat. now apply fm_rest_ok.
Qed.

Theorem force_move_invariant k w h : weights_ok w -> fm_regular w ->
  E (dcat w) (fun a => law (force_move k w a) (fun r => h (fst r))) = E (dcat w) h.
Proof.
  intros Hw Hr. rewrite (force_move_reversible k w (fun _ i => h i) Hw Hr).
  apply E_ext. intros a Ha. apply dcat_support in Ha. now apply force_move_const.
Qed.

Lemma force_move_safe k w a : weights_ok w -> (a < length w)%nat -> safe (force_move k w a) (fun r => (fst r < length w)%nat).
Proof.
  intros Hw Ha. unfold force_move. eapply safe_bind; [apply choice_safe; now apply fm_rest_ok|].
  intros i Hi. cbv beta in Hi. rewrite length_fm_rest in Hi. apply safe_unif. intros us _ _. apply safe_ret. cbn [fst]. destruct Rlt_dec; assumption.
Qed.

Lemma force_move_good k w a : good [k] (force_move k w a).
Proof.
  unfold force_move. apply (good_under k [0; 1]%nat). apply (good_bind_under k [0%nat] [1%nat]).
  - intros i j [<-|[]] [<-|[]]. discriminate.
  - apply good_choice.
  - intros i. apply good_unif.
Qed.

(** ** The reported acceptance probability *)

Definition moves (k0 : nat) (r : nat * R) : R := if Nat.eqb (fst r) k0 then 0 else 1.

Lemma acceptance_eq k w k0 : weights_ok w -> (k0 < length w)%nat -> nth k0 w 0 < fm_threshold (length w) ->
  law (force_move k w k0) (moves k0) = E (dcat (fm_rest w k0)) (fun i => acc (1 - nth i w 0) (1 - nth k0 w 0)).
Proof.
  intros Hw Hk Ht. rewrite force_move_law by assumption. rewrite !E_dcat, length_fm_rest.
  apply Rsum_map_ext. intros i Hi. apply in_seq in Hi. rewrite fm_rest_low by (assumption || lia).
  unfold moves. cbn [fst]. rewrite Nat.eqb_refl. destruct (Nat.eqb i k0); cbv zeta; ring.
Qed.

Lemma fm_sum_ge l b : length l = length b -> Forall2 (fun o x => match o with Some y => x <= y | None => True end) l b ->
  match fm_sum l with Some s => Rsum b <= s | None => True end.
Proof.
  intros _ H. induction H as [|o x l b Ho H IH]; cbn [fm_sum Rsum]; [lra|].
  destruct o as [y|]; [|exact I]. destruct (fm_sum l); [lra|exact I].
Qed.

Lemma fm_sum_eq l b : Forall2 (fun o x => o = Some x) l b -> fm_sum l = Some (Rsum b).
Proof. induction 1 as [|o x l b Ho H IH]; cbn [fm_sum Rsum]; [reflexivity|]. rewrite Ho, IH. reflexivity. Qed.

Lemma combine_as_seq (a b : list R) : length a = length b ->
  combine a b = map (fun i => (nth i a 0, nth i b 0)) (seq 0 (length b)).
Proof.
  revert b; induction a as [|x a IH]; intros [|y b] H; try discriminate; [reflexivity|].
  cbn [combine length seq map nth]. f_equal. rewrite <- seq_shift, map_map. cbn [nth]. apply IH. simpl in H. lia.
Qed.

Lemma fm_alpha_bounds w k0 : 0 <= fm_alpha w k0 <= 1.
Proof.
  unfold fm_alpha. cbv zeta. destruct (fm_sum _) as [a|]; [|lra]. split; [|apply Rmin_r].
  apply Rmin_glb; [apply Rmax_r|lra].
Qed.

Lemma Forall2_map_same {A B C} (P : B -> C -> Prop) (f : A -> B) (g : A -> C) l :
  (forall a, In a l -> P (f a) (g a)) -> Forall2 P (map f l) (map g l).
Proof.
  induction l as [|a l IH]; intros H; cbn [map]; constructor; [apply H; now left|apply IH; intros; apply H; now right].
Qed.

Theorem fm_alpha_upper k w k0 : weights_ok w -> (k0 < length w)%nat -> nth k0 w 0 < fm_threshold (length w) ->
  law (force_move k w k0) (moves k0) <= fm_alpha w k0.
Proof.
  intros Hw Hk Ht. rewrite acceptance_eq by assumption. set (q := E _ _).
  pose proof (fm_threshold_lt1 (length w)) as Ht1.
  assert (Hq : 0 <= q <= 1).
  { pose proof (is_prob_dcat _ (fm_rest_ok w k0 Hw Hk)) as Hpr. split.
    - apply E_nonneg; [apply Hpr|]. intros; apply acc_bounds.
    - unfold q. rewrite E_dcat. apply Rle_trans with (Rsum (map (fun i => nth i (fm_rest w k0) 0) (seq 0 (length (fm_rest w k0))))).
      2:{ rewrite map_nth_seq, (proj2 (fm_rest_ok w k0 Hw Hk)). lra. }
      apply Rsum_map_le. intros i _. pose proof (acc_bounds (1 - nth i w 0) (1 - nth k0 w 0)).
      pose proof (w_bounds _ i (fm_rest_ok w k0 Hw Hk)). rewrite <- (Rmult_1_r (nth i (fm_rest w k0) 0)) at 2.
      apply Rmult_le_compat_l; lra. }
  unfold fm_alpha. cbv zeta. rewrite combine_as_seq by apply length_fm_rest. rewrite map_map. cbn [fst snd].
  assert (H2 : Forall2 (fun o x => match o with Some y => x <= y | None => True end)
     (map (fun i => fm_term ((1 - nth k0 w 0) * nth i (fm_rest w k0) 0) (1 - nth i w 0)) (seq 0 (length w)))
     (map (fun i => nth i (fm_rest w k0) 0 * acc (1 - nth i w 0) (1 - nth k0 w 0)) (seq 0 (length w)))).
  { apply Forall2_map_same. intros i _. pose proof (w_bounds _ i (fm_rest_ok w k0 Hw Hk)) as Hr. pose proof (w_bounds w i Hw).
    unfold fm_term. destruct (Req_EM_T (1 - nth i w 0) 0) as [H0|H0].
    - destruct Req_EM_T as [Hn|Hn]; [|exact I]. apply Rmult_integral in Hn. destruct Hn as [Hn|Hn]; [lra|]. rewrite Hn. lra.
    - unfold Rdiv. replace ((1 - nth k0 w 0) * nth i (fm_rest w k0) 0 * / (1 - nth i w 0))
        with (nth i (fm_rest w k0) 0 * ((1 - nth k0 w 0) / (1 - nth i w 0))) by (unfold Rdiv; ring).
      apply Rmult_le_compat_l; [lra|]. unfold acc.
      assert (Hc : 0 < 1 - nth i w 0) by lra.
      destruct Rle_dec; [lra|]. destruct Rle_dec; [|lra].
      apply (Rmult_le_reg_r (1 - nth i w 0)); [assumption|]. unfold Rdiv. rewrite Rmult_assoc, Rinv_l by lra. lra. }
  apply fm_sum_ge in H2; [|now rewrite !map_length].
  destruct (fm_sum _) as [s|]; [|lra]. unfold q in *. rewrite E_dcat, length_fm_rest in *.
  apply Rmin_glb; [|lra]. apply Rle_trans with s; [assumption|apply Rmax_l].
Qed.

Theorem fm_alpha_exact k w k0 : weights_ok w -> (k0 < length w)%nat -> nth k0 w 0 < fm_threshold (length w) ->
  Forall (fun x => x <= nth k0 w 0) w -> fm_alpha w k0 = law (force_move k w k0) (moves k0).
Proof.
  intros Hw Hk Ht Hmax. pose proof (fm_alpha_upper k w k0 Hw Hk Ht) as Hup. rewrite acceptance_eq in * by assumption.
  pose proof (fm_threshold_lt1 (length w)) as Ht1.
  unfold fm_alpha in *. cbv zeta in *. rewrite combine_as_seq in * by apply length_fm_rest. rewrite map_map in *. cbn [fst snd] in *.
  assert (H2 : Forall2 (fun o x => o = Some x)
     (map (fun i => fm_term ((1 - nth k0 w 0) * nth i (fm_rest w k0) 0) (1 - nth i w 0)) (seq 0 (length w)))
     (map (fun i => nth i (fm_rest w k0) 0 * acc (1 - nth i w 0) (1 - nth k0 w 0)) (seq 0 (length w)))).
  { apply Forall2_map_same. intros i Hi. apply in_seq in Hi. pose proof (Forall_nth_lt _ w 0 i Hmax ltac:(lia)) as Hm. cbv beta in Hm.
    unfold fm_term. destruct (Req_EM_T (1 - nth i w 0) 0) as [H0|H0]; [lra|]. f_equal. unfold acc.
    destruct (Rle_dec (1 - nth k0 w 0) 0); [lra|]. destruct (Rle_dec (1 - nth i w 0) (1 - nth k0 w 0)) as [H1|H1].
    - replace (nth k0 w 0) with (nth i w 0) by lra. field. assumption.
    - field. assumption. }
  rewrite (fm_sum_eq _ _ H2) in *. rewrite E_dcat, length_fm_rest in *. set (s := Rsum _) in *.
  apply Rle_antisym; [|assumption].
  apply Rle_trans with (Rmax s 0); [apply Rmin_l|]. apply Rmax_lub; [lra|].
  unfold s. apply Rsum_nonneg. apply Forall_map. apply Forall_forall. intros i _. apply Rmult_le_pos; [|apply acc_bounds].
  apply w_bounds. now apply fm_rest_ok.
Qed.

(** weights (0.3, 0.2, 0.5), reference 0: the reported value is 1, the true acceptance probability 27/28 *)
Lemma fm_alpha_wrong k : let w := [3/10; 2/10; 5/10] in
  fm_alpha w 0 = 1 /\ law (force_move k w 0) (moves 0) = 27/28.
Proof.
  cbv zeta. set (w := [3/10; 2/10; 5/10]).
  assert (Hw : weights_ok w) by (split; [repeat constructor; lra|unfold w; cbn [Rsum]; lra]).
  assert (Ht : nth 0 w 0 < fm_threshold (length w)).
  { apply Rlt_le_trans with (1 - / 10 ^ 12); [|apply fm_threshold_ge]. unfold w. cbn [nth].
    assert (/ 10 ^ 12 < 1 / 2); [|lra]. unfold Rdiv. rewrite Rmult_1_l. apply Rinv_lt_contravar; [|lra]. apply Rmult_lt_0_compat; lra. }
  assert (Hrest : fm_rest w 0 = [0; 2/7; 5/7]).
  { unfold fm_rest. cbv zeta. destruct Rlt_dec as [_|]; [|contradiction]. unfold w. cbn [set_nth map nth]. f_equal; [lra|]. f_equal; [lra|]. f_equal. lra. }
  split.
  - unfold fm_alpha. rewrite Hrest. unfold w. cbn [combine map nth fst snd]. unfold fm_term.
    repeat (destruct Req_EM_T; [lra|]). cbn [fm_sum]. rewrite Rmax_left by lra. apply Rmin_right. lra.
  - rewrite acceptance_eq; [|assumption|unfold w; cbn [length]; lia|assumption]. rewrite Hrest, E_dcat. unfold w. cbn [length seq map nth Rsum].
    unfold acc. repeat (destruct Rle_dec; try lra).
Qed.

(** above the threshold the move is not reversible *)
Lemma fm_above_threshold k : let w := [1 - / 10 ^ 13; / 10 ^ 13] in
  weights_ok w /\
  E (dcat w) (fun a => law (force_move k w a) (fun r => INR (fst r))) <> E (dcat w) INR.
Proof.
  cbv zeta. set (e := / 10 ^ 13). set (w := [1 - e; e]).
  assert (He : 0 < e) by (apply Rinv_0_lt_compat, pow_lt; lra).
  assert (He12 : e < / 10 ^ 12) by (apply Rinv_lt_contravar; [apply Rmult_lt_0_compat; lra|lra]).
  assert (H12 : / 10 ^ 12 < 1 / 2) by (unfold Rdiv; rewrite Rmult_1_l; apply Rinv_lt_contravar; [apply Rmult_lt_0_compat; lra|lra]).
  assert (Hw : weights_ok w) by (split; [repeat constructor; lra|unfold w; cbn [Rsum]; lra]).
  split; [assumption|].
  assert (Hthr : fm_threshold 2 = 1 - / 10 ^ 12).
  { unfold fm_threshold. apply Rmax_right. assert (/ 10 ^ 12 <= exp (- INR 2)); [|lra].
    replace (- INR 2) with (Ropp 1 + Ropp 1) by (simpl; lra). rewrite exp_plus.
    assert (He1 : / 4 <= exp (Ropp 1)).
    { rewrite exp_Ropp. apply Rinv_le_contravar; [apply exp_pos|]. pose proof exp_le_3. lra. }
    assert (/ 4 * / 4 <= exp (Ropp 1) * exp (Ropp 1)) by (apply Rmult_le_compat; lra).
    assert (/ 10 ^ 12 <= / 16) by (apply Rinv_le_contravar; lra). lra. }
  assert (Hr0 : fm_rest w 0 = [1/2; 1/2]).
  { unfold fm_rest. change (length w) with 2%nat. rewrite Hthr. unfold w. cbn [nth]. destruct Rlt_dec; [lra|]. cbn [repeat]. simpl. repeat f_equal; lra. }
  assert (Hr1 : fm_rest w 1 = [1; 0]).
  { unfold fm_rest. change (length w) with 2%nat. rewrite Hthr. unfold w. cbn [nth]. destruct Rlt_dec; [|lra]. cbn [set_nth map]. f_equal; [field; lra|]. f_equal. unfold Rdiv. ring. }
  rewrite !E_dcat. change (length w) with 2%nat. cbn [seq map Rsum].
  rewrite !force_move_law by (assumption || (unfold w; cbn [length]; lia)). rewrite Hr0, Hr1, !E_dcat. cbn [length seq map nth fst Rsum].
  unfold w. cbn [nth]. simpl INR. unfold acc.
  destruct (Rle_dec (1 - (1 - e)) 0); [lra|]. destruct (Rle_dec (1 - e) 0); [lra|].
  destruct (Rle_dec (1 - (1 - e)) (1 - (1 - e))); [|lra]. destruct (Rle_dec (1 - e) (1 - (1 - e))); [lra|].
  destruct (Rle_dec (1 - (1 - e)) (1 - e)); [|lra]. destruct (Rle_dec (1 - e) (1 - e)); [|lra].
  intros H.
  assert (Hq : (1 - e) * ((1 - (1 - e)) / (1 - e)) = e) by (field; lra).
  set (q := (1 - (1 - e)) / (1 - e)) in *.
  assert ((1 - e) * (1 / 2 * q) = e / 2) by (transitivity ((1 - e) * q / 2); [field|rewrite Hq; reflexivity]).
  lra.
Qed.
