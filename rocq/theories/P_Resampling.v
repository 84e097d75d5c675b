(** Properties of the resampling schemes: C01-C08, C63, C101.
    [runs p keys A]: A is returned for some outcome of the random draws;
    [law p f]: expectation of f over the draws. *)
From Coq Require Import Sorted ZArith.
From Coquelicot Require Import Coquelicot.
From Verif Require Import Resampling CondResampling ResamplingProofs CondResamplingProofs MultinomialUse.
Open Scope R_scope.

(** witness used in the examples below *)
Definition w3 : list R := [1/2; 3/10; 1/5].
Example w3_ok : weights_ok w3.
Proof. split; [repeat constructor; lra|unfold w3; simpl; lra]. Qed.

(** ** C01 *)
Theorem C01_systematic_valid : forall w k keys A, w <> [] -> runs (systematic w k) keys A ->
  (length A = length w /\ Forall (fun i => (i < length w)%nat) A) /\ StronglySorted le A.
Proof. intros w k keys A Hw H. exact (systematic_safe w k Hw keys A H). Qed.
Theorem C01_stratified_valid : forall w k keys A, w <> [] -> runs (stratified w k) keys A ->
  (length A = length w /\ Forall (fun i => (i < length w)%nat) A) /\ StronglySorted le A.
Proof. intros w k keys A Hw H. exact (stratified_safe w k Hw keys A H). Qed.
Theorem C01_multinomial_valid : forall w k keys A, w <> [] -> runs (multinomial w k) keys A ->
  (length A = length w /\ Forall (fun i => (i < length w)%nat) A) /\ StronglySorted le A.
Proof. intros w k keys A Hw H. exact (multinomial_safe w k Hw keys A H). Qed.
Print Assumptions C01_systematic_valid.
Print Assumptions C01_stratified_valid.
Print Assumptions C01_multinomial_valid.

Example C01_example : exists keys, runs (systematic w3 [7%nat]) keys [0; 0; 1]%nat.
Proof.
  exists [[7%nat]]. exists [1/4], []. split; [reflexivity|]. split; [reflexivity|].
  split; [repeat constructor; lra|]. split; [reflexivity|]. cbn [nth].
  unfold systematic_of, inverse_cdf_indices, strat_points, cumsum, clip_index, w3. simpl.
  repeat match goal with |- context [Rlt_dec ?a ?b] => destruct (Rlt_dec a b); try lra end. reflexivity.
Qed.

(** ** C02 *)
Theorem C02_systematic_offspring : forall w u i, weights_ok w -> in01 u -> (i < length w)%nat ->
  Rabs (INR (count i (systematic_of w u)) - INR (length w) * nth i w 0) <= 1 /\
  (0 < u -> Rabs (INR (count i (systematic_of w u)) - INR (length w) * nth i w 0) < 1).
Proof. exact systematic_offspring. Qed.
Theorem C02_zero_weight_never_selected : forall w u i, weights_ok w -> in01 u -> 0 < u -> (i < length w)%nat ->
  nth i w 0 = 0 -> count i (systematic_of w u) = 0%nat.
Proof. exact systematic_zero_weight. Qed.
(** the strict bound does fail at u = 0 *)
Theorem C02_strict_bound_at_zero_refuted : exists w u, weights_ok w /\ in01 u /\ nth 0 w 0 = 0 /\
  count 0 (systematic_of w u) = 1%nat.
Proof. exact systematic_zero_weight_selected. Qed.
Print Assumptions C02_systematic_offspring.
Print Assumptions C02_zero_weight_never_selected.
Print Assumptions C02_strict_bound_at_zero_refuted.

Example C02_example : count 0 (systematic_of w3 (1/4)) = 2%nat /\ INR (length w3) * nth 0 w3 0 = 3/2.
Proof.
  split; [|unfold w3; simpl; lra].
  assert (H : systematic_of w3 (1/4) = [0; 0; 1]%nat).
  { unfold systematic_of, inverse_cdf_indices, strat_points, cumsum, clip_index, w3. simpl.
    repeat match goal with |- context [Rlt_dec ?a ?b] => destruct (Rlt_dec a b); try lra end. reflexivity. }
  now rewrite H.
Qed.

(** ** C03 *)
Theorem C03_stratified_offspring : forall w us i, weights_ok w -> length us = length w ->
  Forall (fun u => 0 < u < 1) us -> (i < length w)%nat ->
  Rabs (INR (count i (stratified_of w us)) - INR (length w) * nth i w 0) < 2.
Proof. exact stratified_offspring. Qed.
Theorem C03_heavy_particles_survive : forall w us i, weights_ok w -> length us = length w ->
  Forall (fun u => 0 < u < 1) us -> (i < length w)%nat ->
  2 <= INR (length w) * nth i w 0 -> (0 < count i (stratified_of w us))%nat.
Proof. exact stratified_survives. Qed.
Print Assumptions C03_stratified_offspring.
Print Assumptions C03_heavy_particles_survive.

(** the bound 1 of the systematic scheme does not hold here: n w_1 = 6/5 but three copies *)
Example C03_example : exists us, length us = 3%nat /\ Forall (fun u => 0 < u < 1) us /\
  weights_ok [3/10; 4/10; 3/10] /\ count 1 (stratified_of [3/10; 4/10; 3/10] us) = 3%nat.
Proof.
  exists [95/100; 1/2; 5/100]. split; [reflexivity|]. split; [repeat constructor; lra|].
  split; [split; [repeat constructor; lra|simpl; lra]|].
  assert (H : stratified_of [3/10; 4/10; 3/10] [95/100; 1/2; 5/100] = [1; 1; 1]%nat).
  { unfold stratified_of, inverse_cdf_indices, strat_points, cumsum, clip_index. simpl.
    repeat match goal with |- context [Rlt_dec ?a ?b] => destruct (Rlt_dec a b); try lra end. reflexivity. }
  now rewrite H.
Qed.

(** ** C04 *)
Theorem C04_systematic_unbiased : forall w k i, weights_ok w -> (i < length w)%nat ->
  law (systematic w k) (fun A => INR (count i A)) = INR (length w) * nth i w 0.
Proof. intros w k i. exact (unbiased_res_copies systematic w k i systematic_unbiased). Qed.
Theorem C04_stratified_unbiased : forall w k i, weights_ok w -> (i < length w)%nat ->
  law (stratified w k) (fun A => INR (count i A)) = INR (length w) * nth i w 0.
Proof. intros w k i. exact (unbiased_res_copies stratified w k i stratified_unbiased). Qed.
(** the additive form used by the particle filters *)
Theorem C04_systematic_additive : forall w k h, weights_ok w ->
  law (systematic w k) (fun A => Rsum (map h A)) = INR (length w) * Rsum (map (fun i => nth i w 0 * h i) (seq 0 (length w))).
Proof. intros w k h Hw. rewrite <- E_dcat. exact (systematic_unbiased w k h Hw). Qed.
Theorem C04_stratified_additive : forall w k h, weights_ok w ->
  law (stratified w k) (fun A => Rsum (map h A)) = INR (length w) * Rsum (map (fun i => nth i w 0 * h i) (seq 0 (length w))).
Proof. intros w k h Hw. rewrite <- E_dcat. exact (stratified_unbiased w k h Hw). Qed.
Print Assumptions C04_systematic_unbiased.
Print Assumptions C04_stratified_unbiased.
Print Assumptions C04_systematic_additive.
Print Assumptions C04_stratified_additive.

Example C04_example : law (systematic w3 []) (fun A => INR (count 0 A)) = 3/2.
Proof. rewrite C04_systematic_unbiased; [unfold w3; simpl; lra|apply w3_ok|unfold w3; simpl; lia]. Qed.

(** ** C05 *)
(** slot i independently: keep i with probability w_i / max w, else a fresh draw from w *)
Theorem C05_killing_law : forall w k f, weights_ok w ->
  law (killing w k) f =
  E (dseq (map (fun i => dbind [(nth i w 0 / Rmax_list w, true); (1 - nth i w 0 / Rmax_list w, false)]
                               (fun keep => if keep then dret i else dcat w)) (seq 0 (length w)))) f.
Proof. intros w k f Hw. exact (killing_denotes w k Hw f). Qed.
Theorem C05_killing_unbiased : forall w k i, weights_ok w -> (i < length w)%nat ->
  law (killing w k) (fun A => INR (count i A)) = INR (length w) * nth i w 0.
Proof. intros w k i. exact (unbiased_res_copies killing w k i killing_marginal_unbiased). Qed.
Theorem C05_killing_valid : forall w k keys A, weights_ok w -> runs (killing w k) keys A ->
  length A = length w /\ Forall (fun i => (i < length w)%nat) A.
Proof. intros w k keys A Hw H. exact (killing_safe w k Hw keys A H). Qed.
Theorem C05_killing_identity_on_equal_weights : forall n k keys A, (0 < n)%nat ->
  runs (killing (repeat (/ INR n) n) k) keys A -> A = seq 0 n.
Proof. intros n k keys A Hn H. exact (killing_equal_weights n k Hn keys A H). Qed.
Print Assumptions C05_killing_law.
Print Assumptions C05_killing_unbiased.
Print Assumptions C05_killing_valid.
Print Assumptions C05_killing_identity_on_equal_weights.

Example C05_example : law (killing w3 []) (fun A => INR (count 2 A)) = 3/5.
Proof. rewrite C05_killing_unbiased; [unfold w3; simpl; lra|apply w3_ok|unfold w3; simpl; lia]. Qed.

(** ** C06 *)
Theorem C06_multinomial_pins : forall k w i j keys A, weights_ok w -> (i < length w)%nat -> (j < length w)%nat ->
  runs (cmultinomial k w i j true) keys A ->
  (length A = length w /\ Forall (fun a => (a < length w)%nat) A) /\ nth j A 0%nat = i.
Proof. intros k w i j keys A Hw Hi Hj H. exact (cmultinomial_safe k w i j Hw Hi Hj keys A H). Qed.
Theorem C06_killing_pins : forall k w i j keys A, weights_ok w -> (i < length w)%nat -> (j < length w)%nat ->
  runs (ckilling k w i j true) keys A ->
  (length A = length w /\ Forall (fun a => (a < length w)%nat) A) /\ nth j A 0%nat = i.
Proof. intros k w i j keys A Hw Hi Hj H. exact (ckilling_safe k w i j Hw Hi Hj keys A H). Qed.
Theorem C06_systematic_conditional_raises : forall k w i j, csystematic k w i j true = None.
Proof. reflexivity. Qed.
(** the unconditional systematic scheme of resamplings.py has no clip: fine in exact arithmetic… *)
Theorem C06_systematic_uncond_matches : forall w u, weights_ok w -> in01 u -> csystematic_of w u = systematic_of w u.
Proof. exact csystematic_of_eq. Qed.
(** … but out of range as soon as the weights sum to less than one *)
Theorem C06_systematic_uncond_range_refuted :
  exists w u, Forall (fun x => 0 < x) w /\ Rsum w < 1 /\ in01 u /\
    ~ Forall (fun i => (i < length w)%nat) (csystematic_of w u).
Proof. exact csystematic_out_of_range. Qed.
Print Assumptions C06_multinomial_pins.
Print Assumptions C06_killing_pins.
Print Assumptions C06_systematic_conditional_raises.
Print Assumptions C06_systematic_uncond_matches.
Print Assumptions C06_systematic_uncond_range_refuted.

Example C06_example : exists keys, runs (cmultinomial [1%nat] w3 2 1 true) keys [0; 2; 0]%nat.
Proof.
  exists [[1%nat]]. unfold cmultinomial. apply runs_bind. exists [[1%nat]], [0; 1; 0]%nat, []. split; [reflexivity|]. split.
  - exists [9/10; 3/10; 9/10], []. split; [reflexivity|]. split; [reflexivity|]. split; [repeat constructor; lra|].
    split; [reflexivity|]. unfold choice_index, cumsum, w3. simpl.
    repeat match goal with |- context [Rlt_dec ?a ?b] => destruct (Rlt_dec a b); try lra end. reflexivity.
  - split; reflexivity.
Qed.

(** ** C07 *)
(** conditional multinomial: law of N independent draws from w given that the j-th equals i *)
Theorem C07_multinomial_conditional_law : forall k w i j f, weights_ok w -> (i < length w)%nat -> (j < length w)%nat ->
  nth i w 0 * law (cmultinomial k w i j true) f =
  E (dseq (repeat (dcat w) (length w))) (fun A => (if Nat.eqb (nth j A 0%nat) i then 1 else 0) * f A).
Proof.
  intros k w i j f Hw Hi Hj. exact (cond_exact_bayes _ _ w k i j f cmultinomial_exact Hw Hj Hi).
Qed.
(** conditional killing: law of a uniformly rotated killing vector given that entry j equals i *)
Theorem C07_killing_conditional_law : forall k w i j f, weights_ok w -> (i < length w)%nat -> (j < length w)%nat ->
  nth i w 0 * law (ckilling k w i j true) f =
  E (dbind (dunif (length w)) (fun s => dmap (roll 0%nat (Z.of_nat s)) (killing_dist w)))
    (fun A => (if Nat.eqb (nth j A 0%nat) i then 1 else 0) * f A).
Proof.
  intros k w i j f Hw Hi Hj. exact (cond_exact_bayes _ _ w k i j f ckilling_exact Hw Hj Hi).
Qed.
(** and those unconditional laws have the right marginals in every slot *)
Theorem C07_multinomial_slot_marginal : forall w j f, weights_ok w -> (j < length w)%nat ->
  E (dseq (repeat (dcat w) (length w))) (fun A => f (nth j A 0%nat)) = Rsum (map (fun i => nth i w 0 * f i) (seq 0 (length w))).
Proof. exact multinomial_slot_marginal. Qed.
Theorem C07_killing_slot_marginal : forall w j f, weights_ok w -> (j < length w)%nat ->
  E (dbind (dunif (length w)) (fun s => dmap (roll 0%nat (Z.of_nat s)) (killing_dist w))) (fun A => f (nth j A 0%nat))
  = Rsum (map (fun i => nth i w 0 * f i) (seq 0 (length w))).
Proof. exact killing_slot_marginal. Qed.
Print Assumptions C07_multinomial_conditional_law.
Print Assumptions C07_killing_conditional_law.
Print Assumptions C07_multinomial_slot_marginal.
Print Assumptions C07_killing_slot_marginal.

Example C07_example : law (ckilling [] w3 1 0 true) (fun A => if Nat.eqb (nth 0 A 0%nat) 1 then 1 else 0) = 1.
Proof.
  apply Rmult_eq_reg_l with (3/10); [|lra].
  change (3/10) with (nth 1 w3 0) at 1. rewrite C07_killing_conditional_law by (apply w3_ok || (unfold w3; simpl; lia)).
  rewrite (E_ext' _ _ (fun A => (if Nat.eqb (nth 0 A 0%nat) 1 then 1 else 0))) by (intros A; destruct (Nat.eqb (nth 0 A 0%nat) 1); ring).
  rewrite (C07_killing_slot_marginal w3 0 (fun a => if Nat.eqb a 1 then 1 else 0)) by (apply w3_ok || (unfold w3; simpl; lia)).
  unfold w3. simpl. lra.
Qed.

(** ** C08 *)
Theorem C08_choice_law : forall k p i, weights_ok p -> (i < length p)%nat ->
  law (choice k p) (fun a => if Nat.eqb a i then 1 else 0) = nth i p 0.
Proof. exact choice_law_index. Qed.
Theorem C08_choice_range : forall k p keys i, weights_ok p -> runs (choice k p) keys i -> (i < length p)%nat.
Proof. intros k p keys i Hp H. exact (choice_safe k p Hp keys i H). Qed.
Theorem C08_uniform_choice_law : forall k n i, (i < n)%nat ->
  law (choice_unif k n) (fun a => if Nat.eqb a i then 1 else 0) = / INR n.
Proof. exact choice_unif_law_index. Qed.
Print Assumptions C08_choice_law.
Print Assumptions C08_choice_range.
Print Assumptions C08_uniform_choice_law.

Example C08_example : law (choice [] w3) (fun a => if Nat.eqb a 1 then 1 else 0) = 3/10.
Proof. rewrite C08_choice_law; [reflexivity|apply w3_ok|unfold w3; simpl; lia]. Qed.

(** ** C63 *)
Theorem C63_avg_length : forall x, length (avg_n_nplusone x) = S (length x).
Proof. intros x. exact (proj1 (avg_n_nplusone_spec x 0 (Nat.le_0_l _))). Qed.
Theorem C63_avg_entries : forall x i, (i <= length x)%nat ->
  nth i (avg_n_nplusone x) 0 = / 2 * nth i x 0 + match i with O => 0 | S j => / 2 * nth j x 0 end.
Proof. intros x i Hi. exact (proj2 (avg_n_nplusone_spec x i Hi)). Qed.
Theorem C63_avg_mass : forall x, Rsum (avg_n_nplusone x) = Rsum x.
Proof. exact avg_n_nplusone_sum. Qed.
Theorem C63_avg_nonneg : forall x, Forall (fun a => 0 <= a) x -> Forall (fun a => 0 <= a) (avg_n_nplusone x).
Proof. exact avg_n_nplusone_nonneg. Qed.
Print Assumptions C63_avg_length.
Print Assumptions C63_avg_entries.
Print Assumptions C63_avg_mass.
Print Assumptions C63_avg_nonneg.

Example C63_example : avg_n_nplusone [2; 4] = [1; 3; 2].
Proof. unfold avg_n_nplusone; simpl. repeat f_equal; lra. Qed.

(** ** C101 *)
(** [dseq (repeat (dcat w) n)]: n independent draws from the weights; [nsort]: the draws put in increasing order. *)
Theorem C101_multinomial_law : forall w k f, weights_ok w ->
  law (multinomial w k) f = E (dseq (repeat (dcat w) (length w))) (fun A => f (nsort A)).
Proof. intros w k f Hw. exact (multinomial_law w Hw k f). Qed.
Theorem C101_sorting : forall A, Permutation.Permutation (nsort A) A /\ StronglySorted le (nsort A).
Proof. intros A. exact (conj (nsort_perm A) (nsort_sorted A)). Qed.
Theorem C101_expected_copies : forall w k i, weights_ok w -> (i < length w)%nat ->
  law (multinomial w k) (fun A => INR (count i A)) = INR (length w) * nth i w 0.
Proof. intros w k i. exact (unbiased_res_copies multinomial w k i multinomial_unbiased). Qed.
Theorem C101_first_index : forall w k i, weights_ok w -> (i <= length w)%nat ->
  law (multinomial w k) (fun A => if Nat.leb i (nth 0 A 0%nat) then 1 else 0) = (1 - Rsum (firstn i w)) ^ length w.
Proof. exact multinomial_first. Qed.
Print Assumptions C101_multinomial_law.
Print Assumptions C101_sorting.
Print Assumptions C101_expected_copies.
Print Assumptions C101_first_index.

Example C101_example :
  law (multinomial w3 [7%nat]) (fun A => if list_eq_dec Nat.eq_dec A [0; 1; 2]%nat then 1 else 0) = 9/50 /\
  law (multinomial w3 [7%nat]) (fun A => INR (count 1 A)) = 9/10 /\
  law (multinomial w3 [7%nat]) (fun A => if Nat.leb 1 (nth 0 A 0%nat) then 1 else 0) = 1/8.
Proof.
  split; [|split].
  - rewrite (C101_multinomial_law _ _ _ w3_ok). unfold w3, dcat. cbn [length seq combine repeat]. rewrite !E_dseq_cons. unfold E. cbn. lra.
  - rewrite C101_expected_copies by (try exact w3_ok; unfold w3; cbn; lia). unfold w3. cbn. lra.
  - rewrite C101_first_index by (try exact w3_ok; unfold w3; cbn; lia). unfold w3. cbn. lra.
Qed.
