(** Properties C102 and C103: the error of resampling and of the particle filters vanishes with the number of particles. *)
From Coquelicot Require Import Coquelicot.
From Verif Require Import FilterLimit Demo.
Open Scope R_scope.

(** ** C102 *)
(** [mean_error res w k h]: mean square error of the average of h over the resampled indices. *)
Definition mean_error (res : list R -> key -> prog (list nat)) (w : list R) (k : key) (h : nat -> R) : R :=
  law (res w k) (fun A => (/ INR (length w) * Rsum (map h A) - Rsum (map (fun i => nth i w 0 * h i) (seq 0 (length w)))) ^ 2).

Lemma mean_error_bound res w k h b : consistent_res res -> weights_ok w -> (forall i, (i < length w)%nat -> Rabs (h i) <= b) ->
  mean_error res w k h <= b ^ 2 / INR (length w).
Proof.
  intros Hc Hw Hb. assert (HI : 0 < INR (length w)) by (apply lt_0_INR; now apply weights_ok_length_pos).
  pose proof (resample_sq res w k h b (/ INR (length w)) (E (dcat w) h) Hc Hw Hb) as H. unfold mean_error. rewrite <- E_dcat.
  replace ((/ INR (length w) * (INR (length w) * E (dcat w) h) - E (dcat w) h) ^ 2 + (/ INR (length w)) ^ 2 * (INR (length w) * b ^ 2))
    with (b ^ 2 / INR (length w)) in H by (field; lra). exact H.
Qed.

Theorem C102_multinomial_error : forall w k h b, weights_ok w -> (forall i, (i < length w)%nat -> Rabs (h i) <= b) ->
  mean_error multinomial w k h <= b ^ 2 / INR (length w).
Proof. intros w k h b. exact (mean_error_bound multinomial w k h b multinomial_consistent). Qed.
Theorem C102_stratified_error : forall w k h b, weights_ok w -> (forall i, (i < length w)%nat -> Rabs (h i) <= b) ->
  mean_error stratified w k h <= b ^ 2 / INR (length w).
Proof. intros w k h b. exact (mean_error_bound stratified w k h b stratified_consistent). Qed.
Theorem C102_killing_error : forall w k h b, weights_ok w -> (forall i, (i < length w)%nat -> Rabs (h i) <= b) ->
  mean_error killing w k h <= b ^ 2 / INR (length w).
Proof. intros w k h b. exact (mean_error_bound killing w k h b killing_consistent). Qed.

(** no constant works for systematic resampling; the error stays 1/16 for all even numbers of particles *)
Theorem C102_systematic_error_refuted : forall m k, (0 < m)%nat -> exists w h,
  weights_ok w /\ length w = (2 * m)%nat /\ (forall i, Rabs (h i) <= 1) /\ mean_error systematic w k h = / 16.
Proof.
  intros m k Hm. exists (bad_weights m), even_ind. split; [now apply bad_weights_ok|]. split; [apply alt_length|]. split.
  - intros i. unfold even_ind. destruct (Nat.even i); [rewrite Rabs_R1|rewrite Rabs_R0]; lra.
  - unfold mean_error. rewrite <- E_dcat. rewrite <- (systematic_error m k Hm). apply law_ext. intros A. unfold bad_weights at 1. now rewrite alt_length.
Qed.
Theorem C102_systematic_rate_refuted :
  ~ exists C, forall w k h b, weights_ok w -> (forall i, (i < length w)%nat -> Rabs (h i) <= b) -> mean_error systematic w k h <= C * (b ^ 2 / INR (length w)).
Proof.
  intros [C HC]. destruct (Rle_or_lt C 0) as [H0|H0].
  - destruct (C102_systematic_error_refuted 1 [] ltac:(lia)) as (w & h & Hw & Hl & Hh & He).
    specialize (HC w [] h 1 Hw ltac:(auto)). rewrite He, Hl in HC. cbn in HC. lra.
  - destruct (archimed_cor1 (/ (8 * C))) as (m & Hm1 & Hm2); [apply Rinv_0_lt_compat; lra|].
    destruct (C102_systematic_error_refuted m [] Hm2) as (w & h & Hw & Hl & Hh & He).
    specialize (HC w [] h 1 Hw ltac:(auto)). rewrite He, Hl, mult_INR in HC. change (INR 2) with 2 in HC.
    assert (HI : 0 < INR m) by (apply lt_0_INR; lia).
    apply (Rmult_lt_compat_l (8 * C)) in Hm1; [|lra]. rewrite Rinv_r in Hm1 by lra.
    replace (C * (1 ^ 2 / (2 * INR m))) with (/ 16 * (8 * C * / INR m)) in HC by (field; lra). lra.
Qed.
Print Assumptions C102_multinomial_error.
Print Assumptions C102_stratified_error.
Print Assumptions C102_killing_error.
Print Assumptions C102_systematic_error_refuted.
Print Assumptions C102_systematic_rate_refuted.

Definition w3 : list R := [1/2; 3/10; 1/5].
Example C102_example : mean_error stratified w3 [] (fun i => INR i) <= 4/3.
Proof.
  replace (4/3) with (2 ^ 2 / INR (length w3)) by (unfold w3; cbn; lra). apply C102_stratified_error.
  - split; [repeat constructor; lra|unfold w3; simpl; lra].
  - unfold w3. cbn [length]. intros i Hi. rewrite Rabs_pos_eq by apply pos_INR. change 2 with (INR 2). apply le_INR. lia.
Qed.

(** ** C103 *)
(** the unnormalised estimates ([phi := 1] gives the likelihood) *)
Theorem C103_bootstrap_filter_error :
  forall (U V : Type) (udef : U) (vdef : V) trans meas res M lg, filter_ok trans meas res M lg -> consistent_res res ->
  forall (m0 : V -> dist U) (init : key -> V -> nat -> prog (list U)), (forall v, is_prob (m0 v)) -> (forall k v n, denotes (init k v n) (dseq (repeat (m0 v) n))) ->
  forall vs ts k n log_flag return_last phi G B, (0 < n)%nat ->
  (forall v vp t, In (v, vp, t) (step_data vs ts) -> forall u, exp (lg v vp t u) <= G) -> (forall u, Rabs (phi u) <= B) ->
  law (bootstrap_filter udef vdef trans meas res vs ts init k n log_flag return_last)
      (fun r => (exp (- snd r) * (/ INR n * Rsum (map phi (last (fst r) []))) - E (filter_target vdef M lg m0 vs ts) (fun p => phi (last p udef))) ^ 2)
  <= / INR n * ((2 * INR (length (step_data vs ts)) + 1) * G ^ (2 * length (step_data vs ts)) * B ^ 2).
Proof.
  intros U V udef vdef trans meas res M lg Hfo Hcr m0 init Hm0 Hinit vs ts k n lf rl phi G B Hn HG HB.
  apply (bootstrap_filter_mse udef vdef trans meas res M lg Hfo Hcr n Hn G B phi HB m0 Hm0 init Hinit).
  apply Forall_forall. intros [[v vp] t] Hin u. now apply HG.
Qed.
(** the filtering expectations *)
Theorem C103_bootstrap_filter_consistent :
  forall (U V : Type) (udef : U) (vdef : V) trans meas res M lg, filter_ok trans meas res M lg -> consistent_res res ->
  forall (m0 : V -> dist U) (init : key -> V -> nat -> prog (list U)), (forall v, is_prob (m0 v)) -> (forall k v n, denotes (init k v n) (dseq (repeat (m0 v) n))) ->
  forall vs ts k n log_flag return_last phi G B, (0 < n)%nat ->
  (forall v vp t, In (v, vp, t) (step_data vs ts) -> forall u, exp (lg v vp t u) <= G) -> (forall u, Rabs (phi u) <= B) ->
  let T := filter_target vdef M lg m0 vs ts in
  law (bootstrap_filter udef vdef trans meas res vs ts init k n log_flag return_last)
      (fun r => (/ INR n * Rsum (map phi (last (fst r) [])) - E T (fun p => phi (last p udef)) / E T (fun _ => 1)) ^ 2)
  <= / INR n * (4 * (2 * INR (length (step_data vs ts)) + 1) * G ^ (2 * length (step_data vs ts)) * B ^ 2 / E T (fun _ => 1) ^ 2).
Proof.
  intros U V udef vdef trans meas res M lg Hfo Hcr m0 init Hm0 Hinit vs ts k n lf rl phi G B Hn HG HB T.
  apply (bootstrap_filter_consistent udef vdef trans meas res M lg Hfo Hcr m0 Hm0 init Hinit n Hn G B phi vs ts k lf rl); [|exact HB].
  apply Forall_forall. intros [[v vp] t] Hin u. now apply HG.
Qed.
Theorem C103_bootstrap_filter_probability :
  forall (U V : Type) (udef : U) (vdef : V) trans meas res M lg, filter_ok trans meas res M lg -> consistent_res res ->
  forall (m0 : V -> dist U) (init : key -> V -> nat -> prog (list U)), (forall v, is_prob (m0 v)) -> (forall k v n, denotes (init k v n) (dseq (repeat (m0 v) n))) ->
  forall vs ts k log_flag return_last phi G B eps,
  (forall v vp t, In (v, vp, t) (step_data vs ts) -> forall u, exp (lg v vp t u) <= G) -> (forall u, Rabs (phi u) <= B) -> 0 < eps ->
  let T := filter_target vdef M lg m0 vs ts in
  exists C, forall n, (0 < n)%nat ->
  law (bootstrap_filter udef vdef trans meas res vs ts init k n log_flag return_last)
      (fun r => if Rlt_dec eps (Rabs (/ INR n * Rsum (map phi (last (fst r) [])) - E T (fun p => phi (last p udef)) / E T (fun _ => 1))) then 1 else 0)
  <= C / INR n.
Proof.
  intros U V udef vdef trans meas res M lg Hfo Hcr m0 init Hm0 Hinit vs ts k lf rl phi G B eps HG HB He T.
  eexists. intros n Hn. eapply Rle_trans.
  - apply (bootstrap_filter_chebyshev udef vdef trans meas res M lg Hfo Hcr m0 Hm0 init Hinit n Hn G B phi vs ts k lf rl eps); [|exact HB|exact He].
    apply Forall_forall. intros [[v vp] t] Hin u. now apply HG.
  - right. rewrite (Rmult_comm (/ INR n)), <- Rmult_assoc. reflexivity.
Qed.
Theorem C103_pmcmc_filter_error :
  forall (U V : Type) (udef : U) (vdef : V) trans meas res M lg, filter_ok trans meas res M lg -> consistent_res res ->
  forall (m0 : V -> dist U) (init : key -> V -> nat -> prog (list U)), (forall v, is_prob (m0 v)) -> (forall k v n, denotes (init k v n) (dseq (repeat (m0 v) n))) ->
  forall vs ts k1 k2 n phi G B, (0 < n)%nat ->
  (forall v vp t, In (v, vp, t) (step_data vs ts) -> forall u, exp (lg v vp t u) <= G) -> (forall u, Rabs (phi u) <= B) ->
  law (u0s <- init k1 (nth 0 vs vdef) n ;; pmcmc_filter_step udef trans meas res k2 vs u0s ts n)
      (fun r => (exp (snd r) * (/ INR n * Rsum (map phi (fst r))) - E (filter_target vdef M lg m0 vs ts) (fun p => phi (last p udef))) ^ 2)
  <= / INR n * ((2 * INR (length (step_data vs ts)) + 1) * G ^ (2 * length (step_data vs ts)) * B ^ 2).
Proof.
  intros U V udef vdef trans meas res M lg Hfo Hcr m0 init Hm0 Hinit vs ts k1 k2 n phi G B Hn HG HB.
  apply (pmcmc_filter_mse udef vdef trans meas res M lg Hfo Hcr n Hn G B phi HB m0 Hm0 init Hinit).
  apply Forall_forall. intros [[v vp] t] Hin u. now apply HG.
Qed.
Theorem C103_library_schemes : consistent_res multinomial /\ consistent_res stratified /\ consistent_res killing.
Proof. exact (conj multinomial_consistent (conj stratified_consistent killing_consistent)). Qed.
Print Assumptions C103_bootstrap_filter_error.
Print Assumptions C103_bootstrap_filter_consistent.
Print Assumptions C103_bootstrap_filter_probability.
Print Assumptions C103_pmcmc_filter_error.
Print Assumptions C103_library_schemes.

Lemma demo_filter_ok res : consistent_res res -> filter_ok demo_trans demo_lik res demo_M demo_lg.
Proof. intros H. constructor; [intros; apply sticky_prob|intros; apply fin_draws_denotes|reflexivity|exact (cr_good _ H)]. Qed.
(** two steps, likelihoods 1 or 3: the squared error is below 1/1000 with 405000 particles *)
Example C103_example : forall k,
  law (bootstrap_filter false true demo_trans demo_lik stratified [true; true; false] [0; 1; 2] (fun k _ n => demo_init k n) k (Z.to_nat 405000) false false)
      (fun r => (exp (- snd r) * (/ INR (Z.to_nat 405000) * Rsum (map (fun u : bool => if u then 1 else 0) (last (fst r) []))) -
                 E (filter_target true demo_M demo_lg (fun _ => coin) [true; true; false] [0; 1; 2]) (fun p => if last p false then 1 else 0)) ^ 2) <= 1/1000.
Proof.
  intros k.
  assert (Hn : INR (Z.to_nat 405000) = 405000) by (rewrite INR_IZR_INZ, Z2Nat.id by lia; reflexivity).
  eapply Rle_trans.
  - apply (C103_bootstrap_filter_error bool bool false true demo_trans demo_lik stratified demo_M demo_lg (demo_filter_ok _ stratified_consistent) stratified_consistent
      (fun _ => coin) _ (fun _ => coin_prob) (fun k _ n => fin_draws_denotes false k (repeat coin n) 0) [true; true; false] [0; 1; 2] k (Z.to_nat 405000) false false
      (fun u : bool => if u then 1 else 0) 3 1).
    + lia.
    + intros v vp t _ u. unfold demo_lg. destruct (eqb v u); [rewrite exp_ln by lra|rewrite exp_0]; lra.
    + intros u. destruct u; [rewrite Rabs_R1|rewrite Rabs_R0]; lra.
  - rewrite Hn. cbn. lra.
Qed.
