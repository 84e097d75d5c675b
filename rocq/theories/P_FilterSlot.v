(** Property C109: the sample reported by the filter experiments follows the filtering law when there are many particles. *)
From Coquelicot Require Import Coquelicot.
From Verif Require Import FilterSlot Demo.
Open Scope R_scope.

(** False for stratified resampling (the scheme of toy/gp_filter.py, sb/filter.py and gibbs_init) and for systematic
    resampling: the filtering probability of [false] is 1/4, the reported sample has it with probability at least 1/3
    for every number of particles. *)
Theorem C109_reported_sample_refuted :
  forall res, res = stratified \/ res = systematic ->
  exists (trans : list bool -> unit -> R -> key -> prog (list bool)) meas M lg m0 (init : key -> unit -> nat -> prog (list bool)),
    filter_ok trans meas res M lg /\ is_prob m0 /\ (forall k v n, denotes (init k v n) (dseq (repeat m0 n))) /\
    exists path ts phi, let T := filter_target tt M lg (fun _ => m0) (rev path) ts in
    E T (fun p => phi (last p false)) / E T (fun _ => 1) = 1/4 /\
    forall n k, (2 <= n)%nat -> 1/3 <= law (conditional_sampler false tt trans meas res (fun _ => Ret path) ts init n k) phi.
Proof.
  intros res Hres.
  exists id_trans, b_lik, (fun _ _ u => dret u), b_lg, half, b_init. split; [|split; [exact half_prob|split; [intros; apply b_draws_denotes|]]].
  - apply bias_filter_ok. constructor; [intros w k Hw tr A Hr|]; pose proof weights_ok_nonempty as Hne; destruct Hres as [ ->| ->].
    + exact (proj1 (stratified_safe w k (Hne w Hw) tr A Hr)).
    + exact (proj1 (systematic_safe w k (Hne w Hw) tr A Hr)).
    + exact stratified_unbiased.
    + exact systematic_unbiased.
  - exists [tt; tt], [0; 1], is_false. split; [exact biased_mean|]. intros n k Hn. now apply reported_biased.
Qed.

(** True, with the Monte Carlo rate, for killing resampling: any particle of the last cloud has asymptotically the filtering law. *)
Theorem C109_any_slot_killing_partial :
  forall (U V : Type) (udef : U) (vdef : V) trans meas M lg, filter_ok trans meas killing M lg ->
  forall (m0 : V -> dist U) (init : key -> V -> nat -> prog (list U)), (forall v, is_prob (m0 v)) -> (forall k v n, denotes (init k v n) (dseq (repeat (m0 v) n))) ->
  forall vs ts k n log_flag return_last which phi G B, (which < n)%nat ->
  (forall v vp t, In (v, vp, t) (step_data vs ts) -> forall u, exp (lg v vp t u) <= G) -> (forall u, Rabs (phi u) <= B) ->
  let T := filter_target vdef M lg m0 vs ts in
  (law (bootstrap_filter udef vdef trans meas killing vs ts init k n log_flag return_last) (fun r => phi (nth which (last (fst r) []) udef)) -
   E T (fun p => phi (last p udef)) / E T (fun _ => 1)) ^ 2
  <= / INR n * ((2 * INR (length (step_data vs ts)) + 1) * G ^ (2 * length (step_data vs ts)) * B ^ 2 / E T (fun _ => 1) ^ 2).
Proof.
  intros U V udef vdef trans meas M lg Hfo m0 init Hm0 Hinit vs ts k n lf rl which phi G B Hw HG HB T.
  apply (slot_consistent udef vdef trans meas killing M lg Hfo killing_consistent killing_dist); try assumption.
  - intros. now apply killing_denotes.
  - intros w A. apply killing_dist_valid.
  - exact killing_equivariant.
  - lia.
  - apply Forall_forall. intros [[v vp] t] Hin u. now apply HG.
Qed.
(** the whole experiment, the noised observation path being drawn first *)
Theorem C109_reported_sample_killing_partial :
  forall (U V : Type) (udef : U) (vdef : V) trans meas M lg, filter_ok trans meas killing M lg ->
  forall (m0 : V -> dist U) (init : key -> V -> nat -> prog (list U)), (forall v, is_prob (m0 v)) -> (forall k v n, denotes (init k v n) (dseq (repeat (m0 v) n))) ->
  forall (fwd : key -> prog (list V)) (P : dist (list V)) ts k n phi G B z, (0 < n)%nat -> is_prob P -> (forall k, denotes (fwd k) P) -> 0 < z -> 0 <= G ->
  (forall ys, In ys (map snd P) -> length ys = length ts /\ z <= E (filter_target vdef M lg m0 (rev ys) ts) (fun _ => 1) /\
     forall v vp t, In (v, vp, t) (step_data (rev ys) ts) -> forall u, exp (lg v vp t u) <= G) -> (forall u, Rabs (phi u) <= B) ->
  (law (conditional_sampler udef vdef trans meas killing fwd ts init n k) phi -
   E P (fun ys => E (filter_target vdef M lg m0 (rev ys) ts) (fun p => phi (last p udef)) / E (filter_target vdef M lg m0 (rev ys) ts) (fun _ => 1))) ^ 2
  <= / INR n * ((2 * INR (length ts - 1) + 1) * G ^ (2 * (length ts - 1)) * B ^ 2 / z ^ 2).
Proof.
  intros U V udef vdef trans meas M lg Hfo m0 init Hm0 Hinit fwd P ts k n phi G B z Hn HP Hfwd Hz HG Hys HB.
  apply (reported_consistent udef vdef trans meas killing M lg Hfo killing_consistent killing_dist); try assumption.
  - intros. now apply killing_denotes.
  - intros w A. apply killing_dist_valid.
  - exact killing_equivariant.
  - intros ys Hin. destruct (Hys ys Hin) as (H1 & H2 & H3). split; [|split; assumption].
    apply Forall_forall. intros [[v vp] t] Hin' u. now apply (H3 v vp t).
Qed.
Print Assumptions C109_reported_sample_refuted.
Print Assumptions C109_any_slot_killing_partial.
Print Assumptions C109_reported_sample_killing_partial.

Lemma demo_mass : E (filter_target true demo_M demo_lg (fun _ => coin) [true; true; false] [0; 1; 2]) (fun _ => 1) = 7/2.
Proof.
  change (fun _ : list bool => 1) with (fun p : list bool => (fun _ : bool => 1) (last p false)).
  rewrite (filter_target_final false). cbn [step_data nth]. unfold coin. rewrite !E_cons. cbn [E map Rsum].
  rewrite !fk_final_cons. unfold demo_M, sticky. rewrite !E_cons. cbn [E map Rsum]. rewrite !fk_final_cons.
  unfold demo_lg. cbn [eqb negb]. rewrite exp_0, !exp_ln by lra. unfold fk_final, demo_M, sticky. cbn [fk_of map fk_path].
  unfold E, dret. cbn [map fst snd Rsum]. unfold fk_of. cbn [map fk_path]. unfold dret. cbn [map fst snd Rsum]. lra.
Qed.
(** the two-step demo model with killing and 10^6 particles: the probability that particle 7 is [true] is off by less than 1/100 *)
Example C109_example : forall k,
  (law (bootstrap_filter false true demo_trans demo_lik killing [true; true; false] [0; 1; 2] (fun k _ n => demo_init k n) k (Z.to_nat 1000000) true true)
      (fun r => b2r (nth 7 (last (fst r) []) false)) -
   E (filter_target true demo_M demo_lg (fun _ => coin) [true; true; false] [0; 1; 2]) (fun p => b2r (last p false)) /
   E (filter_target true demo_M demo_lg (fun _ => coin) [true; true; false] [0; 1; 2]) (fun _ => 1)) ^ 2 <= / 10 ^ 4.
Proof.
  intros k. assert (Hn : INR (Z.to_nat 1000000) = 1000000) by (rewrite INR_IZR_INZ, Z2Nat.id by lia; reflexivity).
  assert (Hfo : filter_ok demo_trans demo_lik killing demo_M demo_lg).
  { constructor; [intros; apply sticky_prob|intros; apply fin_draws_denotes|reflexivity|exact (cr_good _ killing_consistent)]. }
  eapply Rle_trans.
  - apply (C109_any_slot_killing_partial bool bool false true demo_trans demo_lik demo_M demo_lg Hfo (fun _ => coin) _ (fun _ => coin_prob)
      (fun k _ n => fin_draws_denotes false k (repeat coin n) 0) [true; true; false] [0; 1; 2] k (Z.to_nat 1000000) true true 7 b2r 3 1).
    + lia.
    + intros v vp t _ u. unfold demo_lg. destruct (eqb v u); [rewrite exp_ln by lra|rewrite exp_0]; lra.
    + intros u. destruct u; cbn [b2r]; [rewrite Rabs_R1|rewrite Rabs_R0]; lra.
  - rewrite Hn. change (length (step_data [true; true; false] [0; 1; 2])) with 2%nat.
    rewrite demo_mass. cbn [INR pow Nat.mul Nat.add]. lra.
Qed.
