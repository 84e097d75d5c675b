(** Properties C19-C26: particle filters, particle MCMC, pCN, twisted SMC, backward smoother (fbs/samplers/smc.py). *)
From Coquelicot Require Import Coquelicot.
From Verif Require Import PmcmcBias Twisted Demo MultinomialUse.
Open Scope R_scope.

(** ** Resampling schemes meeting the hypotheses below: indices in range, unbiased, finite-support law *)
Theorem C19_library_schemes : good_res systematic /\ good_res stratified /\ good_res killing /\ good_res multinomial.
Proof.
  assert (Hne : forall w, weights_ok w -> w <> []) by exact weights_ok_nonempty.
  split; [|split; [|split; [|exact multinomial_good_res]]]; (constructor; [intros w k Hw|]).
  - intros tr A Hr. exact (proj1 (systematic_safe w k (Hne w Hw) tr A Hr)).
  - exact systematic_unbiased.
  - intros tr A Hr. exact (proj1 (stratified_safe w k (Hne w Hw) tr A Hr)).
  - exact stratified_unbiased.
  - exact (killing_safe w k Hw).
  - exact killing_marginal_unbiased.
Qed.
Print Assumptions C19_library_schemes.

(** ** C19 *)
(** [filter_target m0 M lg vs ts] is the unnormalised smoothing measure: initial law, then for each step the factor
    exp (lg v_k v_{k-1} t_{k-1} u_{k-1}) and the transition.  [phi := 1] gives the marginal likelihood. *)
Theorem C19_bootstrap_filter_unbiased :
  forall (U V : Type) (udef : U) (vdef : V) trans meas res M lg, filter_ok trans meas res M lg ->
  forall (m0 : V -> dist U) (init : key -> V -> nat -> prog (list U)), (forall v, is_prob (m0 v)) -> (forall k v n, denotes (init k v n) (dseq (repeat (m0 v) n))) ->
  forall vs ts k n log_flag return_last phi, (0 < n)%nat ->
  law (bootstrap_filter udef vdef trans meas res vs ts init k n log_flag return_last)
      (fun r => exp (- snd r) * (/ INR n * Rsum (map phi (last (fst r) [])))) =
  E (filter_target vdef M lg m0 vs ts) (fun p => phi (last p udef)).
Proof. intros. eapply bootstrap_filter_unbiased; eassumption. Qed.
Print Assumptions C19_bootstrap_filter_unbiased.

Definition demo_init' (k : key) (v : bool) (n : nat) : prog (list bool) := demo_init k n.
Lemma demo_filter res : good_res res -> filter_ok demo_trans demo_lik res demo_M demo_lg.
Proof. intros H. constructor; [intros; apply sticky_prob|intros; apply fin_draws_denotes|reflexivity|exact H]. Qed.
Lemma demo_init'_denotes k v n : denotes (demo_init' k v n) (dseq (repeat coin n)).
Proof. apply fin_draws_denotes. Qed.

(** the likelihood of the observations of the demo model, by hand: 7/2 *)
Lemma demo_likelihood : E (filter_target true demo_M demo_lg (fun _ => coin) [true; true; false] [0; 1; 2]) (fun _ => 1) = 7/2.
Proof.
  change (fun _ : list bool => 1) with (fun p : list bool => (fun _ : bool => 1) (last p false)).
  rewrite (filter_target_final false). cbn [step_data nth]. unfold coin. rewrite !E_cons. cbn [E map Rsum].
  rewrite !fk_final_cons. unfold demo_M, sticky. rewrite !E_cons. cbn [E map Rsum]. rewrite !fk_final_cons.
  unfold demo_lg. cbn [eqb negb]. rewrite exp_0, !exp_ln by lra. unfold fk_final, demo_M, sticky. cbn [fk_of map fk_path].
  unfold E, dret. cbn [map fst snd Rsum]. unfold fk_of. cbn [map fk_path]. unfold dret. cbn [map fst snd Rsum]. lra.
Qed.

Example C19_example : forall k n, (0 < n)%nat ->
  law (bootstrap_filter false true demo_trans demo_lik stratified [true; true; false] [0; 1; 2] demo_init' k n true true)
      (fun r => exp (- snd r) * (/ INR n * Rsum (map (fun _ => 1) (last (fst r) [])))) = 7/2.
Proof.
  intros k n Hn. refine (eq_trans (C19_bootstrap_filter_unbiased _ _ _ _ _ _ _ _ _ (demo_filter _ (proj1 (proj2 C19_library_schemes))) (fun _ => coin) _
    (fun _ => coin_prob) demo_init'_denotes _ _ k n true true (fun _ => 1) Hn) _).
  exact demo_likelihood.
Qed.

(** ** C20 *)
Theorem C20_pmcmc_filter_unbiased :
  forall (U V : Type) (udef : U) (vdef : V) trans meas res M lg, filter_ok trans meas res M lg ->
  forall (m0 : V -> dist U) (init : key -> V -> nat -> prog (list U)), (forall v, is_prob (m0 v)) -> (forall k v n, denotes (init k v n) (dseq (repeat (m0 v) n))) ->
  forall vs ts k1 k2 n phi, (0 < n)%nat ->
  law (u0s <- init k1 (nth 0 vs vdef) n ;; pmcmc_filter_step udef trans meas res k2 vs u0s ts n)
      (fun c => exp (snd c) * (/ INR n * Rsum (map phi (fst c)))) =
  E (filter_target vdef M lg m0 vs ts) (fun p => phi (last p udef)).
Proof. intros. eapply pmcmc_filter_unbiased; eassumption. Qed.
Print Assumptions C20_pmcmc_filter_unbiased.

Example C20_example : forall k n, (0 < n)%nat ->
  law (u0s <- demo_init' k true n ;; pmcmc_filter_step false demo_trans demo_lik systematic k [true; true; false] u0s [0; 1; 2] n)
      (fun c => exp (snd c) * (/ INR n * Rsum (map (fun _ => 1) (fst c)))) = 7/2.
Proof.
  intros k n Hn. refine (eq_trans (C20_pmcmc_filter_unbiased _ _ _ true _ _ _ _ _ (demo_filter _ (proj1 C19_library_schemes)) (fun _ => coin) _
    (fun _ => coin_prob) demo_init'_denotes [true; true; false] _ k k n (fun _ => 1) Hn) _).
  exact demo_likelihood.
Qed.

(** ** C21 *)
(** [pm_target ... k0 f]: expectation of f (uT, log_ell, ys) when ys ~ P, (uTs, log_ell) is a filter run on ys, weighted by exp log_ell. *)
Theorem C21_pseudo_marginal_invariant :
  forall (U V : Type) (udef : U) (vdef : V) trans meas res M lg, filter_ok trans meas res M lg ->
  forall m0, (forall v, is_prob (m0 v)) -> forall init : key -> V -> nat -> prog (list U), (forall k v n, denotes (init k v n) (dseq (repeat (m0 v) n))) ->
  (forall w, weights_ok w -> has_laws (valid_indices (length w)) (res w)) ->
  forall (P : dist (list V)) q propose,
  (forall k ys, denotes (propose k ys) (q ys)) ->
  (forall ys, is_prob (q ys)) ->
  (forall G, E P (fun ys => E (q ys) (fun ys' => G ys ys')) = E P (fun ys => E (q ys) (fun ys' => G ys' ys))) ->
  forall n which ts, (0 < n)%nat -> forall k0 k f,
  let target := pm_target udef vdef trans meas res init P n which ts k0 in
  target (fun u e ys => law (pmcmc_kernel udef vdef trans meas res k u e ys ts propose init n which)
                            (fun r => let '(u', e', ys', _) := r in f u' e' ys')) = target f.
Proof. intros. eapply pmcmc_invariant; eassumption. Qed.
Print Assumptions C21_pseudo_marginal_invariant.

(** independent proposals (delta = None) satisfy the hypothesis on the proposal *)
Theorem C21_independent_proposals : forall (V : Type) (P : dist (list V)),
  forall G, E P (fun ys => E P (fun ys' => G ys ys')) = E P (fun ys => E P (fun ys' => G ys' ys)).
Proof. intros V P G. apply E_exchange. Qed.
Print Assumptions C21_independent_proposals.

(** the library schemes (other than the sorted-uniform multinomial) have finite-support laws *)
Theorem C21_library_schemes : forall w, weights_ok w ->
  has_laws (valid_indices (length w)) (systematic w) /\ has_laws (valid_indices (length w)) (stratified w) /\
  has_laws (valid_indices (length w)) (killing w).
Proof. intros w Hw. split; [|split]; [now apply systematic_has_laws|now apply stratified_has_laws|now apply killing_has_laws]. Qed.
Print Assumptions C21_library_schemes.

(** the paths have the exact posterior law: prior times exact likelihood *)
Theorem C21_paths_exact :
  forall (U V : Type) (udef : U) (vdef : V) trans meas res M lg, filter_ok trans meas res M lg ->
  forall m0, (forall v, is_prob (m0 v)) -> forall init : key -> V -> nat -> prog (list U), (forall k v n, denotes (init k v n) (dseq (repeat (m0 v) n))) ->
  (forall w, weights_ok w -> has_laws (valid_indices (length w)) (res w)) ->
  forall (P : dist (list V)) n which ts, (0 < n)%nat -> forall k0 g,
  pm_target udef vdef trans meas res init P n which ts k0 (fun _ _ ys => g ys) =
  E P (fun ys => E (filter_target vdef M lg m0 (rev ys) ts) (fun _ => 1) * g ys).
Proof. intros. eapply pm_target_paths; eassumption. Qed.
Print Assumptions C21_paths_exact.

Definition demo_paths : dist (list bool) := [(1/3, [true; false]); (2/3, [true; true])].
Example C21_example : forall k k0 n which (f : bool -> R -> list bool -> R), (0 < n)%nat ->
  let target := pm_target false true demo_trans demo_lik stratified demo_init' demo_paths n which [0; 1] k0 in
  target (fun u e ys => law (pmcmc_kernel false true demo_trans demo_lik stratified k u e ys [0; 1]
                               (fun k _ => fin_draw [] k demo_paths) demo_init' n which)
                            (fun r => let '(u', e', ys', _) := r in f u' e' ys')) = target f /\
  target (fun _ _ ys => b2r (nth 1 ys false)) = 4/3.
Proof.
  intros k k0 n which f Hn target. split.
  - apply (C21_pseudo_marginal_invariant _ _ _ _ _ _ _ _ _ (demo_filter _ (proj1 (proj2 C19_library_schemes))) (fun _ => coin)
      (fun _ => coin_prob) _ demo_init'_denotes (fun w Hw => proj1 (proj2 (C21_library_schemes w Hw))) demo_paths (fun _ => demo_paths)).
    + intros k' ys. apply fin_draw_denotes.
    + intros ys. split; [repeat constructor; simpl; lra|unfold demo_paths, E; simpl; lra].
    + exact (C21_independent_proposals bool demo_paths).
    + exact Hn.
  - unfold target. rewrite (C21_paths_exact _ _ _ _ _ _ _ _ _ (demo_filter _ (proj1 (proj2 C19_library_schemes))) (fun _ => coin)
      (fun _ => coin_prob) _ demo_init'_denotes (fun w Hw => proj1 (proj2 (C21_library_schemes w Hw))) _ n which [0; 1] Hn).
    unfold demo_paths. rewrite !E_cons. cbn [E map Rsum rev app nth b2r].
    change (fun _ : list bool => 1) with (fun p : list bool => (fun _ : bool => 1) (last p false)).
    rewrite !(filter_target_final false). cbn [step_data nth]. unfold coin. rewrite !E_cons. cbn [E map Rsum].
    rewrite !fk_final_cons. unfold demo_M, sticky, demo_lg. cbn [eqb negb]. rewrite exp_0, !exp_ln by lra.
    rewrite !E_cons. unfold fk_final. cbn [fk_of map fk_path]. rewrite !E_dret. unfold E; simpl. rewrite ?exp_0, ?exp_ln by lra. lra.
Qed.

(** ** C22: true for killing, false for stratified and systematic resampling *)
Theorem C22_kept_particle_fair_killing_partial :
  forall (U V : Type) (udef : U) (vdef : V) trans meas M lg, filter_ok trans meas killing M lg ->
  forall m0, (forall v, is_prob (m0 v)) -> forall init : key -> V -> nat -> prog (list U), (forall k v n, denotes (init k v n) (dseq (repeat (m0 v) n))) ->
  forall n, (0 < n)%nat -> forall vs ts k1 k2 which phi, (which < n)%nat ->
  law (u0s <- init k1 (nth 0 vs vdef) n ;; pmcmc_filter_step udef trans meas killing k2 vs u0s ts n)
      (fun c => exp (snd c) * phi (nth which (fst c) udef)) =
  E (filter_target vdef M lg m0 vs ts) (fun p => phi (last p udef)).
Proof.
  intros U V udef vdef trans meas M lg Hfo m0 Hm0 init Hinit n Hn vs ts k1 k2 which phi Hw.
  apply (kept_particle_fair udef vdef trans meas killing M lg Hfo killing_dist); try assumption.
  - intros. now apply killing_denotes.
  - intros w A. apply killing_dist_valid.
  - intros w H. now apply is_prob_killing_dist.
  - exact killing_equivariant.
Qed.
Print Assumptions C22_kept_particle_fair_killing_partial.

Theorem C22_kept_particle_fair_refuted :
  forall res, res = stratified \/ res = systematic \/ res = multinomial ->
  exists (trans : list bool -> unit -> R -> key -> prog (list bool)) meas M lg m0 (init : key -> unit -> nat -> prog (list bool)),
    filter_ok trans meas res M lg /\ is_prob m0 /\ (forall k v n, denotes (init k v n) (dseq (repeat m0 n))) /\
    exists n vs ts which phi, (which < n)%nat /\ forall k1 k2,
    law (u0s <- init k1 (nth 0 vs tt) n ;; pmcmc_filter_step false trans meas res k2 vs u0s ts n)
        (fun c => exp (snd c) * phi (nth which (fst c) false)) <>
    E (filter_target tt M lg (fun _ => m0) vs ts) (fun p => phi (last p false)).
Proof.
  intros res Hres.
  assert (Hg : good_res res).
  { destruct Hres as [ ->|[ ->| ->]]; [exact (proj1 (proj2 C19_library_schemes))|exact (proj1 C19_library_schemes)|exact (proj2 (proj2 (proj2 C19_library_schemes)))]. }
  exists id_trans, b_lik, (fun _ _ u => dret u), b_lg, half, b_init.
  split; [now apply bias_filter_ok|]. split; [exact half_prob|]. split; [intros; apply b_draws_denotes|].
  exists 3%nat, [tt; tt], [0; 1], 0%nat, b2r. split; [lia|]. intros k1 k2.
  rewrite bias_target. rewrite <- or_assoc in Hres. destruct Hres as [Hres| ->].
  - pose proof (bias_value res k1 k2) as H. unfold run_filter in H. rewrite H; [lra| |apply (gr_valid _ Hg)].
    destruct Hres as [ ->| ->]; intros; [now apply stratified_first|now apply systematic_first].
  - pose proof (bias_value3 k1 k2) as H. unfold run_filter in H. rewrite H. lra.
Qed.
Print Assumptions C22_kept_particle_fair_refuted.

Example C22_example : forall k which, (which < 4)%nat ->
  law (u0s <- demo_init' k true 4 ;; pmcmc_filter_step false demo_trans demo_lik killing k [true; true; false] u0s [0; 1; 2] 4)
      (fun c => exp (snd c) * (fun _ => 1) (nth which (fst c) false)) = 7/2.
Proof.
  intros k which Hw. refine (eq_trans (C22_kept_particle_fair_killing_partial _ _ _ true _ _ _ _ (demo_filter _ (proj1 (proj2 (proj2 C19_library_schemes))))
    (fun _ => coin) (fun _ => coin_prob) _ demo_init'_denotes 4 ltac:(lia) [true; true; false] [0; 1; 2] k k which (fun _ => 1) Hw) _).
  exact demo_likelihood.
Qed.

(** ** C23 *)
(** [pcn_joint delta m dx d0 d1]: the pair (x, proposal) when x ~ dx and the two draws are independent of it and of each other. *)
Theorem C23_pcn_moments : forall delta m s dx d0 d1, 0 <= delta ->
  is_prob dx -> is_prob d0 -> is_prob d1 ->
  E dx (fun x => x - m) = 0 -> E d0 (fun x => x - m) = 0 -> E d1 (fun x => x - m) = 0 ->
  E dx (fun x => (x - m) * (x - m)) = s -> E d0 (fun x => (x - m) * (x - m)) = s -> E d1 (fun x => (x - m) * (x - m)) = s ->
  let J := pcn_joint delta m dx d0 d1 in
  E J (fun q => snd q - m) = 0 /\ E J (fun q => (snd q - m) * (snd q - m)) = s /\
  E J (fun q => (fst q - m) * (snd q - m)) = 2 / (2 + delta) * s.
Proof. intros. now apply pcn_moments. Qed.
Print Assumptions C23_pcn_moments.

(** [pcn_joint] is what the program computes, one coordinate at a time *)
Theorem C23_pcn_program : forall delta x m d sampler k, (forall k, denotes (sampler k) (dmap (fun r => [r]) d)) ->
  forall f, law (pcn_proposal k delta [x] [m] sampler) f = E d (fun r0 => E d (fun r1 => f [pcn_point delta x m r0 r1])).
Proof.
  intros delta x m d sampler k H f. unfold pcn_proposal. rewrite law_bind, (H _ _), E_dmap. apply E_ext'. intros r0.
  rewrite law_bind, (H _ _), E_dmap. reflexivity.
Qed.
Print Assumptions C23_pcn_program.

(** Gaussian case: prior density times proposal density is symmetric in (x, x') *)
Theorem C23_pcn_gaussian_reversible : forall delta m s x x', 0 < delta -> 0 < s ->
  gauss m s x * gauss (pcn_cond_mean delta m x) (pcn_cond_var delta s) x' =
  gauss m s x' * gauss (pcn_cond_mean delta m x') (pcn_cond_var delta s) x.
Proof. exact pcn_gaussian_reversible. Qed.
Print Assumptions C23_pcn_gaussian_reversible.

(** the conditional mean and variance used there are those of the program *)
Theorem C23_pcn_conditional_moments : forall delta m s x d, 0 <= delta -> is_prob d ->
  E d (fun r => r - m) = 0 -> E d (fun r => (r - m) * (r - m)) = s ->
  E d (fun r0 => E d (fun r1 => pcn_point delta x m r0 r1)) = pcn_cond_mean delta m x /\
  E d (fun r0 => E d (fun r1 => (pcn_point delta x m r0 r1 - pcn_cond_mean delta m x) * (pcn_point delta x m r0 r1 - pcn_cond_mean delta m x)))
    = pcn_cond_var delta s.
Proof. exact pcn_conditional_moments. Qed.
Print Assumptions C23_pcn_conditional_moments.

Example C23_example : let d := [(1/2, 1); (1/2, 3)] in
  E (pcn_joint 2 2 d d d) (fun q => (fst q - 2) * (snd q - 2)) = 1/2.
Proof.
  intros d. assert (Hp : is_prob d) by (split; [repeat constructor; simpl; lra|unfold d, E; simpl; lra]).
  destruct (C23_pcn_moments 2 2 1 d d d) as (_ & _ & H); try assumption; try lra; try (unfold d, E; simpl; lra).
Qed.

(** ** C24 *)
Theorem C24_metropolis_all_or_nothing :
  forall (U V : Type) (udef : U) (vdef : V) trans meas res k uT log_ell ys ts propose ref n which keys out,
  runs (pmcmc_kernel udef vdef trans meas res k uT log_ell ys ts propose ref n which) keys out ->
  exists prop_ys u0s prop_uTs prop_log_ell z st k1 k2 k3,
    runs (propose (split_key k 0) ys) k1 prop_ys /\
    runs (ref (split_key k 1) (nth 0 (rev prop_ys) vdef) n) k2 u0s /\
    runs (pmcmc_filter_step udef trans meas res (split_key k 2) (rev prop_ys) u0s ts n) k3 (prop_uTs, prop_log_ell) /\
    in01 z /\
    ((z < Rmin 1 (exp (prop_log_ell - log_ell)) /\ out = (nth which prop_uTs udef, prop_log_ell, prop_ys, st)) \/
     (Rmin 1 (exp (prop_log_ell - log_ell)) <= z /\ out = (uT, log_ell, ys, st))) /\
    acceptance_prob st = Rmin 1 (exp (prop_log_ell - log_ell)) /\
    (is_accepted st = true <-> z < Rmin 1 (exp (prop_log_ell - log_ell))) /\
    st_prop_log_ell st = prop_log_ell /\ st_log_ell st = log_ell.
Proof. exact @pmcmc_kernel_outcomes. Qed.
Print Assumptions C24_metropolis_all_or_nothing.

(** acceptance happens with the reported probability, whatever else is recorded in the state *)
Theorem C24_acceptance_probability :
  forall (U V : Type) (udef : U) (vdef : V) trans meas res k uT log_ell ys ts propose ref n which (h : R -> R -> R),
  let K := pmcmc_kernel udef vdef trans meas res k uT log_ell ys ts propose ref n which in
  law K (fun r => let st := snd r in h (st_prop_log_ell st) (st_log_ell st) * (if is_accepted st then 1 else 0)) =
  law K (fun r => let st := snd r in h (st_prop_log_ell st) (st_log_ell st) * acceptance_prob st).
Proof. intros. apply pmcmc_acceptance_probability. Qed.
Print Assumptions C24_acceptance_probability.

Example C24_example : exists keys st,
  runs (pmcmc_kernel false tt id_trans b_lik systematic [] true 5 [tt] [0] (fun _ _ => Ret [tt]) (fun _ _ _ => Ret [false]) 1 0) keys
    (true, 5, [tt], st) /\ acceptance_prob st = exp (-5).
Proof.
  exists [split_key [] 3], (mk_mcmc (exp (Rmin 0 (0 - 5))) false 0 5). split.
  - cbn [pmcmc_kernel bind pmcmc_filter_step rev app nth filter_inputs pf_scan runs]. exists [1/2], [].
    split; [reflexivity|]. split; [reflexivity|]. split; [repeat constructor; lra|].
    assert (Hf : log_lt (nth 0 [1/2] 0) (Rmin 0 (0 - 5)) = false).
    { destruct (log_lt _ _) eqn:He; [|reflexivity]. apply log_lt_spec in He; [|cbn [nth]; lra]. cbn [nth] in He.
      rewrite Rmin_right in He by lra. exfalso. assert (exp (0 - 5) < 1/2); [|lra].
      replace (0 - 5) with (Ropp 5) by ring. rewrite exp_Ropp. assert (1 + 5 < exp 5) by (apply exp_ineq1; lra).
      apply (Rmult_lt_reg_l (exp 5)); [lra|]. rewrite Rinv_r by lra. lra. }
    split; [reflexivity|]. rewrite Hf. reflexivity.
  - cbn [acceptance_prob]. rewrite Rmin_right by lra. f_equal. ring.
Qed.

(** ** C25 *)
(** [twisted_smc_g] is [twisted_smc] with one extra output, the product z of the mean unnormalised incremental weights. *)
Theorem C25_instrumented_is_twisted_smc :
  forall (U Y : Type) (udef : U) translp twistlp prop proplp res init n k (y : Y) ts f,
  law (twisted_smc_g udef translp twistlp prop proplp res init n k y ts) (fun r => f (fst r)) =
  law (twisted_smc udef translp twistlp prop proplp res k y ts init n) f.
Proof. exact @twisted_smc_g_erase. Qed.
Print Assumptions C25_instrumented_is_twisted_smc.

Theorem C25_twisted_smc_properly_weighted :
  forall (U Y : Type) (udef : U) translp twistlp prop proplp res init m0 p q lp lq psi,
  twisted_ok translp twistlp prop proplp res init m0 p q lp lq psi ->
  forall n, (0 < n)%nat -> forall k (y : Y) ts phi, ts <> [] ->
  law (twisted_smc_g udef translp twistlp prop proplp res init n k y ts)
      (fun r => let '(xs, lws, z) := r in z * Rsum (map (fun i => exp (nth i lws 0) * phi (nth i xs udef)) (seq 0 n))) =
  E m0 (fun u0 => E (chain p (tl ts) u0) (fun u => exp (psi y (last ts 0) u) * phi u)).
Proof. intros. eapply twisted_smc_unbiased; eassumption. Qed.
Print Assumptions C25_twisted_smc_properly_weighted.

Theorem C25_weights_normalised :
  forall (U Y : Type) (udef : U) translp twistlp prop proplp res init m0 p q lp lq psi,
  twisted_ok translp twistlp prop proplp res init m0 p q lp lq psi ->
  forall n, (0 < n)%nat ->
  (forall k us t (y : Y), safe (prop k us t y) (fun us' => length us' = length us)) ->
  (forall k m, safe (init k m) (fun us => length us = m)) ->
  forall k y ts keys xs lws, runs (twisted_smc udef translp twistlp prop proplp res k y ts init n) keys (xs, lws) ->
  length xs = n /\ length lws = n /\ Rsum (map exp lws) = 1.
Proof.
  intros U Y udef translp twistlp prop proplp res init m0 p q lp lq psi Hok n Hn H1 H2 k y ts keys xs lws Hr.
  exact (twisted_smc_normalised udef _ _ _ _ _ _ m0 p q lp lq psi Hok n Hn H1 H2 k y ts keys (xs, lws) Hr).
Qed.
Print Assumptions C25_weights_normalised.

(** two states, proposal uniform, sticky transition, twisting functions favouring [true] *)
Definition tw_lp (t : R) (u up : bool) : R := if eqb u up then ln (3/4) else ln (1/4).
Definition tw_lq (t : R) (y : unit) (u up : bool) : R := ln (1/2).
Definition tw_psi (y : unit) (t : R) (u : bool) : R := if u then ln 2 else 0.
Definition tw_translp (us ups : list bool) (t : R) : list R := map (fun ab => tw_lp t (fst ab) (snd ab)) (combine us ups).
Definition tw_twistlp (y : unit) (us : list bool) (t : R) : list R := map (tw_psi y t) us.
Definition tw_prop (k : key) (us : list bool) (t : R) (y : unit) : prog (list bool) := fin_draws false k 0 (map (fun _ => coin) us).
Definition tw_proplp (us ups : list bool) (t : R) (y : unit) : list R := map (fun ab => tw_lq t y (fst ab) (snd ab)) (combine us ups).
Lemma tw_demo_ok : twisted_ok tw_translp tw_twistlp tw_prop tw_proplp stratified demo_init
  coin (fun t u => sticky u) (fun t y u => coin) tw_lp tw_lq tw_psi.
Proof.
  constructor; try reflexivity.
  - exact coin_prob.
  - intros. exact coin_prob.
  - intros. apply fin_draws_denotes.
  - intros. apply fin_draws_denotes.
  - intros t y up h. unfold coin, sticky, tw_lp, tw_lq, E. cbn [map fst snd Rsum].
    destruct up; cbn [eqb negb]; unfold Rminus; rewrite !exp_plus, !exp_Ropp, !exp_ln by lra; field.
  - exact (proj1 (proj2 C19_library_schemes)).
Qed.
Example C25_example : forall n k, (0 < n)%nat ->
  law (twisted_smc_g false tw_translp tw_twistlp tw_prop tw_proplp stratified demo_init n k tt [0; 1; 2])
      (fun r => let '(xs, lws, z) := r in z * Rsum (map (fun i => exp (nth i lws 0) * b2r (nth i xs false)) (seq 0 n))) = 1.
Proof.
  intros n k Hn. rewrite (C25_twisted_smc_properly_weighted _ _ false _ _ _ _ _ _ _ _ _ _ _ _ tw_demo_ok n Hn k tt [0; 1; 2] b2r) by discriminate.
  cbn [tl chain last]. unfold coin, sticky, tw_psi. rewrite !E_cons, !E_dbind, !E_cons. cbn [E map Rsum negb].
  rewrite !E_dbind, !E_cons. cbn [E map Rsum negb]. rewrite !E_dret, exp_0, exp_ln by lra. cbn [b2r]. unfold E; simpl. lra.
Qed.

(** ** C26 *)
Theorem C26_smoother_members :
  forall (U V : Type) (udef : U) (translp : U -> list U -> V -> R -> list R) lp, (forall x us v t, translp x us v t = map (lp v t x) us) ->
  forall k filter_us vs ts keys path, filter_us <> [] -> Forall (fun us => us <> []) filter_us ->
  length vs = length filter_us -> length ts = length filter_us ->
  runs (bootstrap_backward_smoother udef translp k filter_us vs ts) keys path ->
  Forall2 (fun u us => In u us) path filter_us.
Proof. intros U V udef translp lp Hlp k fu vs ts keys path H1 H2 H3 H4 Hr. exact (smoother_members udef translp lp Hlp k fu vs ts H1 H2 H3 H4 keys path Hr). Qed.
Print Assumptions C26_smoother_members.

(** [back_walk lp rows x]: law of the states chosen in [rows] (latest first), each with probability proportional to the
    transition density to the next state *)
Theorem C26_smoother_law :
  forall (U V : Type) (udef : U) (translp : U -> list U -> V -> R -> list R) lp, (forall x us v t, translp x us v t = map (lp v t x) us) ->
  forall k filter_us vs ts f, filter_us <> [] -> Forall (fun us => us <> []) filter_us ->
  length vs = length filter_us -> length ts = length filter_us ->
  law (bootstrap_backward_smoother udef translp k filter_us vs ts) f =
  E (map (fun u => (/ INR (length (last filter_us [])), u)) (last filter_us [])) (fun uT =>
    E (back_walk lp (combine (combine (rev (removelast filter_us)) (rev (removelast vs))) (rev (removelast ts))) uT) (fun l => f (l ++ [uT]))).
Proof. intros. now apply smoother_law. Qed.
Print Assumptions C26_smoother_law.

Example C26_example : forall k,
  law (bootstrap_backward_smoother false demo_translp k [[true; false; true]; [true; true]] [true; false] [0; 1]) (fun p => b2r (nth 0 p false)) = 6/7.
Proof.
  intros k. rewrite (C26_smoother_law _ _ false demo_translp (fun v t x u => if eqb x u then ln (3/4) else ln (1/4))); try reflexivity; try discriminate.
  - cbn [last length removelast rev app combine map back_walk]. rewrite !E_cons. cbn [E map Rsum].
    rewrite !E_dbind. cbn [map]. rewrite !E_cons. cbn [E map Rsum]. rewrite !E_dmap, !E_dret. cbn [app nth b2r eqb].
    rewrite !exp_ln by lra. replace (INR 2) with 2 by (simpl; lra). unfold E; cbn [map Rsum]. lra.
  - repeat constructor; discriminate.
Qed.
