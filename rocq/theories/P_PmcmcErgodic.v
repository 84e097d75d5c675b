(** C111: what the particle MCMC chain converges to; C61, C84: how long it stays at the state the scripts start from. *)
From Coquelicot Require Import Coquelicot.
From Verif Require Import Pmcmc PmcmcSlot PmcmcBias ToyPmcmc PmcmcErgodic PmcmcLimit Demo P_Smc.
Open Scope R_scope.

(** ** C111 *)
(** paths: any unbiased scheme; eps is such that every proposal law contains eps times the law of the path, G bounds the likelihoods *)
Theorem C111_paths_converge :
  forall (U V : Type) (udef : U) (vdef : V) trans meas res M lg, filter_ok trans meas res M lg ->
  forall m0, (forall v, is_prob (m0 v)) -> forall init : key -> V -> nat -> prog (list U), (forall k v n, denotes (init k v n) (dseq (repeat (m0 v) n))) ->
  (forall w, weights_ok w -> has_laws (valid_indices (length w)) (res w)) ->
  forall (P : dist (list V)) q propose, is_prob P -> (forall ys, is_prob (q ys)) -> (forall k ys, denotes (propose k ys) (q ys)) ->
  (forall F, E P (fun ys => E (q ys) (fun ys' => F ys ys')) = E P (fun ys => E (q ys) (fun ys' => F ys' ys))) ->
  forall n which ts, (0 < n)%nat -> forall G, (forall v vp t u, exp (lg v vp t u) <= G) ->
  (forall ys, In ys (map snd P) -> length ys = length ts) -> (forall ys ys', In ys' (map snd (q ys)) -> length ys' = length ts) ->
  forall eps, (forall ys F, length ys = length ts -> (forall ys', 0 <= F ys') -> eps * E P F <= E (q ys) F) ->
  forall j k m u e ys g a b, exp e <= G ^ (length ts - 1) -> length ys = length ts -> (forall ys, a <= g ys <= b) ->
  Rabs (law (pmcmc_chain udef vdef trans meas res init propose n which ts j k m u e ys) (fun s => g (snd s))
        - joint_posterior udef vdef M lg m0 P ts (fun _ ys => g ys))
  <= (1 - eps * joint_mass udef vdef M lg m0 P ts (fun _ _ => 1) / G ^ (length ts - 1)) ^ m * (b - a).
Proof. intros U V udef vdef trans meas res M lg Hfo m0 Hm0 init Hinit Hres P q propose HP Hq Hprop Hrev n which ts Hn G HG HPl Hql eps Hmin. apply (paths_converge udef vdef trans meas res M lg Hfo m0 Hm0 init Hinit Hres P q propose HP Hq Hprop Hrev n which ts Hn G HG HPl Hql eps Hmin). Qed.
Print Assumptions C111_paths_converge.

(** the bound is a contraction: the rate is between 0 and 1 (below 1 as soon as eps > 0, the mass being positive) *)
Theorem C111_rate :
  forall (U V : Type) (udef : U) (vdef : V) trans meas res M lg, filter_ok trans meas res M lg ->
  forall m0, (forall v, is_prob (m0 v)) -> forall init : key -> V -> nat -> prog (list U), (forall k v n, denotes (init k v n) (dseq (repeat (m0 v) n))) ->
  (forall w, weights_ok w -> has_laws (valid_indices (length w)) (res w)) ->
  forall (P : dist (list V)) q, is_prob P -> (forall ys, is_prob (q ys)) ->
  (forall F, E P (fun ys => E (q ys) (fun ys' => F ys ys')) = E P (fun ys => E (q ys) (fun ys' => F ys' ys))) ->
  forall (n which : nat) ts, (0 < n)%nat -> forall G, (forall v vp t u, exp (lg v vp t u) <= G) ->
  (forall ys, In ys (map snd P) -> length ys = length ts) -> (forall ys ys', In ys' (map snd (q ys)) -> length ys' = length ts) ->
  forall eps, 0 < eps -> (forall ys F, length ys = length ts -> (forall ys', 0 <= F ys') -> eps * E P F <= E (q ys) F) ->
  0 <= 1 - eps * joint_mass udef vdef M lg m0 P ts (fun _ _ => 1) / G ^ (length ts - 1) < 1.
Proof.
  intros U V udef vdef trans meas res M lg Hfo m0 Hm0 init Hinit Hres P q HP Hq Hrev n which ts Hn G HG HPl Hql eps Heps Hmin.
  now apply (rate_contracts udef vdef trans meas res M lg Hfo m0 Hm0 init Hinit Hres P q HP Hq Hrev n which ts Hn G HG HPl Hql eps (Rlt_le _ _ Heps) Hmin).
Qed.
Print Assumptions C111_rate.

(** the pair (x0, path) with killing resampling, every slot [which] *)
Theorem C111_pairs_converge_killing_partial :
  forall (U V : Type) (udef : U) (vdef : V) trans meas M lg, filter_ok trans meas killing M lg ->
  forall m0, (forall v, is_prob (m0 v)) -> forall init : key -> V -> nat -> prog (list U), (forall k v n, denotes (init k v n) (dseq (repeat (m0 v) n))) ->
  forall (P : dist (list V)) q propose, is_prob P -> (forall ys, is_prob (q ys)) -> (forall k ys, denotes (propose k ys) (q ys)) ->
  (forall F, E P (fun ys => E (q ys) (fun ys' => F ys ys')) = E P (fun ys => E (q ys) (fun ys' => F ys' ys))) ->
  forall n which ts, (which < n)%nat -> forall G, (forall v vp t u, exp (lg v vp t u) <= G) ->
  (forall ys, In ys (map snd P) -> length ys = length ts) -> (forall ys ys', In ys' (map snd (q ys)) -> length ys' = length ts) ->
  forall eps, (forall ys F, length ys = length ts -> (forall ys', 0 <= F ys') -> eps * E P F <= E (q ys) F) ->
  forall j k m u e ys f a b, exp e <= G ^ (length ts - 1) -> length ys = length ts -> (forall u ys, a <= f u ys <= b) ->
  Rabs (law (pmcmc_chain udef vdef trans meas killing init propose n which ts j k m u e ys) (fun s => f (fst (fst s)) (snd s))
        - joint_posterior udef vdef M lg m0 P ts f)
  <= (1 - eps * joint_mass udef vdef M lg m0 P ts (fun _ _ => 1) / G ^ (length ts - 1)) ^ m * (b - a).
Proof.
  intros U V udef vdef trans meas M lg Hfo m0 Hm0 init Hinit P q propose HP Hq Hprop Hrev n which ts Hw G HG HPl Hql eps Hmin j k m u e ys f a b.
  apply (pairs_converge udef vdef trans meas killing M lg Hfo m0 Hm0 init Hinit (fun w Hw => proj2 (proj2 (C21_library_schemes w Hw))) P q propose HP Hq Hprop Hrev n which ts ltac:(lia) G HG HPl Hql eps Hmin).
  intros vs phi. now apply (C22_kept_particle_fair_killing_partial U V udef vdef trans meas M lg Hfo m0 Hm0 init Hinit n ltac:(lia) vs ts [] [] which phi).
Qed.
Print Assumptions C111_pairs_converge_killing_partial.

(** the schemes the scripts use: the kept x0 stays away from the posterior however long the chain runs *)
Theorem C111_stratified_refuted : forall res, res = stratified \/ res = systematic ->
  exists (trans : list bool -> unit -> R -> key -> prog (list bool)) meas M lg m0 init (P : dist (list unit)) propose,
    filter_ok trans meas res M lg /\ (forall v, is_prob (m0 v)) /\ (forall k v n, denotes (init k v n) (dseq (repeat (m0 v) n))) /\
    is_prob P /\ (forall k ys, denotes (propose k ys) P) /\
    exists ts, (forall ys, In ys (map snd P) -> length ys = length ts) /\
    forall j k m u e, (4 <= m)%nat -> exp e <= 3 ->
    1 / 50 <= Rabs (law (pmcmc_chain false tt trans meas res init propose 3 0 ts j k m u e [tt; tt]) (fun s => b2r (fst (fst s)))
      - joint_posterior false tt M lg m0 P ts (fun u _ => b2r u)).
Proof.
  intros res Hres.
  assert (Hg : good_res res) by (destruct Hres as [ ->| ->]; [exact (proj1 (proj2 C19_library_schemes))|exact (proj1 C19_library_schemes)]).
  exists id_trans, b_lik, (fun _ _ u => dret u), b_lg, (fun _ => half), b_init, (dret [tt; tt]), (fun _ _ => Ret [tt; tt]).
  split; [now apply bias_filter_ok|]. split; [intros; exact half_prob|]. split; [intros; apply b_draws_denotes|].
  split; [exact unit_paths_prob|]. split; [intros k ys f; now rewrite E_dret|]. exists [0; 1]. split; [intros ys [<-|[]]; reflexivity|].
  intros. now apply biased_limit.
Qed.
Print Assumptions C111_stratified_refuted.

(** independent proposals qualify with eps = 1 *)
Example C111_example : forall j k m u n which, (which < n)%nat ->
  Rabs (law (pmcmc_chain false true demo_trans demo_lik killing demo_init' (fun k _ => fin_draw [] k demo_paths) n which [0; 1] j k m u 0 [true; true])
          (fun s => b2r (fst (fst s))) - 5 / 8) <= (/ 3) ^ m.
Proof.
  intros j k m u n which Hw.
  assert (HPl : forall ys, In ys (map snd demo_paths) -> length ys = length [0; 1]) by (intros ys [<-|[<-|[]]]; reflexivity).
  assert (HP : is_prob demo_paths) by (split; [repeat constructor; simpl; lra|unfold demo_paths, E; simpl; lra]).
  pose proof (C111_pairs_converge_killing_partial bool bool false true demo_trans demo_lik demo_M demo_lg (demo_filter _ (proj1 (proj2 (proj2 C19_library_schemes))))
    (fun _ => coin) (fun _ => coin_prob) demo_init' demo_init'_denotes demo_paths (fun _ => demo_paths) (fun k _ => fin_draw [] k demo_paths) HP (fun _ => HP)
    ltac:(intros; apply fin_draw_denotes) (C21_independent_proposals bool demo_paths) n which [0; 1] Hw 3
    ltac:(intros [] vp t []; unfold demo_lg; cbn [eqb]; rewrite ?exp_0, ?exp_ln; lra) HPl (fun _ => HPl) 1 ltac:(intros; lra) j k m u 0 [true; true]
    (fun u _ => b2r u) 0 1 ltac:(rewrite exp_0; cbn; lra) eq_refl ltac:(intros [] ?; cbn; lra)) as H.
  assert (E1 : joint_mass false true demo_M demo_lg (fun _ => coin) demo_paths [0; 1] (fun _ _ => 1) = 2 /\
               joint_mass false true demo_M demo_lg (fun _ => coin) demo_paths [0; 1] (fun u _ => b2r u) = 5 / 4).
  { unfold joint_mass, demo_paths. rewrite !E_cons. cbn [E map Rsum rev app].
    change (fun _ : list bool => 1) with (fun p : list bool => (fun _ : bool => 1) (last p false)).
    rewrite !(filter_target_final false). cbn [step_data nth]. unfold coin. rewrite !E_cons. cbn [E map Rsum].
    rewrite !fk_final_cons. unfold demo_M, sticky, demo_lg. cbn [eqb negb]. rewrite exp_0, !exp_ln by lra.
    rewrite !E_cons. unfold fk_final. cbn [fk_of map fk_path]. rewrite !E_dret. unfold E; simpl. rewrite ?exp_0, ?exp_ln by lra. lra. }
  destruct E1 as [E1 E2]. unfold joint_posterior in H. rewrite E1, E2 in H. cbn [length Nat.sub pow] in H.
  replace (5 / 4 / 2) with (5 / 8) in H by lra. replace (1 - 1 * 2 / (3 * 1)) with (/ 3) in H by lra. lra.
Qed.

(** ** C61: likelihoods at most G <= 1; from the value of log_ell gp_pmcmc.py starts with (the wrong sign) the chain has
    not moved after m steps with probability at least (1 - G^(2T))^m, whatever the data *)
Theorem C61_stuck_refuted :
  forall (U V : Type) (udef : U) (vdef : V) trans meas res M lg, filter_ok trans meas res M lg ->
  (forall w k, w <> [] -> safe (res w k) (fun A => length A = length w)) ->
  forall m0, (forall v, is_prob (m0 v)) -> forall ref : key -> V -> nat -> prog (list U), (forall k v n, denotes (ref k v n) (dseq (repeat (m0 v) n))) ->
  (forall k v n, safe (ref k v n) (fun l => length l = n)) ->
  (forall w, weights_ok w -> has_laws (valid_indices (length w)) (res w)) ->
  forall q propose, (forall ys, is_prob (q ys)) -> (forall k ys, denotes (propose k ys) (q ys)) ->
  forall n which ts, (0 < n)%nat -> forall G, (forall v vp t u, exp (lg v vp t u) <= G) -> G <= 1 ->
  (forall ys ys', In ys' (map snd (q ys)) -> length ys' = length ts) ->
  forall (fwd_ys : key -> prog (list V)) k, (forall k, safe (fwd_ys k) (fun ys => length ys = length ts)) ->
  safe (pmcmc_init udef vdef trans meas res fwd_ys ref k ts n)
    (fun s => forall j k' m f, (forall u e ys, 0 <= f u e ys) ->
       (1 - G ^ (2 * (length ts - 1))) ^ m * f (fst (fst s)) (snd (fst s)) (snd s) <=
       law (pmcmc_chain udef vdef trans meas res ref propose n which ts j k' m (fst (fst s)) (snd (fst s)) (snd s))
         (fun r => f (fst (fst r)) (snd (fst r)) (snd r))).
Proof. exact @script_start_stuck. Qed.
Print Assumptions C61_stuck_refuted.

Example C61_stuck_example : forall n which k, (0 < n)%nat ->
  safe (pmcmc_init false true still (flat_meas half_lik) stratified two_paths_draw (fun k _ n => demo_init k n) k [0; 1] n)
    (fun s => forall j k' m f, (forall u e ys, 0 <= f u e ys) ->
       (3 / 4) ^ m * f (fst (fst s)) (snd (fst s)) (snd s) <=
       law (pmcmc_chain false true still (flat_meas half_lik) stratified (fun k _ n => demo_init k n) (fun k _ => two_paths_draw k) n which [0; 1] j k' m (fst (fst s)) (snd (fst s)) (snd s))
         (fun r => f (fst (fst r)) (snd (fst r)) (snd r))).
Proof.
  intros n which k Hn.
  eapply safe_weaken; [|refine (C61_stuck_refuted bool bool false true still (flat_meas half_lik) stratified _ _ half_filter strat_len (fun _ => coin) (fun _ => coin_prob)
    (fun k _ n => demo_init k n) _ demo_ref_len (fun w Hw => proj1 (proj2 (C21_library_schemes w Hw))) (fun _ => two_paths) (fun k _ => two_paths_draw k) (fun _ => two_paths_prob) _
    n which [0; 1] Hn (1 / 2) _ _ _ two_paths_draw k _)].
  - intros s H j k' m f Hf. specialize (H j k' m f Hf). cbn [length Nat.sub Nat.mul Nat.add pow] in H.
    replace (1 - 1 / 2 * (1 / 2 * 1)) with (3 / 4) in H by lra. exact H.
  - intros; apply fin_draws_denotes.
  - intros; apply fin_draw_denotes.
  - intros; unfold half_lik; rewrite exp_ln; lra.
  - lra.
  - intros ys ys' [<-|[<-|[]]]; reflexivity.
  - intros k'. eapply safe_weaken; [|apply two_paths_len]. intros l [b ->]. reflexivity.
Qed.

(** ** C84: the image scripts start from log_ell = 0 *)
Theorem C84_image_start_stuck_refuted :
  forall (U V : Type) (udef : U) (vdef : V) trans meas res M lg, filter_ok trans meas res M lg ->
  forall m0, (forall v, is_prob (m0 v)) -> forall ref : key -> V -> nat -> prog (list U), (forall k v n, denotes (ref k v n) (dseq (repeat (m0 v) n))) ->
  (forall w, weights_ok w -> has_laws (valid_indices (length w)) (res w)) ->
  forall q propose, (forall ys, is_prob (q ys)) -> (forall k ys, denotes (propose k ys) (q ys)) ->
  forall n which ts, (0 < n)%nat -> forall G, (forall v vp t u, exp (lg v vp t u) <= G) -> G <= 1 ->
  (forall ys ys', In ys' (map snd (q ys)) -> length ys' = length ts) ->
  forall (fwd_ys : key -> prog (list V)) k,
  safe (img_init udef fwd_ys k)
    (fun s => forall j k' m f, (forall u e ys, 0 <= f u e ys) ->
       (1 - G ^ (length ts - 1)) ^ m * f (fst (fst s)) (snd (fst s)) (snd s) <=
       law (pmcmc_chain udef vdef trans meas res ref propose n which ts j k' m (fst (fst s)) (snd (fst s)) (snd s))
         (fun r => f (fst (fst r)) (snd (fst r)) (snd r))).
Proof. exact @image_start_stuck. Qed.
Print Assumptions C84_image_start_stuck_refuted.
