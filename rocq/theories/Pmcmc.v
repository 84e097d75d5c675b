(** Likelihood estimates, pseudo-marginal invariance and fairness of the kept particle. *)
From Coquelicot Require Import Coquelicot.
From Verif Require Export SmcProofs FinLaw.
Open Scope R_scope.

Lemma Rsum_repeat c n : Rsum (repeat c n) = INR n * c.
Proof. induction n; [simpl; ring|]. cbn [repeat Rsum]. rewrite IHn, S_INR. ring. Qed.

Lemma map_repeat' {A B} (f : A -> B) a n : map f (repeat a n) = repeat (f a) n.
Proof. induction n; simpl; congruence. Qed.

Section filters.
Context {U V : Type} (udef : U) (vdef : V).
Variable transition_sampler : list U -> V -> R -> key -> prog (list U).
Variable measurement_cond_pdf : V -> list U -> V -> R -> list R.
Variable resampling : list R -> key -> prog (list nat).
Variable M : V -> R -> U -> dist U.
Variable lg : V -> V -> R -> U -> R.
Hypothesis Hfo : filter_ok transition_sampler measurement_cond_pdf resampling M lg.
Variable m0 : V -> dist U.
Hypothesis Hm0 : forall v, is_prob (m0 v).
Variable init_sampler : key -> V -> nat -> prog (list U).
Hypothesis Hinit : forall k v n, denotes (init_sampler k v n) (dseq (repeat (m0 v) n)).

(** the unnormalised law of the hidden path given the data *)
Definition filter_target (vs : list V) (ts : list R) : dist (list U) :=
  fk_measure (m0 (nth 0 vs vdef)) (fun _ => 0) (fk_of M lg (step_data vs ts)).

Lemma filter_target_final vs ts phi :
  E (filter_target vs ts) (fun p => phi (last p udef)) =
  E (m0 (nth 0 vs vdef)) (fk_final M lg (step_data vs ts) phi).
Proof.
  unfold filter_target, fk_measure. rewrite E_dbind. apply E_ext'. intros u. rewrite E_dscale, E_dmap, exp_0, Rmult_1_l.
  apply E_ext'. intros p. now rewrite last_cons.
Qed.

Lemma init_mean n v (Q : U -> R) : (0 < n)%nat ->
  E (dseq (repeat (m0 v) n)) (fun us => / INR n * Rsum (map Q us)) = E (m0 v) Q.
Proof.
  intros Hn. assert (0 < INR n) by (apply lt_0_INR; lia).
  rewrite E_mult_l, E_dseq_Rsum by (apply Forall_forall; intros d Hd; apply repeat_spec in Hd; subst; apply Hm0).
  rewrite map_repeat', Rsum_repeat. field. lra.
Qed.

Lemma init_length n v us : In us (map snd (dseq (repeat (m0 v) n))) -> length us = n.
Proof. intros H. apply dseq_length in H. now rewrite repeat_length in H. Qed.

(** *** bootstrap_filter *)
Notation bfilter := (bootstrap_filter udef vdef transition_sampler measurement_cond_pdf resampling).

Lemma bf_scan_last n k sd : forall i c,
  safe (bf_scan udef transition_sampler measurement_cond_pdf resampling n k i sd c)
       (fun r => last (fst c :: snd r) [] = fst (fst r)).
Proof.
  induction sd as [|x sd IH]; intros i c; cbn [bf_scan]; [now apply safe_ret|].
  eapply safe_bind with (P := fun _ => True); [intros ? ? ?; exact I|]. intros c' _.
  eapply safe_bind; [apply IH|]. intros [cT out] H. apply safe_ret. cbn [fst snd] in *.
  exact H.
Qed.

Theorem bootstrap_filter_unbiased vs ts k n lg_flag rl phi : (0 < n)%nat ->
  law (bfilter vs ts init_sampler k n lg_flag rl)
      (fun r => exp (- snd r) * (/ INR n * Rsum (map phi (last (fst r) [])))) =
  E (filter_target vs ts) (fun p => phi (last p udef)).
Proof.
  intros Hn. unfold bootstrap_filter. rewrite law_bind, (Hinit _ _ _ _).
  rewrite filter_target_final, <- (init_mean n) by assumption. apply E_ext. intros us0 Hin. apply init_length in Hin.
  rewrite law_bind, filter_inputs_step_data.
  pose proof (bf_scan_unbiased udef _ _ _ M lg Hfo n Hn (split_key k 1) (step_data vs ts) 0 us0 0 phi Hin) as H.
  rewrite Ropp_0, exp_0, Rmult_1_l in H. rewrite <- H.
  eapply law_ext_safe; [apply bf_scan_last|].
  intros [[last_s nell] out] Hlast. cbn [law fst snd] in *. destruct rl; [reflexivity|].
  cbn [fst snd]. now rewrite Hlast.
Qed.

(** *** pmcmc_filter_step after the initial draw of pmcmc_kernel (smc.py:239-245) *)
Definition run_filter (n : nat) (ts : list R) (k1 k2 : key) (vs : list V) : prog (list U * R) :=
  u0s <- init_sampler k1 (nth 0 vs vdef) n ;;
  pmcmc_filter_step udef transition_sampler measurement_cond_pdf resampling k2 vs u0s ts n.

Theorem pmcmc_filter_unbiased vs ts k1 k2 n phi : (0 < n)%nat ->
  law (run_filter n ts k1 k2 vs) (fun c => exp (snd c) * (/ INR n * Rsum (map phi (fst c)))) =
  E (filter_target vs ts) (fun p => phi (last p udef)).
Proof.
  intros Hn. unfold run_filter. rewrite law_bind, (Hinit _ _ _ _).
  rewrite filter_target_final, <- (init_mean n) by assumption. apply E_ext. intros us0 Hin. apply init_length in Hin.
  unfold pmcmc_filter_step. rewrite filter_inputs_step_data, (pf_scan_unbiased udef _ _ _ M lg Hfo n Hn) by assumption.
  rewrite exp_0. ring.
Qed.

(** *** finite laws *)
Hypothesis Hres : forall w, weights_ok w -> has_laws (valid_indices (length w)) (resampling w).

Lemma trans_has_laws us v t : has_laws (fun us' => length us' = length us) (transition_sampler us v t).
Proof.
  apply (has_laws_denotes _ _ (dseq (map (M v t) us))).
  - apply is_prob_dseq. apply Forall_map, Forall_forall. intros. apply (fo_M _ _ _ _ _ Hfo).
  - intros k. apply (fo_trans _ _ _ _ _ Hfo).
  - intros us' H. apply dseq_length in H. now rewrite map_length in H.
Qed.

Lemma pf_scan_has_laws n sd : forall i us ell, (0 < n)%nat -> length us = n ->
  has_laws (fun c => length (fst c) = n)
    (fun k => pf_scan udef transition_sampler measurement_cond_pdf resampling n k i sd (us, ell)).
Proof.
  induction sd as [|[[v vp] t] sd IH]; intros i us ell Hn Hl; cbn [pf_scan]; [now apply has_laws_ret|].
  apply (has_laws_bind (fun c => length (fst c) = n) _
    (fun k => pf_body udef transition_sampler measurement_cond_pdf resampling n (us, ell) (v, vp, t) k)
    (fun c' k => pf_scan udef transition_sampler measurement_cond_pdf resampling n k (S i) sd c') (fun k => split_key k i) (fun k => k)).
  - unfold pf_body. rewrite (fo_lik _ _ _ _ _ Hfo).
    destruct (weights_lik_ok lg n Hn v vp t us Hl) as [Hw Hwl].
    apply (has_laws_bind (valid_indices n) _ (resampling (normalise (map (lg v vp t) us)))
       (fun A k => bind (transition_sampler (gather udef us A) vp t (split_key k 0))
          (fun us' => Ret (us', ell - ln (INR n) + logsumexp (map (lg v vp t) us)))) (fun k => split_key k 1) (fun k => k)).
    + rewrite <- Hwl. now apply Hres.
    + intros A [HA _].
      apply (has_laws_bind (fun us' => length us' = n) _ (transition_sampler (gather udef us A) vp t)
         (fun us' _ => Ret (us', ell - ln (INR n) + logsumexp (map (lg v vp t) us))) (fun k => split_key k 0) (fun k => k)).
      * eapply has_laws_weaken; [|apply trans_has_laws]. intros us'. unfold gather. rewrite map_length. congruence.
      * intros us' Hus'. now apply has_laws_ret.
  - intros [us' e'] H. now apply IH.
Qed.

Lemma run_filter_has_laws n ts vs (s1 s2 : key -> key) : (0 < n)%nat ->
  has_laws (fun c => length (fst c) = n) (fun k => run_filter n ts (s1 k) (s2 k) vs).
Proof.
  intros Hn. unfold run_filter.
  apply (has_laws_bind (fun us => length us = n) _ (fun k => init_sampler k (nth 0 vs vdef) n)
    (fun u0s k => pmcmc_filter_step udef transition_sampler measurement_cond_pdf resampling k vs u0s ts n) s1 s2).
  - apply (has_laws_denotes _ _ (dseq (repeat (m0 (nth 0 vs vdef)) n))).
    + apply is_prob_dseq, Forall_forall. intros d Hd. apply repeat_spec in Hd. subst. apply Hm0.
    + intros. apply Hinit.
    + apply init_length.
  - intros us Hus. unfold pmcmc_filter_step. now apply pf_scan_has_laws.
Qed.

(** *** Metropolis test *)
Lemma log_lt_spec z x : 0 <= z -> log_lt z x = true <-> z < exp x.
Proof.
  intros Hz. unfold log_lt. destruct (Rle_dec z 0) as [H|H].
  - assert (z = 0) by lra. subst. split; [intros _; apply exp_pos|reflexivity].
  - destruct (Rlt_dec (ln z) x) as [G|G].
    + split; [|reflexivity]. intros _. rewrite <- (exp_ln z) by lra. now apply exp_increasing.
    + split; [discriminate|]. intros K. exfalso. apply G. apply exp_lt_inv. rewrite exp_ln by lra. exact K.
Qed.

Lemma exp_Rmin0 d : exp (Rmin 0 d) = Rmin 1 (exp d).
Proof.
  unfold Rmin. destruct (Rle_dec 0 d) as [H|H].
  - rewrite exp_0. destruct (Rle_dec 1 (exp d)) as [G|G]; [reflexivity|]. exfalso. apply G. rewrite <- exp_0.
    destruct H as [H| <-]; [left; now apply exp_increasing|lra].
  - destruct (Rle_dec 1 (exp d)) as [G|G]; [|reflexivity]. exfalso. assert (exp d < exp 0) by (apply exp_increasing; lra).
    rewrite exp_0 in *. lra.
Qed.

Lemma law_metropolis {A} k x (f : bool -> A) (h : A -> R) : x <= 0 ->
  law (Unif k 1 (fun zs => Ret (f (log_lt (nth 0 zs 0) x)))) h = exp x * h (f true) + (1 - exp x) * h (f false).
Proof.
  intros Hx. cbn [law]. rewrite uint1. apply is_RInt_unique. cbn [nth].
  assert (Hc : 0 <= exp x <= 1).
  { split; [left; apply exp_pos|]. rewrite <- exp_0. destruct Hx as [Hx|Hx]; [left; now apply exp_increasing|subst; lra]. }
  pose proof (is_RInt_below (fun b => h (f b)) (exp x) Hc) as H.
  replace (E [(exp x, true); (1 - exp x, false)] (fun b => h (f b))) with (exp x * h (f true) + (1 - exp x) * h (f false)) in H
    by (unfold E; cbn [map fst snd Rsum]; ring).
  eapply is_RInt_ext; [|exact H]. intros z Hz. rewrite Rmin_left, Rmax_right in Hz by lra.
  cbv beta. destruct (Rlt_dec z (exp x)) as [G|G].
  - apply log_lt_spec in G; [|lra]. now rewrite G.
  - destruct (log_lt z x) eqn:He; [|reflexivity]. apply log_lt_spec in He; [|lra]. contradiction.
Qed.

(** *** Pseudo-marginal invariance *)
Section pm.
Variable P : dist (list V).                    (* law of the noised observation path *)
Variable q : list V -> dist (list V).          (* proposal law *)
Variable propose : key -> list V -> prog (list V).
Hypothesis Hq : forall ys, is_prob (q ys).
Hypothesis Hprop : forall k ys, denotes (propose k ys) (q ys).
Hypothesis Hrev : forall G, E P (fun ys => E (q ys) (fun ys' => G ys ys')) = E P (fun ys => E (q ys) (fun ys' => G ys' ys)).
Variables (n which : nat) (ts : list R).
Hypothesis Hn : (0 < n)%nat.
Variable k0 : key.

Notation kernel := (pmcmc_kernel udef vdef transition_sampler measurement_cond_pdf resampling).
Notation L ys := (law (run_filter n ts k0 k0 (rev ys))).

(** extended target: filter output on a random path, weighted by the likelihood estimate *)
Definition pm_target (f : U -> R -> list V -> R) : R :=
  E P (fun ys => L ys (fun c => exp (snd c) * f (nth which (fst c) udef) (snd c) ys)).

Lemma L_key ys k1 k2 F : law (run_filter n ts k1 k2 (rev ys)) F = L ys F.
Proof.
  set (s1 := fun k : key => match k with [] => k1 | _ => k0 end).
  set (s2 := fun k : key => match k with [] => k2 | _ => k0 end).
  exact (has_laws_key _ (fun k => run_filter n ts (s1 k) (s2 k) (rev ys)) [] [0%nat] F (run_filter_has_laws n ts (rev ys) s1 s2 Hn)).
Qed.

Lemma L_fin ys : has_laws (fun c => length (fst c) = n) (fun _ => run_filter n ts k0 k0 (rev ys)).
Proof. exact (run_filter_has_laws n ts (rev ys) (fun _ => k0) (fun _ => k0) Hn). Qed.

Lemma law_pmcmc_kernel k uT ell ys (f : U -> R -> list V -> R) :
  law (kernel k uT ell ys ts propose init_sampler n which)
      (fun r => let '(u, e, y, _) := r in f u e y) =
  E (q ys) (fun ys' => L ys' (fun c =>
     Rmin 1 (exp (snd c - ell)) * f (nth which (fst c) udef) (snd c) ys' +
     (1 - Rmin 1 (exp (snd c - ell))) * f uT ell ys)).
Proof.
  unfold pmcmc_kernel. rewrite law_bind, (Hprop _ _ _). apply E_ext'. intros ys'.
  rewrite <- (L_key ys' (split_key k 1) (split_key k 2)). unfold run_filter. rewrite !law_bind.
  apply law_ext. intros u0s. rewrite law_bind. apply law_ext. intros [us e]. cbn [fst snd].
  assert (Hle : Rmin 0 (e - ell) <= 0) by apply Rmin_l.
  pose proof (law_metropolis (split_key k 3) (Rmin 0 (e - ell))
    (fun acc => if acc then (nth which us udef, e, ys', mk_mcmc (exp (Rmin 0 (e - ell))) acc e ell)
                else (uT, ell, ys, mk_mcmc (exp (Rmin 0 (e - ell))) acc e ell))
    (fun r => let '(u, e, y, _) := r in f u e y) Hle) as H.
  rewrite <- exp_Rmin0. exact H.
Qed.

Lemma weighted_acc e e' : exp e * Rmin 1 (exp (e' - e)) = Rmin (exp e) (exp e').
Proof.
  unfold Rminus. rewrite exp_plus, exp_Ropp. pose proof (exp_pos e). pose proof (exp_pos e').
  unfold Rmin. destruct (Rle_dec 1 (exp e' * / exp e)) as [A|A]; destruct (Rle_dec (exp e) (exp e')) as [B|B].
  - ring.
  - exfalso. apply B. apply (Rmult_le_compat_l (exp e)) in A; [|lra]. replace (exp e * (exp e' * / exp e)) with (exp e') in A by (field; lra). lra.
  - exfalso. apply A. apply (Rmult_le_reg_l (exp e)); [assumption|]. replace (exp e * (exp e' * / exp e)) with (exp e') by (field; lra). lra.
  - field. lra.
Qed.

Theorem pmcmc_invariant k f :
  pm_target (fun u e y => law (kernel k u e y ts propose init_sampler n which) (fun r => let '(u', e', y', _) := r in f u' e' y')) =
  pm_target f.
Proof.
  unfold pm_target.
  set (S := fun (ys : list V) (c : list U * R) => f (nth which (fst c) udef) (snd c) ys).
  set (T := fun ys ys' => L ys (fun c => L ys' (fun c' => Rmin (exp (snd c)) (exp (snd c')) * (S ys' c' - S ys c)))).
  assert (HT : forall ys ys', T ys ys' = - T ys' ys).
  { intros ys ys'. unfold T.
    rewrite (has_laws_exchange _ _ _ _ k0 k0 (fun c c' => Rmin (exp (snd c)) (exp (snd c')) * (S ys' c' - S ys c)) (L_fin ys) (L_fin ys')).
    destruct (L_fin ys) as (d & _ & Hd & _). destruct (L_fin ys') as (d' & _ & Hd' & _).
    specialize (Hd k0). specialize (Hd' k0). rewrite !Hd'.
    rewrite <- (Ropp_involutive (E d' _)). f_equal.
    transitivity (-1 * E d' (fun c' => L ys (fun c => Rmin (exp (snd c)) (exp (snd c')) * (S ys' c' - S ys c)))); [ring|].
    rewrite <- E_mult_l. apply E_ext'. intros c'. rewrite !Hd, <- E_mult_l. apply E_ext'. intros c. rewrite Rmin_comm. ring. }
  transitivity (E P (fun ys => L ys (fun c => exp (snd c) * S ys c) + E (q ys) (fun ys' => T ys ys'))).
  - apply E_ext'. intros ys. destruct (L_fin ys) as (d & _ & Hd & _). specialize (Hd k0).
    rewrite !Hd. unfold T.
    rewrite (E_ext' (q ys) (fun ys' => L ys _) (fun ys' => E d (fun c => L ys' (fun c' => Rmin (exp (snd c)) (exp (snd c')) * (S ys' c' - S ys c)))))
      by (intros; apply Hd).
    rewrite E_exchange, <- E_plus. apply E_ext'. intros c. rewrite law_pmcmc_kernel.
    rewrite <- E_mult_l. rewrite <- (E_const (exp (snd c) * S ys c) (q ys)) by apply Hq. rewrite <- E_plus. apply E_ext'. intros ys'.
    destruct (L_fin ys') as (d' & Hp' & Hd' & _). specialize (Hd' k0). rewrite !Hd'.
    rewrite <- (E_const (exp (snd c) * S ys c) d') by assumption. rewrite <- E_mult_l, <- E_plus. apply E_ext'. intros c'.
    rewrite <- weighted_acc. unfold S. ring.
  - rewrite E_plus. 
    assert (H0 : E P (fun ys => E (q ys) (fun ys' => T ys ys')) = - E P (fun ys => E (q ys) (fun ys' => T ys ys'))).
    { rewrite (Hrev T) at 1. transitivity (-1 * E P (fun ys => E (q ys) (fun ys' => T ys ys'))); [|ring].
      rewrite <- E_mult_l. apply E_ext'. intros ys. rewrite <- E_mult_l. apply E_ext'. intros ys'. rewrite HT. ring. }
    assert (H1 : E P (fun ys => E (q ys) (fun ys' => T ys ys')) = 0) by lra. rewrite H1. unfold S. ring.
Qed.

(** marginally the observation path has the exact posterior weight *)
Theorem pm_target_paths (g : list V -> R) :
  pm_target (fun _ _ ys => g ys) = E P (fun ys => E (filter_target (rev ys) ts) (fun _ => 1) * g ys).
Proof.
  unfold pm_target. apply E_ext'. intros ys.
  rewrite <- (pmcmc_filter_unbiased (rev ys) ts k0 k0 n (fun _ => 1) Hn).
  destruct (L_fin ys) as (d & _ & Hd & Hs). specialize (Hd k0). rewrite !Hd. rewrite <- E_mult_r. apply E_ext. intros c Hc.
  rewrite Rsum_map_const, (Hs c Hc).
  assert (0 < INR n) by (apply lt_0_INR; lia). field. lra.
Qed.
End pm.
End filters.

(** ** Metropolis outcome *)
Section outcome.
Context {U V : Type} (udef : U) (vdef : V).
Variable transition_sampler : list U -> V -> R -> key -> prog (list U).
Variable measurement_cond_pdf : V -> list U -> V -> R -> list R.
Variable resampling : list R -> key -> prog (list nat).
Notation kernel := (pmcmc_kernel udef vdef transition_sampler measurement_cond_pdf resampling).

Theorem pmcmc_kernel_outcomes k uT log_ell ys ts propose ref n which keys out :
  runs (kernel k uT log_ell ys ts propose ref n which) keys out ->
  exists prop_ys u0s prop_uTs prop_log_ell z st k1 k2 k3,
    runs (propose (split_key k 0) ys) k1 prop_ys /\
    runs (ref (split_key k 1) (nth 0 (rev prop_ys) vdef) n) k2 u0s /\
    runs (pmcmc_filter_step udef transition_sampler measurement_cond_pdf resampling (split_key k 2) (rev prop_ys) u0s ts n) k3 (prop_uTs, prop_log_ell) /\
    in01 z /\
    ((z < Rmin 1 (exp (prop_log_ell - log_ell)) /\ out = (nth which prop_uTs udef, prop_log_ell, prop_ys, st)) \/
     (Rmin 1 (exp (prop_log_ell - log_ell)) <= z /\ out = (uT, log_ell, ys, st))) /\
    acceptance_prob st = Rmin 1 (exp (prop_log_ell - log_ell)) /\
    (is_accepted st = true <-> z < Rmin 1 (exp (prop_log_ell - log_ell))) /\
    st_prop_log_ell st = prop_log_ell /\ st_log_ell st = log_ell.
Proof.
  intros Hr. unfold pmcmc_kernel in Hr.
  apply runs_bind in Hr. destruct Hr as (k1 & prop_ys & k' & -> & H1 & Hr).
  apply runs_bind in Hr. destruct Hr as (k2 & u0s & k'' & -> & H2 & Hr).
  apply runs_bind in Hr. destruct Hr as (k3 & [us e] & k''' & -> & H3 & Hr).
  cbn [runs] in Hr. destruct Hr as (zs & tr & -> & Hz1 & Hz2 & -> & ->).
  destruct zs as [|z [|? ?]]; try discriminate. cbn [nth]. apply Forall_inv in Hz2.
  exists prop_ys, u0s, us, e, z, (mk_mcmc (exp (Rmin 0 (e - log_ell))) (log_lt z (Rmin 0 (e - log_ell))) e log_ell), k1, k2, k3.
  cbn [acceptance_prob is_accepted st_prop_log_ell st_log_ell]. rewrite exp_Rmin0.
  assert (Hs := log_lt_spec z (Rmin 0 (e - log_ell)) (proj1 Hz2)). rewrite exp_Rmin0 in Hs.
  repeat split; try assumption; try apply Hz2; try apply Hs.
  destruct (log_lt z (Rmin 0 (e - log_ell))) eqn:Hb.
  - left. split; [now apply Hs|]. reflexivity.
  - right. split; [|reflexivity]. apply Rnot_lt_le. intros G. apply Hs in G. discriminate.
Qed.

Theorem pmcmc_acceptance_probability k uT log_ell ys ts propose ref n which (h : R -> R -> R) :
  law (kernel k uT log_ell ys ts propose ref n which)
      (fun r => let st := snd r in h (st_prop_log_ell st) (st_log_ell st) * (if is_accepted st then 1 else 0)) =
  law (kernel k uT log_ell ys ts propose ref n which)
      (fun r => let st := snd r in h (st_prop_log_ell st) (st_log_ell st) * acceptance_prob st).
Proof.
  unfold pmcmc_kernel. rewrite !law_bind. apply law_ext. intros prop_ys. cbv zeta.
  rewrite !law_bind. apply law_ext. intros u0s. rewrite !law_bind. apply law_ext. intros [us e].
  set (x := Rmin 0 (e - log_ell)). assert (Hle : x <= 0) by apply Rmin_l.
  pose proof (fun h' => law_metropolis (split_key k 3) x
    (fun acc => if acc then (nth which us udef, e, prop_ys, mk_mcmc (exp x) acc e log_ell) else (uT, log_ell, ys, mk_mcmc (exp x) acc e log_ell)) h' Hle) as H.
  rewrite !H. cbn [snd is_accepted st_prop_log_ell st_log_ell acceptance_prob]. ring.
Qed.
End outcome.
