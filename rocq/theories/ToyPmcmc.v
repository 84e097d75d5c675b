(** experiments/toy/gp_pmcmc.py, imgs/inpainting.py, imgs/supr.py: how a particle MCMC chain is started. *)
From Coq Require Import Reals List Lia Lra.
From Verif Require Import PmcmcBias Twisted Demo.
Import ListNotations.
Open Scope R_scope.

(** ** Model *)
Section init.
Context {U V : Type} (udef : U) (vdef : V).
Variable trans : list U -> V -> R -> key -> prog (list U).
Variable meas : V -> list U -> V -> R -> list R.
Variable res : list R -> key -> prog (list nat).
Variable fwd_ys : key -> prog (list V).
Variable ref : key -> V -> nat -> prog (list U).

(** gp_pmcmc.py 145-151 [pmcmc_init]; key_bwd (index 1) is unused *)
Definition pmcmc_init (k : key) (ts : list R) (n : nat) : prog (U * R * list V) :=
  path_y <- fwd_ys (split_key k 0) ;;
  ' (x0s, log_ell) <- bootstrap_filter udef vdef trans meas res (rev path_y) ts ref (split_key k 2) n true true ;;
  ys <- fwd_ys (split_key k 3) ;;
  Ret (nth 0 (nth 0 x0s []) udef, log_ell, ys).

(** gp_pmcmc.py 163-176: the start, then one kernel step *)
Definition init_then_step (k k' : key) (ts : list R) (n which : nat) (propose : key -> list V -> prog (list V)) : prog (U * R * list V * mcmc_state) :=
  ' (x0, log_ell, ys) <- pmcmc_init k ts n ;;
  pmcmc_kernel udef vdef trans meas res k' x0 log_ell ys ts propose ref n which.

(** imgs/inpainting.py 254, imgs/supr.py 259: x0 = 0, log_ell = 0, ys drawn afresh *)
Definition img_init (k : key) : prog (U * R * list V) := ys <- fwd_ys k ;; Ret (udef, 0, ys).
End init.

(** ** Specification *)
(** (x, e, ys) is a state the kernel can carry: e is the log-likelihood estimate of a filter run on ys
    and x one of the particles of that run. *)
Definition filter_state {U V} (udef : U) (vdef : V) trans meas res (ref : key -> V -> nat -> prog (list U)) (ts : list R) (n : nat) (s : U * R * list V) : Prop :=
  exists k1 k2 tr1 tr2 u0s us which, (which < n)%nat /\
    runs (ref k1 (nth 0 (rev (snd s)) vdef) n) tr1 u0s /\
    runs (pmcmc_filter_step udef trans meas res k2 (rev (snd s)) u0s ts n) tr2 (us, snd (fst s)) /\
    fst (fst s) = nth which us udef.

(** ** When the likelihood does not depend on the particle *)
Section flat.
Context {U V : Type} (udef : U) (vdef : V).
Variable trans : list U -> V -> R -> key -> prog (list U).
Variable lc : V -> V -> R -> R.
Variable res : list R -> key -> prog (list nat).
Variable ref : key -> V -> nat -> prog (list U).
Definition flat_meas (v : V) (us : list U) (v' : V) (t : R) : list R := map (fun _ => lc v v' t) us.
Hypothesis trans_len : forall us v t k, safe (trans us v t k) (fun l => length l = length us).
Hypothesis res_len : forall w k, w <> [] -> safe (res w k) (fun A => length A = length w).
Hypothesis ref_len : forall k v n, safe (ref k v n) (fun l => length l = n).

Definition path_ll (vs : list V) (ts : list R) : R := Rsum (map (fun x => lc (fst (fst x)) (snd (fst x)) (snd x)) (filter_inputs vs ts)).

Lemma flat_lse v us v' t : (0 < length us)%nat -> logsumexp (flat_meas v us v' t) = ln (INR (length us)) + lc v v' t.
Proof.
  intros H. unfold logsumexp, flat_meas. rewrite map_map, Rsum_map_const, ln_mult; [now rewrite ln_exp| |apply exp_pos].
  now apply lt_0_INR.
Qed.

Lemma flat_pf n inputs : (0 < n)%nat -> forall k i us e, length us = n ->
  safe (pf_scan udef trans flat_meas res n k i inputs (us, e))
       (fun r => length (fst r) = n /\ snd r = e + Rsum (map (fun x => lc (fst (fst x)) (snd (fst x)) (snd x)) inputs)).
Proof.
  intros Hn. induction inputs as [|[[v v'] t] inputs IH]; intros k i us e Hl; cbn [pf_scan map Rsum fold_right].
  - apply safe_ret. cbn [fst snd]. split; [exact Hl|ring].
  - apply safe_bind with (P := fun r => length (fst r) = n /\ snd r = e + lc v v' t).
    + unfold pf_body. eapply safe_bind; [apply res_len|].
      * unfold flat_meas. destruct us; [cbn in Hl; lia|discriminate].
      * intros A HA. eapply safe_bind; [apply trans_len|]. intros l Hll. apply safe_ret. cbn [fst snd].
        rewrite Hll. unfold gather. rewrite map_length, HA. rewrite !map_length. unfold flat_meas at 1. rewrite map_length. split; [exact Hl|].
        rewrite flat_lse by lia. rewrite Hl. ring.
    + intros [us' e'] [Hl' He']. cbn [fst snd] in *. eapply safe_weaken; [|apply IH; exact Hl']. intros r [H1 H2]. split; [exact H1|].
      rewrite H2, He'. unfold Rsum. cbn [fst snd]. ring.
Qed.

Lemma flat_bf n inputs : (0 < n)%nat -> forall k i us e, length us = n ->
  safe (bf_scan udef trans flat_meas res n k i inputs (us, e))
       (fun r => length (fst (fst r)) = n /\ snd (fst r) = e - Rsum (map (fun x => lc (fst (fst x)) (snd (fst x)) (snd x)) inputs)).
Proof.
  intros Hn. induction inputs as [|[[v v'] t] inputs IH]; intros k i us e Hl; cbn [bf_scan map Rsum fold_right].
  - apply safe_ret. cbn [fst snd]. split; [exact Hl|ring].
  - apply safe_bind with (P := fun r => length (fst r) = n /\ snd r = e - lc v v' t).
    + unfold bf_body. eapply safe_bind; [apply trans_len|]. intros l Hll. eapply safe_bind; [apply res_len|].
      * unfold flat_meas. destruct us; [cbn in Hl; lia|discriminate].
      * intros A HA. apply safe_ret. cbn [fst snd].
        unfold gather. rewrite map_length, HA. rewrite !map_length. unfold flat_meas at 1. rewrite map_length. split; [exact Hl|].
        rewrite flat_lse by lia. rewrite Hl. ring.
    + intros [us' e'] [Hl' He']. cbn [fst snd] in *. eapply safe_bind; [apply IH; exact Hl'|]. intros [cT out] [H1 H2]. apply safe_ret. cbn [fst snd] in *. split; [exact H1|].
      rewrite H2, He'. unfold Rsum. ring.
Qed.

Lemma flat_bootstrap n vs ts k lg : (0 < n)%nat ->
  safe (bootstrap_filter udef vdef trans flat_meas res vs ts ref k n lg true) (fun r => snd r = - path_ll vs ts).
Proof.
  intros Hn. unfold bootstrap_filter. eapply safe_bind; [apply ref_len|]. intros us Hl.
  eapply safe_bind; [apply flat_bf; [exact Hn|exact Hl]|]. intros [[us' e] out] [_ H]. apply safe_ret. cbn [fst snd] in *. rewrite H. unfold path_ll. ring.
Qed.

Lemma flat_step n vs us ts k : (0 < n)%nat -> length us = n ->
  safe (pmcmc_filter_step udef trans flat_meas res k vs us ts n) (fun r => snd r = path_ll vs ts).
Proof.
  intros Hn Hl. unfold pmcmc_filter_step. eapply safe_weaken; [|apply flat_pf; [exact Hn|exact Hl]]. intros r [_ H]. rewrite H. unfold path_ll. ring.
Qed.

(** the first acceptance probability adds the two log-likelihoods instead of subtracting them *)
Theorem flat_first_acceptance (fwd_ys : key -> prog (list V)) k k' ts n which propose : (0 < n)%nat ->
  safe (init_then_step udef vdef trans flat_meas res fwd_ys ref k k' ts n which propose)
    (fun r => exists path_y prop_ys, acceptance_prob (snd r) = Rmin 1 (exp (path_ll (rev prop_ys) ts + path_ll (rev path_y) ts))).
Proof.
  intros Hn. unfold init_then_step, pmcmc_init.
  apply safe_bind with (P := fun s => exists path_y, snd (fst s) = - path_ll (rev path_y) ts).
  - apply safe_bind with (P := fun _ => True); [intros ? ? ?; exact I|]. intros path_y _.
    eapply safe_bind; [apply flat_bootstrap, Hn|]. intros [x0s e] He. cbn [snd] in He.
    apply safe_bind with (P := fun _ => True); [intros ? ? ?; exact I|]. intros ys _. apply safe_ret. exists path_y. exact He.
  - intros [[x0 e] ys] [path_y He]. cbn [fst snd] in He. intros tr r Hr.
    apply pmcmc_kernel_outcomes in Hr. destruct Hr as (prop_ys & u0s & us & pe & z & st & k1 & k2 & k3 & _ & H2 & H3 & _ & H4 & H5 & _).
    assert (Hp := flat_step n (rev prop_ys) u0s ts _ Hn (ref_len _ _ _ _ _ H2) _ _ H3). cbn [snd] in Hp.
    exists path_y, prop_ys. replace (snd r) with st by (destruct H4 as [[_ ->]|[_ ->]]; reflexivity).
    rewrite H5, Hp, He. f_equal. f_equal. ring.
Qed.

Theorem flat_filter_state ts n s : (0 < n)%nat -> filter_state udef vdef trans flat_meas res ref ts n s -> snd (fst s) = path_ll (rev (snd s)) ts.
Proof.
  intros Hn (k1 & k2 & tr1 & tr2 & u0s & us & w & _ & H1 & H2 & _).
  exact (flat_step n _ u0s ts k2 Hn (ref_len _ _ _ _ _ H1) _ _ H2).
Qed.
End flat.

(** ** What the start state is worth *)
Lemma bf_last_length {U V} (udef : U) (trans : list U -> V -> R -> key -> prog (list U)) meas res n :
  (forall us v v' t, length (meas v us v' t) = length us) ->
  (forall w k, w <> [] -> safe (res w k) (fun A => length A = length w)) ->
  (0 < n)%nat -> forall inputs k i us e, length us = n ->
  safe (bf_scan udef trans meas res n k i inputs (us, e)) (fun r => length (fst (fst r)) = n).
Proof.
  intros Hml Hrl Hn. induction inputs as [|[[v v'] t] inputs IH]; intros k i us e Hl; cbn [bf_scan].
  - now apply safe_ret.
  - apply safe_bind with (P := fun r => length (fst r) = n).
    + unfold bf_body. apply safe_bind with (P := fun _ => True); [intros ? ? ?; exact I|]. intros l _. eapply safe_bind; [apply Hrl|].
      * intros E0. apply (f_equal (@length R)) in E0. rewrite !map_length, Hml in E0. cbn in E0. lia.
      * intros A HA. apply safe_ret. cbn [fst]. unfold gather. now rewrite map_length, HA, !map_length, Hml.
    + intros [us' e'] Hl'. eapply safe_bind; [apply IH; exact Hl'|]. intros [cT out] H. now apply safe_ret.
Qed.

(** the negated value handed over is the log of an unbiased likelihood estimate of the filtered path *)
Theorem init_estimate {U V} (udef : U) (vdef : V) trans meas res M lg : filter_ok trans meas res M lg ->
  (forall w k, w <> [] -> safe (res w k) (fun A => length A = length w)) ->
  forall (m0 : V -> dist U) ref, (forall v, is_prob (m0 v)) -> (forall k v n, denotes (ref k v n) (dseq (repeat (m0 v) n))) ->
  (forall k v n, safe (ref k v n) (fun l => length l = n)) ->
  forall fwd_ys (P : dist (list V)), is_prob P -> (forall k, denotes (fwd_ys k) P) ->
  forall k ts n, (0 < n)%nat ->
  law (pmcmc_init udef vdef trans meas res fwd_ys ref k ts n) (fun s => exp (- snd (fst s))) =
  E P (fun path_y => E (filter_target vdef M lg m0 (rev path_y) ts) (fun _ => 1)).
Proof.
  intros Hf Hrl m0 ref Hm Hr Hrefl fwd_ys P HP Hfw k ts n Hn. unfold pmcmc_init. rewrite law_bind, (Hfw _ _). apply E_ext'. intros path_y.
  rewrite law_bind.
  rewrite <- (bootstrap_filter_unbiased udef vdef _ _ _ _ _ Hf m0 Hm ref Hr (rev path_y) ts (split_key k 2) n true true (fun _ => 1) Hn).
  unfold bootstrap_filter. rewrite !law_bind. eapply law_ext_safe; [apply Hrefl|]. intros us Hl. rewrite !law_bind. eapply law_ext_safe.
  - apply bf_last_length; [|exact Hrl|exact Hn|exact Hl]. intros. rewrite (fo_lik _ _ _ _ _ Hf). apply map_length.
  - intros [[us' e] out] H. cbn [fst snd] in H. cbn [law fst snd last]. rewrite law_bind, (Hfw _ _). cbn [law fst snd].
    rewrite Rsum_map_const, H, E_const by exact HP. field. apply not_0_INR. lia.
Qed.

(** ** Witnesses *)
Definition still (us : list bool) (v : bool) (t : R) (k : key) : prog (list bool) := Ret us.
Lemma still_len us v t k : safe (still us v t k) (fun l => length l = length us).
Proof. now apply safe_ret. Qed.
Lemma strat_len w k : w <> [] -> safe (stratified w k) (fun A => length A = length w).
Proof. intros H. eapply safe_weaken; [|now apply stratified_safe]. intros A HA. apply HA. Qed.
Lemma demo_ref_len k (v : bool) n : safe (demo_init k n) (fun l => length l = n).
Proof. unfold demo_init. eapply safe_weaken; [|apply fin_draws_length]. intros l Hl. now rewrite repeat_length in Hl. Qed.

(** some run exists *)
Definition has_run {A} (p : prog A) : Prop := exists tr a, runs p tr a.
Lemma has_run_ret {A} (a : A) : has_run (Ret a).
Proof. exists [], a. now split. Qed.
Lemma has_run_bind {A B} (p : prog A) (g : A -> prog B) : has_run p -> (forall a, has_run (g a)) -> has_run (bind p g).
Proof. intros (tr & a & H) Hg. destruct (Hg a) as (tr' & b & H'). exists (tr ++ tr'), b. apply runs_bind. now exists tr, a, tr'. Qed.
Lemma stratified_run w k : has_run (stratified w k).
Proof.
  exists [k], (stratified_of w (repeat 0 (length w))), (repeat 0 (length w)), []. split; [reflexivity|]. split; [apply repeat_length|]. split; [|now split].
  apply Forall_forall. intros x Hx. apply repeat_spec in Hx. subst. unfold in01. lra.
Qed.
Lemma fin_draws_run {A} (dflt : A) k ds : (forall d, In d ds -> d <> []) -> forall i, has_run (fin_draws dflt k i ds).
Proof.
  induction ds as [|d ds IH]; intros H i; cbn [fin_draws]; [apply has_run_ret|].
  apply has_run_bind; [|intros a; apply has_run_bind; [apply IH; intros d' Hd; apply H; now right|intros; apply has_run_ret]].
  exists [split_key k i], (nth 0 (map snd d) dflt), 0%nat, []. split; [reflexivity|]. split; [|now split].
  rewrite map_length. specialize (H d (or_introl eq_refl)). destruct d; [easy|cbn; lia].
Qed.

Definition half_lik (v v' : bool) (t : R) : R := ln (1 / 2).
Definition two_paths : dist (list bool) := [(1/2, [true; false]); (1/2, [true; true])].
Definition two_paths_draw (k : key) : prog (list bool) := fin_draw [] k two_paths.

Lemma two_paths_len k : safe (two_paths_draw k) (fun l => exists b, l = [true; b]).
Proof. apply safe_fin. intros i Hi. apply safe_ret. destruct i as [|[|i]]; cbn in *; [now exists false|now exists true|lia]. Qed.

(** every particle, path and observation has likelihood 1/2, so the exact acceptance ratio is 1 *)
Theorem sign_refuted n which k k' : (0 < n)%nat ->
  safe (init_then_step false true still (flat_meas half_lik) stratified two_paths_draw (fun k _ n => demo_init k n) k k' [0; 1] n which (fun k _ => two_paths_draw k))
    (fun r => acceptance_prob (snd r) = 1 / 4).
Proof.
  intros Hn. unfold init_then_step.
  apply safe_bind with (P := fun s => snd (fst s) = - ln (1 / 2)).
  - unfold pmcmc_init. eapply safe_bind; [apply two_paths_len|]. intros path_y [b ->].
    eapply safe_bind; [apply (flat_bootstrap false true still half_lik stratified (fun k _ n => demo_init k n) still_len strat_len demo_ref_len n _ [0; 1] _ true Hn)|].
    intros [x0s e] He. cbn [snd] in He.
    apply safe_bind with (P := fun _ => True); [intros ? ? ?; exact I|]. intros ys _. apply safe_ret. cbn [fst snd]. rewrite He. unfold path_ll, half_lik. cbn. ring.
  - intros [[x0 e] ys] He. cbn [fst snd] in He. intros tr r Hr.
    apply pmcmc_kernel_outcomes in Hr. destruct Hr as (prop_ys & u0s & us & pe & z & st & k1 & k2 & k3 & H1 & H2 & H3 & _ & H4 & H5 & _).
    destruct (two_paths_len _ _ _ H1) as [b ->].
    assert (Hp := flat_step false still half_lik stratified still_len strat_len n (rev [true; b]) u0s [0; 1] _ Hn (demo_ref_len _ true _ _ _ H2) _ _ H3). cbn [snd] in Hp.
    replace (snd r) with st by (destruct H4 as [[_ ->]|[_ ->]]; reflexivity).
    rewrite H5, Hp, He. unfold path_ll, half_lik. cbn [rev app filter_inputs map Rsum fold_right fst snd].
    replace (ln (1 / 2) + 0 - - ln (1 / 2)) with (ln (1 / 2) + ln (1 / 2)) by ring. rewrite exp_plus, exp_ln by lra. rewrite Rmin_right; lra.
Qed.

Lemma dseq_still (us : list bool) : forall f, f us = E (dseq (map dret us)) f.
Proof. induction us as [|u us IH]; intros f; cbn [map]; [exact (eq_sym (E_dret [] f))|]. rewrite E_dseq_cons, E_dret. apply (IH (fun l => f (u :: l))). Qed.

Lemma half_filter : filter_ok still (flat_meas half_lik) stratified (fun _ _ => dret) (fun v v' t _ => half_lik v v' t).
Proof.
  constructor.
  - intros. apply is_prob_dret.
  - intros us v t k f. apply dseq_still.
  - reflexivity.
  - constructor; [|exact stratified_unbiased]. intros w k Hw tr A Hr. exact (proj1 (stratified_safe w k (weights_ok_nonempty w Hw) tr A Hr)).
Qed.

Lemma two_paths_prob : is_prob two_paths.
Proof. unfold two_paths. split; [constructor; [cbn; lra|constructor; [cbn; lra|constructor]]|rewrite !E_cons; unfold E; cbn; lra]. Qed.

Lemma half_estimate k n : (0 < n)%nat ->
  law (pmcmc_init false true still (flat_meas half_lik) stratified two_paths_draw (fun k _ n => demo_init k n) k [0; 1] n) (fun s => exp (- snd (fst s))) = 1 / 2.
Proof.
  intros Hn.
  etransitivity; [refine (init_estimate false true _ _ _ _ _ half_filter strat_len (fun _ => coin) _ (fun _ => coin_prob) _ demo_ref_len two_paths_draw two_paths two_paths_prob _ k [0; 1] n Hn); intros; [apply fin_draws_denotes|apply fin_draw_denotes]|].
  transitivity (E two_paths (fun _ => 1 / 2)); [|apply E_const, two_paths_prob].
  apply E_ext. intros ys Hy. unfold two_paths in Hy. cbn [map snd In] in Hy.
  assert (Hs : exists a b, rev ys = [a; b]) by (destruct Hy as [<-|[<-|[]]]; cbn; eauto). destruct Hs as (a & b & ->).
  unfold filter_target, fk_measure. rewrite E_dbind. transitivity (E coin (fun _ => 1 / 2)); [|apply E_const, coin_prob].
  apply E_ext'. intros u. rewrite E_dscale, E_dmap, exp_0. cbn [step_data fk_of map fk_path].
  rewrite E_dscale, E_dbind, E_dret, E_dmap, E_dret. unfold half_lik. rewrite exp_ln by lra. ring.
Qed.

(** the same chain started with the right sign accepts every proposal *)
Theorem sign_fixed n which k x0 ys : (0 < n)%nat ->
  safe (pmcmc_kernel false true still (flat_meas half_lik) stratified k x0 (ln (1 / 2)) ys [0; 1] (fun k _ => two_paths_draw k) (fun k _ n => demo_init k n) n which)
    (fun r => acceptance_prob (snd r) = 1).
Proof.
  intros Hn tr r Hr. apply pmcmc_kernel_outcomes in Hr. destruct Hr as (prop_ys & u0s & us & pe & z & st & k1 & k2 & k3 & H1 & H2 & H3 & _ & H4 & H5 & _).
  destruct (two_paths_len _ _ _ H1) as [b ->].
  assert (Hp := flat_step false still half_lik stratified still_len strat_len n (rev [true; b]) u0s [0; 1] _ Hn (demo_ref_len _ true _ _ _ H2) _ _ H3). cbn [snd] in Hp.
  replace (snd r) with st by (destruct H4 as [[_ ->]|[_ ->]]; reflexivity).
  rewrite H5, Hp. unfold path_ll, half_lik. cbn [rev app filter_inputs map Rsum fold_right fst snd].
  replace (ln (1 / 2) + 0 - ln (1 / 2)) with 0 by ring. rewrite exp_0. apply Rmin_left. lra.
Qed.

(** the likelihood of the path [true; b] is 1/2 or 1/4 *)
Definition path_lik (v v' : bool) (t : R) : R := if v' then ln (1 / 2) else ln (1 / 4).

Theorem path_refuted n k : (0 < n)%nat -> exists tr x e,
  runs (pmcmc_init false true still (flat_meas path_lik) stratified two_paths_draw (fun k _ n => demo_init k n) k [0; 1] n) tr (x, e, [true; true]) /\
  ~ filter_state false true still (flat_meas path_lik) stratified (fun k _ n => demo_init k n) [0; 1] n (x, e, [true; true]) /\
  ~ filter_state false true still (flat_meas path_lik) stratified (fun k _ n => demo_init k n) [0; 1] n (x, - e, [true; true]).
Proof.
  intros Hn.
  assert (Hb : has_run (bootstrap_filter false true still (flat_meas path_lik) stratified (rev [true; false]) [0; 1] (fun k _ n => demo_init k n) (split_key k 2) n true true)).
  { unfold bootstrap_filter. apply has_run_bind; [apply fin_draws_run; intros d Hd; apply repeat_spec in Hd; subst; discriminate|]. intros us.
    apply has_run_bind; [|intros [[? ?] ?]; apply has_run_ret]. cbn [rev app filter_inputs bf_scan]. apply has_run_bind; [|intros; apply has_run_bind; [apply has_run_ret|intros [? ?]; apply has_run_ret]].
    unfold bf_body. apply has_run_bind; [apply has_run_ret|]. intros l. apply has_run_bind; [apply stratified_run|intros; apply has_run_ret]. }
  destruct Hb as (tr & [x0s e] & Hb).
  assert (He := flat_bootstrap false true still path_lik stratified _ still_len strat_len demo_ref_len n _ [0; 1] _ true Hn _ _ Hb). cbn [snd] in He.
  unfold path_ll, path_lik in He. cbn [rev app filter_inputs map Rsum fold_right fst snd] in He.
  exists ([split_key k 0] ++ tr ++ [split_key k 3]), (nth 0 (nth 0 x0s []) false), e. split; [|split].
  - apply runs_bind. exists [split_key k 0], [true; false], (tr ++ [split_key k 3]). split; [reflexivity|]. split.
    + exists 0%nat, []. cbn. repeat split; lia.
    + apply runs_bind. exists tr, (x0s, e), [split_key k 3]. split; [reflexivity|]. split; [exact Hb|].
      apply runs_bind. exists [split_key k 3], [true; true], []. split; [reflexivity|]. split.
      * exists 1%nat, []. cbn. repeat split; lia.
      * split; reflexivity.
  - intros H. apply (flat_filter_state false true still path_lik stratified _ still_len strat_len demo_ref_len _ _ _ Hn) in H. cbn [fst snd] in H.
    unfold path_ll, path_lik in H. cbn [rev app filter_inputs map Rsum fold_right fst snd] in H.
    assert (ln (1 / 2) < 0) by (rewrite <- ln_1; apply ln_increasing; lra). assert (ln (1 / 4) < 0) by (rewrite <- ln_1; apply ln_increasing; lra). lra.
  - intros H. apply (flat_filter_state false true still path_lik stratified _ still_len strat_len demo_ref_len _ _ _ Hn) in H. cbn [fst snd] in H.
    unfold path_ll, path_lik in H. cbn [rev app filter_inputs map Rsum fold_right fst snd] in H.
    assert (ln (1 / 4) < ln (1 / 2)) by (apply ln_increasing; lra). lra.
Qed.

Theorem img_refuted n k : (0 < n)%nat ->
  safe (img_init false two_paths_draw k) (fun s => ~ filter_state false true still (flat_meas path_lik) stratified (fun k _ n => demo_init k n) [0; 1] n s).
Proof.
  intros Hn. unfold img_init. eapply safe_bind; [apply two_paths_len|]. intros ys [b ->]. apply safe_ret. intros H.
  apply (flat_filter_state false true still path_lik stratified _ still_len strat_len demo_ref_len _ _ _ Hn) in H. cbn [fst snd] in H.
  unfold path_ll, path_lik in H. cbn [rev app filter_inputs map Rsum fold_right fst snd] in H.
  assert (ln (1 / 2) < 0) by (rewrite <- ln_1; apply ln_increasing; lra). assert (ln (1 / 4) < 0) by (rewrite <- ln_1; apply ln_increasing; lra).
  destruct b; lra.
Qed.
