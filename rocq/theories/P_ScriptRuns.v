(** C114: keys and independence in the main loops of the experiment scripts; C115: the statistics of tabulate_toy.py. *)
From Coquelicot Require Import Coquelicot.
From Verif Require Import Mat MatMore Hygiene GibbsMore Pmcmc ToyPmcmc FilterLimit FilterSlot Twisted TwistedLimit Demo GibbsDemo PmcmcErgodic ScriptRuns SampleStats
  P_Smc P_PmcmcErgodic P_TwistedLimit.
Open Scope R_scope.

(** ** C114 *)
(** keys: every key of a whole run is consumed at most once *)
Theorem C114_gibbs_run_keys : forall (U V : Type) (udef : U) (vdef : V) fwd bridge normal trans tlp lik y0 ts n marg_y eb ef init,
  (forall k x y, good [k] (fwd k x y)) -> (forall k y y' ts, good [k] (bridge k y y' ts)) -> (forall k n, good [k] (normal k n)) ->
  (forall us v t k, good [k] (trans us v t k)) -> (forall k, good [k] (init k)) ->
  forall k nchains m, good [k] (chains_run (gibbs_move udef vdef fwd bridge normal trans tlp lik y0 ts n marg_y eb ef) init k nchains m).
Proof. intros. apply chains_run_good; [|assumption]. intros. now apply gibbs_move_good. Qed.
Print Assumptions C114_gibbs_run_keys.

Theorem C114_pmcmc_run_keys : forall (U V : Type) (udef : U) (vdef : V) trans meas res (ref : key -> V -> nat -> prog (list U)) propose n which ts init,
  (forall k v n, good [k] (ref k v n)) -> (forall us v t k, good [k] (trans us v t k)) -> (forall w k, good [k] (res w k)) ->
  (forall k ys, good [k] (propose k ys)) -> (forall k, good [k] (init k)) ->
  forall k nchains m, good [k] (chains_run (pmcmc_move udef vdef trans meas res ref propose n which ts) init k nchains m).
Proof. intros. apply chains_run_good; [|assumption]. intros. now apply pmcmc_move_good. Qed.
Print Assumptions C114_pmcmc_run_keys.

Theorem C114_filter_run_keys : forall (U V : Type) (udef : U) (vdef : V) trans lik res (fwd_ys : key -> prog (list V)) ts (ref : key -> V -> nat -> prog (list U)) n,
  (forall k, good [k] (fwd_ys k)) -> (forall k v n, good [k] (ref k v n)) -> (forall us v t k, good [k] (trans us v t k)) -> (forall w k, good [k] (res w k)) ->
  forall k nsamples, good [k] (sample_loop (conditional_sampler udef vdef trans lik res fwd_ys ts ref n) k nsamples).
Proof. intros. apply sample_loop_good. now apply conditional_sampler_good. Qed.
Print Assumptions C114_filter_run_keys.

Theorem C114_twisted_run_keys : forall (U Y : Type) (udef : U) tlp wlp (prop : key -> list U -> R -> Y -> prog (list U)) plp res (init : key -> nat -> prog (list U)) n y ts,
  (forall k n, good [k] (init k n)) -> (forall k us t y, good [k] (prop k us t y)) -> (forall w k, good [k] (res w k)) ->
  forall k nsamples, good [k] (sample_loop (twisted_sampler udef tlp wlp prop plp res init n y ts) k nsamples).
Proof. intros. apply sample_loop_good. now apply twisted_sampler_good. Qed.
Print Assumptions C114_twisted_run_keys.

(** laws: chains advanced together are independent, and each is distributed as it is alone *)
Theorem C114_pmcmc_chains_independent : forall (U V : Type) (udef : U) (vdef : V) trans meas res M lg m0 (ref : key -> V -> nat -> prog (list U)) q propose n which ts,
  filter_ok trans meas res M lg -> (forall v, is_prob (m0 v)) -> (forall k v n, denotes (ref k v n) (dseq (repeat (m0 v) n))) ->
  (forall w, weights_ok w -> has_laws (valid_indices (length w)) (res w)) ->
  (forall ys, is_prob (q ys)) -> (forall k ys, denotes (propose k ys) (q ys)) -> (0 < n)%nat ->
  forall k k' j m ss fs, length fs = length ss ->
  law (chains_loop (pmcmc_move udef vdef trans meas res ref propose n which ts) k m ss) (prods fs) =
  prods (map (fun f s => law (pmcmc_chain udef vdef trans meas res ref propose n which ts j k' m (fst (fst s)) (snd (fst s)) (snd s)) f) fs) ss.
Proof.
  intros U V udef vdef trans meas res M lg m0 ref q propose n which ts Hfo Hm0 Hinit Hres Hq Hprop Hn k k' j m ss fs Hl.
  rewrite (chains_independent _ (fun _ => True) (fun s _ => pmcmc_move_laws udef vdef trans meas res M lg m0 ref q propose n which ts Hfo Hm0 Hinit Hres Hq Hprop Hn s)
    m k k' j ss fs ltac:(apply Forall_forall; trivial) Hl).
  apply (prods_ext_inv (fun _ => True)); [apply Forall_forall; trivial|]. clear. induction fs as [|f fs IH]; constructor; [|exact IH].
  intros [[u e] ys] _. symmetry. apply pmcmc_chain_alone.
Qed.
Print Assumptions C114_pmcmc_chains_independent.

(** the same for any kernel with finite laws *)
Theorem C114_chains_independent : forall (S : Type) (kern : key -> S -> prog S) (Inv : S -> Prop), (forall s, Inv s -> has_laws Inv (fun k => kern k s)) ->
  forall m k k' j ss fs, Forall Inv ss -> length fs = length ss ->
  law (chains_loop kern k m ss) (prods fs) = prods (map (fun f s => law (chain_alone kern j k' m s) f) fs) ss.
Proof. intros S kern Inv H m k k' j. exact (chains_independent kern Inv H m k k' j). Qed.
Print Assumptions C114_chains_independent.

(** repeated sampling: independent copies of one law, the same for every key *)
Theorem C114_filter_samples_iid : forall (U V : Type) (udef : U) (vdef : V) trans lik res M lg m0 (ref : key -> V -> nat -> prog (list U)) (fwd_ys : key -> prog (list V)) P ts n,
  filter_ok trans lik res M lg -> consistent_res res -> (forall v, is_prob (m0 v)) -> (forall k v n, denotes (ref k v n) (dseq (repeat (m0 v) n))) ->
  is_prob P -> (forall k, denotes (fwd_ys k) P) -> (0 < n)%nat ->
  let sampler := conditional_sampler udef vdef trans lik res fwd_ys ts ref n in
  exists D, is_prob D /\ (forall k, denotes (sampler k) D) /\ forall k nsamples, denotes (sample_loop sampler k nsamples) (dseq (repeat D nsamples)).
Proof.
  intros U V udef vdef trans lik res M lg m0 ref fwd_ys P ts n Hfo Hcr Hm0 Hinit HP Hf Hn sampler.
  destruct (conditional_sampler_laws udef vdef trans lik res M lg m0 ref fwd_ys P ts n Hfo Hcr Hm0 Hinit HP Hf Hn) as (D & H1 & H2 & _).
  exists D. split; [assumption|]. split; [exact H2|]. intros k nsamples. now apply sample_loop_denotes.
Qed.
Print Assumptions C114_filter_samples_iid.

Theorem C114_twisted_samples_iid : forall (U Y : Type) (udef : U) tlp wlp prop plp res init m0 p q lp lq psi n (y : Y) ts,
  twisted_ok tlp wlp prop plp res init m0 p q lp lq psi -> consistent_res res -> (0 < n)%nat ->
  let sampler := twisted_sampler udef tlp wlp prop plp res init n y ts in
  exists D, is_prob D /\ (forall k, denotes (sampler k) D) /\ forall k nsamples, denotes (sample_loop sampler k nsamples) (dseq (repeat D nsamples)).
Proof.
  intros U Y udef tlp wlp prop plp res init m0 p q lp lq psi n y ts Hok Hcr Hn sampler.
  destruct (twisted_sampler_laws udef tlp wlp prop plp res init m0 p q lp lq psi n y ts Hok Hcr Hn) as (D & H1 & H2 & _).
  exists D. split; [assumption|]. split; [exact H2|]. intros k nsamples. now apply sample_loop_denotes.
Qed.
Print Assumptions C114_twisted_samples_iid.

(** Two chains of the two-state model (C111_example): both at [true] with probability (5/8)^2 in the limit; and the keys. *)
Example C114_example : forall k m u, let move := pmcmc_move false true demo_trans demo_lik killing demo_init' (fun k _ => fin_draw [] k demo_paths) 4 0 [0; 1] in
  Rabs (law (chains_loop move k m [(u, 0, [true; true]); (negb u, 0, [true; true])]) (prods [fun s => b2r (fst (fst s)); fun s => b2r (fst (fst s))])
        - (5 / 8) ^ 2) <= 3 * (/ 3) ^ m /\
  good [k] (chains_run move (fun k => u0 <- fin_draw false k coin ;; Ret (u0, 0, [true; true])) k 2 m).
Proof.
  intros k m u move. split.
  - assert (HP : is_prob demo_paths) by (split; [repeat constructor; simpl; lra|unfold demo_paths, E; simpl; lra]).
    pose (f := fun s : bool * R * list bool => b2r (fst (fst s))).
    pose proof (C114_pmcmc_chains_independent bool bool false true demo_trans demo_lik killing demo_M demo_lg (fun _ => coin) demo_init' (fun _ => demo_paths)
      (fun k _ => fin_draw [] k demo_paths) 4 0 [0; 1] (demo_filter _ (proj1 (proj2 (proj2 C19_library_schemes)))) (fun _ => coin_prob) demo_init'_denotes
      (fun w Hw => proj2 (proj2 (C21_library_schemes w Hw))) (fun _ => HP) ltac:(intros; apply fin_draw_denotes) ltac:(lia) k [] 0 m
      [(u, 0, [true; true]); (negb u, 0, [true; true])] [f; f] eq_refl) as H.
    fold move in H.
    pose proof (C111_example 0 [] m u 4 0 ltac:(lia)) as Ha. pose proof (C111_example 0 [] m (negb u) 4 0 ltac:(lia)) as Hb.
    assert (Hp : 0 <= (/ 3) ^ m <= 1).
    { split; [apply pow_le; lra|]. rewrite <- (pow1 m). apply pow_incr. lra. }
    change (prods [fun s : bool * R * list bool => b2r (fst (fst s)); fun s => b2r (fst (fst s))]) with (prods [f; f]). rewrite H. clear H. cbn [map prods fst snd]. rewrite Rmult_1_r. unfold f. cbv beta in Ha, Hb.
    match goal with |- Rabs (?p * ?q - _) <= _ => set (a := p) in *; set (b := q) in * end.
    replace (a * b - (5 / 8) ^ 2) with ((a - 5 / 8) * (b - 5 / 8) + 5 / 8 * (a - 5 / 8) + 5 / 8 * (b - 5 / 8)) by ring.
    apply Rabs_le_between in Ha. apply Rabs_le_between in Hb. apply Rabs_le.
    set (e := (/ 3) ^ m) in *. set (x := a - 5 / 8) in *. set (y := b - 5 / 8) in *. assert (Hxy : - e <= x * y <= e) by (split; nra). split; lra.
  - apply C114_pmcmc_run_keys; intros; [apply fin_draws_good_key|apply fin_draws_good_key|apply killing_good|apply good_fin|].
    apply good_bind_ret, good_fin.
Qed.

(** ** C115 *)
(** independent samples (the filter, twisted and score-based rows of the table): mean and covariance are unbiased *)
Theorem C115_mean_unbiased : forall d n D (sampler : key -> prog vec), is_prob D -> (forall k, denotes (sampler k) D) -> (0 < n)%nat ->
  forall k i, (i < d)%nat -> law (sample_loop sampler k n) (fun l => approx_mean l i) = E D (fun x => x i).
Proof. intros d n D sampler HD Hs Hn k i Hi. exact (table_mean d n D sampler HD Hs k i Hn Hi). Qed.
Print Assumptions C115_mean_unbiased.

Theorem C115_cov_unbiased : forall d n D (sampler : key -> prog vec), is_prob D -> (forall k, denotes (sampler k) D) -> (2 <= n)%nat ->
  forall k i j, (i < d)%nat -> (j < d)%nat ->
  law (sample_loop sampler k n) (fun l => approx_cov l i j) = E D (fun x => (x i - E D (fun y => y i)) * (x j - E D (fun y => y j))).
Proof. intros d n D sampler HD Hs Hn k i j Hi Hj. exact (table_cov d n D sampler HD Hs k i j Hn Hi Hj). Qed.
Print Assumptions C115_cov_unbiased.

(** the tabulated error of the mean: at least the bias of the sampler, at most the bias plus the standard error *)
Theorem C115_mean_error : forall d n D (sampler : key -> prog vec) gp_mean, is_prob D -> (forall k, denotes (sampler k) D) -> (0 < n)%nat -> forall k,
  let bias i := Rabs (E D (fun x => x i) - gp_mean i) in
  Rmean (map bias (seq 0 d)) <= law (sample_loop sampler k n) (err_m d gp_mean) <=
  Rmean (map (fun i => bias i + sqrt (E D (fun x => (x i - E D (fun y => y i)) * (x i - E D (fun y => y i))) / INR n)) (seq 0 d)).
Proof. intros d n D sampler gp_mean HD Hs Hn k. exact (table_err_m d n D sampler HD Hs k gp_mean Hn). Qed.
Print Assumptions C115_mean_error.

(** chains (the Gibbs and pMCMC rows): the mean is unbiased at stationarity *)
Theorem C115_chain_mean : forall (S : Type) (kern : key -> S -> prog S) (Inv : S -> Prop), (forall s, Inv s -> has_laws Inv (fun k => kern k s)) ->
  forall pi, is_prob pi -> (forall s, In s (map snd pi) -> Inv s) -> (forall k f, E pi (fun s => law (kern k s) f) = E pi f) ->
  forall j k m (phi : S -> R), E pi (fun s => law (chain_record kern j k m s) (fun l => Rsum (map phi l))) = INR m * E pi phi.
Proof. intros S kern Inv HL pi H1 H2 H3 j k m phi. exact (record_mean kern Inv HL pi j m phi H1 H2 H3 k). Qed.
Print Assumptions C115_chain_mean.

(** the variance: for any identically distributed run, in terms of the error of the mean; too small when the run is positively correlated *)
Theorem C115_chain_variance : forall d n W mu Gam c, run_moments d n W mu Gam -> (forall t i, (t < n)%nat -> (i < d)%nat -> Gam t t i i = c i i) ->
  forall i, (2 <= n)%nat -> (i < d)%nat ->
  E W (fun l => approx_cov l i i) = INR n / (INR n - 1) * (c i i - E W (fun l => (approx_mean l i - mu i) ^ 2)) /\
  ((forall s t, (s < n)%nat -> (t < n)%nat -> 0 <= Gam s t i i) -> (exists s t, (s < n)%nat /\ (t < n)%nat /\ s <> t /\ 0 < Gam s t i i) ->
   E W (fun l => approx_cov l i i) < c i i).
Proof.
  intros d n W mu Gam c HW Hc i Hn Hi. split; [exact (var_shortfall d n W mu Gam HW c Hc i Hn Hi)|].
  intros H0 (s & t & Hs & Ht & Hst & Hp). exact (var_underestimated d n W mu Gam HW c Hc i s t Hi Hs Ht Hst H0 Hp).
Qed.
Print Assumptions C115_chain_variance.

(** a stationary chain whose tabulated covariance has half the right expectation *)
Definition sticky_kern (k : key) (s : bool) : prog bool := fin_draw false k (sticky s).
Definition as_vec (b : bool) : vec := fun _ => b2r b.
Lemma sticky_pair F : forall j k, E coin (fun s => law (chain_record sticky_kern j k 2 s) F) =
  3/8 * F [true; true] + 1/8 * F [true; false] + 1/8 * F [false; true] + 3/8 * F [false; false].
Proof.
  intros j k. cbn [chain_record]. unfold sticky_kern.
  rewrite (E_ext' _ _ (fun s => E (sticky s) (fun s' => E (sticky s') (fun s'' => F [s'; s''])))).
  - unfold coin, sticky. rewrite !E_cons. cbn [negb]. unfold E. cbn [map fst snd Rsum negb]. lra.
  - intros s. rewrite law_bind, (fin_draw_denotes false _ (sticky s) _). apply E_ext'. intros s'. rewrite !law_bind.
    rewrite (fin_draw_denotes false _ (sticky s') _). apply E_ext'. intros s''. rewrite law_bind. reflexivity.
Qed.
Theorem C115_chain_cov_refuted : exists (kern : key -> bool -> prog bool) pi, is_prob pi /\ (forall s, has_laws (fun _ => True) (fun k => kern k s)) /\
  (forall k f, E pi (fun s => law (kern k s) f) = E pi f) /\
  let c := E pi (fun s => (b2r s - E pi b2r) * (b2r s - E pi b2r)) in
  c = 1/4 /\ forall j k, E pi (fun s => law (chain_record kern j k 2 s) (fun l => approx_cov (map as_vec l) 0%nat 0%nat)) = c / 2.
Proof.
  exists sticky_kern, coin. split; [exact coin_prob|]. split; [|split].
  - intros s. apply (has_laws_denotes _ _ (sticky s)); [apply sticky_prob|intros; apply fin_draw_denotes|trivial].
  - intros k f. unfold sticky_kern. rewrite (E_ext' _ _ (fun s => E (sticky s) f)) by (intros s; apply fin_draw_denotes).
    unfold coin, sticky. rewrite !E_cons. unfold E. cbn [map fst snd Rsum negb]. lra.
  - intros c. assert (Hc : c = 1/4) by (unfold c, coin, E; cbn [map fst snd Rsum b2r]; lra). split; [exact Hc|].
    intros j k. rewrite sticky_pair, Hc. unfold approx_cov, approx_mean, Rmean, as_vec. cbn [map Rsum length INR b2r]. lra.
Qed.
Print Assumptions C115_chain_cov_refuted.

(** the tabulated covariance is symmetric and positive semi-definite, but [kl] and [bures_dist] need more samples than dimensions:
    with fewer there is no Cholesky factor, whatever the samples *)
Theorem C115_cov_psd : forall d l, (2 <= length l)%nat -> symmetric d (approx_cov l) /\ psd d (approx_cov l).
Proof. exact cov_psd. Qed.
Print Assumptions C115_cov_psd.
Theorem C115_few_samples_refuted : forall d l, (2 <= length l <= d)%nat ->
  ~ exists L, lower d L /\ diag_pos d L /\ meq d (mmul d L (mtr L)) (approx_cov l).
Proof.
  intros d l Hl (L & H1 & H2 & H3). apply (cov_singular d l Hl). intros x Hx.
  pose proof (Cholesky.gram_posdef d L H1 H2 x Hx) as H. replace (quad d (approx_cov l) x) with (quad d (mmul d L (mtr L)) x); [exact H|].
  unfold quad, mvec. apply Rsum_map_ext. intros i Hi. apply in_seq in Hi. f_equal. apply Rsum_map_ext. intros j Hj. apply in_seq in Hj.
  rewrite (H3 i j) by lia. reflexivity.
Qed.
Print Assumptions C115_few_samples_refuted.

(** Three samples in the plane, and ten draws from the three points. *)
Example C115_example :
  let p (x y : R) : vec := fun i => match i with O => x | _ => y end in
  let l := [p 0 0; p 3 0; p 0 3] in
  approx_mean l 0%nat = 1 /\ approx_cov l 0%nat 0%nat = 3 /\ approx_cov l 0%nat 1%nat = - (3 / 2) /\
  err_m 2 (p 0 3) l = 3 / 2 /\
  (forall k, law (sample_loop (fun k => fin_draw zero_vec k [(1/3, p 0 0); (1/3, p 3 0); (1/3, p 0 3)]) k 10) (fun l => approx_cov l 0%nat 1%nat) = - 1).
Proof.
  intros p l. assert (Hm : forall i, approx_mean l i = 1).
  { intros [|i]; unfold approx_mean, Rmean, l, p; cbn [map Rsum length INR]; lra. }
  split; [apply Hm|]. split; [|split; [|split]].
  - unfold approx_cov. rewrite Hm. unfold l, p. cbn [map Rsum length INR]. lra.
  - unfold approx_cov. rewrite !Hm. unfold l, p. cbn [map Rsum length INR]. lra.
  - unfold err_m, Rmean. cbn [seq map Rsum length INR]. rewrite !Hm. unfold p. rewrite (Rabs_right (1 - 0)), (Rabs_left (1 - 3)) by lra. lra.
  - intros k. rewrite (C115_cov_unbiased 2 10 [(1/3, p 0 0); (1/3, p 3 0); (1/3, p 0 3)]); try lia.
    + unfold E. cbn [map fst snd Rsum p]. lra.
    + split; [repeat constructor; cbn [fst]; lra|unfold E; cbn [map fst snd Rsum]; lra].
    + intros k'. apply fin_draw_denotes.
Qed.
