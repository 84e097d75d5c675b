(** Properties of the Gibbs sampler. *)
From Coq Require Import String.
From Verif Require Import GibbsDemo Twisted.
Open Scope R_scope.

(** ** C13 *)
Theorem C13_force_move_reversible : forall k w f, weights_ok w ->
  Forall (fun x => x < Rmax (1 - exp (- INR (length w))) (1 - / 10 ^ 12) \/ x = 1) w ->
  E (dcat w) (fun a => law (force_move k w a) (fun r => f a (fst r))) =
  E (dcat w) (fun a => law (force_move k w a) (fun r => f (fst r) a)).
Proof. exact force_move_reversible. Qed.
Print Assumptions C13_force_move_reversible.

Theorem C13_force_move_invariant : forall k w h, weights_ok w ->
  Forall (fun x => x < Rmax (1 - exp (- INR (length w))) (1 - / 10 ^ 12) \/ x = 1) w ->
  E (dcat w) (fun a => law (force_move k w a) (fun r => h (fst r))) = E (dcat w) h.
Proof. exact force_move_invariant. Qed.
Print Assumptions C13_force_move_invariant.

Theorem C13_force_move_range : forall k w a tr r, weights_ok w -> (a < length w)%nat ->
  runs (force_move k w a) tr r -> (fst r < length w)%nat.
Proof. intros k w a tr r Hw Ha Hr. exact (force_move_safe k w a Hw Ha tr r Hr). Qed.
Print Assumptions C13_force_move_range.

(** from weights (0.3, 0.2, 0.5) at index 0 the move goes to index 2 with probability 5/7 *)
Example C13_example : forall k, let w := [3/10; 2/10; 5/10] in
  weights_ok w /\ Forall (fun x => x < Rmax (1 - exp (- INR (length w))) (1 - / 10 ^ 12) \/ x = 1) w /\
  law (force_move k w 0) (fun r => if Nat.eqb (fst r) 2 then 1 else 0) = 5/7.
Proof.
  intros k w. assert (Hw : weights_ok w) by (split; [repeat constructor; lra|unfold w; cbn [Rsum]; lra]).
  assert (Ht : 1/2 < fm_threshold (length w)).
  { apply Rlt_le_trans with (1 - / 10 ^ 12); [|apply fm_threshold_ge].
    assert (/ 10 ^ 12 < / 2) by (apply Rinv_lt_contravar; lra). lra. }
  split; [assumption|]. split.
  { fold (fm_threshold (length w)). revert Ht. generalize (fm_threshold (length w)). intros T HT. unfold w. repeat (apply Forall_cons; [left; lra|]). apply Forall_nil. }
  rewrite force_move_law by (assumption || (unfold w; cbn [length]; lia)). rewrite E_dcat, length_fm_rest.
  change (seq 0 (length w)) with [0; 1; 2]%nat. cbn [map Rsum].
  rewrite !fm_rest_low by first [unfold w; cbn [length]; lia|apply Rle_lt_trans with (1/2); [unfold w; cbn [nth]; lra|assumption]].
  unfold w. cbn [nth fst Nat.eqb]. unfold acc. repeat (destruct Rle_dec; try lra).
Qed.

(** ** C64: above the degeneracy threshold *)
Theorem C64_force_move_above_threshold_refuted : forall k, exists w h,
  weights_ok w /\ E (dcat w) (fun a => law (force_move k w a) (fun r => h (fst r))) <> E (dcat w) h.
Proof. intros k. exists [1 - / 10 ^ 13; / 10 ^ 13], INR. exact (fm_above_threshold k). Qed.
Print Assumptions C64_force_move_above_threshold_refuted.

(** ** C14 *)
Theorem C14_alpha_in_unit_interval : forall w k0, 0 <= fm_alpha w k0 <= 1.
Proof. exact fm_alpha_bounds. Qed.
Print Assumptions C14_alpha_in_unit_interval.

(** the value returned is [fm_alpha]; it is at least the probability that the index moves *)
Theorem C14_alpha_upper_bound : forall k w k0, weights_ok w -> (k0 < length w)%nat ->
  nth k0 w 0 < Rmax (1 - exp (- INR (length w))) (1 - / 10 ^ 12) ->
  law (force_move k w k0) (fun r => if Nat.eqb (fst r) k0 then 0 else 1) <= law (force_move k w k0) snd.
Proof.
  intros k w k0 Hw Hk Ht. rewrite (force_move_law k w k0 snd Hw Hk). cbn [snd].
  rewrite (E_ext' _ (fun i => let a := acc (1 - nth i w 0) (1 - nth k0 w 0) in a * fm_alpha w k0 + (1 - a) * fm_alpha w k0) (fun _ => fm_alpha w k0)) by (intros; cbv zeta; ring).
  rewrite E_const by (apply is_prob_dcat; now apply fm_rest_ok). exact (fm_alpha_upper k w k0 Hw Hk Ht).
Qed.
Print Assumptions C14_alpha_upper_bound.

(** exact when the reference index is a heaviest one *)
Theorem C14_alpha_exact_partial : forall k w k0, weights_ok w -> (k0 < length w)%nat ->
  nth k0 w 0 < Rmax (1 - exp (- INR (length w))) (1 - / 10 ^ 12) -> Forall (fun x => x <= nth k0 w 0) w ->
  fm_alpha w k0 = law (force_move k w k0) (fun r => if Nat.eqb (fst r) k0 then 0 else 1).
Proof. exact fm_alpha_exact. Qed.
Print Assumptions C14_alpha_exact_partial.

(** the reference is the heaviest of three: it is left with probability 19/28, the value returned *)
Example C14_example : forall k, let w := [5/10; 3/10; 2/10] in weights_ok w /\
  nth 0 w 0 < Rmax (1 - exp (- INR (length w))) (1 - / 10 ^ 12) /\ Forall (fun x => x <= nth 0 w 0) w /\
  law (force_move k w 0) (fun r => if Nat.eqb (fst r) 0 then 0 else 1) = 19/28 /\ fm_alpha w 0 = 19/28.
Proof.
  intros k w. assert (Hw : weights_ok w) by (split; [repeat constructor; lra|unfold w; cbn [Rsum]; lra]).
  assert (Ht : nth 0 w 0 < fm_threshold (length w)).
  { apply Rlt_le_trans with (1 - / 10 ^ 12); [|apply fm_threshold_ge].
    assert (/ 10 ^ 12 < / 2) by (apply Rinv_lt_contravar; lra). unfold w. cbn [nth]. lra. }
  assert (Hf : Forall (fun x => x <= nth 0 w 0) w) by (unfold w; cbn [nth]; repeat constructor; lra).
  assert (Hl : law (force_move k w 0) (fun r => if Nat.eqb (fst r) 0 then 0 else 1) = 19/28).
  { rewrite force_move_law by (assumption || (unfold w; cbn [length]; lia)). rewrite E_dcat, length_fm_rest.
    change (seq 0 (length w)) with [0; 1; 2]%nat. cbn [map Rsum].
    rewrite !fm_rest_low by first [unfold w; cbn [length]; lia|assumption].
    unfold w. cbn [nth fst Nat.eqb]. unfold acc. repeat (destruct Rle_dec; try lra). }
  split; [exact Hw|]. split; [exact Ht|]. split; [exact Hf|]. split; [exact Hl|].
  rewrite <- Hl. apply (C14_alpha_exact_partial k w 0 Hw); [unfold w; cbn [length]; lia|exact Ht|exact Hf].
Qed.

Theorem C14_alpha_refuted : forall k, exists w k0, weights_ok w /\ (k0 < length w)%nat /\
  (forall tr r, runs (force_move k w k0) tr r -> snd r = 1) /\
  law (force_move k w k0) (fun r => if Nat.eqb (fst r) k0 then 0 else 1) = 27/28.
Proof.
  intros k. exists [3/10; 2/10; 5/10], 0%nat. destruct (fm_alpha_wrong k) as [H1 H2]. split.
  { split; [repeat constructor; lra|cbn [Rsum]; lra]. }
  split; [cbn [length]; lia|]. split; [|exact H2].
  assert (Hs : safe (force_move k [3/10; 2/10; 5/10] 0) (fun r => snd r = 1)); [|exact Hs].
  unfold force_move. apply safe_bind with (P := fun _ => True); [intros ? ? ?; exact I|]. intros i _.
  apply safe_unif. intros us _ _. apply safe_ret. exact H1.
Qed.
Print Assumptions C14_alpha_refuted.

(** ** C15, C16 *)
Section gibbs_statements.
Context {U V : Type} (udef : U) (vdef : V).
Variable fwd : key -> U -> V -> prog (list U * list V).
Variable bridge : key -> V -> V -> list R -> prog (list V).
Variable normal : key -> nat -> prog (list U).
Variable trans : list U -> V -> R -> key -> prog (list U).
Variable translp : U -> list U -> V -> R -> list R.
Variable lik : V -> list U -> V -> R -> list R.
Variable y0 : V.
Variable ts : list R.
Variable FW : U -> dist (list U * list V).
Variable BR : V -> V -> dist (list V).
Variable M : V -> R -> U -> dist U.
Variable lg : V -> V -> R -> U -> R.

(** invariance of pi(x0) x (noised path of x0) x (uniform indices) *)
Definition gibbs_invariance (n : nat) (marg_y explicit_backward explicit_final : bool) (pi : dist U) : Prop :=
  forall k us_star f,
  E pi (fun x0 => E (unif_indices n (length ts)) (fun bs =>
    law (gibbs_kernel udef vdef fwd bridge normal trans translp lik k x0 y0 us_star bs ts n marg_y explicit_backward explicit_final)
        (fun out => let '(x', us', bs', _) := out in f x' us' bs'))) =
  E pi (fun x0 => E (FW x0) (fun p => E (unif_indices n (length ts)) (fun bs => f x0 (rev (fst p)) bs))).
End gibbs_statements.

Theorem C15_gibbs_tracing_invariant :
  forall (U V : Type) (udef : U) (vdef : V) fwd bridge normal trans translp lik y0 ts FW BR M lg,
  gibbs_model_ok fwd bridge trans translp lik y0 ts FW BR M lg ->
  forall n marg_y pi, ts <> [] -> (0 < n)%nat -> compatible vdef ts FW BR M lg marg_y pi ->
  gibbs_invariance udef vdef fwd bridge normal trans translp lik y0 ts FW n marg_y false false pi.
Proof.
  intros U V udef vdef fwd bridge normal trans translp lik y0 ts FW BR M lg Hg n marg_y pi Hts Hn Hc k us_star f.
  apply (gibbs_kernel_invariant udef vdef fwd bridge normal trans translp lik y0 ts FW BR M lg Hg); try assumption. discriminate.
Qed.
Print Assumptions C15_gibbs_tracing_invariant.

Theorem C16_gibbs_explicit_invariant :
  forall (U V : Type) (udef : U) (vdef : V) fwd bridge normal trans translp lik y0 ts FW BR M lg,
  gibbs_model_ok fwd bridge trans translp lik y0 ts FW BR M lg ->
  forall n marg_y pi, ts <> [] -> (0 < n)%nat -> compatible vdef ts FW BR M lg marg_y pi ->
  (forall v v' t us, length us = n -> Forall (fun x => x < Rmax (1 - exp (- INR n)) (1 - / 10 ^ 12) \/ x = 1) (normalise (map (lg v v' t) us))) ->
  gibbs_invariance udef vdef fwd bridge normal trans translp lik y0 ts FW n marg_y true false pi.
Proof.
  intros U V udef vdef fwd bridge normal trans translp lik y0 ts FW BR M lg Hg n marg_y pi Hts Hn Hc Hr k us_star f.
  apply (gibbs_kernel_invariant udef vdef fwd bridge normal trans translp lik y0 ts FW BR M lg Hg); try assumption.
  intros _ v v' t us Hl. unfold fm_regular, fm_threshold. rewrite length_normalise, map_length, Hl. now apply Hr.
Qed.
Print Assumptions C16_gibbs_explicit_invariant.

(** log-likelihood ratios bounded by [c], at least two particles: the weight condition holds *)
Theorem C16_gibbs_bounded_likelihood :
  forall (U V : Type) (udef : U) (vdef : V) fwd bridge normal trans translp lik y0 ts FW BR M lg,
  gibbs_model_ok fwd bridge trans translp lik y0 ts FW BR M lg ->
  forall n marg_y pi c, ts <> [] -> (2 <= n)%nat -> compatible vdef ts FW BR M lg marg_y pi ->
  (forall v v' t u u', lg v v' t u - lg v v' t u' <= c) -> / 10 ^ 11 <= exp (- c) ->
  gibbs_invariance udef vdef fwd bridge normal trans translp lik y0 ts FW n marg_y true false pi.
Proof.
  intros U V udef vdef fwd bridge normal trans translp lik y0 ts FW BR M lg Hg n marg_y pi c Hts Hn Hcm Hb Hc k us_star f.
  apply (gibbs_kernel_invariant udef vdef fwd bridge normal trans translp lik y0 ts FW BR M lg Hg); try assumption; [lia|].
  intros _. now apply (regular_of_bounded lg n c).
Qed.
Print Assumptions C16_gibbs_bounded_likelihood.

(** A model in which x0 given y0 has probabilities 5/8, 3/8: both variants preserve it, any number of particles. *)
Example C15_example : forall n marg_y eb k, (0 < n)%nat ->
  E [(5/8, true); (3/8, false)] (fun x0 => E (unif_indices n 2) (fun bs =>
    law (gibbs_kernel false false gd_fwd gd_bridge demo_init demo_trans demo_translp gd_lik k x0 true [] bs [0; 1] n marg_y eb false)
        (fun out => let '(x', us', bs', _) := out in if (x' && nth 0 us' false)%bool then 1 else 0))) = 9/16.
Proof.
  intros n marg_y eb k Hn.
  transitivity (E gd_pi (fun x0 => E (gd_FW x0) (fun p => E (unif_indices n 2) (fun _ => if (x0 && nth 0 (rev (fst p)) false)%bool then 1 else 0)))).
  - refine (gibbs_kernel_invariant false false _ _ demo_init _ _ _ _ gd_ts _ _ _ _ gd_model k [] n marg_y eb gd_pi
      (fun x' us' _ => if (x' && nth 0 us' false)%bool then 1 else 0) _ Hn (gd_compatible marg_y) (fun _ => gd_regular n Hn)). discriminate.
  - assert (Hc : forall c : R, E (unif_indices n 2) (fun _ => c) = c).
    { intros c. apply E_const, is_prob_dseq, Forall_repeat, is_prob_dunif. assumption. }
    rewrite (E_ext' gd_pi _ (fun x0 => E (gd_FW x0) (fun p => if (x0 && nth 0 (rev (fst p)) false)%bool then 1 else 0))).
    2:{ intros x0. apply E_ext'. intros p. apply Hc. }
    unfold gd_pi, gd_FW. rewrite !E_cons, !E_dbind. unfold E, gd_back, coin. simpl. lra.
Qed.
Example C16_example : gibbs_invariance false true gd_fwd gd_bridge demo_init demo_trans demo_translp gd_lik true gd_ts gd_FW 5 false true false gd_pi.
Proof.
  apply (C16_gibbs_bounded_likelihood _ _ _ _ _ _ _ _ _ _ _ _ _ _ _ _ gd_model 5 false gd_pi (ln 3)); [discriminate|lia|apply gd_compatible| |].
  - intros v v' t u u'. unfold gd_lg. assert (ln (3/4) = ln 3 + ln (1/4)) by (rewrite <- ln_mult by lra; f_equal; lra).
    assert (0 < ln 3) by (rewrite <- ln_1; apply ln_increasing; lra). destruct (eqb v u), (eqb v u'); lra.
  - rewrite exp_Ropp, exp_ln by lra. apply Rinv_le_contravar; lra.
Qed.

(** ** C17 *)
(** A model meeting every hypothesis of C15/C16, whose reference law (the law of u0) is the one drawn by the
    explicit-final sampler: the law of x0 is preserved without explicit_final and changed by it. *)
Theorem C17_explicit_final_refuted :
  exists (fwd : key -> bool -> bool -> prog (list bool * list bool)) bridge normal trans translp lik y0 ts FW BR M lg pi n,
  gibbs_model_ok fwd bridge trans translp lik y0 ts FW BR M lg /\ compatible true ts FW BR M lg false pi /\ ts <> [] /\ (0 < n)%nat /\
  (forall h, E pi (fun x0 => E (FW x0) (fun p => h (nth 0 (rev (fst p)) false))) = E coin h) /\
  (forall k m, denotes (normal k m) (dseq (repeat coin m))) /\
  gibbs_invariance false true fwd bridge normal trans translp lik y0 ts FW n false true false pi /\
  ~ gibbs_invariance false true fwd bridge normal trans translp lik y0 ts FW n false true true pi.
Proof.
  exists ef_fwd, gd_bridge, demo_init, ef_trans, ef_translp, ef_lik, true, gd_ts, ef_FW, (fun y y' => dret [y; y']), (fun _ _ u => dret u), ef_lg, coin, 1%nat.
  split; [exact ef_model|]. split; [exact ef_compatible|]. split; [discriminate|]. split; [lia|].
  split; [intros h; apply E_ext'; intros x0; unfold ef_FW; now rewrite E_dret|].
  split; [intros; apply fin_draws_denotes|]. split.
  - intros k us_star f. apply (gibbs_kernel_invariant false true _ _ demo_init _ _ _ _ gd_ts _ _ _ _ ef_model); [discriminate|lia|exact ef_compatible|].
    intros _. exact ef_regular.
  - intros H. pose proof (H [] [] (fun x' _ _ => if x' then 1 else 0)) as H1.
    pose proof (ef_value [] []) as H2. unfold gd_ts in *. cbn [length] in *.
    assert (H3 : 2/3 = E coin (fun x0 => E (ef_FW x0) (fun p => E (unif_indices 1 2) (fun bs => if x0 then 1 else 0)))).
    { rewrite <- H1, <- H2. apply E_ext'. intros x0. apply E_ext'. intros bs. apply law_ext. intros [[[x us] bs'] ch]. reflexivity. }
    assert (Hc : forall c : R, E (unif_indices 1 2) (fun _ => c) = c).
    { intros c. apply E_const, is_prob_dseq, Forall_repeat, is_prob_dunif. lia. }
    unfold coin, ef_FW in H3. rewrite !E_cons, !E_dret, !Hc in H3. unfold E in H3. cbn [map Rsum] in H3. lra.
Qed.
Print Assumptions C17_explicit_final_refuted.

(** ** C18 *)
Theorem C18_gibbs_bookkeeping :
  forall (U V : Type) (udef : U) (vdef : V) fwd bridge normal trans translp lik (ts : list R),
  gibbs_shapes fwd bridge normal trans translp lik ts ->
  forall k x0 y0 us_star bs n marg_y eb (ef : bool) tr x0' us' bs' changed,
  let N := if ef then (n + 1)%nat else n in
  ts <> [] -> (0 < n)%nat -> length bs = length ts -> Forall (fun b => (b < N)%nat) bs ->
  runs (gibbs_kernel udef vdef fwd bridge normal trans translp lik k x0 y0 us_star bs ts n marg_y eb ef) tr (x0', us', bs', changed) ->
  length us' = length ts /\ length bs' = length ts /\ length changed = length ts /\ Forall (fun b => (b < N)%nat) bs' /\
  x0' = last us' udef /\
  (forall i, (i < length ts)%nat -> nth i changed false = true <-> nth i bs' 0%nat <> nth i bs 0%nat).
Proof.
  intros U V udef vdef fwd bridge normal trans translp lik ts Hs k x0 y0 us_star bs n marg_y eb ef tr x0' us' bs' changed N Hts Hn Hb HB Hr.
  exact (gibbs_kernel_safe udef vdef fwd bridge normal trans translp lik ts Hs k x0 y0 us_star bs n marg_y eb ef Hts Hn Hb HB tr _ Hr).
Qed.
Print Assumptions C18_gibbs_bookkeeping.

Theorem C18_us_star_unused :
  forall (U V : Type) (udef : U) (vdef : V) fwd bridge normal trans translp lik ts k x0 y0 us1 us2 bs n marg_y eb ef,
  gibbs_kernel udef vdef fwd bridge normal trans translp lik k x0 y0 us1 bs ts n marg_y eb ef =
  gibbs_kernel udef vdef fwd bridge normal trans translp lik k x0 y0 us2 bs ts n marg_y eb ef.
Proof. intros. apply gibbs_kernel_us_star. Qed.
Print Assumptions C18_us_star_unused.

Example C18_example : gibbs_shapes gd_fwd gd_bridge demo_init demo_trans demo_translp gd_lik [0; 1].
Proof.
  constructor.
  - intros k x y. unfold gd_fwd. apply safe_bind with (P := fun _ => True); [intros ? ? ?; exact I|]. intros u0 _.
    apply safe_bind with (P := fun _ => True); [intros ? ? ?; exact I|]. intros v0 _. apply safe_ret. split; reflexivity.
  - intros. apply safe_ret. reflexivity.
  - intros k n. unfold demo_init. eapply safe_weaken; [|apply fin_draws_length]. intros l Hl. now rewrite repeat_length in Hl.
  - intros. unfold demo_trans. eapply safe_weaken; [|apply fin_draws_length]. intros l Hl. now rewrite map_length in Hl.
  - intros. apply map_length.
  - intros. apply map_length.
Qed.

(** ** C68: with explicit_final there are nparticles+1 particles, but the refreshed indices never name the last one *)
Theorem C68_refreshed_indices_refuted :
  exists (n : nat), (0 < n)%nat /\ forall k x0 y0 us_star bs tr x' us' bs' ch,
  runs (gibbs_kernel false false gd_fwd gd_bridge demo_init demo_trans demo_translp gd_lik k x0 y0 us_star bs [0; 1] n false true true) tr (x', us', bs', ch) ->
  ~ In n bs'.
Proof.
  exists 3%nat. split; [lia|]. intros k x0 y0 us_star bs tr x' us' bs' ch Hr Hin.
  assert (Hs : safe (gibbs_kernel false false gd_fwd gd_bridge demo_init demo_trans demo_translp gd_lik k x0 y0 us_star bs [0; 1] 3 false true true)
     (fun out => Forall (fun b => (b < 3)%nat) (snd (fst out)))).
  { unfold gibbs_kernel. apply safe_bind with (P := fun _ => True); [intros ? ? ?; exact I|]. intros [us vs] _. cbv zeta.
    apply safe_bind with (P := fun ub : list bool * list nat => Forall (fun b => (b < 3)%nat) (snd ub)).
    - apply safe_bind with (P := fun _ => True); [intros ? ? ?; exact I|]. intros [[As lws] uss] _.
      apply safe_bind with (P := fun _ => True); [intros ? ? ?; exact I|]. intros [idx al] _.
      apply safe_bind with (P := fun _ => True); [intros ? ? ?; exact I|]. intros [px py] _. cbn [bind].
      apply safe_rint. intros l Hl Hf. apply safe_ret. exact Hf.
    - intros [us'' bs''] H. apply safe_ret. exact H. }
  pose proof (Hs tr _ Hr) as H. cbn [fst snd] in H. rewrite Forall_forall in H. specialize (H 3%nat Hin). lia.
Qed.
Print Assumptions C68_refreshed_indices_refuted.

(** ** C67: gibbs_init *)
Theorem C67_gibbs_init_filter_consistent :
  forall (U V : Type) (udef : U) (vdef : V) fwd bridge normal trans translp lik uzero k y0 ts n marg_y x0 p tr r,
  (forall k x y tr p, runs (fwd k x y) tr p -> nth_error (fst p) 0 = Some x) ->
  gibbs_init udef vdef fwd bridge normal trans translp lik uzero k y0 ts n "filter" marg_y x0 = Some p ->
  runs p tr r -> exists x us, r = InitState x us /\ last us udef = x.
Proof.
  intros U V udef vdef fwd bridge normal trans translp lik uzero k y0 ts n marg_y x0 p tr r Hf Hp Hr.
  pose proof (gibbs_init_filter_consistent udef vdef fwd bridge normal trans translp lik uzero k y0 ts n marg_y x0 p Hf Hp tr r Hr) as H.
  destruct r as [x us|]; [|destruct H]. now exists x, us.
Qed.
Print Assumptions C67_gibbs_init_filter_consistent.

(** a run exists, from a forward sampler that starts where it is told to *)
Example C67_instance : exists p tr r,
  gibbs_init false false ef_fwd gd_bridge gi_normal ef_trans ef_translp gi_lik false [] true [0; 1] 2 "filter" false None = Some p /\
  runs p tr r /\ (forall k x y tr p, runs (ef_fwd k x y) tr p -> nth_error (fst p) 0 = Some x).
Proof. exact gibbs_init_filter_run. Qed.

Theorem C67_gibbs_init_smoother_refuted :
  exists (fwd : key -> bool -> bool -> prog (list bool * list bool)) bridge normal trans translp lik p tr x us,
  (forall k x y tr p, runs (fwd k x y) tr p -> nth_error (fst p) 0 = Some x) /\
  gibbs_init false false fwd bridge normal trans translp lik false [] true [0; 1] 2 "smoother" false None = Some p /\
  runs p tr (InitState x us) /\ last us false <> x.
Proof.
  destruct gibbs_init_smoother_inconsistent as (p & tr & x & us & H).
  exists ef_fwd, gd_bridge, gi_normal, ef_trans, ef_translp, gi_lik, p, tr, x, us. split; [|exact H].
  intros k x0 y tr0 p0 [_ ->]. reflexivity.
Qed.
Print Assumptions C67_gibbs_init_smoother_refuted.

(** ** C27: key discipline of the samplers *)
(** [good [k] p]: in every run the keys consumed are pairwise neither equal nor derived from one another, and all are
    derived from [k] *)
Theorem C27_keys_used_once :
  forall (U V : Type) (udef : U) (vdef : V)
    (fwd : key -> U -> V -> prog (list U * list V)) (bridge : key -> V -> V -> list R -> prog (list V))
    (init : key -> nat -> prog (list U)) (ref : key -> V -> nat -> prog (list U)) (trans : list U -> V -> R -> key -> prog (list U))
    (propose : key -> list V -> prog (list V))
    (res : list R -> key -> prog (list nat)) (cres : key -> list R -> nat -> nat -> bool -> prog (list nat)) initll translp lik,
  (forall k x y, good [k] (fwd k x y)) -> (forall k y y' ts, good [k] (bridge k y y' ts)) -> (forall k n, good [k] (init k n)) ->
  (forall k v n, good [k] (ref k v n)) -> (forall us v t k, good [k] (trans us v t k)) -> (forall k ys, good [k] (propose k ys)) ->
  (forall w k, good [k] (res w k)) -> (forall k w i j c, good [k] (cres k w i j c)) ->
  (forall k w a, good [k] (force_move k w a)) /\
  (forall k us bs vs ts n b, good [k] (csmc_kernel udef vdef init initll trans translp lik cres k us bs vs ts n b)) /\
  (forall k x0 y0 us bs ts n my eb ef, good [k] (gibbs_kernel udef vdef fwd bridge init trans translp lik k x0 y0 us bs ts n my eb ef)) /\
  (forall vs ts k n l rl, good [k] (bootstrap_filter udef vdef trans lik res vs ts ref k n l rl)) /\
  (forall k vs us ts n, good [k] (pmcmc_filter_step udef trans lik res k vs us ts n)) /\
  (forall k uT ell ys ts n w, good [k] (pmcmc_kernel udef vdef trans lik res k uT ell ys ts propose ref n w)).
Proof.
  intros U V udef vdef fwd bridge init ref trans propose res cres initll translp lik H1 H2 H3 H4 H5 H6 H7 H8.
  split; [exact force_move_good|]. split; [intros; now apply csmc_kernel_good|]. split; [intros; now apply gibbs_kernel_good|].
  split; [intros; now apply bootstrap_filter_good|]. split; [intros; eapply good_under; now apply pf_scan_good|]. intros; now apply pmcmc_kernel_good.
Qed.
Print Assumptions C27_keys_used_once.

Theorem C27_twisted_keys_used_once :
  forall (U Y : Type) (udef : U) translp twistlp (prop : key -> list U -> R -> Y -> prog (list U)) proplp (res : list R -> key -> prog (list nat)) init,
  (forall k us t y, good [k] (prop k us t y)) -> (forall w k, good [k] (res w k)) -> (forall k n, good [k] (init k n)) ->
  forall k y ts n, good [k] (twisted_smc udef translp twistlp prop proplp res k y ts init n).
Proof. intros. now apply twisted_smc_good. Qed.
Print Assumptions C27_twisted_keys_used_once.

Theorem C27_pcn_keys_used_once : forall k delta x mean sampler, (forall k, good [k] (sampler k)) -> good [k] (pcn_proposal k delta x mean sampler).
Proof. exact pcn_proposal_good. Qed.
Print Assumptions C27_pcn_keys_used_once.

Theorem C27_gibbs_init_keys_used_once :
  forall (U V : Type) (udef : U) (vdef : V)
    (fwd : key -> U -> V -> prog (list U * list V)) (bridge : key -> V -> V -> list R -> prog (list V))
    (normal : key -> nat -> prog (list U)) (trans : list U -> V -> R -> key -> prog (list U)) translp lik uzero,
  (forall k x y, good [k] (fwd k x y)) -> (forall k y y' ts, good [k] (bridge k y y' ts)) -> (forall k n, good [k] (normal k n)) ->
  (forall us v t k, good [k] (trans us v t k)) ->
  forall k y0 ts n method marg_y x0 p, (method = "filter" \/ method = "debug")%string ->
  gibbs_init udef vdef fwd bridge normal trans translp lik uzero k y0 ts n method marg_y x0 = Some p -> good [k] p.
Proof. intros. eapply gibbs_init_filter_good; eassumption. Qed.
Print Assumptions C27_gibbs_init_keys_used_once.

Theorem C27_library_schemes :
  (forall w k, good [k] (systematic w k)) /\ (forall w k, good [k] (stratified w k)) /\ (forall w k, good [k] (multinomial w k)) /\
  (forall w k, good [k] (killing w k)) /\ (forall k w i j b, good [k] (ckilling k w i j b)) /\ (forall k w i j b, good [k] (cmultinomial k w i j b)).
Proof.
  split; [exact systematic_good|]. split; [exact stratified_good|]. split; [exact multinomial_good|]. split; [exact killing_good|].
  split; [exact ckilling_good|exact cmultinomial_good].
Qed.
Print Assumptions C27_library_schemes.

Example C27_example : forall k bs, good [k] (gibbs_kernel false false gd_fwd gd_bridge demo_init demo_trans demo_translp gd_lik k true true [] bs [0; 1; 2] 4 true true true).
Proof.
  intros k bs. apply gibbs_kernel_good.
  - intros k0 x y. unfold gd_fwd. apply (good_under k0 [0; 1]%nat). apply (good_seq k0 [0%nat] [1%nat]); [key_disjoint|keys_in|apply good_fin|].
    intros u0. apply good_bind_ret, good_fin.
  - intros. apply good_ret.
  - intros. apply fin_draws_good_key.
  - intros. apply fin_draws_good_key.
Qed.

(** ** C65: the backward smoother uses a key and also keys derived from it *)
Theorem C65_smoother_key_reuse_refuted :
  exists (filter_us : list (list bool)) (vs : list bool) ts, forall k tr path,
  runs (bootstrap_backward_smoother false demo_translp k filter_us vs ts) tr path ->
  exists k1 k2, In k1 tr /\ In k2 tr /\ k1 <> k2 /\ prefix k1 k2.
Proof.
  exists [[false; true]; [true; false]], [true; false], [0; 1]. intros k tr path Hr.
  rewrite (smoother_reuses_key false demo_translp k _ _ _ _ _ _ tr path Hr).
  exists k, (split_key (split_key k 1) 0). split; [now left|]. split; [right; now left|]. split.
  - intros H. apply (f_equal (@length nat)) in H. unfold split_key in H. rewrite !app_length in H. simpl in H. lia.
  - eapply prefix_trans; apply prefix_split.
Qed.
Print Assumptions C65_smoother_key_reuse_refuted.

(** ** C66: the backward smoother does not draw from the smoothing law *)
(** Two times; u0 and u1 independent fair coins, v1 has likelihood 3:1 in favour of u0 = true.  The filter rows represent
    the filtering laws exactly (each value once), the smoothing probability of u0 = true is 3/4, the smoother gives 1/2. *)
Theorem C66_smoother_law_refuted : forall k (v0 v1 : bool) t0 t1,
  let flat := fun (x : bool) (us : list bool) (v : bool) (t : R) => map (fun _ => ln (1/2)) us in
  let lik := fun u : bool => if u then 3/4 else 1/4 in
  let joint := dbind coin (fun u0 => dbind coin (fun u1 => dret (u0, u1))) in
  let smoothing h := E joint (fun uu => lik (fst uu) * h uu) / E joint (fun uu => lik (fst uu)) in
  (forall h, smoothing (fun uu => h (snd uu)) = E [(1/2, false); (1/2, true)] h) /\
  smoothing (fun uu => if fst uu then 1 else 0) = 3/4 /\
  law (bootstrap_backward_smoother false flat k [[false; true]; [false; true]] [v0; v1] [t0; t1]) (fun p => if nth 0 p false then 1 else 0) = 1/2.
Proof.
  intros k v0 v1 t0 t1 flat lik joint smoothing. split; [|split].
  - intros h. unfold smoothing, joint. rewrite !E_dbind. unfold coin. rewrite !E_cons, !E_dbind, !E_cons, !E_dret. cbn [fst snd]. unfold E. cbn [map Rsum fst snd]. unfold lik. field.
  - unfold smoothing, joint. rewrite !E_dbind. unfold coin. rewrite !E_cons, !E_dbind, !E_cons, !E_dret. cbn [fst snd]. unfold E. cbn [map Rsum fst snd]. unfold lik. field.
  - rewrite (smoother_law false flat (fun _ _ _ _ => ln (1/2))); try reflexivity; try discriminate.
    + unfold smoother_rows. cbn [last length removelast rev app combine map back_walk]. rewrite !E_cons. cbn [E map Rsum].
      rewrite !E_dbind. cbn [map]. rewrite !E_cons. cbn [E map Rsum]. rewrite !E_dmap, !E_dret. cbn [app nth].
      rewrite !exp_ln by lra. replace (INR 2) with 2 by (simpl; lra). unfold E; cbn [map Rsum]. lra.
    + repeat constructor; discriminate.
Qed.
Print Assumptions C66_smoother_law_refuted.

(** ** C28 *)
Theorem C28_gibbs_init_methods :
  forall (U V : Type) (udef : U) (vdef : V) fwd bridge normal trans translp lik uzero k y0 ts n method marg_y x0,
  gibbs_init udef vdef fwd bridge normal trans translp lik uzero k y0 ts n method marg_y x0 <> None <->
  In method ["filter"; "smoother"; "debug"]%string.
Proof. intros. apply gibbs_init_methods. Qed.
Print Assumptions C28_gibbs_init_methods.

(** log=False with a density should agree with log=True and its logarithm *)
Theorem C28_log_flag_refuted :
  exists (trans : list bool -> bool -> R -> key -> prog (list bool)) (pdf : bool -> list bool -> bool -> R -> list R) res vs ts init n k,
  (forall v us v' t, Forall (fun x => 0 < x) (pdf v us v' t)) /\
  law (bootstrap_filter false false trans pdf res vs ts init k n false true) snd <>
  law (bootstrap_filter false false trans (fun v us v' t => map ln (pdf v us v' t)) res vs ts init k n true true) snd.
Proof.
  exists (fun us _ _ _ => Ret us), (fun _ us _ _ => map (fun _ => 1) us), (fun _ _ => Ret [0%nat]), [true; true], [0; 1],
    (fun _ _ _ => Ret [true]), 1%nat, []. split.
  - intros v us v' t. apply Forall_map, Forall_forall. intros. lra.
  - cbn. unfold logsumexp. cbn [map Rsum]. rewrite !Rplus_0_r, ln_1, !ln_exp. lra.
Qed.
Print Assumptions C28_log_flag_refuted.

(** A sampler that returns its time argument: on the grid 0, 1 the step that leaves time 0 is asked for time 1 by
    [twisted_smc] and for time 0 by the other filters. *)
Theorem C28_twisted_times_refuted :
  let init := fun (_ : key) (n : nat) => Ret (repeat 7 n) : prog (list R) in
  let zero := fun us : list R => map (fun _ => 0) us in
  let first := fun (w : list R) (_ : key) => Ret (map (fun _ => 0%nat) w) : prog (list nat) in
  forall k,
  law (twisted_smc 0 (fun us _ _ => zero us) (fun (_ : unit) us _ => zero us) (fun _ us t _ => Ret (map (fun _ => t) us))
         (fun us _ _ _ => zero us) first k tt [0; 1] init 1) (fun r => nth 0 (fst r) 0) = 1 /\
  law (bootstrap_filter 0 tt (fun us _ t _ => Ret (map (fun _ => t) us)) (fun _ us _ _ => zero us) first
         [tt; tt] [0; 1] (fun k _ n => init k n) k 1 true true) (fun r => nth 0 (nth 0 (fst r) []) 0) = 0 /\
  law (pmcmc_filter_step 0 (fun us _ t _ => Ret (map (fun _ => t) us)) (fun _ us _ _ => zero us) first
         k [tt; tt] [7] [0; 1] 1) (fun r => nth 0 (fst r) 0) = 0.
Proof. intros init zero first k. repeat split. Qed.
Print Assumptions C28_twisted_times_refuted.
