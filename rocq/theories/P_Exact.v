(** Exact characterisations for claims that do not hold in full generality: where the code is right, and where it never is. *)
From Coq Require Import String.
From Verif Require Import ForceMoveExact SuprExact ImagesMore ImagesProofs Images SmootherExact GibbsFinal HygieneMore.
Open Scope R_scope.

(** ** C14: the value returned by force_move is the acceptance probability exactly when the reference is a heaviest index, or a lightest
    among those that carry weight *)
Theorem C14_alpha_exact_iff_partial : forall k w k0, weights_ok w -> (k0 < length w)%nat ->
  nth k0 w 0 < Rmax (1 - exp (- INR (length w))) (1 - / 10 ^ 12) ->
  (fm_alpha w k0 = law (force_move k w k0) (fun r => if Nat.eqb (fst r) k0 then 0 else 1) <->
   (forall i, (i < length w)%nat -> nth i w 0 <= nth k0 w 0) \/
   (forall i, (i < length w)%nat -> 0 < nth i w 0 -> nth k0 w 0 <= nth i w 0)).
Proof. exact fm_alpha_exact_iff. Qed.
Print Assumptions C14_alpha_exact_iff_partial.

(** both sides of the equivalence occur: the lightest of three is always left; the middle one is not left with the announced probability *)
Example C14_iff_example : forall k, let w := [5/10; 2/10; 3/10] in
  fm_alpha w 1 = law (force_move k w 1) (fun r => if Nat.eqb (fst r) 1 then 0 else 1) /\
  fm_alpha w 2 <> law (force_move k w 2) (fun r => if Nat.eqb (fst r) 2 then 0 else 1).
Proof.
  intros k w. assert (Hw : weights_ok w) by (split; [repeat constructor; lra|unfold w; cbn [Rsum]; lra]).
  assert (Ht : forall i, nth i w 0 < Rmax (1 - exp (- INR (length w))) (1 - / 10 ^ 12)).
  { intros i. apply Rlt_le_trans with (1 - / 10 ^ 12); [|apply Rmax_r]. assert (/ 10 ^ 12 < / 4) by (apply Rinv_lt_contravar; lra).
    unfold w. destruct i as [|[|[|[|i]]]]; cbn [nth]; lra. }
  split.
  - apply (C14_alpha_exact_iff_partial k w 1 Hw); [unfold w; cbn [length]; lia|apply Ht|]. right. intros i Hi _. unfold w in *. cbn [length] in Hi.
    destruct i as [|[|[|i]]]; cbn [nth]; try lra; lia.
  - intros H. apply (C14_alpha_exact_iff_partial k w 2 Hw) in H; [|unfold w; cbn [length]; lia|apply Ht]. destruct H as [H|H].
    + specialize (H 0%nat). unfold w in H. cbn [nth length] in H. assert (5/10 <= 3/10) by (apply H; lia). lra.
    + specialize (H 1%nat). unfold w in H. cbn [nth length] in H. assert (3/10 <= 2/10) by (apply H; [lia|lra]). lra.
Qed.

(** ** C17: what explicit_final=True does preserve.  The indices must be uniform over nparticles + 1 slots, and the law of x0 must be
    the one for which (us, vs) has the smoothing law started in the reference law and weighted by the likelihood called with its two
    observations exchanged ([compatible_final]) *)
Theorem C17_explicit_final_partial :
  forall (U V : Type) (udef : U) (vdef : V) fwd bridge normal trans translp lik y0 ts FW BR M lg ref,
  gibbs_model_ok fwd bridge trans translp lik y0 ts FW BR M lg -> is_prob ref ->
  (forall k n, denotes (normal k n) (dseq (repeat ref n))) -> (forall k n, safe (normal k n) (fun l => length l = n)) ->
  forall k us_star n marg_y (eb : bool) pi (f : U -> list U -> list nat -> R), ts <> [] -> (0 < n)%nat ->
  (exists B : dist (list V), (forall vs, In vs (map snd B) -> length vs = length ts) /\
    forall F : list U -> list V -> R,
      E pi (fun x0 => E (noised vdef FW BR marg_y x0) (fun p => F (fst p) (snd p))) =
      E B (fun vs => E (fk_measure ref (lg (nth 0 vs vdef) (nth 1 vs vdef) (nth 0 ts 0)) (fk_of M lg (step_data vs ts))) (fun us => F us vs))) ->
  (eb = true -> regular_likelihood lg (n + 1)) ->
  E pi (fun x0 => E (unif_indices (n + 1) (length ts)) (fun bs =>
    law (gibbs_kernel udef vdef fwd bridge normal trans translp lik k x0 y0 us_star bs ts n marg_y eb true)
      (fun out => let '(x', us', bs', _) := out in f x' us' bs'))) =
  E pi (fun x0 => E (FW x0) (fun p => E (unif_indices (if eb then n else n + 1) (length ts)) (fun bs => f x0 (rev (fst p)) bs))).
Proof.
  intros U V udef vdef fwd bridge normal trans translp lik y0 ts FW BR M lg ref Hg Hp Hn Hs k us_star n marg_y eb pi f Hts H0 Hc Hr.
  exact (gibbs_final_invariant udef vdef fwd bridge normal trans translp lik y0 ts FW BR M lg ref Hg Hp Hn Hs k us_star n marg_y eb pi f Hts H0 Hc Hr).
Qed.
Print Assumptions C17_explicit_final_partial.

(** an informative likelihood at the initial time, sticky transitions, three slots: x0 = true keeps probability 5/8 *)
Example C17_final_example : forall k us_star marg_y eb,
  E gd_pi (fun x0 => E (unif_indices 3 2) (fun bs =>
    law (gibbs_kernel false true fd_fwd gd_bridge demo_init demo_trans demo_translp fd_lik k x0 false us_star bs gd_ts 2 marg_y eb true)
      (fun out => let '(x', _, _, _) := out in if x' then 1 else 0))) = 5/8.
Proof.
  intros k us_star marg_y eb.
  refine (eq_trans (C17_explicit_final_partial bool bool false true fd_fwd gd_bridge demo_init demo_trans demo_translp fd_lik false gd_ts fd_FW
     (fun y y' => dret [y; y']) demo_M fd_lg coin fd_model coin_prob _ _ k us_star 2 marg_y eb gd_pi (fun x' _ _ => if x' then 1 else 0) _ _ (fd_compatible marg_y) _) _).
  - intros. apply fin_draws_denotes.
  - intros k' n. eapply safe_weaken; [|apply fin_draws_length]. intros l Hl. now rewrite repeat_length in Hl.
  - discriminate.
  - lia.
  - intros _. apply fd_regular. lia.
  - unfold gd_pi. rewrite !E_cons. cbn [E map Rsum]. unfold fd_FW. rewrite !E_dmap.
    rewrite !E_const; [cbn [E map Rsum]; unfold E; cbn [map Rsum]; lra|..];
      repeat first [apply gd_back_prob|apply is_prob_dseq, Forall_repeat, is_prob_dunif; destruct eb; lia|idtac].
Qed.

(** ** C46, C47: super-resolution masks, every rate and size *)
Theorem C46_supr_round_trip_partial : forall (A : Type) (zero : A) k task w h s random, supr_task task s -> (1 <= w)%nat -> (1 <= h)%nat -> (1 <= s)%nat ->
  (w mod s = 0 /\ h mod s = 0)%nat \/ (w <= s /\ h <= s)%nat ->
  safe (gen_mask k task w h random) (fun om => exists m, om = Some m /\
    (forall img, image_shape w h img -> concat_parts zero w h (fst (unpack zero img m)) (snd (unpack zero img m)) m = img) /\
    (forall x y, length x = length (unobs_inds m) -> length y = length (obs_inds m) ->
       unpack zero (concat_parts zero w h x y m) m = (x, y) /\ image_shape w h (concat_parts zero w h x y m))).
Proof. exact @supr_works. Qed.
Print Assumptions C46_supr_round_trip_partial.

(** all other sizes: an exception, or a mask for which the round trip fails, whatever the draw *)
Theorem C46_supr_round_trip_refuted : forall (A : Type) (zero a b : A) k task w h s random, a <> b -> supr_task task s ->
  (1 <= w)%nat -> (1 <= h)%nat -> (1 <= s)%nat -> ~ (w mod s = 0 /\ h mod s = 0)%nat -> ~ (w <= s /\ h <= s)%nat ->
  safe (gen_mask k task w h random) (fun om => match om with None => True | Some m => exists x y,
    length x = length (unobs_inds m) /\ length y = length (obs_inds m) /\ unpack zero (concat_parts zero w h x y m) m <> (x, y) end).
Proof. exact @supr_fails. Qed.
Print Assumptions C46_supr_round_trip_refuted.

(** the announced shape is right for no other rate, unless there are more indices than pixels *)
Theorem C47_supr_shape_refuted : forall k task w h s random, supr_task task s -> (1 <= w)%nat -> (1 <= h)%nat -> (1 <= s)%nat -> ~ (w mod s = 0 /\ h mod s = 0)%nat ->
  safe (gen_mask k task w h random) (fun om => match om with None => True | Some m => unobs_shape task w h <> Some (length (unobs_inds m)) \/
     (w * h < length (unobs_inds m) + length (obs_inds m))%nat end).
Proof. exact supr_shape_wrong. Qed.
Print Assumptions C47_supr_shape_refuted.

Example C46_supr_example : supr_task "supr-4" 4 /\ supr_task "supr-8" 8 /\ (28 mod 4 = 0)%nat /\ ~ (28 mod 8 = 0)%nat /\ ~ (28 <= 8)%nat /\
  exists m, supr_mask 3 2 4 [] = Some m /\ obs_inds m = [] /\ length (unobs_inds m) = 6%nat.
Proof. repeat split; try reflexivity; try (vm_compute; discriminate); try lia. eexists. repeat split; reflexivity. Qed.

(** ** C65: the keys of the backward smoother, every model and length: the key itself, and one descendant per earlier row *)
Theorem C65_smoother_keys_refuted : forall (U V : Type) (udef : U) (translp : U -> list U -> V -> R -> list R) k filter_us vs ts tr path n,
  length filter_us = S n -> length vs = S n -> length ts = S n ->
  runs (bootstrap_backward_smoother udef translp k filter_us vs ts) tr path ->
  tr = k :: map (fun i => k ++ [1%nat; i]) (seq 0 n).
Proof.
  intros U V udef translp k filter_us vs ts tr path n H1 H2 H3 Hr. rewrite (smoother_keys udef translp k filter_us vs ts tr path n H1 H2 H3 Hr).
  f_equal. apply map_ext. intros i. unfold split_key. now rewrite <- app_assoc.
Qed.
Print Assumptions C65_smoother_keys_refuted.

(** ** C66: exact filter rows, and a density handed over that carries the likelihood of the next measurement: the smoothing law.
    [steps]: log-likelihood of the next measurement given the state, and transition *)
Theorem C66_smoother_with_likelihood_partial :
  forall (U V : Type) (udef : U) (vdef : V) (translp : U -> list U -> V -> R -> list R) lp m0 lG0,
  (forall x us v t, translp x us v t = map (lp v t x) us) ->
  forall k rows vs ts (steps : list ((U -> R) * (U -> dist U))) f,
  length rows = S (length steps) -> length vs = S (length steps) -> length ts = S (length steps) ->
  (forall j, (j < length steps)%nat -> exists mu : dist U, forall u g,
     let s := nth j steps (fun _ => 0, dret) in
     exp (fst s u) * E (snd s u) g = E mu (fun y => exp (lp (nth j vs vdef) (nth j ts 0) y u) * g y)) ->
  (forall j, (j <= length steps)%nat -> let mu := fk_measure m0 lG0 (firstn j steps) in let row := nth j rows [] in
     row <> [] /\ 0 < E mu (fun _ => 1) /\
     forall h, E (map (fun u => (/ INR (length row), u)) row) h = E mu (fun p => h (last p udef)) / E mu (fun _ => 1)) ->
  law (bootstrap_backward_smoother udef translp k rows vs ts) f =
  E (fk_measure m0 lG0 steps) f / E (fk_measure m0 lG0 steps) (fun _ => 1).
Proof.
  intros U V udef vdef translp lp m0 lG0 Hlp k rows vs ts steps f L1 L2 L3 Hd Hr.
  exact (smoother_exact_lists udef vdef translp lp Hlp m0 lG0 k rows vs ts steps f L1 L2 L3 Hd Hr).
Qed.
Print Assumptions C66_smoother_with_likelihood_partial.

(** the transition density alone is enough when the likelihoods do not depend on the state *)
Theorem C66_smoother_constant_likelihood_partial :
  forall (U V : Type) (udef : U) (vdef : V) (translp : U -> list U -> V -> R -> list R) lp m0 lG0,
  (forall x us v t, translp x us v t = map (lp v t x) us) ->
  forall k rows vs ts (steps : list ((U -> R) * (U -> dist U))) f,
  length rows = S (length steps) -> length vs = S (length steps) -> length ts = S (length steps) ->
  (forall j, (j < length steps)%nat -> exists mu : dist U, forall u g,
     E (snd (nth j steps (fun _ => 0, dret)) u) g = E mu (fun y => exp (lp (nth j vs vdef) (nth j ts 0) y u) * g y)) ->
  (forall j u u', (j < length steps)%nat -> fst (nth j steps (fun _ => 0, dret)) u = fst (nth j steps (fun _ => 0, dret)) u') ->
  (forall j, (j <= length steps)%nat -> let mu := fk_measure m0 lG0 (firstn j steps) in let row := nth j rows [] in
     row <> [] /\ 0 < E mu (fun _ => 1) /\
     forall h, E (map (fun u => (/ INR (length row), u)) row) h = E mu (fun p => h (last p udef)) / E mu (fun _ => 1)) ->
  law (bootstrap_backward_smoother udef translp k rows vs ts) f =
  E (fk_measure m0 lG0 steps) f / E (fk_measure m0 lG0 steps) (fun _ => 1).
Proof.
  intros U V udef vdef translp lp m0 lG0 Hlp k rows vs ts steps f L1 L2 L3 Hd Hc Hr.
  exact (smoother_exact_const udef vdef translp lp Hlp m0 lG0 k rows vs ts steps f L1 L2 L3 Hd Hc Hr).
Qed.
Print Assumptions C66_smoother_constant_likelihood_partial.

(** a sticky chain with filter rows (1/2, 1/2): the two states agree with probability 3/4 *)
Example C66_example : forall k (v0 v1 : bool) t0 t1,
  law (bootstrap_backward_smoother false demo_translp k [[false; true]; [true; false]] [v0; v1] [t0; t1])
    (fun p => if eqb (nth 0 p false) (nth 1 p false) then 1 else 0) = 3/4.
Proof.
  intros k v0 v1 t0 t1.
  refine (eq_trans (C66_smoother_constant_likelihood_partial bool bool false false demo_translp (fun _ _ x u => if eqb x u then ln (3/4) else ln (1/4)) coin (fun _ => 0)
     _ k [[false; true]; [true; false]] [v0; v1] [t0; t1] [(fun _ => 0, sticky)] _ eq_refl eq_refl eq_refl _ _ _) _).
  - reflexivity.
  - intros j Hj. cbn [length] in Hj. assert (j = 0%nat) as -> by lia. exists [(1, false); (1, true)]. intros u g. cbn [nth fst snd].
    unfold sticky. rewrite !E_cons. cbn [E map Rsum]. unfold E. cbn [map Rsum]. destruct u; cbn [eqb negb]; rewrite !exp_ln by lra; lra.
  - intros j u u' Hj. cbn [length] in Hj. assert (j = 0%nat) as -> by lia. reflexivity.
  - intros j Hj. cbn [length] in Hj. assert (j = 0 \/ j = 1)%nat as [Hj0|Hj0] by lia; subst j; cbv zeta; (split; [discriminate|]);
      unfold fk_measure, coin, sticky, E; cbn; rewrite ?exp_0; (split; [lra|intros h; field]).
  - unfold fk_measure, coin, sticky, E. cbn. rewrite ?exp_0. field.
Qed.

(** ** C68: every model and number of particles *)
Theorem C68_refreshed_indices_every_model_refuted :
  forall (U V : Type) (udef : U) (vdef : V) fwd bridge normal trans translp lik k x0 y0 us_star bs ts n marg_y tr x' us' bs' ch, (0 < n)%nat ->
  runs (gibbs_kernel udef vdef fwd bridge normal trans translp lik k x0 y0 us_star bs ts n marg_y true true) tr (x', us', bs', ch) -> ~ In n bs'.
Proof.
  intros U V udef vdef fwd bridge normal trans translp lik k x0 y0 us_star bs ts n marg_y tr x' us' bs' ch Hn Hr Hin.
  pose proof (refreshed_below udef vdef fwd bridge normal trans translp lik k x0 y0 us_star bs ts n marg_y true Hn tr _ Hr) as H.
  cbn [fst snd] in H. rewrite Forall_forall in H. specialize (H n Hin). lia.
Qed.
Print Assumptions C68_refreshed_indices_every_model_refuted.
