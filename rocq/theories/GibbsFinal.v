(** The Gibbs kernel with explicit_final=True: which law it does preserve. *)
From Verif Require Export GibbsProofs GibbsDemo.
Open Scope R_scope.

Section final.
Context {U V : Type} (udef : U) (vdef : V).
Variable fwd_sampler : key -> U -> V -> prog (list U * list V).
Variable bridge_sampler : key -> V -> V -> list R -> prog (list V).
Variable normal_sampler : key -> nat -> prog (list U).
Variable transition_sampler : list U -> V -> R -> key -> prog (list U).
Variable transition_logpdf : U -> list U -> V -> R -> list R.
Variable likelihood_logpdf : V -> list U -> V -> R -> list R.
Variable y0 : V.
Variable ts : list R.
Variable FW : U -> dist (list U * list V).
Variable BR : V -> V -> dist (list V).
Variable M : V -> R -> U -> dist U.
Variable lg : V -> V -> R -> U -> R.
Variable ref : dist U.
Hypothesis Hg : gibbs_model_ok fwd_sampler bridge_sampler transition_sampler transition_logpdf likelihood_logpdf y0 ts FW BR M lg.
Hypothesis Href : is_prob ref.
Hypothesis Hnormal : forall k n, denotes (normal_sampler k n) (dseq (repeat ref n)).
Hypothesis Hnormal_shape : forall k n, safe (normal_sampler k n) (fun l => length l = n).

(** The pair (us, vs) obtained by noising has, given vs, the smoothing law of the backward model started in the reference law and
    weighted, at the initial time, by the likelihood with its two observations exchanged, as the code calls it. *)
Definition compatible_final (marg_y : bool) (pi : dist U) : Prop :=
  exists B : dist (list V),
    (forall vs, In vs (map snd B) -> length vs = length ts) /\
    forall F : list U -> list V -> R,
      E pi (fun x0 => E (noised vdef FW BR marg_y x0) (fun p => F (fst p) (snd p))) =
      E B (fun vs => E (fk_measure ref (lg (nth 0 vs vdef) (nth 1 vs vdef) (nth 0 ts 0)) (fk_of M lg (step_data vs ts))) (fun us => F us vs)).

Let t0 : R := nth 0 ts 0.
Let lG0 : V -> V -> U -> R := fun v v' => lg v v' t0.

Lemma final_model : model_ok normal_sampler (fun v us v' => likelihood_logpdf v us v' t0) transition_sampler likelihood_logpdf ckilling
  ref lG0 M lg rolled_killing_dist.
Proof.
  constructor.
  - exact Href.
  - apply (gm_M _ _ _ _ _ _ _ _ _ _ _ Hg).
  - exact Hnormal.
  - intros. apply (gm_lik _ _ _ _ _ _ _ _ _ _ _ Hg).
  - apply (gm_trans _ _ _ _ _ _ _ _ _ _ _ Hg).
  - apply (gm_lik _ _ _ _ _ _ _ _ _ _ _ Hg).
  - exact exact_ckilling.
Qed.

Lemma final_shapes : shapes_ok normal_sampler (fun v us v' => likelihood_logpdf v us v' t0) transition_sampler transition_logpdf likelihood_logpdf ckilling.
Proof.
  constructor.
  - exact Hnormal_shape.
  - intros. rewrite (gm_lik _ _ _ _ _ _ _ _ _ _ _ Hg). apply map_length.
  - apply (gm_trans_shape _ _ _ _ _ _ _ _ _ _ _ Hg).
  - apply (gm_translp _ _ _ _ _ _ _ _ _ _ _ Hg).
  - intros. rewrite (gm_lik _ _ _ _ _ _ _ _ _ _ _ Hg). apply map_length.
  - intros. now apply ckilling_safe.
Qed.

Notation gk := (gibbs_kernel udef vdef fwd_sampler bridge_sampler normal_sampler transition_sampler transition_logpdf likelihood_logpdf).

Definition final_stage (eb : bool) (n : nat) (key_csmc : key) (us : list U) (vs : list V) (bs : list nat) : prog (list U * list nat) :=
  let ill v us v' := likelihood_logpdf v us v' t0 in
  if eb then
    ' (_, log_ws, uss) <- forward_pass udef vdef normal_sampler ill transition_sampler likelihood_logpdf ckilling (split_key key_csmc 0) us bs vs ts n ;;
    ' (idx, _) <- force_move (split_key key_csmc 1) (map exp (last log_ws [])) (last bs 0%nat) ;;
    ' (path_x, _) <- fwd_sampler (split_key key_csmc 2) (nth idx (last uss []) udef) y0 ;;
    bs' <- Rint (split_key key_csmc 3) (length us) n (fun l => Ret l) ;;
    Ret (rev path_x, bs')
  else csmc_kernel udef vdef normal_sampler ill transition_sampler transition_logpdf likelihood_logpdf ckilling key_csmc us bs vs ts n false.

Lemma final_stages k x0 us_star bs n marg_y eb f :
  law (gk k x0 y0 us_star bs ts n marg_y eb true) f =
  E (noised vdef FW BR marg_y x0) (fun p => law (final_stage eb n (split_key k 1) (fst p) (snd p) bs)
    (fun ub => f (last (fst ub) udef, fst ub, snd ub, map (fun ab => negb (Nat.eqb (fst ab) (snd ab))) (combine (snd ub) bs)))).
Proof.
  unfold gibbs_kernel. rewrite law_bind, (noise_stage_denotes vdef _ _ _ _ _ _ _ _ _ _ _ Hg _ _ _ _ _). apply E_ext'. intros [us vs]. cbn [fst snd].
  cbv zeta. rewrite law_bind. unfold final_stage. cbv zeta. destruct eb; apply law_ext; intros [us' bs']; reflexivity.
Qed.

Lemma smoothing_length vs us : vs <> [] -> length vs = length ts ->
  In us (map snd (fk_measure ref (lG0 (nth 0 vs vdef) (nth 1 vs vdef)) (fk_of M lg (step_data vs ts)))) -> length us = length ts.
Proof.
  intros Hv Hl Hin. unfold fk_measure, dbind in Hin. apply in_map_iff in Hin. destruct Hin as ([q l] & <- & Hin).
  apply in_flat_map in Hin. destruct Hin as ([q0 u0] & _ & Hin). cbn [fst snd] in *. apply in_map_iff in Hin. destruct Hin as ([q1 l1] & He & Hin).
  cbn [fst snd] in *. injection He as _ <-. unfold dscale in Hin. apply in_map_iff in Hin. destruct Hin as ([q2 l2] & He & Hin).
  cbn [fst snd] in *. injection He as _ <-. unfold dmap in Hin. apply in_map_iff in Hin. destruct Hin as ([q3 l3] & He & Hin). cbn [fst snd] in *.
  injection He as _ <-. cbn [length].
  assert (H : In l3 (map snd (fk_path (fk_of M lg (step_data vs ts)) u0))) by (apply in_map_iff; now exists (q3, l3)).
  apply fk_path_length in H. unfold fk_of in H. rewrite map_length, length_step_data in H by lia. destruct vs; [easy|simpl in *; lia].
Qed.

Lemma final_stage_invariant eb n kc vs f : ts <> [] -> length vs = length ts -> (0 < n)%nat -> (eb = true -> regular_likelihood lg (n + 1)) ->
  let mu := fk_measure ref (lG0 (nth 0 vs vdef) (nth 1 vs vdef)) (fk_of M lg (step_data vs ts)) in
  E mu (fun us => E (unif_indices (n + 1) (length ts)) (fun bs => law (final_stage eb n kc us vs bs) f)) =
  E mu (fun us => if eb then E (FW (last us udef)) (fun p => E (unif_indices n (length ts)) (fun bs => f (rev (fst p), bs)))
                  else E (unif_indices (n + 1) (length ts)) (fun bs => f (us, bs))).
Proof.
  intros Hts Hvs Hn Hreg mu.
  assert (Hvne : vs <> []) by (destruct vs; [destruct ts; [easy|discriminate]|discriminate]).
  assert (Hn1 : (0 < n + 1)%nat) by lia.
  destruct eb.
  - pose proof (forward_force_move udef vdef _ _ _ transition_logpdf _ _ ref lG0 M lg rolled_killing_dist final_model final_shapes (n + 1) Hn1
       ltac:(intros v v' us Hl; apply (Hreg eq_refl); exact Hl)
       (Hreg eq_refl) (split_key kc 0) (split_key kc 1) vs ts
       (fun x => E (FW x) (fun p => E (unif_indices n (length ts)) (fun bs => f (rev (fst p), bs)))) Hvne (eq_sym Hvs)) as H.
    rewrite !joint_spec in H by (assumption || lia). rewrite Hvs in H. replace (n + 1 - 1)%nat with n in H by lia.
    transitivity (E mu (fun us => E (unif_indices (n + 1) (length ts)) (fun bs =>
      law (forward_pass udef vdef normal_sampler (fun v us v' => likelihood_logpdf v us v' t0) transition_sampler likelihood_logpdf ckilling (split_key kc 0) us bs vs ts n)
        (fun res => law (force_move (split_key kc 1) (map exp (last (snd (fst res)) [])) (last bs 0%nat))
          (fun i => E (FW (nth (fst i) (last (snd res) []) udef)) (fun p => E (unif_indices n (length ts)) (fun bs' => f (rev (fst p), bs')))))))).
    { apply E_ext. intros us Hus. apply smoothing_length in Hus; [|assumption|assumption]. apply E_ext'. intros bs.
      unfold final_stage. cbv zeta. rewrite law_bind. apply law_ext. intros [[As lws] uss]. cbn [fst snd].
      rewrite law_bind. apply law_ext. intros [idx al]. cbn [fst]. rewrite law_bind, (gm_fwd _ _ _ _ _ _ _ _ _ _ _ Hg _ _ _). apply E_ext'. intros [px py]. cbn [fst snd].
      cbn [bind law]. unfold rint_hi, unif_indices. rewrite Nat.max_r by lia. rewrite Hus. reflexivity. }
    etransitivity; [exact H|]. apply E_ext'. intros us. apply E_const. apply is_prob_dseq, Forall_repeat, is_prob_dunif. assumption.
  - pose proof (csmc_trace_invariant udef vdef _ _ _ transition_logpdf _ _ ref lG0 M lg rolled_killing_dist final_model final_shapes kc vs ts n f Hvne (eq_sym Hvs)) as H.
    rewrite Hvs in H. exact H.
Qed.

(** Indices uniform over the nparticles + 1 slots: x0 and its noised path keep their law; so do the indices, unless they are refreshed
    (explicit_backward=True), which makes them uniform over nparticles slots only. *)
Theorem gibbs_final_invariant k us_star n marg_y eb pi f :
  ts <> [] -> (0 < n)%nat -> compatible_final marg_y pi -> (eb = true -> regular_likelihood lg (n + 1)) ->
  E pi (fun x0 => E (unif_indices (n + 1) (length ts)) (fun bs =>
    law (gk k x0 y0 us_star bs ts n marg_y eb true) (fun out => let '(x', us', bs', _) := out in f x' us' bs'))) =
  E pi (fun x0 => E (FW x0) (fun p => E (unif_indices (if eb then n else n + 1) (length ts)) (fun bs => f x0 (rev (fst p)) bs))).
Proof.
  intros Hts Hn (B & HB & Hc) Hreg.
  set (g := fun ub : list U * list nat => f (last (fst ub) udef) (fst ub) (snd ub)).
  transitivity (E pi (fun x0 => E (noised vdef FW BR marg_y x0) (fun p => E (unif_indices (n + 1) (length ts)) (fun bs => law (final_stage eb n (split_key k 1) (fst p) (snd p) bs) g)))).
  { apply E_ext'. intros x0. rewrite E_exchange. apply E_ext'. intros bs. rewrite final_stages. reflexivity. }
  rewrite (Hc (fun us vs => E (unif_indices (n + 1) (length ts)) (fun bs => law (final_stage eb n (split_key k 1) us vs bs) g))).
  set (R := fun us (_ : list V) => if eb then E (FW (last us udef)) (fun p => E (unif_indices n (length ts)) (fun bs => g (rev (fst p), bs)))
     else E (unif_indices (n + 1) (length ts)) (fun bs => g (us, bs))).
  transitivity (E B (fun vs => E (fk_measure ref (lG0 (nth 0 vs vdef) (nth 1 vs vdef)) (fk_of M lg (step_data vs ts))) (fun us => R us vs))).
  { apply E_ext. intros vs Hvs. apply HB in Hvs. apply final_stage_invariant; assumption. }
  unfold lG0, t0. rewrite <- (Hc R). unfold R.
  apply E_ext'. intros x0.
  assert (Hback : forall m, E (FW x0) (fun p => E (unif_indices m (length ts)) (fun bs => g (rev (fst p), bs))) =
                  E (FW x0) (fun p => E (unif_indices m (length ts)) (fun bs => f x0 (rev (fst p)) bs))).
  { intros m. apply E_ext. intros p Hp. destruct (gm_fwd_shape _ _ _ _ _ _ _ _ _ _ _ Hg x0 p Hp) as (H1 & H2 & H3). unfold g. cbn [fst snd].
    destruct (fst p) as [|a l]; [discriminate|]. injection H3 as ->. cbn [rev]. rewrite last_last. reflexivity. }
  destruct eb.
  - transitivity (E (noised vdef FW BR marg_y x0) (fun p => E (FW x0) (fun p' => E (unif_indices n (length ts)) (fun bs => g (rev (fst p'), bs))))).
    { apply E_ext. intros p Hp. destruct (noised_shape udef vdef _ _ _ _ _ _ _ _ _ _ _ Hg _ _ _ Hts Hp) as (_ & _ & Hl). rewrite Hl. reflexivity. }
    rewrite (noised_fst vdef _ _ _ _ _ _ _ _ _ _ _ Hg marg_y x0 (fun _ => _)). rewrite E_const by apply (gm_fwd_prob _ _ _ _ _ _ _ _ _ _ _ Hg). apply Hback.
  - rewrite (noised_fst vdef _ _ _ _ _ _ _ _ _ _ _ Hg marg_y x0 (fun us => E (unif_indices (n + 1) (length ts)) (fun bs => g (us, bs)))). apply Hback.
Qed.
End final.

(** ** An instance: sticky transitions, and a likelihood that is informative at the initial time only *)
Definition fd_lg (v v' : bool) (t : R) (u : bool) : R := if (v && negb v' && u)%bool then ln 3 else 0.
Definition fd_lik (v : bool) (us : list bool) (v' : bool) (t : R) : list R := map (fd_lg v v' t) us.
Definition fd_fwd (k : key) (x0 y0 : bool) : prog (list bool * list bool) :=
  u0 <- fin_draw false (split_key k 0) (gd_back x0) ;; Ret ([x0; u0], [y0; negb y0]).
Definition fd_FW (x0 : bool) : dist (list bool * list bool) := dmap (fun u0 => ([x0; u0], [false; true])) (gd_back x0).

Lemma fd_model : gibbs_model_ok fd_fwd gd_bridge demo_trans demo_translp fd_lik false gd_ts fd_FW (fun y y' => dret [y; y']) demo_M fd_lg.
Proof.
  constructor.
  - intros k x0 f. unfold fd_fwd, fd_FW. rewrite law_bind, (fin_draw_denotes false _ _ _), E_dmap. reflexivity.
  - intros x0. unfold fd_FW. apply is_prob_dmap, gd_back_prob.
  - intros x0 p Hin. assert (Hx : exists u, p = ([x0; u], [false; true])).
    { destruct x0; simpl in Hin; intuition subst; eauto. }
    destruct Hx as (u & ->). auto.
  - intros k y y' f. exact (eq_sym (E_dret [y; y'] f)).
  - intros. apply is_prob_dret.
  - intros y y' l [<-|[]]. reflexivity.
  - intros. apply sticky_prob.
  - intros. apply fin_draws_denotes.
  - intros. unfold demo_trans. eapply safe_weaken; [|apply fin_draws_length]. intros l Hl. now rewrite map_length in Hl.
  - intros. apply map_length.
  - reflexivity.
Qed.

Lemma fd_compatible marg_y : compatible_final (U := bool) (V := bool) true gd_ts fd_FW (fun y y' => dret [y; y']) demo_M fd_lg coin marg_y gd_pi.
Proof.
  exists [(1/2, [true; false])]. split; [intros vs [<-|[]]; reflexivity|]. intros F.
  assert (Hn : forall x0 G, E (noised true fd_FW (fun y y' : bool => dret [y; y']) marg_y x0) G = E (gd_back x0) (fun u0 => G ([u0; x0], [true; false]))).
  { intros x0 G. unfold noised, fd_FW. rewrite E_dbind, E_dmap. apply E_ext'. intros u0. destruct marg_y; [rewrite E_dmap|]; now rewrite E_dret. }
  unfold gd_pi. rewrite !E_cons, !Hn. unfold E, gd_back, coin, demo_M, sticky, fd_lg, gd_ts.
  cbn. rewrite !exp_ln, !exp_0 by lra. field.
Qed.

Lemma fd_regular n : (0 < n)%nat -> regular_likelihood fd_lg n.
Proof.
  intros Hn. destruct (Nat.eq_dec n 1) as [->|H1]; [apply regular_one|]. apply (regular_of_bounded fd_lg n (ln 3)); [lia| |].
  - rewrite exp_Ropp, exp_ln by lra. apply Rinv_le_contravar; lra.
  - intros v v' t u u'. unfold fd_lg. assert (0 < ln 3) by (rewrite <- ln_1; apply ln_increasing; lra).
    destruct (v && negb v' && u)%bool, (v && negb v' && u')%bool; lra.
Qed.
