(** Backward sampling (csmc.py:167-227) leaves out the likelihood factor of the next step. *)
From Verif Require Export Demo.
Open Scope R_scope.

Notation flat_kernel := (csmc_kernel false false demo_init flat_initll flat_trans flat_translp demo_lik cmultinomial).

Definition ind (b : bool) : R := if b then 1 else 0.
Definition first_state (pi : list bool * list nat) : R := ind (nth 0 (fst pi) false).

Lemma flat_backward_weights x us v t lw :
  length us = 2%nat -> lw = normalise_log [0; 0] -> backward_weights flat_translp x us lw v t = [1/2; 1/2].
Proof.
  intros Hu ->. destruct us as [|a [|b [|]]]; try discriminate. unfold backward_weights, flat_translp.
  cbn [map]. cbn [Rmax_list fold_right]. rewrite Rmax_left by lra.
  replace (ln (1/2) - ln (1/2)) with 0 by ring. cbn [normalise_log map combine fst snd].
  rewrite !Rplus_0_l. change [0 - logsumexp [0; 0]; 0 - logsumexp [0; 0]] with (normalise_log [0; 0]).
  rewrite normalise_idem by discriminate. rewrite normalise_eq by discriminate. cbn [map Rsum]. rewrite exp_0.
  repeat f_equal; lra.
Qed.

Lemma flat_backward k vs ts us0 us1 lw1 :
  length vs = 2%nat -> length ts = 2%nat -> length us0 = 2%nat -> length us1 = 2%nat -> length lw1 = 2%nat ->
  law (backward_sampling_pass false flat_translp k vs ts [us0; us1] [normalise_log [0; 0]; lw1]) first_state
  = 1/2 * ind (nth 0 us0 false) + 1/2 * ind (nth 1 us0 false).
Proof.
  intros Hv Ht H0 H1 Hl. unfold backward_sampling_pass, barker_move. cbn [last length Nat.sub].
  destruct vs as [|v0 [|v1 [|]]]; try discriminate. destruct ts as [|t0 [|t1 [|]]]; try discriminate.
  cbn [removelast rev app combine]. rewrite law_bind.
  rewrite choice_denotes by (apply normalise_ok; destruct lw1; discriminate).
  rewrite (E_ext' _ _ (fun _ => 1/2 * ind (nth 0 us0 false) + 1/2 * ind (nth 1 us0 false))).
  - apply E_const, is_prob_dcat, normalise_ok. destruct lw1; discriminate.
  - intros B. cbv zeta. rewrite law_bind. cbn [scan_backward]. rewrite flat_backward_weights by auto.
    rewrite law_bind, choice_denotes by (split; [repeat constructor; lra|simpl; lra]).
    rewrite E_dcat. cbn [length seq map Rsum nth bind law first_state fst snd rev app]. unfold first_state. cbn [fst nth]. ring.
Qed.

Lemma flat_kernel_value k us bs vs ts b0 b1 :
  length us = 2%nat -> bs = [b0; b1] -> (b0 < 2)%nat -> (b1 < 2)%nat -> length vs = 2%nat -> length ts = 2%nat ->
  law (flat_kernel k us bs vs ts 1 true) first_state = 1/2 * ind (nth 0 us false) + 1/4.
Proof.
  intros Hu -> Hb0 Hb1 Hv Ht. destruct us as [|u0 [|u1 [|]]]; try discriminate.
  assert (Hsh := flat_shapes cmultinomial cmultinomial_safe).
  assert (Hmo := flat_model cmultinomial _ exact_cmultinomial).
  unfold csmc_kernel. rewrite law_bind. unfold forward_pass. rewrite law_bind.
  rewrite (mo_init _ _ _ _ _ _ _ _ _ _ Hmo). cbn [Nat.add repeat].
  rewrite (E_ext _ _ (fun us1 => 1/2 * ind (nth 0 (set_nth b0 u0 us1) false) + 1/2 * ind (nth 1 (set_nth b0 u0 us1) false))).
  - rewrite !E_dseq_cons. destruct b0 as [|[|b0]]; [| |lia]; destruct u0; unfold coin, E, ind; simpl; lra.

  - intros us1 Hus1. apply dseq_length in Hus1. cbn [length] in Hus1. cbn [nth]. cbv zeta.
    set (us0 := set_nth b0 u0 us1). assert (Hus0 : length us0 = 2%nat) by (unfold us0; now rewrite length_set_nth).
    rewrite law_bind.
    replace (flat_initll (nth 0 vs false) us0 (nth 1 vs false)) with [0; 0].
    2:{ destruct us0 as [|x [|y [|]]]; try discriminate. reflexivity. }
    rewrite scan_inputs_mk by (simpl; lia).
    assert (HB : Forall (fun bu : nat * bool => (fst bu < 2)%nat) (combine [b1] [u1])) by (constructor; [exact Hb1|constructor]).
    rewrite (law_ext_safe _ (Forall2 (step_ok 2) (mk_inputs (step_data vs ts) b0 (combine [b1] [u1]))) _
       (fun _ => 1/2 * ind (nth 0 us0 false) + 1/2 * ind (nth 1 us0 false))).
    + eapply law_scan_const with (N := 2%nat); try exact Hmo; try assumption; try reflexivity; try lia.
      now apply normalise_log_sum.
    + eapply scan_forward_safe; try exact Hsh; try assumption; try reflexivity.
      * now apply normalise_log_sum.
      * now apply mk_inputs_bounds.
    + intros out Hout. destruct vs as [|v0 [|v1 [|]]]; try discriminate. destruct ts as [|t0 [|t1 [|]]]; try discriminate.
      cbn [combine step_data mk_inputs] in Hout. inversion Hout as [|s [[lw1 A] us2] ? out' Hs Hout']; subst.
      inversion Hout'; subst. destruct Hs as ((Hl & _) & _ & (Hl2 & _)). cbn [law map fst snd].
      apply flat_backward; auto.
Qed.

(** The smoothing law is not preserved. *)
Theorem backward_sampling_not_invariant :
  E (smoothing false coin flat_lG0 flat_M demo_lg [true; true] [0; 1]) (fun us =>
     E (unif_indices 2 2) (fun bs => law (flat_kernel [] us bs [true; true] [0; 1] 1 true) first_state)) = 5/4 /\
  E (smoothing false coin flat_lG0 flat_M demo_lg [true; true] [0; 1]) (fun us =>
     E (unif_indices 2 2) (fun bs => first_state (us, bs))) = 3/2.
Proof.
  assert (Hs : forall Q, E (smoothing false coin flat_lG0 flat_M demo_lg [true; true] [0; 1]) Q =
     1/4 * Q [false; false] + 1/4 * Q [false; true] + 3/4 * Q [true; false] + 3/4 * Q [true; true]).
  { intros Q. unfold smoothing, fk_measure. rewrite E_dbind. unfold coin at 1. unfold E at 1. cbn [map fst snd Rsum].
    rewrite !E_dscale, !E_dmap. cbn [step_data fk_of map fk_path]. rewrite !E_dscale, !E_dbind.
    unfold flat_M, coin, demo_lg, flat_lG0. cbn [eqb]. rewrite exp_0, exp_ln by lra. unfold E. cbn [map fst snd Rsum dmap dret nth]. lra. }
  assert (Hu : is_prob (unif_indices 2 2)) by (apply is_prob_dseq, Forall_repeat, is_prob_dunif; lia).
  split.
  - rewrite Hs.
    assert (Hq : forall us, length us = 2%nat -> E (unif_indices 2 2) (fun bs => law (flat_kernel [] us bs [true; true] [0; 1] 1 true) first_state)
       = 1/2 * ind (nth 0 us false) + 1/4).
    { intros us Hus. rewrite (E_ext _ _ (fun _ => 1/2 * ind (nth 0 us false) + 1/4)); [now apply E_const|].
      intros bs Hbs. apply dseq_repeat_support in Hbs. destruct Hbs as [Hl Hbs].
      destruct bs as [|b0 [|b1 [|]]]; try discriminate. inversion Hbs as [|? ? H1 H2]; subst. inversion H2 as [|? ? H3 H4]; subst.
      apply flat_kernel_value with b0 b1; auto; now apply dunif_support. }
    rewrite !Hq by reflexivity. cbn [nth ind]. lra.
  - rewrite Hs. unfold first_state. cbn [fst nth]. rewrite !E_const by assumption. cbn [ind]. lra.
Qed.
