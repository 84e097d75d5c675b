(** Proofs about the particle filters, the smoother and twisted SMC. *)
From Verif Require Export Smc CsmcInv.
Open Scope R_scope.

Lemma filter_inputs_step_data {V} (vs : list V) ts : filter_inputs vs ts = step_data vs ts.
Proof.
  revert ts; induction vs as [|v0 [|v1 vs] IH]; intros [|t ts]; try reflexivity.
  cbn [filter_inputs step_data]. f_equal. apply IH.
Qed.

Lemma E_dseq_Rsum {A} (ds : list (dist A)) (f : A -> R) :
  Forall is_prob ds -> E (dseq ds) (fun l => Rsum (map f l)) = Rsum (map (fun d => E d f) ds).
Proof.
  induction 1 as [|d ds Hd H IH]; [simpl; now rewrite E_dret|].
  rewrite E_dseq_cons. cbn [map Rsum].
  rewrite (E_ext' _ _ (fun a => f a + Rsum (map (fun d => E d f) ds))).
  - rewrite E_plus, E_const by assumption. reflexivity.
  - intros a. rewrite E_plus, E_const by now apply is_prob_dseq. now rewrite IH.
Qed.

Lemma last_cons {A} (a : A) l d : last (a :: l) d = last l a.
Proof.
  revert a d; induction l as [|b l IH]; intros a d; [reflexivity|].
  change (last (a :: b :: l) d) with (last (b :: l) d). rewrite !IH. reflexivity.
Qed.

Lemma Rsum_gather {A} (f : A -> R) (dflt : A) l : Rsum (map f l) = Rsum (map (fun i => f (nth i l dflt)) (seq 0 (length l))).
Proof. now rewrite <- (map_nth_seq dflt l) at 1; rewrite map_map. Qed.

(** A resampling scheme as used by the filters: indices in range and unbiased. *)
Record good_res (res : list R -> key -> prog (list nat)) : Prop := {
  gr_valid : forall w k, weights_ok w -> safe (res w k) (valid_indices (length w));
  gr_unbiased : unbiased_res res }.

Section filters.
Context {U V : Type} (udef : U) (vdef : V).
Variable transition_sampler : list U -> V -> R -> key -> prog (list U).
Variable measurement_cond_pdf : V -> list U -> V -> R -> list R.
Variable resampling : list R -> key -> prog (list nat).
Variable M : V -> R -> U -> dist U.
Variable lg : V -> V -> R -> U -> R.

Record filter_ok : Prop := {
  fo_M : forall v t u, is_prob (M v t u);
  fo_trans : forall us v t k, denotes (transition_sampler us v t k) (dseq (map (M v t) us));
  fo_lik : forall v us vp t, measurement_cond_pdf v us vp t = map (lg v vp t) us;
  fo_res : good_res resampling }.
Hypothesis Hfo : filter_ok.
Variable n : nat.
Hypothesis Hn : (0 < n)%nat.

Let INRn : 0 < INR n.
Proof. apply lt_0_INR; lia. Qed.

Notation fk sd := (fk_of M lg sd).

(** expectation, under the remaining unnormalised steps, of a function of the final state *)
Definition fk_final (sd : list (V * V * R)) (phi : U -> R) (u : U) : R :=
  E (fk_path (fk sd) u) (fun p => phi (last p u)).

Lemma fk_final_cons v vp t sd phi u :
  fk_final ((v, vp, t) :: sd) phi u = exp (lg v vp t u) * E (M vp t u) (fk_final sd phi).
Proof.
  unfold fk_final. cbn [fk_of map fk_path]. rewrite E_dscale, E_dbind. f_equal. apply E_ext'. intros u'.
  rewrite E_dmap. apply E_ext'. intros p. now rewrite last_cons.
Qed.

Lemma map_prob v t us : Forall is_prob (map (M v t) us).
Proof. apply Forall_map, Forall_forall. intros. apply Hfo. Qed.

Lemma weight_identity v vp t (us : list U) (Q : U -> R) ell :
  length us = n ->
  exp (ell - ln (INR n) + logsumexp (map (lg v vp t) us)) *
    Rsum (map (fun i => nth i (normalise (map (lg v vp t) us)) 0 * Q (nth i us udef)) (seq 0 n))
  = exp ell * (/ INR n * Rsum (map (fun u => exp (lg v vp t u) * Q u) us)).
Proof.
  intros Hl. assert (Hne : map (lg v vp t) us <> []) by (destruct us; [simpl in Hl; lia|discriminate]).
  pose proof (Rsum_exp_pos _ Hne) as HS.
  unfold Rminus. rewrite !exp_plus, exp_Ropp, exp_ln by assumption. unfold logsumexp. rewrite exp_ln by assumption.
  rewrite !Rmult_assoc. f_equal. f_equal.
  rewrite <- Rsum_map_mult_l. rewrite (Rsum_gather _ udef us), Hl. apply Rsum_map_ext. intros i Hi. apply in_seq in Hi.
  rewrite normalise_eq by assumption.
  rewrite (nth_indep _ 0 (exp (lg v vp t udef) / Rsum (map exp (map (lg v vp t) us)))) by (rewrite !map_length; lia).
  rewrite (map_map (lg v vp t) (fun x => exp x / Rsum (map exp (map (lg v vp t) us)))). rewrite (map_nth (fun u => exp (lg v vp t u) / Rsum (map exp (map (lg v vp t) us)))). field. lra.
Qed.

Lemma nonempty_us (us : list U) : length us = n -> us <> [].
Proof. intros H ->. simpl in H. lia. Qed.

Lemma weights_lik_ok v vp t (us : list U) : length us = n ->
  weights_ok (normalise (map (lg v vp t) us)) /\ length (normalise (map (lg v vp t) us)) = n.
Proof.
  intros Hl. split; [|now rewrite length_normalise, map_length].
  apply normalise_ok. destruct us; [simpl in Hl; lia|discriminate].
Qed.

(** *** pmcmc_filter_step *)

Notation pf := (pf_scan udef transition_sampler measurement_cond_pdf resampling n).
Lemma pf_scan_unbiased k sd : forall i us ell phi, length us = n ->
  law (pf k i sd (us, ell)) (fun c => exp (snd c) * (/ INR n * Rsum (map phi (fst c)))) =
  exp ell * (/ INR n * Rsum (map (fk_final sd phi) us)).
Proof.
  induction sd as [|[[v vp] t] sd IH]; intros i us ell phi Hl.
  - cbn [pf_scan law fst snd]. do 2 f_equal. f_equal. apply map_ext. intros u. unfold fk_final. cbn [fk_of map fk_path].
    now rewrite E_dret.
  - cbn [pf_scan]. rewrite law_bind. unfold pf_body. rewrite law_bind.
    rewrite (fo_lik Hfo). change (map exp (map (fun x => x - logsumexp (map (lg v vp t) us)) (map (lg v vp t) us)))
      with (normalise (map (lg v vp t) us)).
    destruct (weights_lik_ok v vp t us Hl) as [Hw Hwl].
    set (ell' := ell - ln (INR n) + logsumexp (map (lg v vp t) us)).
    transitivity (law (resampling (normalise (map (lg v vp t) us)) (split_key (split_key k i) 1)) (fun A =>
       Rsum (map (fun j => exp ell' * (/ INR n * E (M vp t (nth j us udef)) (fk_final sd phi))) A))).
    + eapply law_ext_safe; [apply (gr_valid _ (fo_res Hfo)); exact Hw|].
      intros A [HA _]. rewrite Hwl in HA. rewrite law_bind, (fo_trans Hfo _ _ _ _ _). cbn [law].
      rewrite (E_ext _ _ (fun us' => exp ell' * (/ INR n * Rsum (map (fk_final sd phi) us')))).
      2:{ intros us' Hin. apply dseq_length in Hin. unfold gather in Hin. rewrite !map_length in Hin. rewrite HA in Hin.
          rewrite <- (IH (S i)) by assumption. apply law_ext. intros c. reflexivity. }
      rewrite E_mult_l, E_mult_l, E_dseq_Rsum by apply map_prob. unfold gather. rewrite !map_map.
      rewrite <- !Rsum_map_mult_l. reflexivity.
    + rewrite (gr_unbiased _ (fo_res Hfo)) by assumption. rewrite Hwl, E_dcat, Hwl.
      rewrite (Rsum_map_ext _ (fun j => exp ell' * / INR n *
         (nth j (normalise (map (lg v vp t) us)) 0 * E (M vp t (nth j us udef)) (fk_final sd phi)))) by (intros; ring).
      rewrite Rsum_map_mult_l. rewrite (Rmult_comm (exp ell')), Rmult_assoc.
      unfold ell'. rewrite (weight_identity v vp t us (fun u => E (M vp t u) (fk_final sd phi)) ell Hl).
      rewrite <- Rmult_assoc, Rinv_r, Rmult_1_l by lra. do 2 f_equal. f_equal. apply map_ext. intros u. now rewrite fk_final_cons.
Qed.

Lemma pf_scan_length k sd : forall i us ell, length us = n ->
  (forall us v t k, safe (transition_sampler us v t k) (fun us' => length us' = length us)) ->
  safe (pf k i sd (us, ell)) (fun c => length (fst c) = n).
Proof.
  induction sd as [|[[v vp] t] sd IH]; intros i us ell Hl Ht; cbn [pf_scan]; [now apply safe_ret|].
  unfold pf_body. rewrite (fo_lik Hfo).
  destruct (weights_lik_ok v vp t us Hl) as [Hw Hwl].
  eapply safe_bind with (P := fun c => length (fst c) = n).
  - eapply safe_bind; [apply (gr_valid _ (fo_res Hfo)); exact Hw|].
    intros A [HA _]. eapply safe_bind; [apply Ht|]. intros us' Hus'. apply safe_ret. cbn [fst].
    rewrite Hus'. unfold gather. rewrite map_length, HA. exact Hwl.
  - intros [us' e'] H. now apply IH.
Qed.

(** *** bootstrap_filter *)

Notation bf := (bf_scan udef transition_sampler measurement_cond_pdf resampling n).
Lemma bf_scan_unbiased k sd : forall i us nell phi, length us = n ->
  law (bf k i sd (us, nell)) (fun r => exp (- snd (fst r)) * (/ INR n * Rsum (map phi (fst (fst r))))) =
  exp (- nell) * (/ INR n * Rsum (map (fk_final sd phi) us)).
Proof.
  induction sd as [|[[v vp] t] sd IH]; intros i us nell phi Hl.
  - cbn [bf_scan law fst snd]. do 2 f_equal. f_equal. apply map_ext. intros u. unfold fk_final. cbn [fk_of map fk_path].
    now rewrite E_dret.
  - cbn [bf_scan]. rewrite law_bind. unfold bf_body. rewrite law_bind.
    rewrite (fo_lik Hfo). rewrite (fo_trans Hfo _ _ _ _ _).
    destruct (weights_lik_ok v vp t us Hl) as [Hw Hwl].
    set (c := logsumexp (map (lg v vp t) us)).
    transitivity (E (dseq (map (M vp t) us)) (fun us' => exp (- nell - ln (INR n) + c) *
       Rsum (map (fun i => nth i (normalise (map (lg v vp t) us)) 0 * fk_final sd phi (nth i us' udef)) (seq 0 n)))).
    + apply E_ext. intros us' Hin. apply dseq_length in Hin. rewrite map_length in Hin.
      rewrite law_bind. change (map exp (map (fun x => x - c) (map (lg v vp t) us))) with (normalise (map (lg v vp t) us)).
      transitivity (law (resampling (normalise (map (lg v vp t) us)) (split_key (split_key k i) 1)) (fun A =>
         Rsum (map (fun j => exp (- nell - ln (INR n) + c) * / INR n * fk_final sd phi (nth j us' udef)) A))).
      * eapply law_ext_safe; [apply (gr_valid _ (fo_res Hfo)); exact Hw|].
        intros A [HA _]. rewrite Hwl in HA. cbn [law]. rewrite law_bind.
        transitivity (law (bf k (S i) sd (gather udef us' A, nell - (c - ln (INR n))))
          (fun r => exp (- snd (fst r)) * (/ INR n * Rsum (map phi (fst (fst r)))))).
        { apply law_ext. intros [[uT e] out]. reflexivity. }
        rewrite IH by (unfold gather; now rewrite map_length). rewrite Rsum_map_mult_l. unfold gather. rewrite map_map.
        rewrite Rmult_assoc. f_equal. f_equal. ring.
      * rewrite (gr_unbiased _ (fo_res Hfo)) by assumption. rewrite Hwl, E_dcat, Hwl.
        rewrite (Rsum_map_ext _ (fun j => exp (- nell - ln (INR n) + c) * / INR n *
          (nth j (normalise (map (lg v vp t) us)) 0 * fk_final sd phi (nth j us' udef)))) by (intros; ring).
        rewrite Rsum_map_mult_l. field. lra.
    + rewrite E_mult_l, E_Rsum.
      rewrite (Rsum_map_ext _ (fun i => nth i (normalise (map (lg v vp t) us)) 0 * E (M vp t (nth i us udef)) (fk_final sd phi))).
      * unfold c. rewrite (weight_identity v vp t us (fun u => E (M vp t u) (fk_final sd phi)) (- nell) Hl).
        do 2 f_equal. f_equal. apply map_ext. intros u. now rewrite fk_final_cons.
      * intros j Hj. apply in_seq in Hj. rewrite E_mult_l. f_equal.
        apply E_dseq_nth; [apply map_prob|]. rewrite nth_error_map.
        rewrite (nth_error_nth' us udef) by lia. reflexivity.
Qed.
End filters.
