(** twisted_smc, bootstrap_backward_smoother and pcn_proposal. *)
From Verif Require Export SmcProofs.
Open Scope R_scope.

Lemma E_dseq_sum2 {A B} (q : A -> dist B) (F : A -> B -> R) l : (forall a, is_prob (q a)) ->
  E (dseq (map q l)) (fun l' => Rsum (map (fun ba => F (snd ba) (fst ba)) (combine l' l))) = Rsum (map (fun a => E (q a) (F a)) l).
Proof.
  intros Hq. induction l as [|a l IH]; [simpl; now rewrite E_dret|].
  cbn [map]. rewrite E_dseq_cons. cbn [combine map Rsum fst snd].
  rewrite (E_ext' (q a) _ (fun b => F a b + Rsum (map (fun a => E (q a) (F a)) l))).
  - rewrite E_plus, E_const by apply Hq. reflexivity.
  - intros b. rewrite E_plus, E_const, IH; [reflexivity|]. apply is_prob_dseq, Forall_map, Forall_forall. auto.
Qed.

Lemma map_repeat_ {A B} (f : A -> B) a m : map f (repeat a m) = repeat (f a) m.
Proof. induction m; simpl; congruence. Qed.

Lemma zip4_map {A} f (a b c d : A -> R) l : zip4 f (map a l) (map b l) (map c l) (map d l) = map (fun x => f (a x) (b x) (c x) (d x)) l.
Proof. unfold zip4. induction l as [|x l IH]; [reflexivity|]. cbn [map combine]. now rewrite IH. Qed.

Lemma map_fst_combine' {A B C} (f : A -> C) (l : list A) (l' : list B) : length l = length l' ->
  map f l = map (fun p => f (fst p)) (combine l l').
Proof. intros H. rewrite <- (map_map fst f). f_equal. symmetry. now apply map_fst_combine. Qed.
Lemma map_snd_combine' {A B C} (f : B -> C) (l : list A) (l' : list B) : length l = length l' ->
  map f l' = map (fun p => f (snd p)) (combine l l').
Proof. intros H. rewrite <- (map_map snd f). f_equal. symmetry. now apply map_snd_combine. Qed.

Section twisted.
Context {U Y : Type} (udef : U).
Variable transition_logpdf : list U -> list U -> R -> list R.
Variable twisting_logpdf : Y -> list U -> R -> list R.
Variable twisting_prop_sampler : key -> list U -> R -> Y -> prog (list U).
Variable twisting_prop_logpdf : list U -> list U -> R -> Y -> list R.
Variable resampling : list R -> key -> prog (list nat).
Variable init_sampler : key -> nat -> prog (list U).

(** the statistical model: initial law, transition, proposal, densities and twisting functions *)
Variable m0 : dist U.
Variable p : R -> U -> dist U.
Variable q : R -> Y -> U -> dist U.
Variables (lp : R -> U -> U -> R) (lq : R -> Y -> U -> U -> R).
Variable psi : Y -> R -> U -> R.

Record twisted_ok : Prop := {
  to_m0 : is_prob m0;
  to_q : forall t y u, is_prob (q t y u);
  to_init : forall k n, denotes (init_sampler k n) (dseq (repeat m0 n));
  to_prop : forall k us t y, denotes (twisting_prop_sampler k us t y) (dseq (map (q t y) us));
  to_trans : forall us ups t, transition_logpdf us ups t = map (fun ab => lp t (fst ab) (snd ab)) (combine us ups);
  to_proplp : forall us ups t y, twisting_prop_logpdf us ups t y = map (fun ab => lq t y (fst ab) (snd ab)) (combine us ups);
  to_psi : forall y us t, twisting_logpdf y us t = map (psi y t) us;
  (* exp (lp - lq) is the density of the transition with respect to the proposal *)
  to_density : forall t y up h, E (q t y up) (fun u => exp (lp t u up - lq t y u up) * h u) = E (p t up) h;
  to_res : good_res resampling }.
Hypothesis Hok : twisted_ok.
Variable n : nat.
Hypothesis Hn : (0 < n)%nat.

(** Spec: the chain, and the twisted target. *)
Fixpoint chain (ts : list R) (u : U) : dist U :=
  match ts with [] => dret u | t :: ts' => dbind (p t u) (chain ts') end.
Definition twisted_target (y : Y) (ts : list R) (phi : U -> R) : R :=
  E m0 (fun u0 => E (chain (tl ts) u0) (fun u => exp (psi y (last ts 0) u) * phi u)).

(** Instrumented copy of [tw_scan] that also accumulates the product of mean incremental weights. *)
Definition tw_body_g (y : Y) (c : list U * list R * list R * R) (t : R) (k : key) : prog (list U * list R * list R * R) :=
  let '(xs_prev, log_ps_prev, log_ws, z) := c in
  inds <- resampling (map exp log_ws) (split_key k 0) ;;
  let xs_prev := gather udef xs_prev inds in
  let log_ps_prev := gather 0 log_ps_prev inds in
  xs <- twisting_prop_sampler (split_key k 1) xs_prev t y ;;
  let log_ps := twisting_logpdf y xs t in
  let log_ws := zip4 (fun a b c d => a + b - c - d)
                  (transition_logpdf xs xs_prev t) log_ps (twisting_prop_logpdf xs xs_prev t y) log_ps_prev in
  Ret (xs, log_ps, map (fun x => x - logsumexp log_ws) log_ws, z * (/ INR n * Rsum (map exp log_ws))).
Fixpoint tw_scan_g (y : Y) (k : key) (i : nat) (ts : list R) (c : list U * list R * list R * R) : prog (list U * list R * list R * R) :=
  match ts with
  | [] => Ret c
  | t :: ts' => c' <- tw_body_g y c t (split_key k i) ;; tw_scan_g y k (S i) ts' c'
  end.
Definition twisted_smc_g (k : key) (y : Y) (ts : list R) : prog (list U * list R * R) :=
  init_xs <- init_sampler (split_key k 0) n ;;
  let init_log_ps := twisting_logpdf y init_xs (nth 0 ts 0) in
  let init_log_ws := map (fun x => x - logsumexp init_log_ps) init_log_ps in
  ' (samples, _, log_weights, z) <- tw_scan_g y (split_key k 1) 0 (tl ts)
      (init_xs, init_log_ps, init_log_ws, / INR n * Rsum (map exp init_log_ps)) ;;
  Ret (samples, log_weights, z).

Notation scan := (tw_scan udef transition_logpdf twisting_logpdf twisting_prop_sampler twisting_prop_logpdf resampling).

(** the instrumented program computes the same particles and weights *)
Lemma tw_scan_g_erase y k ts : forall i c z f, law (tw_scan_g y k i ts (c, z)) (fun r => f (fst r)) = law (scan y k i ts c) f.
Proof.
  induction ts as [|t ts IH]; intros i [[xs lps] lws] z f; [reflexivity|].
  cbn [tw_scan_g tw_scan]. rewrite !law_bind. unfold tw_body_g, tw_body. rewrite !law_bind.
  apply law_ext. intros A. rewrite !law_bind. apply law_ext. intros us. cbn [law]. apply IH.
Qed.

Theorem twisted_smc_g_erase k y ts f :
  law (twisted_smc_g k y ts) (fun r => f (fst r)) =
  law (twisted_smc udef transition_logpdf twisting_logpdf twisting_prop_sampler twisting_prop_logpdf resampling k y ts init_sampler n) f.
Proof.
  unfold twisted_smc_g, twisted_smc. rewrite !law_bind. apply law_ext. intros us. rewrite !law_bind.
  rewrite <- (tw_scan_g_erase y (split_key k 1) (tl ts) 0 _ (/ INR n * Rsum (map exp (twisting_logpdf y us (nth 0 ts 0))))
    (fun c => law (let '(samples, _, lw) := c in Ret (samples, lw)) f)).
  apply law_ext. intros [[[xs lps] lws] z]. reflexivity.
Qed.

Definition wsum (phi : U -> R) (xs : list U) (lws : list R) : R :=
  Rsum (map (fun i => exp (nth i lws 0) * phi (nth i xs udef)) (seq 0 n)).

(** value-to-go *)
Definition togo (y : Y) (t : R) (ts : list R) (phi : U -> R) (u : U) : R :=
  exp (- psi y t u) * E (chain ts u) (fun u' => exp (psi y (last (t :: ts) 0) u') * phi u').

Lemma incr_weights y t t' (xs ups : list U) : length xs = length ups ->
  zip4 (fun a b c d => a + b - c - d) (transition_logpdf xs ups t) (twisting_logpdf y xs t)
    (twisting_prop_logpdf xs ups t y) (map (psi y t') ups) =
  map (fun ab => lp t (fst ab) (snd ab) + psi y t (fst ab) - lq t y (fst ab) (snd ab) - psi y t' (snd ab)) (combine xs ups).
Proof.
  intros Hl. rewrite (to_trans Hok), (to_psi Hok), (to_proplp Hok).
  rewrite (map_fst_combine' (psi y t) xs ups) by assumption. rewrite (map_snd_combine' (psi y t') xs ups) by assumption.
  apply zip4_map.
Qed.

Lemma tw_scan_unbiased y k ts phi : forall t i xs lws z,
  length xs = n -> length lws = n -> Rsum (map exp lws) = 1 ->
  law (tw_scan_g y k i ts (xs, map (psi y t) xs, lws, z)) (fun r => let '(xs', _, lws', z') := r in z' * wsum phi xs' lws') =
  z * wsum (togo y t ts phi) xs lws.
Proof.
  induction ts as [|t ts IH]; intros t' i xs lws z Hx Hl Hs.
  - cbn [tw_scan_g law]. f_equal. unfold wsum. apply Rsum_map_ext. intros j _. f_equal. unfold togo. cbn [chain last].
    rewrite E_dret, <- Rmult_assoc, <- exp_plus. replace (- psi y t' (nth j xs udef) + psi y t' (nth j xs udef)) with 0 by ring.
    rewrite exp_0. ring.
  - cbn [tw_scan_g]. rewrite law_bind. unfold tw_body_g. rewrite law_bind.
    assert (HNp : 0 < INR n) by (apply lt_0_INR; lia).
    assert (Hw : weights_ok (map exp lws)) by now apply weights_ok_exp.
    assert (Hwl : length (map exp lws) = n) by now rewrite map_length.
    set (R' := fun u => E (chain ts u) (fun u' => exp (psi y (last (t :: ts) 0) u') * phi u')).
    transitivity (law (resampling (map exp lws) (split_key (split_key k i) 0)) (fun A =>
      Rsum (map (fun j => z * / INR n * (exp (- psi y t' (nth j xs udef)) * E (p t (nth j xs udef)) R')) A))).
    + eapply law_ext_safe; [apply (gr_valid _ (to_res Hok)); exact Hw|]. intros A [HA HAv]. rewrite Hwl in *.
      rewrite law_bind, (to_prop Hok _ _ _ _ _).
      assert (Hg : gather 0 (map (psi y t') xs) A = map (psi y t') (gather udef xs A)).
      { unfold gather. rewrite map_map. apply map_ext_in. intros j Hj. rewrite Forall_forall in HAv. specialize (HAv j Hj).
        rewrite (nth_indep _ 0 (psi y t' udef)) by (rewrite map_length; lia). apply map_nth. }
      rewrite Hg.
      assert (Hgl : length (gather udef xs A) = n) by (unfold gather; now rewrite map_length).
      rewrite (E_ext _ _ (fun us' => z * / INR n * Rsum (map (fun ba => (fun up u => exp (- psi y t' up) * (exp (lp t u up - lq t y u up) * R' u))
           (snd ba) (fst ba)) (combine us' (gather udef xs A))))).
      * rewrite E_mult_l, (E_dseq_sum2 (q t y) (fun up u => exp (- psi y t' up) * (exp (lp t u up - lq t y u up) * R' u))) by apply (to_q Hok).
        rewrite <- Rsum_map_mult_l. unfold gather. rewrite map_map. apply Rsum_map_ext. intros j _. f_equal.
        rewrite E_mult_l. f_equal. apply (to_density Hok).
      * intros us' Hin. apply dseq_length in Hin. rewrite map_length, Hgl in Hin.
        rewrite incr_weights by congruence. cbn [law]. rewrite (to_psi Hok).
        set (lw' := map _ (combine us' (gather udef xs A))).
        assert (Hl' : length lw' = n) by (unfold lw'; rewrite map_length, combine_length, Hin, Hgl; apply Nat.min_id).
        assert (Hne : lw' <> []) by (destruct lw'; [simpl in Hl'; lia|discriminate]).
        change (map (fun x => x - logsumexp lw') lw') with (normalise_log lw').
        rewrite IH; [|assumption|now rewrite length_normalise_log|now apply normalise_log_sum].
        unfold wsum.
        pose proof (Rsum_exp_pos _ Hne) as HSp.
        rewrite (Rsum_map_ext (fun j => exp (nth j (normalise_log lw') 0) * togo y t ts phi (nth j us' udef))
           (fun j => / Rsum (map exp lw') * (fun q => exp (lp t (fst q) (snd q) + psi y t (fst q) - lq t y (fst q) (snd q) - psi y t' (snd q)) * togo y t ts phi (fst q))
               (nth j (combine us' (gather udef xs A)) (udef, udef)))).
        { rewrite Rsum_map_mult_l.
          replace n with (length (combine us' (gather udef xs A))) at 2 by (rewrite combine_length, Hin, Hgl; apply Nat.min_id).
          rewrite <- (Rsum_gather (fun q => exp (lp t (fst q) (snd q) + psi y t (fst q) - lq t y (fst q) (snd q) - psi y t' (snd q)) * togo y t ts phi (fst q)) (udef, udef)).
          rewrite !Rmult_assoc. f_equal. f_equal. rewrite <- Rmult_assoc, Rinv_r, Rmult_1_l by lra.
          apply Rsum_map_ext. intros [u up] _. cbn [fst snd]. unfold togo. fold (R' u).
          rewrite <- !Rmult_assoc, <- !exp_plus. f_equal. f_equal. ring. }
        intros j Hj. apply in_seq in Hj.
        rewrite combine_nth by congruence. cbn [fst snd].
        assert (He : nth j (normalise_log lw') 0 = nth j lw' 0 - logsumexp lw').
        { unfold normalise_log. rewrite (nth_indep _ 0 (0 - logsumexp lw')) by (rewrite map_length; lia).
          apply (map_nth (fun x => x - logsumexp lw')). }
        rewrite He. unfold Rminus at 1. rewrite exp_plus, exp_Ropp. unfold logsumexp. rewrite exp_ln by assumption.
        assert (Hj' : nth j lw' 0 = (fun q => lp t (fst q) (snd q) + psi y t (fst q) - lq t y (fst q) (snd q) - psi y t' (snd q))
             (nth j (combine us' (gather udef xs A)) (udef, udef))).
        { unfold lw'. rewrite (nth_indep _ 0 ((fun q => lp t (fst q) (snd q) + psi y t (fst q) - lq t y (fst q) (snd q) - psi y t' (snd q)) (udef, udef)))
            by (fold lw'; lia).
          apply (map_nth (fun q => lp t (fst q) (snd q) + psi y t (fst q) - lq t y (fst q) (snd q) - psi y t' (snd q))). }
        rewrite Hj', combine_nth by congruence. cbn [fst snd]. ring.
    + rewrite (gr_unbiased _ (to_res Hok)) by assumption. rewrite Hwl, E_dcat, Hwl.
      rewrite (Rsum_map_ext _ (fun j => z * / INR n * (exp (nth j lws 0) * togo y t' (t :: ts) phi (nth j xs udef)))).
      * rewrite Rsum_map_mult_l. unfold wsum. field. lra.
      * intros j Hj. apply in_seq in Hj. rewrite nth_exp by lia. unfold togo. cbn [chain]. rewrite E_dbind.
        change (last (t' :: t :: ts) 0) with (last (t :: ts) 0). unfold R'. ring.
Qed.

Theorem twisted_smc_unbiased k y ts phi : ts <> [] ->
  law (twisted_smc_g k y ts) (fun r => let '(xs, lws, z) := r in z * wsum phi xs lws) = twisted_target y ts phi.
Proof.
  intros Hts. unfold twisted_smc_g. rewrite law_bind, (to_init Hok _ _ _).
  assert (HNp : 0 < INR n) by (apply lt_0_INR; lia).
  destruct ts as [|t ts]; [easy|]. cbn [tl nth].
  transitivity (E (dseq (repeat m0 n)) (fun us => / INR n * Rsum (map (fun u => E (chain ts u) (fun u' => exp (psi y (last (t :: ts) 0) u') * phi u')) us))).
  - apply E_ext. intros us Hin. apply dseq_length in Hin. rewrite repeat_length in Hin.
    rewrite law_bind, (to_psi Hok).
    assert (Hne : map (psi y t) us <> []) by (destruct us; [simpl in Hin; lia|discriminate]).
    pose proof (Rsum_exp_pos _ Hne) as HSp.
    change (map (fun x => x - logsumexp (map (psi y t) us)) (map (psi y t) us)) with (normalise_log (map (psi y t) us)).
    pose proof (tw_scan_unbiased y (split_key k 1) ts phi t 0 us (normalise_log (map (psi y t) us)) (/ INR n * Rsum (map exp (map (psi y t) us)))
      Hin ltac:(now rewrite length_normalise_log, map_length) (normalise_log_sum _ Hne)) as H.
    transitivity (/ INR n * Rsum (map exp (map (psi y t) us)) * wsum (togo y t ts phi) us (normalise_log (map (psi y t) us))).
    + rewrite <- H. apply law_ext. intros [[[xs lps] lws] z]. reflexivity.
    + rewrite Rmult_assoc. f_equal. unfold wsum. rewrite <- Rsum_map_mult_l. rewrite (Rsum_gather _ udef us), Hin. apply Rsum_map_ext.
      intros j Hj. apply in_seq in Hj.
      assert (He : nth j (normalise_log (map (psi y t) us)) 0 = psi y t (nth j us udef) - logsumexp (map (psi y t) us)).
      { unfold normalise_log. rewrite map_map. rewrite (nth_indep _ 0 (psi y t udef - logsumexp (map (psi y t) us))) by (rewrite map_length; lia).
        apply (map_nth (fun u => psi y t u - logsumexp (map (psi y t) us))). }
      rewrite He. unfold Rminus. rewrite exp_plus, exp_Ropp. unfold logsumexp. rewrite exp_ln by assumption. unfold togo.
      rewrite exp_Ropp. pose proof (exp_pos (psi y t (nth j us udef))). field. split; lra.
  - rewrite E_mult_l, E_dseq_Rsum by (apply Forall_forall; intros d Hd; apply repeat_spec in Hd; subst; apply (to_m0 Hok)).
    rewrite map_repeat_.
    unfold twisted_target. cbn [tl].
    generalize (E m0 (fun u => E (chain ts u) (fun u' => exp (psi y (last (t :: ts) 0) u') * phi u'))). intros c.
    rewrite Rsum_repeat. field. lra.
Qed.

(** the returned log-weights are normalised, for every outcome of the draws *)
Hypothesis Hlen : forall k us t y, safe (twisting_prop_sampler k us t y) (fun us' => length us' = length us).
Hypothesis Hlen0 : forall k m, safe (init_sampler k m) (fun us => length us = m).

Lemma tw_scan_safe y k ts : forall i t xs lws, length xs = n -> length lws = n -> Rsum (map exp lws) = 1 ->
  safe (scan y k i ts (xs, map (psi y t) xs, lws)) (fun r => let '(xs', _, lws') := r in length xs' = n /\ length lws' = n /\ Rsum (map exp lws') = 1).
Proof.
  induction ts as [|t ts IH]; intros i t' xs lws Hx Hl Hs; cbn [tw_scan]; [now apply safe_ret|].
  assert (Hw : weights_ok (map exp lws)) by now apply weights_ok_exp.
  eapply safe_bind with (P := fun c => let '(xs', lps', lws') := c in length xs' = n /\ lps' = map (psi y t) xs' /\ length lws' = n /\ Rsum (map exp lws') = 1).
  - unfold tw_body. eapply safe_bind; [apply (gr_valid _ (to_res Hok)); exact Hw|]. intros A [HA HAv]. rewrite map_length, Hl in *.
    assert (Hg : gather 0 (map (psi y t') xs) A = map (psi y t') (gather udef xs A)).
    { unfold gather. rewrite map_map. apply map_ext_in. intros j Hj. rewrite Forall_forall in HAv. specialize (HAv j Hj).
      rewrite (nth_indep _ 0 (psi y t' udef)) by (rewrite map_length; lia). apply map_nth. }
    rewrite Hg. assert (Hgl : length (gather udef xs A) = n) by (unfold gather; now rewrite map_length).
    eapply safe_bind; [apply Hlen|]. intros us' Hus'. cbv beta in Hus'. rewrite Hgl in Hus'. apply safe_ret.
    rewrite incr_weights by congruence. split; [assumption|]. split; [apply (to_psi Hok)|].
    set (lw' := map _ (combine us' (gather udef xs A))). assert (Hl' : length lw' = n) by (unfold lw'; rewrite map_length, combine_length, Hus', Hgl; apply Nat.min_id).
    assert (Hne : lw' <> []) by (destruct lw'; [simpl in Hl'; lia|discriminate]).
    split; [now rewrite map_length|]. exact (normalise_log_sum lw' Hne).
  - intros [[xs' lps'] lws'] (H1 & -> & H3 & H4). now apply IH.
Qed.

Theorem twisted_smc_normalised k y ts :
  safe (twisted_smc udef transition_logpdf twisting_logpdf twisting_prop_sampler twisting_prop_logpdf resampling k y ts init_sampler n)
    (fun r => length (fst r) = n /\ length (snd r) = n /\ Rsum (map exp (snd r)) = 1).
Proof.
  unfold twisted_smc. eapply safe_bind; [apply Hlen0|]. intros us Hus. cbv beta in Hus. rewrite (to_psi Hok).
  assert (Hne : map (psi y (nth 0 ts 0)) us <> []) by (destruct us; [simpl in Hus; lia|discriminate]).
  eapply safe_bind.
  - apply tw_scan_safe; [assumption|now rewrite !map_length|exact (normalise_log_sum _ Hne)].
  - intros [[xs' lps'] lws'] H. now apply safe_ret.
Qed.
End twisted.

(** ** bootstrap_backward_smoother *)
Section smoother.
Context {U V : Type} (udef : U).
Variable transition_logpdf : U -> list U -> V -> R -> list R.
Variable lp : V -> R -> U -> U -> R.   (* log density of moving to the first from the second *)
Hypothesis Hlp : forall x us v t, transition_logpdf x us v t = map (lp v t x) us.

(** Spec: walk back through the rows (last first), each time choosing a member of the row with
    probability proportional to its transition density to the state just chosen. *)
Fixpoint back_walk (rows : list (list U * V * R)) (x : U) : dist (list U) :=
  match rows with
  | [] => dret []
  | (us, v, t) :: rows' =>
      dbind (map (fun u => (exp (lp v t x u) / Rsum (map (fun u' => exp (lp v t x u')) us), u)) us)
            (fun u => dmap (fun l => l ++ [u]) (back_walk rows' u))
  end.

Lemma E_row (us : list U) (g : U -> R) f : E (dcat (map g us)) (fun j => f (nth j us udef)) = E (map (fun u => (g u, u)) us) f.
Proof.
  rewrite E_dcat, map_length. induction us as [|u us IH]; [reflexivity|].
  cbn [map length seq]. rewrite E_cons. cbn [Rsum nth]. f_equal. rewrite <- seq_shift, map_map. exact IH.
Qed.

Lemma sm_scan_law k rows : forall i x f, Forall (fun r => fst (fst r) <> []) rows ->
  law (sm_scan udef transition_logpdf k i x rows) f = E (back_walk rows x) (fun l => f (rev l)).
Proof.
  induction rows as [|[[us v] t] rows IH]; intros i x f Hne; cbn [sm_scan back_walk].
  - cbn [law]. now rewrite E_dret.
  - rewrite law_bind, Hlp. inversion Hne as [|? ? H1 H2]; subst. cbn [fst] in H1.
    change (map exp (map (fun x0 => x0 - logsumexp (map (lp v t x) us)) (map (lp v t x) us))) with (normalise (map (lp v t x) us)).
    assert (Hm : map (lp v t x) us <> []) by (destruct us; [easy|discriminate]).
    rewrite (choice_denotes _ _ (normalise_ok _ Hm) _). rewrite E_dbind.
    rewrite normalise_eq, !map_map by assumption.
    rewrite <- (E_row us (fun u => exp (lp v t x u) / Rsum (map (fun u' => exp (lp v t x u')) us))). apply E_ext'. intros j.
    rewrite law_bind, IH, E_dmap by assumption. apply E_ext'. intros l. cbn [law]. now rewrite rev_app_distr.
Qed.

Definition smoother_rows (filter_us : list (list U)) (vs : list V) (ts : list R) : list (list U * V * R) :=
  combine (combine (rev (removelast filter_us)) (rev (removelast vs))) (rev (removelast ts)).

Theorem smoother_law k filter_us vs ts f :
  filter_us <> [] -> Forall (fun us => us <> []) filter_us -> length vs = length filter_us -> length ts = length filter_us ->
  law (bootstrap_backward_smoother udef transition_logpdf k filter_us vs ts) f =
  E (map (fun u => (/ INR (length (last filter_us [])), u)) (last filter_us [])) (fun uT =>
    E (back_walk (smoother_rows filter_us vs ts) uT) (fun l => f (l ++ [uT]))).
Proof.
  intros Hne Hrows Hv Ht. unfold bootstrap_backward_smoother. rewrite law_bind.
  assert (Hl : last filter_us [] <> []).
  { rewrite Forall_forall in Hrows. apply Hrows. now apply last_In. }
  assert (Hlen : (0 < length (last filter_us []))%nat) by (destruct (last filter_us []); [easy|simpl; lia]).
  rewrite (choice_unif_denotes _ _ Hlen _). unfold dunif.
  replace (repeat (/ INR (length (last filter_us []))) (length (last filter_us [])))
    with (map (fun _ => / INR (length (last filter_us []))) (last filter_us [])).
  2:{ generalize (/ INR (length (last filter_us []))). generalize (last filter_us []). clear. intros l c. induction l; simpl; congruence. }
  rewrite <- (E_row (last filter_us []) (fun _ => / INR (length (last filter_us [])))). apply E_ext'. intros j.
  rewrite law_bind. change (combine (combine (rev (removelast filter_us)) (rev (removelast vs))) (rev (removelast ts))) with (smoother_rows filter_us vs ts).
  rewrite sm_scan_law.
  - apply E_ext'. intros l. cbn [law]. now rewrite rev_involutive.
  - apply Forall_forall. intros [[us v] t] Hin. cbn [fst]. apply in_combine_l, in_combine_l in Hin. apply in_rev in Hin.
    rewrite Forall_forall in Hrows. apply Hrows. clear -Hin. induction filter_us as [|a [|b l] IH]; simpl in Hin; [easy|easy|].
    destruct Hin as [->|Hin]; [now left|right; now apply IH].
Qed.

Lemma sm_scan_safe k rows : forall i x, Forall (fun r => fst (fst r) <> []) rows ->
  safe (sm_scan udef transition_logpdf k i x rows) (fun l => Forall2 (fun u us => In u us) l (map (fun r => fst (fst r)) rows)).
Proof.
  induction rows as [|[[us v] t] rows IH]; intros i x Hne; cbn [sm_scan map fst]; [apply safe_ret; constructor|].
  inversion Hne as [|? ? H1 H2]; subst. cbn [fst] in H1. rewrite Hlp.
  assert (Hm : map (lp v t x) us <> []) by (destruct us; [easy|discriminate]).
  eapply safe_bind; [apply choice_safe; exact (normalise_ok _ Hm)|]. intros j Hj. cbv beta in Hj. rewrite !map_length in Hj.
  eapply safe_bind; [apply IH; assumption|]. intros l Hl. apply safe_ret. constructor; [|assumption]. now apply nth_In.
Qed.

Lemma Forall2_rev {A B} (P : A -> B -> Prop) l l' : Forall2 P l l' -> Forall2 P (rev l) (rev l').
Proof. induction 1; simpl; [constructor|]. apply Forall2_app; [assumption|]. now repeat constructor. Qed.

Theorem smoother_members k filter_us vs ts :
  filter_us <> [] -> Forall (fun us => us <> []) filter_us -> length vs = length filter_us -> length ts = length filter_us ->
  safe (bootstrap_backward_smoother udef transition_logpdf k filter_us vs ts) (fun path => Forall2 (fun u us => In u us) path filter_us).
Proof.
  intros Hne Hrows Hv Ht. unfold bootstrap_backward_smoother.
  assert (Hl : last filter_us [] <> []).
  { rewrite Forall_forall in Hrows. apply Hrows. now apply last_In. }
  assert (Hlen : (0 < length (last filter_us []))%nat) by (destruct (last filter_us []); [easy|simpl; lia]).
  eapply safe_bind; [apply choice_unif_safe; exact Hlen|]. intros j Hj.
  eapply safe_bind; [apply sm_scan_safe|].
  - apply Forall_forall. intros [[us v] t] Hin. cbn [fst]. apply in_combine_l, in_combine_l in Hin. apply in_rev in Hin.
    rewrite Forall_forall in Hrows. apply Hrows. clear -Hin. induction filter_us as [|a [|b l] IH]; simpl in Hin; [easy|easy|].
    destruct Hin as [->|Hin]; [now left|right; now apply IH].
  - intros l Hf. cbv beta in Hf. apply safe_ret.
    assert (Hs : Forall2 (fun u us => In u us) (rev l ++ [nth j (last filter_us []) udef]) (removelast filter_us ++ [last filter_us []]));
      [|rewrite <- (app_removelast_last [] Hne) in Hs; exact Hs].
    apply Forall2_app; [|repeat constructor; now apply nth_In].
    apply Forall2_rev in Hf. erewrite <- (rev_involutive (removelast filter_us)). 
    replace (rev (removelast filter_us)) with (map (fun r : list U * V * R => fst (fst r)) (combine (combine (rev (removelast filter_us)) (rev (removelast vs))) (rev (removelast ts)))); [exact Hf|].
    rewrite <- (map_map fst fst). rewrite map_fst_combine by (rewrite combine_length, !rev_length, !length_removelast; lia).
    apply map_fst_combine. rewrite !rev_length, !length_removelast. lia.
Qed.
End smoother.

(** ** pcn_proposal *)
Definition mean (d : dist R) : R := E d (fun x => x).
Definition cov_around (m : R) (d : dist (R * R)) : R := E d (fun q => (fst q - m) * (snd q - m)).

(** the pair (current, proposed) when the state and the two draws are independent *)
Definition pcn_joint (delta m : R) (dx d0 d1 : dist R) : dist (R * R) :=
  dbind dx (fun x => dbind d0 (fun r0 => dmap (fun r1 => (x, pcn_point delta x m r0 r1)) d1)).

Lemma pcn_centered delta x m r0 r1 : 0 <= delta ->
  let b := 2 / (2 + delta) in
  pcn_point delta x m r0 r1 - m = b * (x - m) + b * sqrt (delta / 2) * (r0 - m) + sqrt (1 - b) * (r1 - m).
Proof. intros H b. unfold pcn_point. fold b. ring. Qed.

Section pcn.
Variables (delta m s : R) (dx d0 d1 : dist R).
Hypothesis Hd : 0 <= delta.
Hypothesis (Px : is_prob dx) (P0 : is_prob d0) (P1 : is_prob d1).
Hypothesis (Mx : E dx (fun x => x - m) = 0) (M0 : E d0 (fun x => x - m) = 0) (M1 : E d1 (fun x => x - m) = 0).
Hypothesis (Vx : E dx (fun x => (x - m) * (x - m)) = s) (V0 : E d0 (fun x => (x - m) * (x - m)) = s) (V1 : E d1 (fun x => (x - m) * (x - m)) = s).
Let b := 2 / (2 + delta).

Lemma E_quad (f : R -> R -> R -> R) (c0 cx cy cz cxx cyy czz cxy cxz cyz : R) :
  (forall x y z, f x y z = c0 + cx * (x - m) + cy * (y - m) + cz * (z - m) + cxx * ((x - m) * (x - m)) + cyy * ((y - m) * (y - m)) + czz * ((z - m) * (z - m))
     + cxy * ((x - m) * (y - m)) + cxz * ((x - m) * (z - m)) + cyz * ((y - m) * (z - m))) ->
  E dx (fun x => E d0 (fun y => E d1 (fun z => f x y z))) = c0 + (cxx + cyy + czz) * s.
Proof.
  intros Hf.
  rewrite (E_ext' dx _ (fun x => (c0 + czz * s + cyy * s) + (cx * (x - m) + cxx * ((x - m) * (x - m))))).
  - rewrite E_plus, E_const, E_plus, !E_mult_l, Mx, Vx by assumption. ring.
  - intros x. rewrite (E_ext' d0 _ (fun y => (c0 + cx * (x - m) + cxx * ((x - m) * (x - m)) + czz * s) + ((cy + cxy * (x - m)) * (y - m) + cyy * ((y - m) * (y - m))))).
    + rewrite E_plus, E_const, E_plus, !E_mult_l, M0, V0 by assumption. ring.
    + intros y. rewrite (E_ext' d1 _ (fun z => (c0 + cx * (x - m) + cy * (y - m) + cxx * ((x - m) * (x - m)) + cyy * ((y - m) * (y - m)) + cxy * ((x - m) * (y - m)))
         + ((cz + cxz * (x - m) + cyz * (y - m)) * (z - m) + czz * ((z - m) * (z - m))))).
      * rewrite E_plus, E_const, E_plus, !E_mult_l, M1, V1 by assumption. ring.
      * intros z. rewrite Hf. ring.
Qed.

Lemma pcn_b : 0 < b <= 1 /\ b * b * (delta / 2) = b * (1 - b) /\ 0 <= 1 - b.
Proof.
  unfold b. assert (0 < 2 + delta) by lra. split; [|split].
  - split; [apply Rdiv_lt_0_compat; lra|]. apply (Rmult_le_reg_r (2 + delta)); [assumption|]. unfold Rdiv. rewrite Rmult_assoc, Rinv_l by lra. lra.
  - field. lra.
  - apply Rge_le, Rge_minus, Rle_ge. apply (Rmult_le_reg_r (2 + delta)); [assumption|]. unfold Rdiv. rewrite Rmult_assoc, Rinv_l by lra. lra.
Qed.

Theorem pcn_moments :
  E (pcn_joint delta m dx d0 d1) (fun q => snd q - m) = 0 /\
  E (pcn_joint delta m dx d0 d1) (fun q => (snd q - m) * (snd q - m)) = s /\
  E (pcn_joint delta m dx d0 d1) (fun q => (fst q - m) * (snd q - m)) = b * s.
Proof.
  destruct pcn_b as (Hb1 & Hb2 & Hb3).
  assert (H1 : sqrt (delta / 2) * sqrt (delta / 2) = delta / 2) by (apply sqrt_sqrt; lra).
  assert (H2 : sqrt (1 - b) * sqrt (1 - b) = 1 - b) by (apply sqrt_sqrt; lra).
  unfold pcn_joint. rewrite !E_dbind.
  repeat split.
  - transitivity (E dx (fun x => E d0 (fun y => E d1 (fun z => pcn_point delta x m y z - m)))).
    + apply E_ext'. intros x. rewrite E_dbind. apply E_ext'. intros y. now rewrite E_dmap.
    + rewrite (E_quad _ 0 b (b * sqrt (delta / 2)) (sqrt (1 - b)) 0 0 0 0 0 0); [ring|]. intros x y z. rewrite pcn_centered by assumption. fold b. ring.
  - transitivity (E dx (fun x => E d0 (fun y => E d1 (fun z => (pcn_point delta x m y z - m) * (pcn_point delta x m y z - m))))).
    + apply E_ext'. intros x. rewrite E_dbind. apply E_ext'. intros y. now rewrite E_dmap.
    + rewrite (E_quad _ 0 0 0 0 (b * b) (b * b * (sqrt (delta / 2) * sqrt (delta / 2))) (sqrt (1 - b) * sqrt (1 - b))
        (2 * b * (b * sqrt (delta / 2))) (2 * b * sqrt (1 - b)) (2 * (b * sqrt (delta / 2)) * sqrt (1 - b))).
      * rewrite H1, H2, Hb2. ring.
      * intros x y z. rewrite !pcn_centered by assumption. fold b. ring.
  - transitivity (E dx (fun x => E d0 (fun y => E d1 (fun z => (x - m) * (pcn_point delta x m y z - m))))).
    + apply E_ext'. intros x. rewrite E_dbind. apply E_ext'. intros y. now rewrite E_dmap.
    + rewrite (E_quad _ 0 0 0 0 b 0 0 (b * sqrt (delta / 2)) (sqrt (1 - b)) 0); [ring|]. intros x y z. rewrite pcn_centered by assumption. fold b. ring.
Qed.
End pcn.

(** Gaussian prior: current density times proposal density is symmetric.  Given x the proposal is
    m + b (x - m) + Gaussian noise of variance s (b^2 delta/2 + (1 - b)). *)
Definition gauss (m v x : R) : R := / sqrt (2 * PI * v) * exp (- ((x - m) * (x - m)) / (2 * v)).
Definition pcn_cond_mean (delta m x : R) : R := m + 2 / (2 + delta) * (x - m).
Definition pcn_cond_var (delta s : R) : R :=
  (2 / (2 + delta)) * (2 / (2 + delta)) * (delta / 2) * s + (1 - 2 / (2 + delta)) * s.

Theorem pcn_gaussian_reversible delta m s x x' : 0 < delta -> 0 < s ->
  gauss m s x * gauss (pcn_cond_mean delta m x) (pcn_cond_var delta s) x' =
  gauss m s x' * gauss (pcn_cond_mean delta m x') (pcn_cond_var delta s) x.
Proof.
  intros Hd Hs. unfold gauss.
  set (v := pcn_cond_var delta s).
  set (A := / sqrt (2 * PI * s)). set (B := / sqrt (2 * PI * v)).
  transitivity (A * B * (exp (- ((x - m) * (x - m)) / (2 * s)) * exp (- ((x' - pcn_cond_mean delta m x) * (x' - pcn_cond_mean delta m x)) / (2 * v)))); [ring|].
  transitivity (A * B * (exp (- ((x' - m) * (x' - m)) / (2 * s)) * exp (- ((x - pcn_cond_mean delta m x') * (x - pcn_cond_mean delta m x')) / (2 * v)))); [|ring].
  f_equal. rewrite <- !exp_plus. f_equal. unfold v, pcn_cond_var, pcn_cond_mean.
  assert (2 + delta <> 0) by lra.
  assert (Hv : 2 / (2 + delta) * (2 / (2 + delta)) * (delta / 2) * s + (1 - 2 / (2 + delta)) * s = s * delta * (4 + delta) / ((2 + delta) * (2 + delta))) by (field; assumption).
  rewrite Hv. field. repeat split; try lra.
Qed.

Lemma pcn_conditional_moments delta m s x d : 0 <= delta -> is_prob d ->
  E d (fun r => r - m) = 0 -> E d (fun r => (r - m) * (r - m)) = s ->
  E d (fun r0 => E d (fun r1 => pcn_point delta x m r0 r1)) = pcn_cond_mean delta m x /\
  E d (fun r0 => E d (fun r1 => (pcn_point delta x m r0 r1 - pcn_cond_mean delta m x) * (pcn_point delta x m r0 r1 - pcn_cond_mean delta m x)))
    = pcn_cond_var delta s.
Proof.
  intros Hd Hp Hm Hv. pose proof (pcn_b delta Hd) as (Hb1 & Hb2 & Hb3).
  assert (H1 : sqrt (delta / 2) * sqrt (delta / 2) = delta / 2) by (apply sqrt_sqrt; lra).
  assert (H2 : sqrt (1 - 2 / (2 + delta)) * sqrt (1 - 2 / (2 + delta)) = 1 - 2 / (2 + delta)) by (apply sqrt_sqrt; exact Hb3).
  unfold pcn_cond_mean, pcn_cond_var. split.
  - rewrite (E_ext' d _ (fun r0 => (m + 2 / (2 + delta) * (x - m)) + (2 / (2 + delta) * sqrt (delta / 2)) * (r0 - m))).
    + rewrite E_plus, E_const, E_mult_l, Hm by assumption. ring.
    + intros r0. rewrite (E_ext' d _ (fun r1 => (m + 2 / (2 + delta) * (x - m) + (2 / (2 + delta) * sqrt (delta / 2)) * (r0 - m)) + sqrt (1 - 2 / (2 + delta)) * (r1 - m))).
      * rewrite E_plus, E_const, E_mult_l, Hm by assumption. ring.
      * intros r1. unfold pcn_point. ring.
  - set (b := 2 / (2 + delta)) in *. set (a := sqrt (delta / 2)) in *. set (c := sqrt (1 - b)) in *.
    rewrite (E_ext' d _ (fun r0 => (c * c) * s + (b * a) * (b * a) * ((r0 - m) * (r0 - m)))).
    + rewrite E_plus, E_const, E_mult_l, Hv by assumption. rewrite H2. replace (b * a * (b * a)) with (b * b * (a * a)) by ring. rewrite H1. ring.
    + intros r0. rewrite (E_ext' d _ (fun r1 => (b * a) * (b * a) * ((r0 - m) * (r0 - m)) + (2 * (b * a) * c * (r0 - m)) * (r1 - m) + (c * c) * ((r1 - m) * (r1 - m)))).
      * rewrite !E_plus, E_const, !E_mult_l, Hm, Hv by assumption. ring.
      * intros r1. unfold pcn_point. fold b a c. ring.
Qed.
