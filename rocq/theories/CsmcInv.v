(** The conditional SMC kernel leaves the smoothing law invariant (and is reversible). *)
From Verif Require Export CsmcProofs.
Open Scope R_scope.

(** ** Spec: the smoothing measure, written without reference to the algorithm *)

Definition dscale {A} (c : R) (d : dist A) : dist A := map (fun pa => (c * fst pa, snd pa)) d.

Lemma E_dscale {A} c (d : dist A) f : E (dscale c d) f = c * E d f.
Proof. apply E_scale. Qed.

Section spec.
Context {U : Type}.
(** one step of a Feynman-Kac model: log-potential of the parent, and the move *)
Definition fk_step : Type := (U -> R) * (U -> dist U).

(** unnormalised measure on (u_1,...,u_K) given u_0 *)
Fixpoint fk_path (steps : list fk_step) (u : U) : dist (list U) :=
  match steps with
  | [] => dret []
  | (lg, M) :: rest => dscale (exp (lg u)) (dbind (M u) (fun u' => dmap (cons u') (fk_path rest u')))
  end.
(** unnormalised smoothing measure on (u_0,...,u_K) *)
Definition fk_measure (m0 : dist U) (lG0 : U -> R) (steps : list fk_step) : dist (list U) :=
  dbind m0 (fun u0 => dscale (exp (lG0 u0)) (dmap (cons u0) (fk_path steps u0))).
(** independent uniform indices *)
Definition unif_indices (N K : nat) : dist (list nat) := dseq (repeat (dunif N) K).
End spec.
Arguments fk_step : clear implicits.

(** ** Conditional resampling as a finite law *)

Record exact_cres (cres : key -> list R -> nat -> nat -> bool -> prog (list nat)) (r : list R -> dist (list nat)) : Prop := {
  ec_exact : cond_exact (fun k w i j => cres k w i j true) r;
  ec_valid : forall w A, weights_ok w -> In A (map snd (r w)) -> valid_indices (length w) A;
  ec_prob : forall w, weights_ok w -> is_prob (r w);
  ec_total : forall k w i j, weights_ok w -> (i < length w)%nat -> (j < length w)%nat -> law (cres k w i j true) (fun _ => 1) = 1 }.

Definition cdist (r : list R -> dist (list nat)) (w : list R) (i j : nat) : dist (list nat) :=
  map (fun pA => (/ nth i w 0 * fst pA, snd pA)) (filter (fun pA => Nat.eqb (nth j (snd pA) 0%nat) i) (r w)).

Lemma E_filter {A} (q : A -> bool) (d : dist A) f :
  E (filter (fun pa => q (snd pa)) d) f = E d (fun a => (if q a then 1 else 0) * f a).
Proof.
  induction d as [|[p a] d IH]; [reflexivity|]. cbn [filter snd]. destruct (q a) eqn:Hq.
  - rewrite !E_cons, IH, Hq. ring.
  - rewrite E_cons, IH, Hq. ring.
Qed.

Lemma E_cdist cres r k w i j f : exact_cres cres r -> weights_ok w -> (i < length w)%nat -> (j < length w)%nat ->
  0 < nth i w 0 -> law (cres k w i j true) f = E (cdist r w i j) f.
Proof.
  intros HC Hw Hi Hj Hp. unfold cdist. rewrite E_scale.
  rewrite (E_filter (fun A => Nat.eqb (nth j A 0%nat) i)).
  rewrite <- (cond_exact_bayes (fun k w i j => cres k w i j true) r w k i j f (ec_exact _ _ HC) Hw Hj Hi).
  field. lra.
Qed.

Lemma cdist_support r w i j A : In A (map snd (cdist r w i j)) -> In A (map snd (r w)) /\ nth j A 0%nat = i.
Proof.
  unfold cdist. rewrite map_map. cbn [snd]. intros H. apply in_map_iff in H. destruct H as ([p A'] & <- & H).
  apply filter_In in H. destruct H as [H1 H2]. cbn [snd] in *. split.
  - apply in_map_iff. now exists (p, A').
  - now apply Nat.eqb_eq.
Qed.

Section inv.
Context {U V : Type} (udef : U) (vdef : V).
Variable init_sampler : key -> nat -> prog (list U).
Variable init_likelihood_logpdf : V -> list U -> V -> list R.
Variable transition_sampler : list U -> V -> R -> key -> prog (list U).
Variable transition_logpdf : U -> list U -> V -> R -> list R.
Variable likelihood_logpdf : V -> list U -> V -> R -> list R.
Variable cond_resampling : key -> list R -> nat -> nat -> bool -> prog (list nat).

(** The statistical model the user functions implement. *)
Variable m0 : dist U.                       (* law of each initial particle *)
Variable lG0 : V -> V -> U -> R.            (* log initial potential *)
Variable M : V -> R -> U -> dist U.         (* law of u_k given u_{k-1}, v_{k-1} *)
Variable lg : V -> V -> R -> U -> R.        (* log p(v_k | u_{k-1}, v_{k-1}) *)
Variable r : list R -> dist (list nat).

Record model_ok : Prop := {
  mo_m0 : is_prob m0;
  mo_M : forall v t u, is_prob (M v t u);
  mo_init : forall k n, denotes (init_sampler k n) (dseq (repeat m0 n));
  mo_initll : forall v us v', init_likelihood_logpdf v us v' = map (lG0 v v') us;
  mo_trans : forall us v t k, denotes (transition_sampler us v t k) (dseq (map (M v t) us));
  mo_lik : forall v us v' t, likelihood_logpdf v us v' t = map (lg v v' t) us;
  mo_res : exact_cres cond_resampling r }.
Hypothesis Hmo : model_ok.

Variable N : nat.
Hypothesis HN : (0 < N)%nat.

(** the Feynman-Kac steps defined by the data *)
Definition fk_of (sd : list (V * V * R)) : list (fk_step U) :=
  map (fun q => let '(v, vp, t) := q in (lg v vp t, M vp t)) sd.

(** measure on reference continuations (b_k, u_k) *)
Fixpoint gamma (sd : list (V * V * R)) (u : U) : dist (list (nat * U)) :=
  match sd with
  | [] => dret []
  | (v, vp, t) :: sd' =>
      dscale (exp (lg v vp t u))
        (dbind (M vp t u) (fun u' => dbind (dunif N) (fun b' => dmap (cons (b', u')) (gamma sd' u'))))
  end.

(** free run of the particle system, with its likelihood estimate, and an index drawn from the last weights *)
Fixpoint free (sd : list (V * V * R)) (lw : list R) (us : list U)
  (F : list (list R * list nat * list U) -> nat -> R) : R :=
  match sd with
  | [] => Rsum (map (fun b => exp (nth b lw 0) * F [] b) (seq 0 N))
  | (v, vp, t) :: sd' =>
      E (r (map exp lw)) (fun A =>
        let us1 := gather udef us A in
        let ll := map (lg v vp t) us1 in
        E (dseq (map (M vp t) us1)) (fun us' =>
          / INR N * Rsum (map exp ll) *
          free sd' (normalise_log ll) us' (fun out b => F ((normalise_log ll, A, us') :: out) b)))
  end.

Definition final_idx (b : nat) (refs : list (nat * U)) : nat := last (b :: map fst refs) 0%nat.

Lemma final_idx_cons b b' u' refs : final_idx b ((b', u') :: refs) = final_idx b' refs.
Proof. reflexivity. Qed.

Notation scan := (scan_forward udef transition_sampler likelihood_logpdf cond_resampling).

Lemma nth_exp lw b : (b < length lw)%nat -> nth b (map exp lw) 0 = exp (nth b lw 0).
Proof.
  intros Hb. rewrite (nth_indep _ 0 (exp 0)) by now rewrite map_length. apply map_nth.
Qed.

Lemma law_scan_step k i v vp t b b' u' rest lw us F :
  length lw = N -> Rsum (map exp lw) = 1 -> (b < N)%nat -> (b' < N)%nat ->
  law (scan k i (mk_step v vp t b b' u' :: rest) lw us) F =
  E (cdist r (map exp lw) b b') (fun A =>
    let us1 := gather udef us A in
    let ll := map (lg v vp t) us1 in
    E (dseq (map (M vp t) us1)) (fun us' =>
      law (scan k (S i) rest (normalise_log ll) (set_nth b' u' us'))
          (fun out => F ((normalise_log ll, A, set_nth b' u' us') :: out)))).
Proof.
  intros Hl Hs Hb Hb'. cbn [scan_forward]. rewrite law_bind. unfold scan_body. cbn [s_v s_vprev s_t s_b s_bprev s_u].
  rewrite law_bind.
  rewrite (E_cdist _ r _ _ _ _ _ (mo_res Hmo)); [|now apply weights_ok_exp|now rewrite map_length, Hl|now rewrite map_length, Hl|].
  2:{ rewrite nth_exp by lia. apply exp_pos. }
  apply E_ext'. intros A. cbv zeta. rewrite law_bind, (mo_trans Hmo). apply E_ext'. intros us'. cbn [law].
  rewrite law_bind, (mo_lik Hmo). reflexivity.
Qed.

(** Redrawing component j of an independent vector, with functional depending on the vector only. *)
Lemma E_redraw (ds : list (dist U)) j d (H : U -> list U -> R) :
  Forall is_prob ds -> nth_error ds j = Some d ->
  E d (fun u' => E (dseq ds) (fun us => H u' (set_nth j u' us))) = E (dseq ds) (fun us => H (nth j us udef) us).
Proof.
  intros Hds Hj.
  rewrite <- (E_dseq_set_nth ds j d (fun us => H (nth j us udef) us) Hds Hj).
  apply E_ext'. intros u'. apply E_ext. intros us Hus. apply dseq_length in Hus.
  rewrite nth_set_nth_eq; [reflexivity|]. rewrite Hus. apply nth_error_Some. now rewrite Hj.
Qed.

Lemma swap_scan sd : forall k i lw us F,
  length lw = N -> Rsum (map exp lw) = 1 -> length us = N ->
  Rsum (map (fun b => exp (nth b lw 0) *
     E (gamma sd (nth b us udef)) (fun refs => law (scan k i (mk_inputs sd b refs) lw us) (fun out => F out (final_idx b refs))))
     (seq 0 N))
  = free sd lw us F.
Proof.
  induction sd as [|[[v vp] t] sd IH]; intros k i lw us F Hl Hs Hu.
  - cbn [gamma free mk_inputs]. apply Rsum_map_ext. intros b _. rewrite E_dret. reflexivity.
  - assert (Hw : weights_ok (map exp lw)) by now apply weights_ok_exp.
    assert (Hwl : length (map exp lw) = N) by now rewrite map_length.
    cbn [free].
    (* H: everything after the resampling at this step *)
    set (H := fun (A : list nat) (b' : nat) (u' : U) (us' : list U) =>
       let us1 := gather udef us A in
       let ll := map (lg v vp t) us1 in
       E (gamma sd u') (fun refs => law (scan k (S i) (mk_inputs sd b' refs) (normalise_log ll) us')
          (fun out => F ((normalise_log ll, A, us') :: out) (final_idx b' refs)))).
    set (Q := fun (b' : nat) (b : nat) (A : list nat) =>
       exp (lg v vp t (nth b us udef)) * E (M vp t (nth b us udef)) (fun u' =>
         E (dseq (map (M vp t) (gather udef us A))) (fun us1 => H A b' u' (set_nth b' u' us1)))).
    assert (Hstep : forall b, (b < N)%nat ->
      E (gamma ((v, vp, t) :: sd) (nth b us udef)) (fun refs => law (scan k i (mk_inputs ((v, vp, t) :: sd) b refs) lw us) (fun out => F out (final_idx b refs)))
      = E (dunif N) (fun b' => law (cond_resampling [] (map exp lw) b b' true) (Q b' b))).
    { intros b Hb. cbn [gamma]. rewrite E_dscale, E_dbind.
      rewrite (E_ext' (M vp t (nth b us udef)) _ (fun u' => E (dunif N) (fun b' =>
         E (cdist r (map exp lw) b b') (fun A => E (dseq (map (M vp t) (gather udef us A))) (fun us1 => H A b' u' (set_nth b' u' us1)))))).
      2:{ intros u'. rewrite E_dbind. apply E_ext. intros b' Hb'. apply dunif_support in Hb'. rewrite E_dmap.
          rewrite (E_ext' (gamma sd u') _ (fun refs => E (cdist r (map exp lw) b b') (fun A => E (dseq (map (M vp t) (gather udef us A)))
             (fun us1 => law (scan k (S i) (mk_inputs sd b' refs) (normalise_log (map (lg v vp t) (gather udef us A))) (set_nth b' u' us1))
                (fun out => F ((normalise_log (map (lg v vp t) (gather udef us A)), A, set_nth b' u' us1) :: out) (final_idx b' refs)))))).
          - rewrite E_exchange. apply E_ext'. intros A. rewrite E_exchange. reflexivity.
          - intros refs. cbn [mk_inputs]. rewrite law_scan_step by assumption. reflexivity. }
      rewrite E_exchange. rewrite <- E_mult_l. apply E_ext. intros b' Hb'. apply dunif_support in Hb'.
      rewrite (E_cdist _ r _ _ _ _ _ (mo_res Hmo)); [|assumption|lia|lia|rewrite nth_exp by lia; apply exp_pos].
      rewrite E_exchange, <- E_mult_l. reflexivity. }
    rewrite (Rsum_map_ext _ (fun b => E (dunif N) (fun b' => nth b (map exp lw) 0 * law (cond_resampling [] (map exp lw) b b' true) (Q b' b)))).
    2:{ intros b Hb. apply in_seq in Hb. rewrite Hstep by lia. rewrite E_mult_l, nth_exp by lia. reflexivity. }
    rewrite <- E_Rsum.
    rewrite (E_ext (dunif N) _ (fun b' => E (r (map exp lw)) (fun A => Q b' (nth b' A 0%nat) A))).
    2:{ intros b' Hb'. apply dunif_support in Hb'. rewrite <- Hwl.
        apply (ec_exact _ _ (mo_res Hmo) (map exp lw) [] b' (Q b') Hw). lia. }
    rewrite E_exchange. apply E_ext. intros A HA.
    destruct (ec_valid _ _ (mo_res Hmo) _ _ Hw HA) as [HAl HAr]. rewrite Hwl in *.
    cbv zeta. set (us1 := gather udef us A). set (ll := map (lg v vp t) us1).
    assert (Hl1 : length us1 = N) by (unfold us1; now rewrite length_gather).
    assert (Hll : length ll = N) by (unfold ll; now rewrite map_length).
    assert (Hllne : ll <> []) by (destruct ll; [simpl in Hll; lia|discriminate]).
    assert (HlN : 0 < INR N) by (apply lt_0_INR; lia).
    rewrite (E_ext (dunif N) _ (fun b' => E (dseq (map (M vp t) us1)) (fun us' => exp (nth b' ll 0) * H A b' (nth b' us' udef) us'))).
    2:{ intros b' Hb'. apply dunif_support in Hb'. unfold Q. fold us1.
        assert (Hn1 : nth (nth b' A 0%nat) us udef = nth b' us1 udef) by (unfold us1; rewrite gather_nth by lia; reflexivity).
        rewrite Hn1, E_mult_l.
        assert (Hll' : nth b' ll 0 = lg v vp t (nth b' us1 udef)).
        { unfold ll. rewrite (nth_indep _ 0 (lg v vp t udef)) by (rewrite map_length; lia). apply map_nth. }
        rewrite Hll'. f_equal.
        apply (E_redraw (map (M vp t) us1) b' (M vp t (nth b' us1 udef)) (fun u' us' => H A b' u' us')).
        - apply Forall_map, Forall_forall. intros; apply (mo_M Hmo).
        - rewrite nth_error_map, (nth_error_nth' us1 udef) by lia. reflexivity. }
    rewrite E_exchange. apply E_ext. intros us' Hus'. apply dseq_length in Hus'. rewrite map_length, Hl1 in Hus'.
    rewrite E_dunif.
    rewrite <- (IH k (S i) (normalise_log ll) us' (fun out b => F ((normalise_log ll, A, us') :: out) b));
      [|now rewrite length_normalise_log|now apply normalise_log_sum|assumption].
    rewrite Rmult_assoc. f_equal. rewrite <- Rsum_map_mult_l. apply Rsum_map_ext. intros b Hb. apply in_seq in Hb.
    assert (Hnl : exp (nth b (normalise_log ll) 0) = exp (nth b ll 0) / Rsum (map exp ll)).
    { rewrite <- nth_exp by (rewrite length_normalise_log; lia).
      change (map exp (normalise_log ll)) with (normalise ll). rewrite normalise_eq by assumption.
      rewrite (nth_indep _ 0 ((fun x => exp x / Rsum (map exp ll)) 0)) by (rewrite map_length; lia).
      apply (map_nth (fun x => exp x / Rsum (map exp ll))). }
    rewrite Hnl. pose proof (Rsum_exp_pos ll Hllne). unfold H. fold us1. fold ll. cbv zeta. field. lra.
Qed.

(** The initialisation. *)
Definition free_run (sd : list (V * V * R)) (v0 v1 : V)
  (F : list R -> list U -> list (list R * list nat * list U) -> nat -> R) : R :=
  E (dseq (repeat m0 N)) (fun us0 =>
    let ll := map (lG0 v0 v1) us0 in
    / INR N * Rsum (map exp ll) * free sd (normalise_log ll) us0 (F (normalise_log ll) us0)).

Notation fwd := (forward_pass udef vdef init_sampler init_likelihood_logpdf transition_sampler likelihood_logpdf cond_resampling).

Definition fwd_out (res : list R * list U * list (list R * list nat * list U)) :
  list (list nat) * list (list R) * list (list U) :=
  let '(lw0, us0, out) := res in
  (map (fun o => snd (fst o)) out, lw0 :: map (fun o => fst (fst o)) out, us0 :: map snd out).

(** Expectation over reference (uniform indices, smoothing measure) of the conditional forward pass
    = expectation over the free run times its likelihood estimate. *)
Theorem swap_forward k vs ts F :
  vs <> [] -> length ts = length vs ->
  E m0 (fun u0 => exp (lG0 (nth 0 vs vdef) (nth 1 vs vdef) u0) * E (dunif N) (fun b0 =>
    E (gamma (step_data vs ts) u0) (fun refs =>
      law (fwd k (u0 :: map snd refs) (b0 :: map fst refs) vs ts (N - 1)) (fun res => F res (final_idx b0 refs)))))
  = free_run (step_data vs ts) (nth 0 vs vdef) (nth 1 vs vdef) (fun lw0 us0 out b => F (fwd_out (lw0, us0, out)) b).
Proof.
  intros Hvs Hts. set (sd := step_data vs ts). set (v0 := nth 0 vs vdef). set (v1 := nth 1 vs vdef).
  assert (HlN : 0 < INR N) by (apply lt_0_INR; lia).
  assert (Hsd : length sd = (length vs - 1)%nat) by (unfold sd; now rewrite length_step_data).
  assert (Hgl : forall sd0 u refs, In refs (map snd (gamma sd0 u)) -> length refs = length sd0).
  { clear. induction sd0 as [|[[v vp] t] sd0 IH]; intros u refs Hin; cbn [gamma] in Hin.
    - destruct Hin as [<-|[]]; reflexivity.
    - unfold dscale in Hin. rewrite map_map in Hin. cbn [snd] in Hin. apply in_map_iff in Hin. destruct Hin as ([p l] & <- & Hin).
      unfold dbind at 1 in Hin. apply in_flat_map in Hin. destruct Hin as ([q u'] & _ & Hin).
      apply in_map_iff in Hin. destruct Hin as ([q2 l2] & He & Hin). injection He as _ <-.
      unfold dbind in Hin. apply in_flat_map in Hin. destruct Hin as ([q3 b'] & _ & Hin).
      apply in_map_iff in Hin. destruct Hin as ([q4 l4] & He & Hin). cbn [snd fst] in *. injection He as _ <-.
      unfold dmap in Hin. apply in_map_iff in Hin. destruct Hin as ([q5 l5] & He & Hin). cbn [snd fst] in *. injection He as _ <-.
      cbn [length snd]. f_equal. apply (IH u'). apply in_map_iff. now exists (q5, l5). }
  set (Q := fun (b0 : nat) (u0 : U) (us0 : list U) =>
    let ll := map (lG0 v0 v1) us0 in
    E (gamma sd u0) (fun refs =>
      law (scan (split_key k 1) 0 (mk_inputs sd b0 refs) (normalise_log ll) us0)
          (fun out => F (fwd_out (normalise_log ll, us0, out)) (final_idx b0 refs)))).
  rewrite (E_ext' m0 _ (fun u0 => E (dunif N) (fun b0 => E (dseq (repeat m0 N)) (fun us => exp (lG0 v0 v1 u0) * Q b0 u0 (set_nth b0 u0 us))))).
  2:{ intros u0. fold v0 v1. rewrite <- E_mult_l. apply E_ext'. intros b0.
      rewrite E_mult_l. f_equal. unfold Q. cbv zeta. rewrite E_exchange. apply E_ext. intros refs Hrefs. apply Hgl in Hrefs.
      unfold forward_pass. replace (N - 1 + 1)%nat with N by lia. rewrite law_bind, (mo_init Hmo). apply E_ext'. intros us.
      cbn [nth]. cbv zeta. rewrite law_bind, (mo_initll Hmo). fold v0 v1.
      rewrite scan_inputs_mk; [|now rewrite !map_length| |assumption].
      2:{ rewrite map_length, Hrefs, Hsd. destruct vs; [easy|simpl; lia]. }
      fold sd. replace (combine (map fst refs) (map snd refs)) with refs.
      2:{ clear. induction refs as [|[b u] refs IH]; simpl; congruence. }
      apply law_ext. intros out. reflexivity. }
  rewrite E_exchange.
  rewrite (E_ext (dunif N) _ (fun b0 => E (dseq (repeat m0 N)) (fun us => exp (lG0 v0 v1 (nth b0 us udef)) * Q b0 (nth b0 us udef) us))).
  2:{ intros b0 Hb0. apply dunif_support in Hb0.
      apply (E_redraw (repeat m0 N) b0 m0 (fun u0 us => exp (lG0 v0 v1 u0) * Q b0 u0 us)).
      - apply Forall_repeat. apply (mo_m0 Hmo).
      - now apply nth_error_repeat_lt. }
  rewrite E_exchange. unfold free_run. apply E_ext. intros us Hus. apply dseq_length in Hus. rewrite repeat_length in Hus.
  cbv zeta. set (ll := map (lG0 v0 v1) us).
  assert (Hll : length ll = N) by (unfold ll; now rewrite map_length).
  assert (Hllne : ll <> []) by (destruct ll; [simpl in Hll; lia|discriminate]).
  rewrite E_dunif.
  rewrite <- (swap_scan sd (split_key k 1) 0 (normalise_log ll) us (fun out b => F (fwd_out (normalise_log ll, us, out)) b));
    [|now rewrite length_normalise_log|now apply normalise_log_sum|assumption].
  rewrite Rmult_assoc. f_equal. rewrite <- Rsum_map_mult_l. apply Rsum_map_ext. intros b Hb. apply in_seq in Hb.
  assert (Hnl : exp (nth b (normalise_log ll) 0) = exp (nth b ll 0) / Rsum (map exp ll)).
  { rewrite <- nth_exp by (rewrite length_normalise_log; lia).
    change (map exp (normalise_log ll)) with (normalise ll). rewrite normalise_eq by assumption.
    rewrite (nth_indep _ 0 ((fun x => exp x / Rsum (map exp ll)) 0)) by (rewrite map_length; lia).
    apply (map_nth (fun x => exp x / Rsum (map exp ll))). }
  assert (Hll' : nth b ll 0 = lG0 v0 v1 (nth b us udef)).
  { unfold ll. rewrite (nth_indep _ 0 (lG0 v0 v1 udef)) by (rewrite map_length; lia). apply map_nth. }
  rewrite Hnl, <- Hll'. pose proof (Rsum_exp_pos ll Hllne). unfold Q. fold ll. cbv zeta. field. lra.
Qed.


(** ** Exchanging the two indices drawn from the last weights *)

Definition lastlw (lw : list R) (out : list (list R * list nat * list U)) : list R :=
  last (lw :: map (fun o => fst (fst o)) out) [].

Lemma lastlw_cons lw o out : lastlw lw (o :: out) = lastlw (fst (fst o)) out.
Proof. reflexivity. Qed.

Lemma free_ext sd : forall lw us F G, (forall out b, (b < N)%nat -> F out b = G out b) -> free sd lw us F = free sd lw us G.
Proof.
  induction sd as [|[[v vp] t] sd IH]; intros lw us F G H; cbn [free].
  - apply Rsum_map_ext. intros b Hb. apply in_seq in Hb. rewrite H by lia. reflexivity.
  - apply E_ext'. intros A. cbv zeta. apply E_ext'. intros us'. f_equal. apply IH. intros; now apply H.
Qed.

Lemma free_exchange sd : forall lw us F H,
  free sd lw us (fun out b => H out b * Rsum (map (fun b' => exp (nth b' (lastlw lw out) 0) * F out b') (seq 0 N)))
  = free sd lw us (fun out b => F out b * Rsum (map (fun b' => exp (nth b' (lastlw lw out) 0) * H out b') (seq 0 N))).
Proof.
  induction sd as [|[[v vp] t] sd IH]; intros lw us F H; cbn [free].
  - change (lastlw lw []) with lw.
    rewrite (Rsum_map_ext _ (fun b => (exp (nth b lw 0) * H [] b) * Rsum (map (fun b' => exp (nth b' lw 0) * F [] b') (seq 0 N)))) by (intros; ring).
    rewrite Rsum_map_mult_r, Rmult_comm, <- Rsum_map_mult_r. apply Rsum_map_ext. intros; ring.
  - apply E_ext'. intros A. cbv zeta. apply E_ext'. intros us'. f_equal.
    set (ll := normalise_log (map (lg v vp t) (gather udef us A))).
    apply (IH ll us' (fun out b => F ((ll, A, us') :: out) b) (fun out b => H ((ll, A, us') :: out) b)).
Qed.

(** ** The deterministic part of the backward tracing *)

Definition trace_of (res : list (list nat) * list (list R) * list (list U)) (B : nat) : list U * list nat :=
  let '(As, _, xss) := res in
  let out := (nth B (last xss []) udef, B) :: trace_back udef B (combine (rev (removelast xss)) (rev As)) in
  (rev (map fst out), rev (map snd out)).

Lemma backward_scanning_trace k As lws xss lwT :
  backward_scanning_pass udef k As xss lwT = bind (choice k (normalise lwT)) (fun B => Ret (trace_of (As, lws, xss) B)).
Proof. reflexivity. Qed.

Lemma trace_path_ok res us_star bs_star n B :
  us_star <> [] -> forward_ok n us_star bs_star res -> (B < n)%nat ->
  path_ok (fst (fst res)) (snd res) true (trace_of res B) /\ last (snd (trace_of res B)) 0%nat = B.
Proof.
  destruct res as [[As lws] uss]. intros Hne (HA & HL & HU & HLs & HAs & HUs & _ & _) HB.
  cbn [fst snd]. unfold trace_of.
  assert (Hune : uss <> []) by (destruct uss; [discriminate|discriminate]).
  assert (Hlast : length (last uss []) = n).
  { rewrite Forall_forall in HUs. apply HUs. now apply last_In. }
  split.
  - apply (rpath_path udef); [lia|]. rewrite (rev_last_removelast uss []) by assumption.
    apply (trace_back_rpath udef n); try assumption.
    + apply nth_error_nth'. lia.
    + rewrite !rev_length, length_removelast. lia.
    + now apply Forall_rev.
    + apply Forall_rev. now apply Forall_removelast.
  - cbn [snd map rev]. apply last_last.
Qed.

Lemma nth_error_ext {A} (l l' : list A) : (forall k, nth_error l k = nth_error l' k) -> l = l'.
Proof.
  revert l'; induction l as [|x l IH]; intros [|y l'] H; [reflexivity|specialize (H 0%nat); discriminate|specialize (H 0%nat); discriminate|].
  f_equal; [specialize (H 0%nat); now injection H|]. apply IH. intros k. exact (H (S k)).
Qed.

(** Tracing back from the reference's final slot recovers the reference. *)
Lemma trace_reference res us_star bs_star n :
  us_star <> [] -> length bs_star = length us_star -> Forall (fun b => (b < n)%nat) bs_star ->
  forward_ok n us_star bs_star res -> trace_of res (last bs_star 0%nat) = (us_star, bs_star).
Proof.
  intros Hne Hb HB Hok.
  assert (Hbne : bs_star <> []) by (destruct bs_star, us_star; simpl in *; try lia; easy).
  assert (Hlt : (last bs_star 0 < n)%nat) by (rewrite Forall_forall in HB; apply HB; now apply last_In).
  destruct (trace_path_ok res us_star bs_star n _ Hne Hok Hlt) as [Hp Hl].
  destruct res as [[As lws] uss]. destruct (trace_of (As, lws, uss) (last bs_star 0%nat)) as [path idx].
  cbn [fst snd] in *. destruct Hp as (P1 & P2 & P3 & P4 & P5). specialize (P5 eq_refl).
  destruct Hok as (HA & HL & HU & HLs & HAs & HUs & HR & HAnc).
  assert (Hlen : length us_star = S (length us_star - 1)) by (destruct us_star; [easy|simpl; lia]).
  assert (Hlastn : forall (l : list nat), l <> [] -> last l 0%nat = nth (length l - 1) l 0%nat).
  { clear. intros l Hl. rewrite (app_removelast_last 0%nat Hl) at 3. rewrite app_nth2; rewrite length_removelast; [|lia].
    replace (length l - 1 - (length l - 1))%nat with 0%nat by lia. reflexivity. }
  assert (Hidx : forall j, (j < length uss)%nat -> nth (length uss - 1 - j) idx 0%nat = nth (length uss - 1 - j) bs_star 0%nat).
  { induction j as [|j IHj]; intros Hj.
    - rewrite !Hlastn in Hl; [|assumption|destruct idx; [simpl in *; lia|discriminate]].
      rewrite P2, Hb in Hl. rewrite Nat.sub_0_r. replace (length us_star) with (length uss) in Hl by lia. exact Hl.
    - rewrite P5 by lia. replace (S (length uss - 1 - S j)) with (length uss - 1 - j)%nat by lia.
      rewrite IHj by lia. rewrite <- (HAnc (length uss - 1 - S j)%nat) by lia.
      f_equal. f_equal. lia. }
  assert (Hidx' : forall j, (j < length uss)%nat -> nth j idx 0%nat = nth j bs_star 0%nat).
  { intros j Hj. specialize (Hidx (length uss - 1 - j)%nat ltac:(lia)).
    replace (length uss - 1 - (length uss - 1 - j))%nat with j in Hidx by lia. exact Hidx. }
  f_equal.
  - apply nth_error_ext. intros j. destruct (Nat.lt_ge_cases j (length uss)) as [Hj|Hj].
    + rewrite <- P4 by assumption. rewrite Hidx' by assumption. apply HR. lia.
    + rewrite !(proj2 (nth_error_None _ _)); [reflexivity|lia|lia].
  - apply (nth_ext _ _ 0%nat 0%nat); [lia|]. intros j Hj. apply Hidx'. lia.
Qed.

(** ** Total mass of the forward pass *)

Lemma law_scan_const sd : forall k i b refs lw us c,
  length lw = N -> Rsum (map exp lw) = 1 -> length us = N -> (b < N)%nat -> Forall (fun bu => (fst bu < N)%nat) refs ->
  law (scan k i (mk_inputs sd b refs) lw us) (fun _ => c) = c.
Proof.
  induction sd as [|[[v vp] t] sd IH]; intros k i b refs lw us c Hl Hs Hu Hb Hr; [reflexivity|].
  destruct refs as [|[b' u'] refs]; [reflexivity|]. cbn [mk_inputs].
  assert (Hb' := Forall_inv Hr); assert (Hr' := Forall_inv_tail Hr). cbn [fst] in Hb'.
  rewrite law_scan_step by assumption.
  assert (Hw : weights_ok (map exp lw)) by now apply weights_ok_exp.
  assert (Hwl : length (map exp lw) = N) by now rewrite map_length.
  rewrite (E_ext (cdist r (map exp lw) b b') _ (fun _ => c * 1)).
  - rewrite E_mult_l. rewrite <- (E_cdist cond_resampling r [] _ _ _ _ (mo_res Hmo) Hw); [|lia|lia|rewrite nth_exp by lia; apply exp_pos].
    rewrite (ec_total _ _ (mo_res Hmo)); [ring|assumption|lia|lia].
  - intros A HA. apply cdist_support in HA. destruct HA as [HA _].
    destruct (ec_valid _ _ (mo_res Hmo) _ _ Hw HA) as [HAl HAr]. rewrite Hwl in *. cbv zeta.
    assert (Hll : length (map (lg v vp t) (gather udef us A)) = N) by now rewrite map_length, length_gather.
    rewrite (E_ext _ _ (fun _ => c)).
    + rewrite E_const; [ring|]. apply is_prob_dseq, Forall_map, Forall_forall. intros; apply (mo_M Hmo).
    + intros us' Hus'. apply dseq_length in Hus'. rewrite map_length, length_gather in Hus'.
      apply IH; try assumption.
      * now rewrite length_normalise_log.
      * apply normalise_log_sum. intros H0. rewrite H0 in Hll. simpl in Hll. lia.
      * rewrite length_set_nth. lia.
Qed.

Lemma combine_fst_snd {A B} (l : list (A * B)) : combine (map fst l) (map snd l) = l.
Proof. induction l as [|[a b] l IH]; simpl; congruence. Qed.

Lemma law_fwd_const k vs ts u0 b0 refs c :
  length vs = S (length refs) -> length ts = length vs -> (b0 < N)%nat -> Forall (fun bu => (fst bu < N)%nat) refs ->
  law (fwd k (u0 :: map snd refs) (b0 :: map fst refs) vs ts (N - 1)) (fun _ => c) = c.
Proof.
  intros Hv Ht Hb Hr. unfold forward_pass. replace (N - 1 + 1)%nat with N by lia.
  rewrite law_bind, (mo_init Hmo). rewrite (E_ext _ _ (fun _ => c)).
  - apply E_const. apply is_prob_dseq. apply Forall_repeat. apply (mo_m0 Hmo).
  - intros us Hus. apply dseq_length in Hus. rewrite repeat_length in Hus. cbn [nth]. cbv zeta.
    rewrite law_bind, (mo_initll Hmo). rewrite scan_inputs_mk; [|now rewrite !map_length|now rewrite map_length|assumption].
    rewrite combine_fst_snd. cbn [law]. apply law_scan_const; try assumption.
    + rewrite length_normalise_log, map_length, length_set_nth. assumption.
    + apply normalise_log_sum. intros H0. apply (f_equal (@length R)) in H0. rewrite map_length, length_set_nth, Hus in H0. simpl in H0. lia.
    + rewrite length_set_nth. assumption.
Qed.

Lemma law_scan_scal sd : forall k i b refs lw us c F,
  length lw = N -> Rsum (map exp lw) = 1 -> length us = N -> (b < N)%nat -> Forall (fun bu => (fst bu < N)%nat) refs ->
  law (scan k i (mk_inputs sd b refs) lw us) (fun out => c * F out) = c * law (scan k i (mk_inputs sd b refs) lw us) F.
Proof.
  induction sd as [|[[v vp] t] sd IH]; intros k i b refs lw us c F Hl Hs Hu Hb Hr; [reflexivity|].
  destruct refs as [|[b' u'] refs]; [reflexivity|]. cbn [mk_inputs].
  assert (Hb' := Forall_inv Hr); assert (Hr' := Forall_inv_tail Hr). cbn [fst] in Hb'.
  rewrite !law_scan_step by assumption.
  assert (Hw : weights_ok (map exp lw)) by now apply weights_ok_exp.
  rewrite <- E_mult_l. apply E_ext.
  intros A HA. apply cdist_support in HA. destruct HA as [HA _].
  destruct (ec_valid _ _ (mo_res Hmo) _ _ Hw HA) as [HAl HAr]. rewrite map_length, Hl in *. cbv zeta.
  assert (Hll : length (map (lg v vp t) (gather udef us A)) = N) by now rewrite map_length, length_gather.
  rewrite <- E_mult_l. apply E_ext.
  intros us' Hus'. apply dseq_length in Hus'. rewrite map_length, length_gather in Hus'.
  apply IH; try assumption.
  - now rewrite length_normalise_log.
  - apply normalise_log_sum. intros H0. rewrite H0 in Hll. simpl in Hll. lia.
  - rewrite length_set_nth. lia.
Qed.

Lemma law_fwd_scal k vs ts us_star bs_star c F :
  us_star <> [] -> length bs_star = length us_star -> length vs = length us_star -> length ts = length us_star ->
  Forall (fun b => (b < N)%nat) bs_star ->
  law (fwd k us_star bs_star vs ts (N - 1)) (fun res => c * F res) = c * law (fwd k us_star bs_star vs ts (N - 1)) F.
Proof.
  intros Hne Hbl Hv Ht HB. destruct us_star as [|u0 us]; [easy|]. destruct bs_star as [|b0 bs]; [discriminate|].
  assert (HB0 := Forall_inv HB); assert (HB1 := Forall_inv_tail HB). simpl in Hbl, Hv, Ht.
  unfold forward_pass. replace (N - 1 + 1)%nat with N by lia.
  rewrite !law_bind, !(mo_init Hmo). rewrite <- E_mult_l. apply E_ext.
  intros us1 Hus. apply dseq_length in Hus. rewrite repeat_length in Hus. cbn [nth]. cbv zeta.
  rewrite !law_bind, (mo_initll Hmo). rewrite scan_inputs_mk by lia.
  cbn [law]. apply law_scan_scal; try assumption.
  - rewrite length_normalise_log, map_length, length_set_nth. assumption.
  - apply normalise_log_sum. intros H0. apply (f_equal (@length R)) in H0. rewrite map_length, length_set_nth, Hus in H0. simpl in H0. lia.
  - rewrite length_set_nth. assumption.
  - apply Forall_forall. intros [b u] Hin. apply in_combine_l in Hin. rewrite Forall_forall in HB1. simpl. auto.
Qed.

(** ** Reversibility *)

Notation kernel := (csmc_kernel udef vdef init_sampler init_likelihood_logpdf transition_sampler transition_logpdf likelihood_logpdf cond_resampling).

Lemma gamma_support sd : forall u refs, In refs (map snd (gamma sd u)) ->
  length refs = length sd /\ Forall (fun bu => (fst bu < N)%nat) refs.
Proof.
  induction sd as [|[[v vp] t] sd IH]; intros u refs Hin; cbn [gamma] in Hin.
  - destruct Hin as [<-|[]]. split; [reflexivity|constructor].
  - unfold dscale in Hin. rewrite map_map in Hin. cbn [snd] in Hin. apply in_map_iff in Hin. destruct Hin as ([p l] & <- & Hin).
    unfold dbind at 1 in Hin. apply in_flat_map in Hin. destruct Hin as ([q u'] & _ & Hin).
    apply in_map_iff in Hin. destruct Hin as ([q2 l2] & He & Hin). injection He as _ <-.
    unfold dbind in Hin. apply in_flat_map in Hin. destruct Hin as ([q3 b'] & Hb' & Hin).
    apply in_map_iff in Hin. destruct Hin as ([q4 l4] & He & Hin). cbn [snd fst] in *. injection He as _ <-.
    unfold dmap in Hin. apply in_map_iff in Hin. destruct Hin as ([q5 l5] & He & Hin). cbn [snd fst] in *. injection He as _ <-.
    destruct (IH u' l5) as [H1 H2]. { apply in_map_iff. now exists (q5, l5). }
    split; [cbn [length snd]; congruence|]. constructor; [|assumption]. cbn [fst].
    apply (dunif_support N b'). apply in_map_iff. now exists (q3, b').
Qed.

Hypothesis Hsh : shapes_ok init_sampler init_likelihood_logpdf transition_sampler transition_logpdf likelihood_logpdf cond_resampling.

Definition joint (vs : list V) (ts : list R) (Q : list U -> list nat -> R) : R :=
  E m0 (fun u0 => exp (lG0 (nth 0 vs vdef) (nth 1 vs vdef) u0) * E (dunif N) (fun b0 =>
    E (gamma (step_data vs ts) u0) (fun refs => Q (u0 :: map snd refs) (b0 :: map fst refs)))).

Lemma joint_ext vs ts Q Q' :
  vs <> [] -> length ts = length vs ->
  (forall us bs, length us = length vs -> length bs = length vs -> Forall (fun b => (b < N)%nat) bs -> Q us bs = Q' us bs) ->
  joint vs ts Q = joint vs ts Q'.
Proof.
  intros Hv Ht H. unfold joint. apply E_ext'. intros u0. f_equal. apply E_ext. intros b0 Hb0. apply dunif_support in Hb0.
  apply E_ext. intros refs Hrefs. apply gamma_support in Hrefs. destruct Hrefs as [H1 H2].
  rewrite length_step_data in H1 by assumption.
  apply H; cbn [length]; rewrite ?map_length; [destruct vs; [easy|simpl in *; lia]|destruct vs; [easy|simpl in *; lia]|].
  constructor; [assumption|]. apply Forall_map. exact H2.
Qed.

Lemma scan_lastlw_ok n (us_star : list U) bs_star As lws uss :
  us_star <> [] -> forward_ok n us_star bs_star (As, lws, uss) ->
  length (last lws []) = n /\ Rsum (map exp (last lws [])) = 1.
Proof.
  intros Hne (HA & HL & HU & HLs & _). assert (Hx : In (last lws []) lws) by (apply last_In; destruct lws; discriminate).
  rewrite Forall_forall in HLs. exact (HLs _ Hx).
Qed.

Lemma normalise_normed lw : Rsum (map exp lw) = 1 -> normalise lw = map exp lw.
Proof.
  intros H. unfold normalise, normalise_log, logsumexp. rewrite H, ln_1, map_map. apply map_ext. intros; f_equal; ring.
Qed.

(** law of one kernel step, tracing variant *)
Lemma law_kernel_trace k us_star bs_star vs ts f :
  us_star <> [] -> length bs_star = length us_star -> length vs = length us_star -> length ts = length us_star ->
  Forall (fun b => (b < N)%nat) bs_star ->
  law (kernel k us_star bs_star vs ts (N - 1)%nat false) f =
  law (fwd (split_key k 0) us_star bs_star vs ts (N - 1)%nat) (fun res =>
    Rsum (map (fun B => exp (nth B (last (snd (fst res)) []) 0) * f (trace_of res B)) (seq 0 N))).
Proof.
  intros Hne Hb Hv Ht HB. unfold csmc_kernel. rewrite law_bind.
  assert (HN1 : (N - 1 + 1)%nat = N) by lia.
  apply (law_ext_safe _ (forward_ok N us_star bs_star)).
  - rewrite <- HN1 at 2. apply (forward_pass_safe udef vdef) with (transition_logpdf := transition_logpdf); try assumption. now rewrite HN1.
  - intros [[As lws] uss] Hok. cbn [fst snd].
    destruct (scan_lastlw_ok _ _ _ _ _ _ Hne Hok) as [H1 H2].
    rewrite (backward_scanning_trace _ As lws). rewrite law_bind, normalise_normed by assumption.
    rewrite (choice_denotes _ _ (weights_ok_exp _ H2)). rewrite E_dcat, map_length, H1.
    apply Rsum_map_ext. intros B HBin. apply in_seq in HBin. rewrite nth_exp by lia. reflexivity.
Qed.

Theorem kernel_reversible_joint k vs ts f h :
  vs <> [] -> length ts = length vs ->
  joint vs ts (fun us bs => h (us, bs) * law (kernel k us bs vs ts (N - 1)%nat false) f) =
  joint vs ts (fun us bs => f (us, bs) * law (kernel k us bs vs ts (N - 1)%nat false) h).
Proof.
  intros Hv Ht.
  assert (HN1 : (N - 1 + 1)%nat = N) by lia.
  assert (Hone : forall f h, joint vs ts (fun us bs => h (us, bs) * law (kernel k us bs vs ts (N - 1)%nat false) f) =
     free_run (step_data vs ts) (nth 0 vs vdef) (nth 1 vs vdef) (fun lw0 us0 out b =>
        h (trace_of (fwd_out (lw0, us0, out)) b) *
        Rsum (map (fun b' => exp (nth b' (lastlw lw0 out) 0) * f (trace_of (fwd_out (lw0, us0, out)) b')) (seq 0 N)))).
  { clear f h. intros f h.
    rewrite (joint_ext _ _ _ (fun us bs => law (fwd (split_key k 0) us bs vs ts (N - 1)%nat) (fun res =>
       h (trace_of res (last bs 0%nat)) *
       Rsum (map (fun B => exp (nth B (last (snd (fst res)) []) 0) * f (trace_of res B)) (seq 0 N))))); [|assumption|assumption|].
    - unfold joint. exact (swap_forward (split_key k 0) vs ts (fun res b => h (trace_of res b) *
         Rsum (map (fun B => exp (nth B (last (snd (fst res)) []) 0) * f (trace_of res B)) (seq 0 N))) Hv Ht).
    - intros us bs Hul Hbl HB.
      assert (Hune : us <> []) by (destruct us, vs; simpl in *; try lia; easy).
      rewrite law_kernel_trace; try assumption; try lia.
      (* both sides have the common factor h (us, bs) on reachable results *)
      transitivity (law (fwd (split_key k 0) us bs vs ts (N - 1)%nat) (fun res =>
        h (us, bs) * Rsum (map (fun B => exp (nth B (last (snd (fst res)) []) 0) * f (trace_of res B)) (seq 0 N)))).
      2:{ apply (law_ext_safe _ (forward_ok N us bs)).
          - rewrite <- HN1 at 2. apply (forward_pass_safe udef vdef) with (transition_logpdf := transition_logpdf); try assumption; try lia. now rewrite HN1.
          - intros res Hok. rewrite (trace_reference res us bs N); try assumption; try lia. reflexivity. }
      (* linearity: the forward pass has a finite law *)
      symmetry. apply law_fwd_scal; try assumption; lia. }
  rewrite (Hone f h), (Hone h f). unfold free_run. apply E_ext'. intros us0. cbv zeta. f_equal.
  set (ll := normalise_log (map (lG0 (nth 0 vs vdef) (nth 1 vs vdef)) us0)).
  apply (free_exchange (step_data vs ts) ll us0 (fun out b => f (trace_of (fwd_out (ll, us0, out)) b))
           (fun out b => h (trace_of (fwd_out (ll, us0, out)) b))).
Qed.

(** ** In terms of the specification measures *)

Lemma fk_path_length steps : forall (u : U) us, In us (map snd (fk_path steps u)) -> length us = length steps.
Proof.
  induction steps as [|[l m] steps IH]; intros u us Hin; cbn [fk_path] in Hin.
  - destruct Hin as [<-|[]]. reflexivity.
  - unfold dscale in Hin. rewrite map_map in Hin. cbn [snd] in Hin. apply in_map_iff in Hin. destruct Hin as ([p q] & <- & Hin).
    unfold dbind in Hin. apply in_flat_map in Hin. destruct Hin as ([q1 u'] & _ & Hin).
    apply in_map_iff in Hin. destruct Hin as ([q2 l2] & He & Hin). cbn [fst snd] in *. injection He as _ <-.
    unfold dmap in Hin. apply in_map_iff in Hin. destruct Hin as ([q5 l5] & He & Hin). cbn [snd fst] in *. injection He as _ <-.
    cbn [length]. f_equal. apply (IH u'). apply in_map_iff. now exists (q5, l5).
Qed.

Lemma E_gamma_fk sd : forall u F, E (gamma sd u) F =
  E (fk_path (fk_of sd) u) (fun us => E (unif_indices N (length sd)) (fun bs => F (combine bs us))).
Proof.
  induction sd as [|[[v vp] t] sd IH]; intros u F.
  - cbn [gamma fk_of map fk_path length]. rewrite !E_dret. unfold unif_indices. cbn [repeat dseq]. now rewrite E_dret.
  - cbn [gamma fk_of map fk_path length]. fold (fk_of sd). rewrite !E_dscale, !E_dbind. f_equal. apply E_ext'. intros u'.
    rewrite E_dbind, E_dmap. unfold unif_indices. cbn [repeat].
    rewrite (E_ext' (fk_path (fk_of sd) u') _ (fun us => E (dunif N) (fun b' => E (unif_indices N (length sd)) (fun bs => F ((b', u') :: combine bs us))))).
    + rewrite E_exchange. apply E_ext'. intros b'. rewrite E_dmap. apply IH.
    + intros us. rewrite E_dseq_cons. reflexivity.
Qed.

Definition smoothing (vs : list V) (ts : list R) : dist (list U) :=
  fk_measure m0 (lG0 (nth 0 vs vdef) (nth 1 vs vdef)) (fk_of (step_data vs ts)).

Lemma joint_spec vs ts Q : vs <> [] -> length ts = length vs ->
  joint vs ts Q = E (smoothing vs ts) (fun us => E (unif_indices N (length vs)) (fun bs => Q us bs)).
Proof.
  intros Hv Ht. unfold joint, smoothing, fk_measure. rewrite E_dbind. apply E_ext'. intros u0. rewrite E_dscale, E_dmap. f_equal.
  destruct vs as [|v0 vs]; [easy|]. unfold unif_indices. cbn [length repeat].
  transitivity (E (fk_path (fk_of (step_data (v0 :: vs) ts)) u0) (fun us => E (dunif N) (fun b0 => E (unif_indices N (length vs)) (fun bs => Q (u0 :: us) (b0 :: bs))))).
  2:{ apply E_ext'. intros us. rewrite E_dseq_cons. reflexivity. }
  rewrite (E_exchange (fk_path (fk_of (step_data (v0 :: vs) ts)) u0)). apply E_ext'. intros b0. rewrite E_gamma_fk.
  apply E_ext. intros us Hus. apply fk_path_length in Hus. unfold fk_of in Hus. rewrite map_length in Hus.
  rewrite length_step_data in * by assumption. cbn [length] in *. rewrite Nat.sub_succ, Nat.sub_0_r in *.
  apply E_ext. intros bs Hbs. apply dseq_length in Hbs. rewrite repeat_length in Hbs.
  rewrite map_fst_combine, map_snd_combine by lia. reflexivity.
Qed.

Theorem kernel_total k us bs vs ts :
  us <> [] -> length bs = length us -> length vs = length us -> length ts = length us -> Forall (fun b => (b < N)%nat) bs ->
  law (kernel k us bs vs ts (N - 1)%nat false) (fun _ => 1) = 1.
Proof.
  intros Hne Hb Hv Ht HB. rewrite law_kernel_trace by assumption.
  assert (HN1 : (N - 1 + 1)%nat = N) by lia.
  rewrite (law_ext_safe _ (forward_ok N us bs) _ (fun _ => 1)).
  - destruct us as [|u0 us]; [easy|]. destruct bs as [|b0 bs]; [discriminate|].
    assert (HB0 := Forall_inv HB); assert (HB1 := Forall_inv_tail HB). simpl in Hb, Hv, Ht.
    rewrite <- (map_snd_combine bs us) by lia. rewrite <- (map_fst_combine bs us) at 2 by lia.
    apply law_fwd_const; [rewrite combine_length; lia|lia|assumption|].
    apply Forall_forall. intros [b u] Hin. apply in_combine_l in Hin. rewrite Forall_forall in HB1. simpl. auto.
  - rewrite <- HN1 at 2. apply (forward_pass_safe udef vdef) with (transition_logpdf := transition_logpdf); try assumption. now rewrite HN1.
  - intros [[As lws] uss] Hok. cbn [fst snd]. destruct (scan_lastlw_ok _ _ _ _ _ _ Hne Hok) as [H1 H2].
    refine (eq_trans _ H2). rewrite <- (map_nth_seq 0 (map exp (last lws []))). rewrite map_length, H1.
    apply Rsum_map_ext. intros B HBin. apply in_seq in HBin. rewrite nth_exp by lia. ring.
Qed.

End inv.

Section final.
Context {U V : Type} (udef : U) (vdef : V).
Variable init_sampler : key -> nat -> prog (list U).
Variable init_likelihood_logpdf : V -> list U -> V -> list R.
Variable transition_sampler : list U -> V -> R -> key -> prog (list U).
Variable transition_logpdf : U -> list U -> V -> R -> list R.
Variable likelihood_logpdf : V -> list U -> V -> R -> list R.
Variable cond_resampling : key -> list R -> nat -> nat -> bool -> prog (list nat).
Variable m0 : dist U.
Variable lG0 : V -> V -> U -> R.
Variable M : V -> R -> U -> dist U.
Variable lg : V -> V -> R -> U -> R.
Variable r : list R -> dist (list nat).
Hypothesis Hmo : model_ok init_sampler init_likelihood_logpdf transition_sampler likelihood_logpdf cond_resampling m0 lG0 M lg r.
Hypothesis Hsh : shapes_ok init_sampler init_likelihood_logpdf transition_sampler transition_logpdf likelihood_logpdf cond_resampling.

Notation kernel := (csmc_kernel udef vdef init_sampler init_likelihood_logpdf transition_sampler transition_logpdf likelihood_logpdf cond_resampling).
Notation target vs ts := (smoothing vdef m0 lG0 M lg vs ts).

Theorem csmc_trace_reversible k vs ts nsamples f h :
  vs <> [] -> length ts = length vs ->
  E (target vs ts) (fun us => E (unif_indices (nsamples + 1) (length vs)) (fun bs =>
     h (us, bs) * law (kernel k us bs vs ts nsamples false) f)) =
  E (target vs ts) (fun us => E (unif_indices (nsamples + 1) (length vs)) (fun bs =>
     f (us, bs) * law (kernel k us bs vs ts nsamples false) h)).
Proof.
  intros Hv Ht.
  pose proof (kernel_reversible_joint udef vdef _ _ _ transition_logpdf _ _ m0 lG0 M lg r Hmo (nsamples + 1) ltac:(lia) Hsh k vs ts f h Hv Ht) as H.
  rewrite !joint_spec in H by (assumption || lia). replace (nsamples + 1 - 1)%nat with nsamples in H by lia. exact H.
Qed.

Theorem csmc_trace_invariant k vs ts nsamples f :
  vs <> [] -> length ts = length vs ->
  E (target vs ts) (fun us => E (unif_indices (nsamples + 1) (length vs)) (fun bs =>
     law (kernel k us bs vs ts nsamples false) f)) =
  E (target vs ts) (fun us => E (unif_indices (nsamples + 1) (length vs)) (fun bs => f (us, bs))).
Proof.
  intros Hv Ht. pose proof (csmc_trace_reversible k vs ts nsamples f (fun _ => 1) Hv Ht) as H.
  assert (HN : (nsamples + 1 - 1 = nsamples)%nat) by lia.
  rewrite <- !(joint_spec vdef m0 lG0 M lg (nsamples + 1) ltac:(lia)) in * by assumption.
  rewrite (joint_ext vdef m0 lG0 M lg (nsamples + 1) ltac:(lia) vs ts _ (fun us bs => 1 * law (kernel k us bs vs ts nsamples false) f)) by (try assumption; intros; ring).
  rewrite H. apply joint_ext; [lia|assumption|assumption|]. intros us bs Hu Hb HB.
  pose proof (kernel_total udef vdef _ _ _ transition_logpdf _ _ m0 lG0 M lg r Hmo (nsamples + 1) ltac:(lia) Hsh k us bs vs ts) as Ht1.
  rewrite HN in Ht1. rewrite Ht1; try lia; [ring| |assumption].
  destruct us, vs; simpl in *; try lia; easy.
Qed.

End final.

(** ** The two conditional resampling schemes *)
Lemma dseq_repeat_support {A} (d : dist A) n l :
  In l (map snd (dseq (repeat d n))) -> length l = n /\ Forall (fun a => In a (map snd d)) l.
Proof.
  intros H. split; [rewrite (dseq_length _ _ H); apply repeat_length|].
  apply dseq_Forall2 in H. revert n H. induction l as [|a l IH]; intros n H; [constructor|].
  destruct n as [|n]; inversion H; subst. constructor; [assumption|]. now apply (IH n).
Qed.

Lemma exact_cmultinomial : exact_cres cmultinomial multinomial_dist.
Proof.
  constructor.
  - exact cmultinomial_exact.
  - intros w A Hw HA. apply dseq_repeat_support in HA. destruct HA as [H1 H2]. split; [assumption|].
    eapply Forall_impl; [|exact H2]. intros a Ha. now apply dcat_support.
  - intros w Hw. apply is_prob_dseq, Forall_repeat. now apply is_prob_dcat.
  - intros k w i j Hw Hi Hj. unfold cmultinomial. rewrite law_bind. cbn [law].
    rewrite (choices_denotes _ _ _ Hw). apply E_const, is_prob_dseq, Forall_repeat. now apply is_prob_dcat.
Qed.

Lemma exact_ckilling : exact_cres ckilling rolled_killing_dist.
Proof.
  constructor.
  - exact ckilling_exact.
  - intros w A Hw HA. apply in_map_iff in HA. destruct HA as ([p B] & <- & HA). cbn [snd].
    unfold rolled_killing_dist, dbind in HA. apply in_flat_map in HA. destruct HA as ([q s] & _ & HA).
    apply in_map_iff in HA. destruct HA as ([q2 C] & He & HA). cbn [fst snd] in *. injection He as _ <-.
    unfold dmap in HA. apply in_map_iff in HA. destruct HA as ([q3 D] & He & HA). cbn [fst snd] in *. injection He as _ <-.
    assert (HD : In D (map snd (killing_dist w))) by (apply in_map_iff; now exists (q3, D)).
    split; [rewrite length_roll; now apply killing_dist_length|]. apply roll_Forall.
    apply dseq_Forall2 in HD.
    assert (Hgen : forall l, Forall (fun i => (i < length w)%nat) l ->
       Forall2 (fun a d => In a (map snd d)) D (map (killing_slot w) l) -> Forall (fun i => (i < length w)%nat) D).
    { clear HA HD q3. induction D as [|a D IH]; intros l Hl H2; [constructor|].
      destruct l as [|i l]; inversion H2 as [|? ? ? ? Ha H2']; subst. inversion Hl; subst. constructor; [|now apply (IH l)].
      unfold killing_slot, dbind in Ha. cbn [flat_map app] in Ha. rewrite app_nil_r, map_app, in_app_iff in Ha.
      destruct Ha as [Ha|Ha]; rewrite map_map in Ha; cbn [snd] in Ha.
      - destruct Ha as [<-|[]]. cbn. assumption.
      - now apply dcat_support. }
    apply (Hgen (seq 0 (length w))); [|exact HD]. apply Forall_forall. intros i Hi. apply in_seq in Hi. lia.
  - exact is_prob_rolled_killing.
  - intros k w i j Hw Hi Hj. unfold ckilling. cbn [bind]. cbn [law].
    rewrite (uint_ext _ _ (fun _ => 1)); [apply uint_const|]. intros us _.
    cbv zeta. rewrite law_bind. rewrite (law_ext _ _ (fun _ => 1)).
    + rewrite (choices_denotes _ _ _ Hw). apply E_const, is_prob_dseq, Forall_repeat. now apply is_prob_dcat.
    + intros cs. rewrite law_bind. cbn [law]. rewrite choice_denotes; [|apply J_probs_ok; assumption].
      apply E_const, is_prob_dcat. apply J_probs_ok; assumption.
Qed.
