(** Error of twisted_smc and of the sample reported by the twisted experiments, as the number of particles grows. *)
From Coquelicot Require Import Coquelicot.
From Verif Require Export Twisted FilterSlot.
Open Scope R_scope.

(** experiments/toy/gp_twisted.py:131-139, experiments/imgs/inpainting_twisted.py:147-155 and
    experiments/imgs/supr_twisted.py [conditional_sampler]: run twisted_smc, then draw one particle with the final weights. *)
Definition twisted_sampler {U Y} (udef : U) transition_logpdf twisting_logpdf twisting_prop_sampler twisting_prop_logpdf
  (resampling : list R -> key -> prog (list nat)) (init_sampler : key -> nat -> prog (list U)) (nparticles : nat) (y : Y) (ts : list R) (k : key) : prog U :=
  ' (uvs, log_ws) <- twisted_smc udef transition_logpdf twisting_logpdf twisting_prop_sampler twisting_prop_logpdf resampling (split_key k 0) y ts init_sampler nparticles ;;
  i <- choice (split_key k 1) (map exp log_ws) ;;
  Ret (nth i uvs udef).

Lemma Rsum_le_const (l : list R) b : Forall (fun x => x <= b) l -> Rsum l <= INR (length l) * b.
Proof. induction 1 as [|x l Hx H IH]; [cbn; lra|]. cbn [Rsum length]. rewrite S_INR. lra. Qed.

Section twisted.
Context {U Y : Type} (udef : U).
Variable transition_logpdf : list U -> list U -> R -> list R.
Variable twisting_logpdf : Y -> list U -> R -> list R.
Variable twisting_prop_sampler : key -> list U -> R -> Y -> prog (list U).
Variable twisting_prop_logpdf : list U -> list U -> R -> Y -> list R.
Variable resampling : list R -> key -> prog (list nat).
Variable init_sampler : key -> nat -> prog (list U).
Variable m0 : dist U.
Variable p : R -> U -> dist U.
Variable q : R -> Y -> U -> dist U.
Variables (lp : R -> U -> U -> R) (lq : R -> Y -> U -> U -> R).
Variable psi : Y -> R -> U -> R.
Hypothesis Hok : twisted_ok transition_logpdf twisting_logpdf twisting_prop_sampler twisting_prop_logpdf resampling init_sampler m0 p q lp lq psi.
Hypothesis Hcr : consistent_res resampling.
Variable n : nat.
Hypothesis Hn : (0 < n)%nat.

Let INRn : 0 < INR n.
Proof. apply lt_0_INR; lia. Qed.

Notation scan_g := (tw_scan_g udef transition_logpdf twisting_logpdf twisting_prop_sampler twisting_prop_logpdf resampling n).
Notation smc_g := (twisted_smc_g udef transition_logpdf twisting_logpdf twisting_prop_sampler twisting_prop_logpdf resampling init_sampler n).
Notation togo := (togo p psi).
Notation wsum := (wsum udef n).

(** the incremental weight of a move from up (reached at time t') to u at time t *)
Definition incr (y : Y) (t' t : R) (u up : U) : R := exp (lp t u up + psi y t u - lq t y u up - psi y t' up).
Fixpoint incr_bounded (G : R) (y : Y) (t' : R) (ts : list R) : Prop :=
  match ts with
  | [] => True
  | t :: ts' => (forall up u, In u (map snd (q t y up)) -> incr y t' t u up <= G) /\ incr_bounded G y t ts'
  end.

Lemma togo_nil y t phi u : togo y t [] phi u = phi u.
Proof.
  unfold Twisted.togo. cbn [chain last]. rewrite E_dret, <- Rmult_assoc, <- exp_plus, Rplus_opp_l, exp_0. ring.
Qed.

Lemma togo_cons y t' t ts phi up : togo y t' (t :: ts) phi up = E (q t y up) (fun u => incr y t' t u up * togo y t ts phi u).
Proof.
  set (R' := fun u => E (chain p ts u) (fun u' => exp (psi y (last (t :: ts) 0) u') * phi u')).
  rewrite (E_ext' _ _ (fun u => exp (- psi y t' up) * (exp (lp t u up - lq t y u up) * R' u))).
  - rewrite E_mult_l, (to_density _ _ _ _ _ _ _ _ _ _ _ _ Hok). unfold Twisted.togo. cbn [chain]. rewrite E_dbind.
    change (last (t' :: t :: ts) 0) with (last (t :: ts) 0). reflexivity.
  - intros u. unfold incr, Twisted.togo. fold (R' u). rewrite <- !Rmult_assoc, <- !exp_plus. do 2 f_equal. ring.
Qed.

Variables (G B : R).
Hypothesis HG : 0 <= G.
Variable phi : U -> R.
Hypothesis Hphi : forall u, Rabs (phi u) <= B.

Lemma togo_bound y ts : forall t', incr_bounded G y t' ts -> forall u, Rabs (togo y t' ts phi u) <= G ^ length ts * B.
Proof.
  induction ts as [|t ts IH]; intros t' Hb up.
  - rewrite togo_nil. cbn [length pow]. rewrite Rmult_1_l. apply Hphi.
  - destruct Hb as [Hb1 Hb2]. rewrite togo_cons. apply E_bound; [apply (to_q _ _ _ _ _ _ _ _ _ _ _ _ Hok)|].
    intros u Hu. rewrite Rabs_mult, Rabs_pos_eq by (left; apply exp_pos). cbn [length pow]. rewrite Rmult_assoc.
    apply Rmult_le_compat; [left; apply exp_pos|apply Rabs_pos|now apply Hb1|now apply IH].
Qed.

(** a weighted cloud in terms of its unnormalised weights *)
Lemma wsum_normalised (F : U -> R) (us : list U) (lw : list R) : length us = n -> length lw = n ->
  Rsum (map exp lw) * wsum F us (normalise_log lw) = Rsum (map (fun i => exp (nth i lw 0) * F (nth i us udef)) (seq 0 n)).
Proof.
  intros Hu Hl. unfold Twisted.wsum. rewrite <- Rsum_map_mult_l. apply Rsum_map_ext. intros j Hj. apply in_seq in Hj.
  assert (Hne : lw <> []) by (destruct lw; [simpl in Hl; lia|discriminate]). pose proof (Rsum_exp_pos _ Hne) as HS.
  unfold normalise_log. rewrite (nth_indep _ 0 (0 - logsumexp lw)) by (rewrite map_length; lia).
  rewrite (map_nth (fun x => x - logsumexp lw)). unfold Rminus. rewrite exp_plus, exp_Ropp. unfold logsumexp. rewrite exp_ln by assumption. field. lra.
Qed.

Lemma prop_sq y t' t (ups : list U) (F : U -> R) b a c : length ups = n ->
  (forall up u, In u (map snd (q t y up)) -> incr y t' t u up <= G) -> (forall u, Rabs (F u) <= b) ->
  E (dseq (map (q t y) ups)) (fun us => (a * Rsum (map (fun x => incr y t' t (fst x) (snd x) * F (fst x)) (combine us ups)) - c) ^ 2) <=
  (a * Rsum (map (fun up => E (q t y up) (fun u => incr y t' t u up * F u)) ups) - c) ^ 2 + a ^ 2 * (INR n * (G * b) ^ 2).
Proof.
  intros Hl Hg HF.
  assert (Hp : Forall is_prob (map (q t y) ups)) by (apply Forall_map, Forall_forall; intros; apply (to_q _ _ _ _ _ _ _ _ _ _ _ _ Hok)).
  assert (Hb0 : 0 <= b) by (specialize (HF udef); pose proof (Rabs_pos (F udef)); lra).
  set (fs := map (fun up u => a * (incr y t' t u up * F u)) ups).
  assert (Hfl : length fs = length (map (q t y) ups)) by (unfold fs; now rewrite !map_length).
  rewrite (E_ext _ _ (fun us => (- c + zsum fs us) ^ 2)).
  2:{ intros us Hin. apply dseq_length in Hin. rewrite map_length in Hin. f_equal.
      assert (Hz : zsum fs us = a * Rsum (map (fun x => incr y t' t (fst x) (snd x) * F (fst x)) (combine us ups))); [|rewrite Hz; ring].
      unfold zsum, fs. clear -Hin. revert us Hin; induction ups as [|u ups IH]; intros [|u' us] H; try discriminate H; [cbn; ring|].
      cbn [map combine Rsum fst snd]. rewrite (IH us) by now injection H. ring. }
  rewrite E_dseq_square by assumption.
  assert (Hm : zmean fs (map (q t y) ups) = a * Rsum (map (fun up => E (q t y up) (fun u => incr y t' t u up * F u)) ups)).
  { unfold zmean, fs. clear. induction ups as [|u us IH]; [cbn; ring|]. cbn [map combine Rsum fst snd]. rewrite IH, E_mult_l. ring. }
  rewrite Hm. replace (- c + a * Rsum (map (fun up => E (q t y up) (fun u => incr y t' t u up * F u)) ups))
    with (a * Rsum (map (fun up => E (q t y up) (fun u => incr y t' t u up * F u)) ups) - c) by ring.
  apply Rplus_le_compat_l.
  pose proof (zvar_le _ (Rabs a * (G * b)) Hp fs Hfl) as Hz. rewrite map_length, Hl in Hz.
  replace (INR n * (Rabs a * (G * b)) ^ 2) with (a ^ 2 * (INR n * (G * b) ^ 2)) in Hz.
  2:{ rewrite (Rpow_mult_distr (Rabs a)), pow2_abs. ring. }
  apply Hz. intros f d u Hin Hu. unfold fs in Hin. clear -Hin Hu Hg HF HG.
  assert (exists up, f = (fun u => a * (incr y t' t u up * F u)) /\ d = q t y up) as (up & -> & ->).
  { induction ups as [|up ups IH]; [destruct Hin|]. cbn [map combine] in Hin. destruct Hin as [Hin|Hin]; [|now apply IH].
    injection Hin as <- <-. now exists up. }
  rewrite !Rabs_mult. apply Rmult_le_compat_l; [apply Rabs_pos|]. rewrite Rabs_pos_eq by (left; apply exp_pos).
  apply Rmult_le_compat; [left; apply exp_pos|apply Rabs_pos|now apply Hg|apply HF].
Qed.

Lemma mean_incr_le y t' t (ups us : list U) : length ups = n -> In us (map snd (dseq (map (q t y) ups))) ->
  (forall up u, In u (map snd (q t y up)) -> incr y t' t u up <= G) ->
  0 <= / INR n * Rsum (map (fun x => incr y t' t (fst x) (snd x)) (combine us ups)) <= G.
Proof.
  intros Hl Hin Hg. pose proof (dseq_length _ _ Hin) as Hlen. rewrite map_length in Hlen. apply dseq_Forall2 in Hin. split.
  - apply Rmult_le_pos; [left; now apply Rinv_0_lt_compat|]. apply Rsum_nonneg, Forall_map, Forall_forall. intros. left. apply exp_pos.
  - assert (Rsum (map (fun x => incr y t' t (fst x) (snd x)) (combine us ups)) <= INR n * G).
    { replace n with (length (map (fun x => incr y t' t (fst x) (snd x)) (combine us ups))) by (rewrite map_length, combine_length; lia).
      apply Rsum_le_const, Forall_map. clear Hl Hlen. revert us Hin. induction ups as [|up ups IH]; intros us Hin; cbn [map] in Hin; inversion Hin; subst; [constructor|].
      cbn [combine]. constructor; [cbn [fst snd]; now apply Hg|now apply IH]. }
    apply (Rmult_le_reg_l (INR n)); [assumption|]. rewrite <- Rmult_assoc, Rinv_r, Rmult_1_l by lra. assumption.
Qed.

Theorem tw_scan_mse y k ts : forall t' i xs lws z c, incr_bounded G y t' ts ->
  length xs = n -> length lws = n -> Rsum (map exp lws) = 1 ->
  law (scan_g y k i ts (xs, map (psi y t') xs, lws, z)) (fun r => let '(xs', _, lws', z') := r in (z' * wsum phi xs' lws' - c) ^ 2) <=
  (z * wsum (togo y t' ts phi) xs lws - c) ^ 2 + z ^ 2 * (/ INR n * mse_const G B (length ts)).
Proof.
  induction ts as [|t ts IH]; intros t' i xs lws z c Hb Hx Hl Hs.
  - cbn [tw_scan_g law length]. right. unfold mse_const. cbn [INR]. rewrite Rmult_0_r, !Rmult_0_l, !Rmult_0_r, Rplus_0_r. do 3 f_equal.
    unfold Twisted.wsum. apply Rsum_map_ext. intros j _. now rewrite togo_nil.
  - destruct Hb as [Hb1 Hb2]. cbn [tw_scan_g]. rewrite law_bind. unfold tw_body_g. rewrite law_bind.
    assert (Hw : weights_ok (map exp lws)) by now apply weights_ok_exp.
    assert (Hwl : length (map exp lws) = n) by now rewrite map_length.
    set (F := togo y t ts phi). set (b := G ^ length ts * B).
    assert (HF : forall u, Rabs (F u) <= b) by (intros; now apply togo_bound).
    set (h := fun j => togo y t' (t :: ts) phi (nth j xs udef)).
    assert (Hh : forall j, Rabs (h j) <= G * b).
    { intros j. unfold h, b. rewrite <- Rmult_assoc. change (G * G ^ length ts) with (G ^ length (t :: ts)). apply togo_bound. split; assumption. }
    set (K := mse_const G B (length ts)).
    assert (HK : 0 <= K) by apply mse_const_nonneg.
    apply Rle_trans with (law (resampling (map exp lws) (split_key (split_key k i) 0))
       (fun A => 1 * (z * / INR n * Rsum (map h A) - c) ^ 2 + (z ^ 2 * / INR n * ((G * b) ^ 2 + G ^ 2 * K)) * (fun _ => 1) A)).
    + eapply (has_laws_le _ (resampling (map exp lws))); [now apply (cr_laws _ Hcr)|].
      intros A [HA HAv]. rewrite Hwl in *. rewrite law_bind, (to_prop _ _ _ _ _ _ _ _ _ _ _ _ Hok _ _ _ _ _).
      assert (Hg : gather 0 (map (psi y t') xs) A = map (psi y t') (gather udef xs A)).
      { unfold gather. rewrite map_map. apply map_ext_in. intros j Hj. rewrite Forall_forall in HAv. specialize (HAv j Hj).
        rewrite (nth_indep _ 0 (psi y t' udef)) by (rewrite map_length; lia). apply map_nth. }
      rewrite Hg. set (ups := gather udef xs A).
      assert (Hgl : length ups = n) by (unfold ups, gather; now rewrite map_length).
      assert (Hprob : is_prob (dseq (map (q t y) ups))) by (apply is_prob_dseq, Forall_map, Forall_forall; intros; apply (to_q _ _ _ _ _ _ _ _ _ _ _ _ Hok)).
      apply Rle_trans with (E (dseq (map (q t y) ups)) (fun us =>
        (z * / INR n * Rsum (map (fun x => incr y t' t (fst x) (snd x) * F (fst x)) (combine us ups)) - c) ^ 2 + z ^ 2 * / INR n * (G ^ 2 * K))).
      * apply E_le; [apply Hprob|]. intros us Hin. pose proof (dseq_length _ _ Hin) as Hlen. rewrite map_length, Hgl in Hlen.
        rewrite (incr_weights _ _ _ _ _ _ m0 p q lp lq psi Hok) by congruence. cbn [law]. rewrite (to_psi _ _ _ _ _ _ _ _ _ _ _ _ Hok).
        set (lw' := map _ (combine us ups)).
        assert (Hl' : length lw' = n) by (unfold lw'; rewrite map_length, combine_length, Hlen, Hgl; apply Nat.min_id).
        assert (Hne : lw' <> []) by (destruct lw'; [simpl in Hl'; lia|discriminate]).
        change (map (fun x => x - logsumexp lw') lw') with (normalise_log lw').
        eapply Rle_trans; [apply IH; [assumption|assumption|now rewrite length_normalise_log|now apply normalise_log_sum]|].
        assert (Hexp : map exp lw' = map (fun x => incr y t' t (fst x) (snd x)) (combine us ups)) by (unfold lw'; now rewrite map_map).
        apply Rplus_le_compat.
        { right. do 2 f_equal. rewrite !Rmult_assoc. f_equal. f_equal. rewrite wsum_normalised by assumption.
          rewrite (Rsum_gather (fun x => incr y t' t (fst x) (snd x) * F (fst x)) (udef, udef)).
          replace (length (combine us ups)) with n by (rewrite combine_length; lia).
          apply Rsum_map_ext. intros j Hj. apply in_seq in Hj. rewrite combine_nth by congruence. cbn [fst snd]. f_equal.
          unfold lw'. rewrite (nth_indep _ 0 ((fun ab => lp t (fst ab) (snd ab) + psi y t (fst ab) - lq t y (fst ab) (snd ab) - psi y t' (snd ab)) (udef, udef)))
            by (fold lw'; lia).
          rewrite (map_nth (fun ab => lp t (fst ab) (snd ab) + psi y t (fst ab) - lq t y (fst ab) (snd ab) - psi y t' (snd ab))).
          rewrite combine_nth by congruence. reflexivity. }
        { rewrite Hexp. pose proof (mean_incr_le y t' t ups us Hgl Hin Hb1) as [Hm1 Hm2].
          set (m := / INR n * Rsum (map (fun x => incr y t' t (fst x) (snd x)) (combine us ups))) in *. fold K. rewrite Rpow_mult_distr.
          assert (m ^ 2 <= G ^ 2) by (apply pow_incr; lra).
          assert (0 <= z ^ 2 * (/ INR n * K)) by (apply Rmult_le_pos; [apply pow2_ge_0|apply Rmult_le_pos; [left; now apply Rinv_0_lt_compat|assumption]]).
          replace (z ^ 2 * m ^ 2 * (/ INR n * K)) with (m ^ 2 * (z ^ 2 * (/ INR n * K))) by ring.
          replace (z ^ 2 * / INR n * (G ^ 2 * K)) with (G ^ 2 * (z ^ 2 * (/ INR n * K))) by ring.
          now apply Rmult_le_compat_r. }
      * rewrite E_plus, E_const by assumption.
        pose proof (prop_sq y t' t ups F b (z * / INR n) c Hgl Hb1 HF) as Hq.
        rewrite (map_ext (fun up => E (q t y up) (fun u => incr y t' t u up * F u)) (togo y t' (t :: ts) phi)) in Hq by (intros; now rewrite togo_cons).
        assert (Hmap : map (togo y t' (t :: ts) phi) ups = map h A) by (unfold ups, gather; now rewrite map_map).
        rewrite Hmap in Hq.
        replace ((z * / INR n) ^ 2 * (INR n * (G * b) ^ 2)) with (z ^ 2 * / INR n * (G * b) ^ 2) in Hq by (field; lra). lra.
    + pose proof (cr_laws _ Hcr _ Hw) as Hlaws. rewrite (has_laws_lin _ _ _ _ _ _ _ Hlaws), (has_laws_const _ _ _ _ Hlaws), Rmult_1_l, Rmult_1_r.
      pose proof (resample_sq resampling _ (split_key (split_key k i) 0) h (G * b) (z * / INR n) c Hcr Hw ltac:(auto)) as Hr. rewrite Hwl, E_dcat, Hwl in Hr.
      replace ((z * / INR n) ^ 2 * (INR n * (G * b) ^ 2)) with (z ^ 2 * / INR n * (G * b) ^ 2) in Hr by (field; lra).
      replace (z * / INR n * (INR n * Rsum (map (fun j => nth j (map exp lws) 0 * h j) (seq 0 n)))) with (z * wsum (togo y t' (t :: ts) phi) xs lws) in Hr.
      2:{ unfold Twisted.wsum, h. rewrite (Rsum_map_ext (fun j => nth j (map exp lws) 0 * togo y t' (t :: ts) phi (nth j xs udef))
            (fun j => exp (nth j lws 0) * togo y t' (t :: ts) phi (nth j xs udef))); [field; lra|].
          intros j Hj. apply in_seq in Hj. now rewrite nth_exp by lia. }
      cbn [length]. rewrite (mse_const_S n Hn). fold b K.
      replace (z ^ 2 * (/ INR n * (G ^ 2 * (2 * b ^ 2 + K)))) with (z ^ 2 * / INR n * (G * b) ^ 2 + z ^ 2 * / INR n * ((G * b) ^ 2 + G ^ 2 * K)) by ring. lra.
Qed.

Definition tw_mse (m : nat) : R := / INR n * ((2 * INR m + 1) * G ^ (2 * S m) * B ^ 2).

Theorem twisted_smc_mse k y t ts : incr_bounded G y t ts -> (forall u, In u (map snd m0) -> exp (psi y t u) <= G) ->
  law (smc_g k y (t :: ts)) (fun r => let '(xs, lws, z) := r in (z * wsum phi xs lws - twisted_target m0 p psi y (t :: ts) phi) ^ 2) <= tw_mse (length ts).
Proof.
  intros Hb Hi. set (c := twisted_target m0 p psi y (t :: ts) phi).
  pose proof (to_m0 _ _ _ _ _ _ _ _ _ _ _ _ Hok) as Hm0.
  assert (Hprob : is_prob (dseq (repeat m0 n))) by (apply is_prob_dseq, Forall_forall; intros d Hd; apply repeat_spec in Hd; now subst).
  unfold twisted_smc_g. rewrite law_bind, (to_init _ _ _ _ _ _ _ _ _ _ _ _ Hok _ _ _). cbn [tl nth].
  set (Q := fun u => exp (psi y t u) * togo y t ts phi u). set (K := mse_const G B (length ts)). set (b := G ^ length ts * B).
  assert (HK : 0 <= K) by apply mse_const_nonneg.
  assert (HQ : forall u, In u (map snd m0) -> Rabs (Q u) <= G * b).
  { intros u Hu. unfold Q. rewrite Rabs_mult, Rabs_pos_eq by (left; apply exp_pos).
    apply Rmult_le_compat; [left; apply exp_pos|apply Rabs_pos|now apply Hi|now apply togo_bound]. }
  assert (Hc : E m0 Q = c).
  { unfold c, twisted_target. cbn [tl]. apply E_ext'. intros u. unfold Q, Twisted.togo. rewrite <- Rmult_assoc, <- exp_plus, Rplus_opp_r, exp_0, Rmult_1_l. reflexivity. }
  apply Rle_trans with (E (dseq (repeat m0 n)) (fun us => (/ INR n * Rsum (map Q us) - c) ^ 2 + G ^ 2 * (/ INR n * K))).
  - apply E_le; [apply Hprob|]. intros us Hin. pose proof (dseq_length _ _ Hin) as Hlen. rewrite repeat_length in Hlen.
    rewrite law_bind, (to_psi _ _ _ _ _ _ _ _ _ _ _ _ Hok). set (lw := map (psi y t) us).
    assert (Hl : length lw = n) by (unfold lw; now rewrite map_length).
    assert (Hne : lw <> []) by (destruct lw; [simpl in Hl; lia|discriminate]).
    change (map (fun x => x - logsumexp lw) lw) with (normalise_log lw).
    pose proof (tw_scan_mse y (split_key k 1) ts t 0 us (normalise_log lw) (/ INR n * Rsum (map exp lw)) c Hb Hlen
      ltac:(now rewrite length_normalise_log) (normalise_log_sum _ Hne)) as H.
    eapply Rle_trans; [right; apply law_ext|eapply Rle_trans; [exact H|]].
    + intros [[[xs lps] lws] z]. reflexivity.
    + apply Rplus_le_compat.
      * right. do 2 f_equal. rewrite Rmult_assoc. f_equal. rewrite wsum_normalised by assumption. rewrite (Rsum_gather Q udef us), Hlen.
        apply Rsum_map_ext. intros j Hj. apply in_seq in Hj. unfold Q. f_equal. f_equal. unfold lw.
        rewrite (nth_indep _ 0 (psi y t udef)) by (rewrite map_length; lia). apply map_nth.
      * fold K. apply Rmult_le_compat_r; [apply Rmult_le_pos; [left; now apply Rinv_0_lt_compat|assumption]|].
        assert (Hne' : 0 < Rsum (map exp lw)) by now apply Rsum_exp_pos.
        apply pow_incr. split; [apply Rmult_le_pos; [left; now apply Rinv_0_lt_compat|lra]|].
        assert (Rsum (map exp lw) <= INR n * G).
        { rewrite <- Hl, <- (map_length exp lw). apply Rsum_le_const. unfold lw. rewrite map_map. apply Forall_map, Forall_forall. intros u Hu. apply Hi.
          apply dseq_Forall2 in Hin. clear -Hin Hu. remember (repeat m0 n) as ds. assert (Hd : Forall (fun d => d = m0) ds) by (subst; apply Forall_forall; intros d Hd; now apply repeat_spec in Hd).
          clear Heqds. induction Hin as [|x d l ds Hx H IH]; [destruct Hu|]. inversion Hd; subst. destruct Hu as [ <-|Hu]; [assumption|now apply IH]. }
        apply (Rmult_le_reg_l (INR n)); [assumption|]. rewrite <- Rmult_assoc, Rinv_r, Rmult_1_l by lra. assumption.
  - rewrite E_plus, E_const by assumption.
    assert (Hq : E (dseq (repeat m0 n)) (fun us => (/ INR n * Rsum (map Q us) - c) ^ 2) <= / INR n * (G * b) ^ 2).
    { rewrite (E_ext _ _ (fun us => (- c + zsum (repeat (fun u => / INR n * Q u) n) us) ^ 2)).
      2:{ intros us Hin. apply dseq_length in Hin. rewrite repeat_length in Hin. rewrite zsum_repeat by assumption. rewrite Rsum_map_mult_l. f_equal. ring. }
      rewrite E_dseq_square; [|apply Forall_forall; intros d Hd; apply repeat_spec in Hd; now subst|now rewrite !repeat_length].
      assert (Hm : zmean (repeat (fun u => / INR n * Q u) n) (repeat m0 n) = c).
      { pose proof (zmean_repeat (fun u => / INR n * Q u) (repeat m0 n)) as Hz. rewrite repeat_length in Hz. rewrite Hz, map_repeat_, Rsum_repeat, E_mult_l, Hc. field. lra. }
      rewrite Hm. replace ((- c + c) ^ 2) with 0 by ring. rewrite Rplus_0_l.
      eapply Rle_trans; [apply (zvar_le _ (/ INR n * (G * b)))|].
      - apply Forall_forall; intros d Hd; apply repeat_spec in Hd; now subst.
      - now rewrite !repeat_length.
      - intros f d u Hin Hu. pose proof (in_combine_l _ _ _ _ Hin) as Hf. apply in_combine_r, repeat_spec in Hin. apply repeat_spec in Hf. subst.
        rewrite Rabs_mult, Rabs_pos_eq by (left; now apply Rinv_0_lt_compat). apply Rmult_le_compat_l; [left; now apply Rinv_0_lt_compat|now apply HQ].
      - rewrite repeat_length. right. field. lra. }
    eapply Rle_trans; [apply Rplus_le_compat_r; exact Hq|]. right. unfold tw_mse, K, b, mse_const.
    replace (2 * S (length ts))%nat with (2 + (length ts + length ts))%nat by lia. replace (2 * length ts)%nat with (length ts + length ts)%nat by lia.
    rewrite !pow_add. field. lra.
Qed.
End twisted.

Lemma E_cauchy_schwarz {A} (d : dist A) f g : is_prob d -> (E d (fun a => f a * g a)) ^ 2 <= E d (fun a => f a ^ 2) * E d (fun a => g a ^ 2).
Proof.
  intros Hd. set (P := E d (fun a => f a ^ 2)). set (Q := E d (fun a => g a ^ 2)). set (D := E d (fun a => f a * g a)).
  assert (H : forall x y, 0 <= x ^ 2 * P + 2 * x * y * D + y ^ 2 * Q).
  { intros x y. replace (x ^ 2 * P + 2 * x * y * D + y ^ 2 * Q) with (E d (fun a => (x * f a + y * g a) ^ 2)).
    - apply E_nonneg; [apply Hd|]. intros. apply pow2_ge_0.
    - rewrite (E_ext' d _ (fun a => x ^ 2 * f a ^ 2 + (2 * x * y * (f a * g a) + y ^ 2 * g a ^ 2))) by (intros; ring).
      rewrite !E_plus, !E_mult_l. unfold P, Q, D. ring. }
  assert (HP : 0 <= P) by (specialize (H 1 0); lra). assert (HQ : 0 <= Q) by (specialize (H 0 1); lra).
  destruct (Rle_lt_or_eq_dec _ _ HQ) as [HQ'|HQ'].
  - pose proof (H Q (- D)) as H1. assert (0 <= Q * (P * Q - D ^ 2)) by nra.
    destruct (Rle_or_lt (D ^ 2) (P * Q)); [assumption|]. exfalso. assert (0 < Q * (D ^ 2 - P * Q)) by (apply Rmult_lt_0_compat; lra). lra.
  - rewrite <- HQ' in *. destruct (Req_dec D 0) as [HD|HD]; [rewrite HD; lra|]. exfalso.
    pose proof (H 1 (- (P + 1) / (2 * D))) as H1.
    replace (1 ^ 2 * P + 2 * 1 * (- (P + 1) / (2 * D)) * D + (- (P + 1) / (2 * D)) ^ 2 * 0) with (-1) in H1 by (field; assumption). lra.
Qed.

Section limit.
Context {U Y : Type} (udef : U).
Variable transition_logpdf : list U -> list U -> R -> list R.
Variable twisting_logpdf : Y -> list U -> R -> list R.
Variable twisting_prop_sampler : key -> list U -> R -> Y -> prog (list U).
Variable twisting_prop_logpdf : list U -> list U -> R -> Y -> list R.
Variable resampling : list R -> key -> prog (list nat).
Variable init_sampler : key -> nat -> prog (list U).
Variable m0 : dist U.
Variable p : R -> U -> dist U.
Variable q : R -> Y -> U -> dist U.
Variables (lp : R -> U -> U -> R) (lq : R -> Y -> U -> U -> R).
Variable psi : Y -> R -> U -> R.
Hypothesis Hok : twisted_ok transition_logpdf twisting_logpdf twisting_prop_sampler twisting_prop_logpdf resampling init_sampler m0 p q lp lq psi.
Hypothesis Hcr : consistent_res resampling.
Variable n : nat.
Hypothesis Hn : (0 < n)%nat.

Notation scan_g := (tw_scan_g udef transition_logpdf twisting_logpdf twisting_prop_sampler twisting_prop_logpdf resampling n).
Notation smc_g := (twisted_smc_g udef transition_logpdf twisting_logpdf twisting_prop_sampler twisting_prop_logpdf resampling init_sampler n).
Notation smc := (twisted_smc udef transition_logpdf twisting_logpdf twisting_prop_sampler twisting_prop_logpdf resampling).
Notation target := (twisted_target m0 p psi).
Notation wsum := (wsum udef n).

Lemma tw_scan_has_laws y ts : forall i t' xs lws z, length xs = n -> length lws = n -> Rsum (map exp lws) = 1 ->
  has_laws (fun r => let '(xs', _, lws', _) := r in length xs' = n /\ length lws' = n /\ Rsum (map exp lws') = 1)
    (fun k => scan_g y k i ts (xs, map (psi y t') xs, lws, z)).
Proof.
  induction ts as [|t ts IH]; intros i t' xs lws z Hx Hl Hs; cbn [tw_scan_g]; [now apply has_laws_ret|].
  apply (has_laws_bind (fun c => let '(xs', lps', lws', _) := c in length xs' = n /\ lps' = map (psi y t) xs' /\ length lws' = n /\ Rsum (map exp lws') = 1) _
    (fun k => tw_body_g udef transition_logpdf twisting_logpdf twisting_prop_sampler twisting_prop_logpdf resampling n y (xs, map (psi y t') xs, lws, z) t k)
    (fun c k => scan_g y k (S i) ts c) (fun k => split_key k i) (fun k => k)).
  - unfold tw_body_g. assert (Hw : weights_ok (map exp lws)) by now apply weights_ok_exp.
    match goal with |- has_laws ?P (fun k => bind _ (fun A => @?q A k)) =>
      pose (q' := fun A k => bind (twisting_prop_sampler k (gather udef xs A) t y) (fun us =>
        let lw := zip4 (fun a b c d => a + b - c - d) (transition_logpdf us (gather udef xs A) t) (twisting_logpdf y us t)
                    (twisting_prop_logpdf us (gather udef xs A) t y) (gather 0 (map (psi y t') xs) A) in
        Ret (us, twisting_logpdf y us t, map (fun x => x - logsumexp lw) lw, z * (/ INR n * Rsum (map exp lw))))) end.
    apply (has_laws_bind (valid_indices n) _ (resampling (map exp lws)) q' (fun k => split_key k 0) (fun k => split_key k 1)).
    + replace n with (length (map exp lws)) by now rewrite map_length. now apply (cr_laws _ Hcr).
    + intros A [HA HAv]. unfold q'.
      assert (Hg : gather 0 (map (psi y t') xs) A = map (psi y t') (gather udef xs A)).
      { unfold gather. rewrite map_map. apply map_ext_in. intros j Hj. rewrite Forall_forall in HAv. specialize (HAv j Hj).
        rewrite (nth_indep _ 0 (psi y t' udef)) by (rewrite map_length; lia). apply map_nth. }
      rewrite Hg. set (ups := gather udef xs A). assert (Hgl : length ups = n) by (unfold ups, gather; now rewrite map_length).
      match goal with |- has_laws ?P (fun k => bind _ ?q) =>
        apply (has_laws_bind (fun us => length us = n) P (fun k => twisting_prop_sampler k ups t y) (fun us _ => q us) (fun k => k) (fun k => k)) end.
      * apply (has_laws_denotes _ _ (dseq (map (q t y) ups))).
        -- apply is_prob_dseq, Forall_map, Forall_forall. intros. apply (to_q _ _ _ _ _ _ _ _ _ _ _ _ Hok).
        -- intros k. apply (to_prop _ _ _ _ _ _ _ _ _ _ _ _ Hok).
        -- intros us Hin. apply dseq_length in Hin. now rewrite map_length, Hgl in Hin.
      * intros us Hus. apply has_laws_ret. split; [assumption|]. split; [apply (to_psi _ _ _ _ _ _ _ _ _ _ _ _ Hok)|].
        cbv zeta. rewrite (incr_weights _ _ _ _ _ _ m0 p q lp lq psi Hok) by congruence.
        set (lw' := map _ (combine us ups)). assert (Hl' : length lw' = n) by (unfold lw'; rewrite map_length, combine_length, Hus, Hgl; apply Nat.min_id).
        assert (Hne : lw' <> []) by (destruct lw'; [simpl in Hl'; lia|discriminate]).
        split; [now rewrite map_length|]. exact (normalise_log_sum lw' Hne).
  - intros [[[xs' lps'] lws'] z'] (H1 & -> & H3 & H4). now apply IH.
Qed.

Lemma twisted_has_laws y ts :
  has_laws (fun r => let '(xs, lws, _) := r in length xs = n /\ length lws = n /\ Rsum (map exp lws) = 1) (fun k => smc_g k y ts).
Proof.
  unfold twisted_smc_g.
  match goal with |- has_laws ?P (fun k => bind _ (fun us => @?q us k)) => pose (q' := fun us k =>
    bind (scan_g y k 0 (tl ts) (us, twisting_logpdf y us (nth 0 ts 0), map (fun x => x - logsumexp (twisting_logpdf y us (nth 0 ts 0))) (twisting_logpdf y us (nth 0 ts 0)),
            / INR n * Rsum (map exp (twisting_logpdf y us (nth 0 ts 0)))))
      (fun r => let '(samples, _, log_weights, z) := r in Ret (samples, log_weights, z)));
    apply (has_laws_bind (fun us => length us = n) P (fun k => init_sampler k n) q' (fun k => split_key k 0) (fun k => split_key k 1)) end.
  - apply (has_laws_denotes _ _ (dseq (repeat m0 n))).
    + apply is_prob_dseq, Forall_forall. intros d Hd. apply repeat_spec in Hd. subst. apply (to_m0 _ _ _ _ _ _ _ _ _ _ _ _ Hok).
    + intros k. apply (to_init _ _ _ _ _ _ _ _ _ _ _ _ Hok).
    + intros us Hin. apply dseq_length in Hin. now rewrite repeat_length in Hin.
  - intros us Hus. unfold q'. rewrite (to_psi _ _ _ _ _ _ _ _ _ _ _ _ Hok). set (lw := map (psi y (nth 0 ts 0)) us).
    assert (Hl : length lw = n) by (unfold lw; now rewrite map_length). assert (Hne : lw <> []) by (destruct lw; [simpl in Hl; lia|discriminate]).
    match goal with |- has_laws ?P (fun k => bind _ ?q) =>
      apply (has_laws_bind (fun r => let '(xs', _, lws', _) := r in length xs' = n /\ length lws' = n /\ Rsum (map exp lws') = 1) P
        (fun k => scan_g y k 0 (tl ts) (us, lw, map (fun x => x - logsumexp lw) lw, / INR n * Rsum (map exp lw))) (fun r _ => q r) (fun k => k) (fun k => k)) end.
    + apply tw_scan_has_laws; [assumption|now rewrite map_length|exact (normalise_log_sum _ Hne)].
    + intros [[[xs' lps'] lws'] z'] H. now apply has_laws_ret.
Qed.

Lemma wsum_one xs lws : length lws = n -> Rsum (map exp lws) = 1 -> wsum (fun _ => 1) xs lws = 1.
Proof.
  intros Hl Hs. rewrite (Rsum_gather exp 0 lws), Hl in Hs. unfold Twisted.wsum.
  rewrite (Rsum_map_ext _ (fun j => exp (nth j lws 0))) by (intros; ring). exact Hs.
Qed.

Lemma wsum_bound phi B xs lws : length lws = n -> Rsum (map exp lws) = 1 -> (forall u, Rabs (phi u) <= B) -> Rabs (wsum phi xs lws) <= B.
Proof.
  intros Hl Hs Hp. replace (wsum phi xs lws) with (E (dcat (map exp lws)) (fun i => phi (nth i xs udef))).
  - apply E_bound; [apply is_prob_dcat; now apply weights_ok_exp|]. auto.
  - rewrite E_dcat, map_length, Hl. unfold Twisted.wsum. apply Rsum_map_ext. intros j Hj. apply in_seq in Hj. now rewrite nth_exp by lia.
Qed.

(** choosing by the final weights *)
Lemma sampler_law y ts k phi :
  law (twisted_sampler udef transition_logpdf twisting_logpdf twisting_prop_sampler twisting_prop_logpdf resampling init_sampler n y ts k) phi =
  law (smc_g (split_key k 0) y ts) (fun r => let '(xs, lws, _) := r in wsum phi xs lws).
Proof.
  unfold twisted_sampler. rewrite law_bind.
  rewrite <- (twisted_smc_g_erase udef transition_logpdf twisting_logpdf twisting_prop_sampler twisting_prop_logpdf resampling init_sampler n).
  destruct (twisted_has_laws y ts) as (d & Hp & Hd & Hs). specialize (Hd (split_key k 0)). cbv beta in Hd. rewrite !Hd.
  apply E_ext. intros [[xs lws] z] Hin. destruct (Hs _ Hin) as (H1 & H2 & H3). cbn [fst].
  rewrite law_bind, (choice_denotes _ _ (weights_ok_exp _ H3) _). cbn [law]. rewrite E_dcat, map_length, H2.
  unfold Twisted.wsum. apply Rsum_map_ext. intros j Hj. apply in_seq in Hj. now rewrite nth_exp by lia.
Qed.

Hypothesis Hpp : forall t u, is_prob (p t u).
Lemma chain_prob ts : forall u, is_prob (chain p ts u).
Proof. induction ts as [|t ts IH]; intros u; cbn [chain]; [apply is_prob_dret|]. apply is_prob_dbind; [apply Hpp|]. auto. Qed.
Lemma target_pos y ts : 0 < target y ts (fun _ => 1).
Proof. unfold twisted_target. apply E_pos; [apply (to_m0 _ _ _ _ _ _ _ _ _ _ _ _ Hok)|]. intros u. apply E_pos; [apply chain_prob|]. intros u'. rewrite Rmult_1_r. apply exp_pos. Qed.

Variables (G B : R).
Hypothesis HG : 0 <= G.
Variable phi : U -> R.
Hypothesis Hphi : forall u, Rabs (phi u) <= B.

(** mean-square error of the normalised weighted average *)
Theorem twisted_consistent k y t ts : incr_bounded q lp lq psi G y t ts -> (forall u, In u (map snd m0) -> exp (psi y t u) <= G) ->
  let Z := target y (t :: ts) (fun _ => 1) in
  law (smc k y (t :: ts) init_sampler n) (fun r => (wsum phi (fst r) (snd r) - target y (t :: ts) phi / Z) ^ 2) <=
  / INR n * (4 * (2 * INR (length ts) + 1) * G ^ (2 * S (length ts)) * B ^ 2 / Z ^ 2).
Proof.
  intros Hb Hi Z. assert (HZ : 0 < Z) by apply target_pos. set (c := target y (t :: ts) phi).
  rewrite <- (twisted_smc_g_erase udef transition_logpdf twisting_logpdf twisting_prop_sampler twisting_prop_logpdf resampling init_sampler n k y (t :: ts)
     (fun r => (wsum phi (fst r) (snd r) - c / Z) ^ 2)).
  pose proof (twisted_smc_mse udef _ _ _ _ _ _ m0 p q lp lq psi Hok Hcr n Hn G B phi Hphi k y t ts Hb Hi) as H1.
  pose proof (twisted_smc_mse udef _ _ _ _ _ _ m0 p q lp lq psi Hok Hcr n Hn G 1 (fun _ => 1) ltac:(intros; cbv beta; rewrite Rabs_R1; lra) k y t ts Hb Hi) as H2.
  fold c in H1. fold Z in H2. destruct (twisted_has_laws y (t :: ts)) as (d & Hp & Hd & Hs). specialize (Hd k). cbv beta in Hd. rewrite Hd in H1, H2. rewrite Hd.
  assert (HN : 0 < INR n) by (apply lt_0_INR; lia).
  apply Rle_trans with (E d (fun r => 2 / Z ^ 2 * (let '(xs, lws, z) := r in (z * wsum phi xs lws - c) ^ 2) +
              2 / Z ^ 2 * B ^ 2 * (let '(xs, lws, z) := r in (z * wsum (fun _ => 1) xs lws - Z) ^ 2))).
  - apply E_le; [apply Hp|]. intros [[xs lws] z] Hin. destruct (Hs _ Hin) as (L1 & L2 & L3). cbn [fst snd]. rewrite wsum_one, Rmult_1_r by assumption.
    pose proof (wsum_bound phi B xs lws L2 L3 Hphi) as Hm. set (m := wsum phi xs lws) in *.
    assert (He : m - c / Z = / Z * ((z * m - c) - m * (z - Z))) by (field; lra). rewrite He, Rpow_mult_distr.
    replace (2 / Z ^ 2 * (z * m - c) ^ 2 + 2 / Z ^ 2 * B ^ 2 * (z - Z) ^ 2) with ((/ Z) ^ 2 * (2 * ((z * m - c) ^ 2 + B ^ 2 * (z - Z) ^ 2))) by (field; lra).
    apply Rmult_le_compat_l; [apply pow2_ge_0|].
    assert ((m * (z - Z)) ^ 2 <= B ^ 2 * (z - Z) ^ 2).
    { rewrite Rpow_mult_distr. apply Rmult_le_compat_r; [apply pow2_ge_0|]. apply Rabs_le_between in Hm. nra. }
    pose proof (pow2_ge_0 (z * m - c + m * (z - Z))). nra.
  - rewrite E_plus, !E_mult_l.
    assert (Hq : 0 < 2 / Z ^ 2) by (apply Rmult_lt_0_compat; [lra|apply Rinv_0_lt_compat, pow_lt; assumption]).
    unfold tw_mse in H1, H2. set (K := (2 * INR (length ts) + 1) * G ^ (2 * S (length ts))) in *.
    apply (Rmult_le_compat_l (2 / Z ^ 2)) in H1; [|lra].
    apply (Rmult_le_compat_l (2 / Z ^ 2 * B ^ 2)) in H2; [|apply Rmult_le_pos; [lra|apply pow2_ge_0]].
    replace (/ INR n * (4 * (2 * INR (length ts) + 1) * G ^ (2 * S (length ts)) * B ^ 2 / Z ^ 2))
      with (2 / Z ^ 2 * (/ INR n * (K * B ^ 2)) + 2 / Z ^ 2 * B ^ 2 * (/ INR n * (K * 1 ^ 2))) by (unfold K; field; split; lra).
    lra.
Qed.

(** the bias of the reported sample is of order 1/n *)
Theorem sampler_consistent k y t ts : incr_bounded q lp lq psi G y t ts -> (forall u, In u (map snd m0) -> exp (psi y t u) <= G) ->
  let Z := target y (t :: ts) (fun _ => 1) in
  Rabs (law (twisted_sampler udef transition_logpdf twisting_logpdf twisting_prop_sampler twisting_prop_logpdf resampling init_sampler n y (t :: ts) k) phi -
        target y (t :: ts) phi / Z) <= / INR n * (2 * (2 * INR (length ts) + 1) * G ^ (2 * S (length ts)) * B / Z ^ 2).
Proof.
  intros Hb Hi Z. assert (HZ : 0 < Z) by apply target_pos. set (c := target y (t :: ts) phi).
  assert (HB : 0 <= B) by (specialize (Hphi udef); pose proof (Rabs_pos (phi udef)); lra).
  assert (HN : 0 < INR n) by (apply lt_0_INR; lia).
  rewrite sampler_law. pose proof (twisted_consistent (split_key k 0) y t ts Hb Hi) as H1. cbv zeta in H1. fold Z c in H1.
  rewrite <- (twisted_smc_g_erase udef transition_logpdf twisting_logpdf twisting_prop_sampler twisting_prop_logpdf resampling init_sampler n (split_key k 0) y (t :: ts)
     (fun r => (wsum phi (fst r) (snd r) - c / Z) ^ 2)) in H1.
  pose proof (twisted_smc_mse udef _ _ _ _ _ _ m0 p q lp lq psi Hok Hcr n Hn G 1 (fun _ => 1) ltac:(intros; cbv beta; rewrite Rabs_R1; lra) (split_key k 0) y t ts Hb Hi) as H2.
  fold Z in H2. pose proof (twisted_smc_unbiased udef _ _ _ _ _ _ m0 p q lp lq psi Hok n Hn (split_key k 0) y (t :: ts) phi ltac:(discriminate)) as H3. fold c in H3.
  pose proof (twisted_smc_unbiased udef _ _ _ _ _ _ m0 p q lp lq psi Hok n Hn (split_key k 0) y (t :: ts) (fun _ => 1) ltac:(discriminate)) as H4. fold Z in H4.
  destruct (twisted_has_laws y (t :: ts)) as (d & Hp & Hd & Hs). specialize (Hd (split_key k 0)). cbv beta in Hd. rewrite Hd in H1, H2, H3, H4. rewrite Hd.
  set (f := fun r : list U * list R * R => wsum phi (fst (fst r)) (snd (fst r)) - c / Z).
  set (g := fun r : list U * list R * R => Z - snd r).
  set (K := (2 * INR (length ts) + 1) * G ^ (2 * S (length ts))) in *.
  assert (HK : 0 <= K) by (unfold K; apply Rmult_le_pos; [pose proof (pos_INR (length ts)); lra|now apply pow_le]).
  assert (Hg : E d (fun r => g r ^ 2) <= / INR n * K).
  { unfold tw_mse in H2. fold K in H2. rewrite pow1, Rmult_1_r in H2. eapply Rle_trans; [right|exact H2]. apply E_ext. intros [[xs lws] z] Hin.
    destruct (Hs _ Hin) as (L1 & L2 & L3). rewrite wsum_one by assumption. unfold g. cbn [snd]. ring. }
  assert (Hf : E d (fun r => f r ^ 2) <= / INR n * (4 * K * B ^ 2 / Z ^ 2)).
  { eapply Rle_trans; [|eapply Rle_trans; [exact H1|]]; right; [reflexivity|]. unfold K. field. split; lra. }
  assert (Hfg : E d (fun r => let '(xs, lws, _) := r in wsum phi xs lws) - c / Z = / Z * E d (fun r => f r * g r)).
  { assert (Hz : E d snd = Z).
    { rewrite <- H4. apply E_ext. intros [[xs lws] z] Hin. destruct (Hs _ Hin) as (L1 & L2 & L3). rewrite wsum_one by assumption. cbn [snd]. ring. }
    rewrite (E_ext' d (fun r => f r * g r) (fun r => Z * (let '(xs, lws, _) := r in wsum phi xs lws) + ((-1) * (let '(xs, lws, z) := r in z * wsum phi xs lws) + (- c + c / Z * snd r)))).
    - rewrite !E_plus, !E_mult_l, H3, Hz, E_const by assumption. field. lra.
    - intros [[xs lws] z]. unfold f, g. cbn [fst snd]. field. lra. }
  rewrite Hfg.
  assert (Hsq : (/ Z * E d (fun r => f r * g r)) ^ 2 <= (/ INR n * (2 * K * B / Z ^ 2)) ^ 2).
  { rewrite Rpow_mult_distr. pose proof (E_cauchy_schwarz d f g Hp) as Hcs.
    apply Rle_trans with ((/ Z) ^ 2 * ((/ INR n * (4 * K * B ^ 2 / Z ^ 2)) * (/ INR n * K))).
    - apply Rmult_le_compat_l; [apply pow2_ge_0|]. eapply Rle_trans; [exact Hcs|]. apply Rmult_le_compat; try assumption; (apply E_nonneg; [apply Hp|]; intros; apply pow2_ge_0).
    - right. field. split; lra. }
  assert (H0 : 0 <= / INR n * (2 * K * B / Z ^ 2)).
  { apply Rmult_le_pos; [left; now apply Rinv_0_lt_compat|]. apply Rmult_le_pos; [apply Rmult_le_pos; lra|]. left. apply Rinv_0_lt_compat, pow_lt. assumption. }
  replace (2 * (2 * INR (length ts) + 1) * G ^ (2 * S (length ts)) * B / Z ^ 2) with (2 * K * B / Z ^ 2) by (unfold K; field; lra).
  rewrite <- (Rabs_pos_eq _ H0). apply Rsqr_le_abs_0. unfold Rsqr. nra.
Qed.
End limit.

(** ** One particle: the weights have no effect *)
Section single.
Context {U Y : Type} (udef : U).
Variable transition_logpdf : list U -> list U -> R -> list R.
Variable twisting_logpdf : Y -> list U -> R -> list R.
Variable twisting_prop_sampler : key -> list U -> R -> Y -> prog (list U).
Variable twisting_prop_logpdf : list U -> list U -> R -> Y -> list R.
Variable resampling : list R -> key -> prog (list nat).
Variable init_sampler : key -> nat -> prog (list U).
Variable m0 : dist U.
Variable p : R -> U -> dist U.
Variable q : R -> Y -> U -> dist U.
Variables (lp : R -> U -> U -> R) (lq : R -> Y -> U -> U -> R).
Variable psi : Y -> R -> U -> R.
Hypothesis Hok : twisted_ok transition_logpdf twisting_logpdf twisting_prop_sampler twisting_prop_logpdf resampling init_sampler m0 p q lp lq psi.

Lemma E_dseq_1 {A} (d : dist A) F : E (dseq [d]) F = E d (fun a => F [a]).
Proof. rewrite E_dseq_cons. apply E_ext'. intros a. cbn [dseq]. now rewrite E_dret. Qed.

Lemma single_scan y k k' phi ts : forall i t' u,
  law (tw_scan udef transition_logpdf twisting_logpdf twisting_prop_sampler twisting_prop_logpdf resampling y k i ts ([u], [psi y t' u], [0]))
    (fun r => let '(xs, _, lws) := r in law (choice k' (map exp lws)) (fun j => phi (nth j xs udef))) = E (chain (fun t => q t y) ts u) phi.
Proof.
  induction ts as [|t ts IH]; intros i t' u; cbn [tw_scan chain].
  - cbn [law]. rewrite (choice_denotes k' (map exp [0])) by (apply weights_ok_exp; cbn; rewrite exp_0; ring). rewrite E_dret, E_dcat. cbn [length seq map Rsum nth]. rewrite exp_0. ring.
  - rewrite law_bind. unfold tw_body. rewrite law_bind.
    assert (Hw : weights_ok (map exp [0])) by (apply weights_ok_exp; cbn; rewrite exp_0; ring).
    transitivity (law (resampling (map exp [0]) (split_key (split_key k i) 0)) (fun A => Rsum (map (fun _ => E (dbind (q t y u) (chain (fun t => q t y) ts)) phi) A))).
    + eapply law_ext_safe; [apply (gr_valid _ (to_res _ _ _ _ _ _ _ _ _ _ _ _ Hok)); exact Hw|]. intros A [HA HAv].
      destruct A as [|a [|? ?]]; try discriminate HA. apply Forall_inv in HAv. cbn [map length] in HAv.
      assert (a = 0)%nat by lia. subst a. cbn [gather map nth Rsum]. rewrite Rplus_0_r.
      rewrite law_bind, (to_prop _ _ _ _ _ _ _ _ _ _ _ _ Hok _ _ _ _ _). cbn [map]. rewrite E_dseq_1, E_dbind. apply E_ext'. intros u'.
      rewrite (to_trans _ _ _ _ _ _ _ _ _ _ _ _ Hok), (to_psi _ _ _ _ _ _ _ _ _ _ _ _ Hok), (to_proplp _ _ _ _ _ _ _ _ _ _ _ _ Hok).
      unfold zip4. cbn [map combine fst snd law]. unfold logsumexp at 1. cbn [map Rsum]. rewrite Rplus_0_r, ln_exp.
      match goal with |- context [?x - ?x] => replace (x - x) with 0 by ring end. apply IH.
    + rewrite (gr_unbiased _ (to_res _ _ _ _ _ _ _ _ _ _ _ _ Hok)) by assumption. rewrite E_dcat. cbn [map length seq Rsum nth INR]. rewrite exp_0. ring.
Qed.

Theorem single_particle y ts k phi :
  law (twisted_sampler udef transition_logpdf twisting_logpdf twisting_prop_sampler twisting_prop_logpdf resampling init_sampler 1 y ts k) phi =
  E m0 (fun u0 => E (chain (fun t => q t y) (tl ts) u0) phi).
Proof.
  unfold twisted_sampler, twisted_smc. rewrite law_bind, law_bind, (to_init _ _ _ _ _ _ _ _ _ _ _ _ Hok _ _ _). cbn [repeat].
  rewrite E_dseq_1. apply E_ext'. intros u. rewrite (to_psi _ _ _ _ _ _ _ _ _ _ _ _ Hok). cbn [map]. unfold logsumexp. cbn [map Rsum]. rewrite Rplus_0_r, ln_exp.
  replace (psi y (nth 0 ts 0) u - psi y (nth 0 ts 0) u) with 0 by ring. rewrite law_bind.
  rewrite <- (single_scan y (split_key (split_key k 0) 1) (split_key k 1) phi (tl ts) 0 (nth 0 ts 0) u).
  apply law_ext. intros [[xs lps] lws]. cbn [law]. rewrite law_bind. reflexivity.
Qed.
End single.
