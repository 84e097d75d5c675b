(** Consistency of the normalised particle approximations. *)
From Coquelicot Require Import Coquelicot.
From Verif Require Export FilterConsistent.
Open Scope R_scope.

Lemma E_pos {A} (d : dist A) f : is_prob d -> (forall a, 0 < f a) -> 0 < E d f.
Proof.
  intros [H1 H2] Hf. assert (H : 0 < E d f \/ E d (fun _ => 1) = 0); [|lra]. clear H2.
  induction H1 as [|[p a] d Hp H IH]; [right; reflexivity|]. rewrite !E_cons. cbn [fst] in Hp. pose proof Hf as Hf'. specialize (Hf a).
  assert (H0 : 0 <= E d f). { apply E_nonneg; [assumption|]. intros b _. left. apply Hf'. }
  destruct (Rle_lt_or_eq_dec _ _ Hp) as [Hp'|Hp'].
  - left. assert (0 < p * f a) by now apply Rmult_lt_0_compat. lra.
  - subst p. destruct IH as [IH|IH]; [left|right]; lra.
Qed.

Lemma has_laws_scal {A} P (p : key -> prog A) k c f : has_laws P p -> law (p k) (fun x => c * f x) = c * law (p k) f.
Proof. intros (d & _ & H & _). now rewrite !H, E_mult_l. Qed.

Section limit.
Context {U V : Type} (udef : U) (vdef : V).
Variable transition_sampler : list U -> V -> R -> key -> prog (list U).
Variable measurement_cond_pdf : V -> list U -> V -> R -> list R.
Variable resampling : list R -> key -> prog (list nat).
Variable M : V -> R -> U -> dist U.
Variable lg : V -> V -> R -> U -> R.
Hypothesis Hfo : filter_ok transition_sampler measurement_cond_pdf resampling M lg.
Hypothesis Hcr : consistent_res resampling.
Variable m0 : V -> dist U.
Hypothesis Hm0 : forall v, is_prob (m0 v).
Variable init_sampler : key -> V -> nat -> prog (list U).
Hypothesis Hinit : forall k v n, denotes (init_sampler k v n) (dseq (repeat (m0 v) n)).
Variable n : nat.
Hypothesis Hn : (0 < n)%nat.

Notation bf := (bf_scan udef transition_sampler measurement_cond_pdf resampling n).
Lemma bf_scan_has_laws sd : forall i us nell, length us = n ->
  has_laws (fun r => length (fst (fst r)) = n /\ last (us :: snd r) [] = fst (fst r)) (fun k => bf k i sd (us, nell)).
Proof.
  induction sd as [|[[v vp] t] sd IH]; intros i us nell Hl; cbn [bf_scan]; [now apply has_laws_ret|].
  apply (has_laws_bind (fun c => length (fst c) = n) _
    (fun k => bf_body udef transition_sampler measurement_cond_pdf resampling n (us, nell) (v, vp, t) k)
    (fun c' k => ' (cT, out) <- bf k (S i) sd c' ;; Ret (cT, fst c' :: out)) (fun k => split_key k i) (fun k => k)).
  - unfold bf_body. rewrite (fo_lik _ _ _ _ _ Hfo). destruct (weights_lik_ok lg n Hn v vp t us Hl) as [Hw Hwl].
    apply (has_laws_bind (fun us' => length us' = n) _ (transition_sampler us vp t)
      (fun us' k => inds <- resampling (normalise (map (lg v vp t) us)) k ;; Ret (gather udef us' inds, nell - (logsumexp (map (lg v vp t) us) - ln (INR n))))
      (fun k => split_key k 0) (fun k => split_key k 1)).
    + eapply has_laws_weaken; [|eapply trans_has_laws; eassumption]. intros us' H. cbn beta in H. congruence.
    + intros us' Hus'. apply (has_laws_bind (valid_indices n) _ (resampling (normalise (map (lg v vp t) us)))
        (fun A k => Ret (gather udef us' A, nell - (logsumexp (map (lg v vp t) us) - ln (INR n)))) (fun k => k) (fun k => k)).
      * rewrite <- Hwl. now apply (cr_laws _ Hcr).
      * intros A [HA _]. apply has_laws_ret. cbn [fst]. unfold gather. now rewrite map_length.
  - intros [us' nell'] Hus'. cbn [fst] in Hus'.
    apply (has_laws_bind (fun r => length (fst (fst r)) = n /\ last (us' :: snd r) [] = fst (fst r)) _ (fun k => bf k (S i) sd (us', nell'))
      (fun r k => let '(cT, out) := r in Ret (cT, us' :: out)) (fun k => k) (fun k => k)).
    + now apply IH.
    + intros [cT out] [H1 H2]. apply has_laws_ret. cbn [fst snd] in *. split; [assumption|]. exact H2.
Qed.

Lemma bootstrap_has_laws vs ts lf rl :
  has_laws (fun r => length (last (fst r) []) = n)
    (fun k => bootstrap_filter udef vdef transition_sampler measurement_cond_pdf resampling vs ts init_sampler k n lf rl).
Proof.
  unfold bootstrap_filter.
  apply (has_laws_bind (fun us => length us = n) _ (fun k => init_sampler k (nth 0 vs vdef) n)
    (fun us k => ' (last_samples, nell, filtering_samples) <- bf k 0 (filter_inputs vs ts) (us, 0) ;;
       Ret (if rl then [last_samples] else us :: filtering_samples, nell)) (fun k => split_key k 0) (fun k => split_key k 1)).
  - apply (has_laws_denotes _ _ (dseq (repeat (m0 (nth 0 vs vdef)) n))).
    + apply is_prob_dseq, Forall_forall. intros d Hd. apply repeat_spec in Hd. subst. apply Hm0.
    + intros k. apply Hinit.
    + intros us Hus. apply dseq_length in Hus. now rewrite repeat_length in Hus.
  - intros us Hus.
    apply (has_laws_bind (fun r => length (fst (fst r)) = n /\ last (us :: snd r) [] = fst (fst r)) _ (fun k => bf k 0 (filter_inputs vs ts) (us, 0))
      (fun r k => let '(last_samples, nell, filtering_samples) := r in Ret (if rl then [last_samples] else us :: filtering_samples, nell)) (fun k => k) (fun k => k)).
    + now apply bf_scan_has_laws.
    + intros [[l nell] out] [H1 H2]. apply has_laws_ret. cbn [fst snd] in *. destruct rl; [assumption|]. now rewrite H2.
Qed.

Lemma ratio_error a z m c Z Bd : 0 < Z -> 0 < z -> Rabs m <= Bd -> a = z * m ->
  (m - c / Z) ^ 2 <= 2 / Z ^ 2 * ((a - c) ^ 2 + Bd ^ 2 * (z - Z) ^ 2).
Proof.
  intros HZ Hz Hm ->. assert (Hzz : 0 < Z ^ 2) by (apply pow_lt; assumption).
  assert (He : m - c / Z = / Z * ((z * m - c) - m * (z - Z))) by (field; lra).
  rewrite He. replace ((/ Z * (z * m - c - m * (z - Z))) ^ 2) with (/ Z ^ 2 * (z * m - c - m * (z - Z)) ^ 2) by (field; lra).
  unfold Rdiv. rewrite (Rmult_comm 2), Rmult_assoc. apply Rmult_le_compat_l; [left; now apply Rinv_0_lt_compat|].
  assert ((m * (z - Z)) ^ 2 <= Bd ^ 2 * (z - Z) ^ 2).
  { rewrite Rpow_mult_distr. apply Rmult_le_compat_r; [apply pow2_ge_0|]. apply Rabs_le_between in Hm. nra. }
  pose proof (pow2_ge_0 (z * m - c + m * (z - Z))). nra.
Qed.

Lemma mean_bound (phi : U -> R) Bd l : length l = n -> (forall u, Rabs (phi u) <= Bd) -> Rabs (/ INR n * Rsum (map phi l)) <= Bd.
Proof.
  intros Hl Hp. assert (0 < INR n) by (apply lt_0_INR; lia).
  assert (Rabs (Rsum (map phi l)) <= INR n * Bd).
  { rewrite <- Hl. clear -Hp. induction l as [|u l IH]; [cbn; rewrite Rabs_R0; lra|]. cbn [map Rsum length]. rewrite S_INR.
    specialize (Hp u). pose proof (Rabs_triang (phi u) (Rsum (map phi l))). lra. }
  rewrite Rabs_mult, Rabs_pos_eq by (left; now apply Rinv_0_lt_compat).
  apply (Rmult_le_reg_l (INR n)); [assumption|]. rewrite <- Rmult_assoc, Rinv_r, Rmult_1_l by lra. assumption.
Qed.

(** the filtering expectation: final state of the smoothing measure, normalised *)
Definition filter_mean (vs : list V) (ts : list R) (phi : U -> R) : R :=
  E (filter_target vdef M lg m0 vs ts) (fun p => phi (last p udef)) / E (filter_target vdef M lg m0 vs ts) (fun _ => 1).

Lemma target_mass_pos vs ts : 0 < E (filter_target vdef M lg m0 vs ts) (fun _ => 1).
Proof.
  rewrite (filter_target_final udef vdef M lg m0 vs ts (fun _ => 1)). apply E_pos; [apply Hm0|].
  induction (step_data vs ts) as [|[[v vp] t] sd IH]; intros u.
  - unfold fk_final. cbn [fk_of map fk_path]. rewrite E_dret. lra.
  - rewrite fk_final_cons. apply Rmult_lt_0_compat; [apply exp_pos|]. apply E_pos; [apply Hfo|assumption].
Qed.

Theorem bootstrap_filter_consistent G Bd phi vs ts k lf rl : lik_bounded lg G (step_data vs ts) -> (forall u, Rabs (phi u) <= Bd) ->
  law (bootstrap_filter udef vdef transition_sampler measurement_cond_pdf resampling vs ts init_sampler k n lf rl)
    (fun r => (/ INR n * Rsum (map phi (last (fst r) [])) - filter_mean vs ts phi) ^ 2)
  <= / INR n * (4 * (2 * INR (length (step_data vs ts)) + 1) * G ^ (2 * length (step_data vs ts)) * Bd ^ 2 / E (filter_target vdef M lg m0 vs ts) (fun _ => 1) ^ 2).
Proof.
  intros Hb Hp. pose proof (target_mass_pos vs ts) as HZ. set (Z := E (filter_target vdef M lg m0 vs ts) (fun _ => 1)) in *.
  set (c := E (filter_target vdef M lg m0 vs ts) (fun p => phi (last p udef))).
  assert (HIn : 0 < INR n) by (apply lt_0_INR; lia).
  pose proof (bootstrap_has_laws vs ts lf rl) as HL.
  pose proof (bootstrap_filter_mse udef vdef _ _ _ M lg Hfo Hcr n Hn G Bd phi Hp m0 Hm0 init_sampler Hinit vs ts k lf rl Hb) as H1.
  pose proof (bootstrap_filter_mse udef vdef _ _ _ M lg Hfo Hcr n Hn G 1 (fun _ => 1) ltac:(intros; cbn beta; rewrite Rabs_R1; lra) m0 Hm0 init_sampler Hinit vs ts k lf rl Hb) as H2.
  fold c in H1. cbv beta in H2. fold Z in H2.
  apply Rle_trans with (law (bootstrap_filter udef vdef transition_sampler measurement_cond_pdf resampling vs ts init_sampler k n lf rl)
    (fun r => 2 / Z ^ 2 * (exp (- snd r) * (/ INR n * Rsum (map phi (last (fst r) []))) - c) ^ 2 +
              2 / Z ^ 2 * Bd ^ 2 * (exp (- snd r) * (/ INR n * Rsum (map (fun _ => 1) (last (fst r) []))) - Z) ^ 2)).
  - eapply (has_laws_le _ (fun k => bootstrap_filter udef vdef transition_sampler measurement_cond_pdf resampling vs ts init_sampler k n lf rl) k); [exact HL|].
    intros r Hr. cbn beta in Hr. unfold filter_mean. fold c Z.
    assert (Hone : / INR n * Rsum (map (fun _ => 1) (last (fst r) [])) = 1) by (rewrite Rsum_map_const, Hr; field; lra).
    rewrite Hone, Rmult_1_r.
    pose proof (ratio_error _ (exp (- snd r)) (/ INR n * Rsum (map phi (last (fst r) []))) c Z Bd HZ (exp_pos _) (mean_bound phi Bd _ Hr Hp) eq_refl) as H.
    rewrite Rmult_plus_distr_l, <- Rmult_assoc in H. rewrite Rmult_assoc in H. rewrite <- (Rmult_assoc (2 / Z ^ 2)) in H. exact H.
  - rewrite (has_laws_lin _ (fun k => bootstrap_filter udef vdef transition_sampler measurement_cond_pdf resampling vs ts init_sampler k n lf rl) k _ _
      (fun r => (exp (- snd r) * (/ INR n * Rsum (map phi (last (fst r) []))) - c) ^ 2) (fun r => (exp (- snd r) * (/ INR n * Rsum (map (fun _ => 1) (last (fst r) []))) - Z) ^ 2) HL).
    assert (Hq : 0 < 2 / Z ^ 2) by (apply Rmult_lt_0_compat; [lra|apply Rinv_0_lt_compat, pow_lt; assumption]).
    unfold mse_bound in H1, H2. set (K := (2 * INR (length (step_data vs ts)) + 1) * G ^ (2 * length (step_data vs ts))) in *.
    apply (Rmult_le_compat_l (2 / Z ^ 2)) in H1; [|lra].
    apply (Rmult_le_compat_l (2 / Z ^ 2 * Bd ^ 2)) in H2; [|apply Rmult_le_pos; [lra|apply pow2_ge_0]].
    replace (/ INR n * (4 * (2 * INR (length (step_data vs ts)) + 1) * G ^ (2 * length (step_data vs ts)) * Bd ^ 2 / Z ^ 2))
      with (2 / Z ^ 2 * (/ INR n * (K * Bd ^ 2)) + 2 / Z ^ 2 * Bd ^ 2 * (/ INR n * (K * 1 ^ 2))) by (unfold K; field; split; lra).
    lra.
Qed.

(** Chebyshev: the probability of an error larger than eps *)
Theorem bootstrap_filter_chebyshev G Bd phi vs ts k lf rl eps : lik_bounded lg G (step_data vs ts) -> (forall u, Rabs (phi u) <= Bd) ->
  0 < eps ->
  law (bootstrap_filter udef vdef transition_sampler measurement_cond_pdf resampling vs ts init_sampler k n lf rl)
    (fun r => if Rlt_dec eps (Rabs (/ INR n * Rsum (map phi (last (fst r) [])) - filter_mean vs ts phi)) then 1 else 0)
  <= / eps ^ 2 * (/ INR n * (4 * (2 * INR (length (step_data vs ts)) + 1) * G ^ (2 * length (step_data vs ts)) * Bd ^ 2 / E (filter_target vdef M lg m0 vs ts) (fun _ => 1) ^ 2)).
Proof.
  intros Hb Hp He. pose proof (bootstrap_has_laws vs ts lf rl) as HL.
  pose proof (bootstrap_filter_consistent G Bd phi vs ts k lf rl Hb Hp) as H. set (RHS := / INR n * _) in *.
  assert (Hi : 0 < / eps ^ 2) by (apply Rinv_0_lt_compat, pow_lt; assumption).
  apply Rle_trans with (/ eps ^ 2 * law (bootstrap_filter udef vdef transition_sampler measurement_cond_pdf resampling vs ts init_sampler k n lf rl)
    (fun r => (/ INR n * Rsum (map phi (last (fst r) [])) - filter_mean vs ts phi) ^ 2)); [|apply Rmult_le_compat_l; lra].
  rewrite <- (has_laws_scal _ (fun k => bootstrap_filter udef vdef transition_sampler measurement_cond_pdf resampling vs ts init_sampler k n lf rl) k (/ eps ^ 2) _ HL).
  eapply (has_laws_le _ (fun k => bootstrap_filter udef vdef transition_sampler measurement_cond_pdf resampling vs ts init_sampler k n lf rl) k); [exact HL|].
  intros r _. set (x := / INR n * Rsum (map phi (last (fst r) [])) - filter_mean vs ts phi).
  cbv beta. destruct (Rlt_dec eps (Rabs x)) as [Hlt|_]; [|apply Rmult_le_pos; [lra|apply pow2_ge_0]].
  rewrite <- (pow2_abs x). apply (Rmult_le_reg_l (eps ^ 2)); [now apply pow_lt|]. rewrite <- Rmult_assoc, Rinv_r, Rmult_1_l, Rmult_1_r by (apply pow_nonzero; lra).
  apply pow_incr. lra.
Qed.
End limit.
