(** The sample reported by the filter experiments (toy/gp_filter.py, sb/filter.py, gibbs.py:gibbs_init): the first particle
    of the last cloud of bootstrap_filter. *)
From Coquelicot Require Import Coquelicot.
From Verif Require Export FilterLimit PmcmcBias.
Open Scope R_scope.

(** experiments/toy/gp_filter.py:134-142 and experiments/sb/filter.py:148-161 [conditional_sampler].  [fwd_ys k] stands for
    [fwd_ys_sampler(key_fwd, y0)] (the path of the observation in forward time); [key_bwd = split_key k 1] is not used.
    The trailing [[0][0]] takes the particles of the returned pair and then the first particle. *)
Definition conditional_sampler {U V} (udef : U) (vdef : V) (transition_sampler : list U -> V -> R -> key -> prog (list U))
  (likelihood_logpdf : V -> list U -> V -> R -> list R) (resampling : list R -> key -> prog (list nat))
  (fwd_ys : key -> prog (list V)) (ts : list R) (ref_sampler : key -> V -> nat -> prog (list U)) (nparticles : nat) (k : key) : prog U :=
  path_y <- fwd_ys (split_key k 0) ;;
  let vs := rev path_y in
  r <- bootstrap_filter udef vdef transition_sampler likelihood_logpdf resampling vs ts ref_sampler (split_key k 2) nparticles true true ;;
  Ret (nth 0 (last (fst r) []) udef).

Lemma RInt_step c : 0 <= c <= 1 -> is_RInt (fun u => if Rlt_dec c u then 0 else 1) 0 1 c.
Proof.
  intros Hc. assert (H : is_RInt (fun u => if Rlt_dec c u then 0 else 1) 0 1 (c + 0)); [|now rewrite Rplus_0_r in H].
  apply (is_RInt_Chasles_R _ 0 c 1).
  - apply (is_RInt_ext (fun _ => 1)).
    + intros u Hu. rewrite Rmin_left, Rmax_right in Hu by lra. destruct (Rlt_dec c u); [lra|reflexivity].
    + pose proof (is_RInt_const_R 0 c 1) as H. now replace ((c - 0) * 1) with c in H by ring.
  - apply (is_RInt_ext (fun _ => 0)).
    + intros u Hu. rewrite Rmin_left, Rmax_right in Hu by lra. destruct (Rlt_dec c u); [reflexivity|lra].
    + pose proof (is_RInt_const_R c 1 0) as H. now rewrite Rmult_0_r in H.
Qed.

Lemma first_slot_two x y w h : weights_ok (x :: y :: w) -> (forall i, 0 <= h i) -> h 0%nat = 1 -> h 1%nat = 1 ->
  INR (S (S (length w))) * (x + y) <= 1 -> INR (S (S (length w))) * (x + y) <= first_slot (x :: y :: w) h.
Proof.
  intros Hw Hh H0 H1 Hc. set (n := INR (S (S (length w)))) in *. assert (Hn : 0 < n) by (apply lt_0_INR; lia).
  assert (Hx : 0 <= x) by (destruct Hw as [Hf _]; now inversion Hf).
  assert (Hy : 0 <= y) by (destruct Hw as [Hf _]; inversion Hf as [|? ? ? Hf']; now inversion Hf').
  assert (HF := is_RInt_inv_cdf _ h Hw).
  pose proof (is_RInt_stratum (inv_cdf_fun (x :: y :: w) h) (length (x :: y :: w)) 0 (ex_intro _ _ HF) ltac:(cbn [length]; lia)) as Hs. change (INR 0) with 0 in Hs.
  unfold first_slot. rewrite (is_RInt_unique _ _ _ _ Hs).
  eapply (is_RInt_le _ _ 0 1); [lra|apply (RInt_step (n * (x + y)))|exact Hs|].
  - split; [|exact Hc]. apply Rmult_le_pos; lra.
  - intros u Hu. cbv beta. destruct (Rlt_dec (n * (x + y)) u) as [Hl|Hl]; [apply Hh|].
    unfold inv_cdf_fun, cumsum. cbn [length cumsum_from searchsorted]. fold n.
    destruct (Rlt_dec (0 + x) ((0 + u) / n)) as [K|K].
    + destruct (Rlt_dec (0 + x + y) ((0 + u) / n)) as [K'|K'].
      * exfalso. apply (Rmult_lt_compat_l n) in K'; [|assumption]. replace (n * ((0 + u) / n)) with u in K' by (field; lra). lra.
      * change (clip_index (S (S (length w))) 1) with (Nat.min 1 (S (length w))). cbn. rewrite ?H1. lra.
    + cbn. lra.
Qed.

(** ** One step, states false/true with likelihoods 1 and 3 (PmcmcBias): the bias does not vanish *)
Definition total (us : list bool) : R := Rsum (map g3 us).
Lemma total_bounds us : INR (length us) <= total us <= 3 * INR (length us).
Proof.
  unfold total. induction us as [|u us IH]; [cbn; lra|]. cbn [map Rsum length]. rewrite S_INR. destruct u; cbn [g3]; lra.
Qed.
Lemma total_mean m : E (dseq (repeat half m)) total = 2 * INR m.
Proof.
  unfold total. rewrite E_dseq_Rsum by (apply Forall_forall; intros d Hd; apply repeat_spec in Hd; subst; exact half_prob).
  rewrite map_repeat', Rsum_repeat. unfold half, E. cbn [map Rsum fst snd g3]. lra.
Qed.

Definition is_false (b : bool) : R := 1 - b2r b.
Definition slot_value (us : list bool) : R := first_slot (map (fun u => g3 u / total us) us) (fun i => is_false (nth i us false)).

Lemma step_value res k us : (forall w k h, w <> [] -> law (res w k) (fun A => h (nth 0 A 0%nat)) = first_slot w h) ->
  (forall w k, weights_ok w -> safe (res w k) (valid_indices (length w))) -> us <> [] ->
  law (bf_scan false id_trans b_lik res (length us) k 0 (filter_inputs [tt; tt] [0; 1]) (us, 0))
      (fun r => is_false (nth 0 (fst (fst r)) false)) = slot_value us.
Proof.
  intros Hf Hv Hne. cbn [filter_inputs bf_scan]. rewrite law_bind. unfold bf_body. rewrite law_bind. cbn [id_trans law]. rewrite law_bind.
  set (ll := b_lik tt us tt 0). assert (Hll : ll <> []) by (unfold ll, b_lik; destruct us; [easy|discriminate]).
  assert (Hlen : length (normalise ll) = length us) by (unfold normalise, normalise_log, ll, b_lik; now rewrite !map_length).
  assert (Hok : weights_ok (normalise ll)) by now apply normalise_ok.
  change (map exp (map (fun x => x - logsumexp ll) ll)) with (normalise ll).
  transitivity (law (res (normalise ll) (split_key (split_key k 0) 1)) (fun A => (fun i => is_false (nth i us false)) (nth 0 A 0%nat))).
  - eapply law_ext_safe; [now apply Hv|]. intros A [HA _]. cbn [law bind fst snd]. rewrite Hlen in HA.
    unfold gather. destruct A as [|i A]; [destruct us; [easy|discriminate]|]. reflexivity.
  - rewrite (Hf _ _ (fun i => is_false (nth i us false))) by (now apply weights_ok_nonempty).
    unfold slot_value. f_equal. rewrite normalise_eq by assumption. unfold ll, b_lik. rewrite !map_map.
    rewrite (map_ext (fun x => exp (b_lg tt tt 0 x)) g3) by (intros; apply b_exp). apply map_ext. intros u. now rewrite b_exp.
Qed.

Lemma weights_total us : us <> [] -> weights_ok (map (fun u => g3 u / total us) us).
Proof.
  intros Hne. assert (Hp : 0 < total us).
  { pose proof (total_bounds us). assert (0 < INR (length us)) by (apply lt_0_INR; destruct us; [easy|cbn; lia]). lra. }
  split.
  - apply Forall_map, Forall_forall. intros u _. apply Rmult_le_pos; [destruct u; cbn; lra|left; now apply Rinv_0_lt_compat].
  - unfold Rdiv. rewrite (map_ext _ (fun u => / total us * g3 u)) by (intros; ring). rewrite Rsum_map_mult_l. apply Rinv_l. fold (total us). lra.
Qed.

Section values.
Variable l : list bool.
Let n : R := INR (S (S (length l))).
Lemma n_ge2 : 2 <= INR (S (S (length l))).
Proof. rewrite !S_INR. pose proof (pos_INR (length l)). lra. Qed.

Lemma slot_value_true b : slot_value (true :: b :: l) = 0.
Proof.
  unfold slot_value. cbn [map]. rewrite first_slot_heavy.
  - cbn. unfold is_false, b2r. lra.
  - cbn [length]. rewrite map_length. pose proof (total_bounds (true :: b :: l)) as [H1 H2]. cbn [length] in *.
    pose proof n_ge2. cbn [g3]. apply (Rmult_le_reg_r (total (true :: b :: l))); [lra|]. field_simplify; lra.
Qed.

Lemma slot_value_ft : 1 - (4 + total l) / (4 * n) <= slot_value (false :: true :: l).
Proof.
  pose proof (total_bounds (false :: true :: l)) as [H1 H2]. cbn [length] in *. pose proof n_ge2. unfold n in *.
  set (T := total (false :: true :: l)) in *. assert (HT : T = 4 + total l) by (unfold T, total; cbn [map Rsum g3]; ring).
  unfold slot_value. cbn [map]. fold T. rewrite first_slot_light.
  - rewrite map_length. cbn [nth g3 is_false b2r]. unfold is_false, b2r. set (N := INR (S (S (length l)))) in *. rewrite <- HT.
    replace (N * (1 / T) * (1 - 0) + (1 - N * (1 / T)) * (1 - 1)) with (N / T) by (field; lra).
    assert (Hq : 0 <= (T - 2 * N) ^ 2 / (4 * N * T)).
    { apply Rmult_le_pos; [apply pow2_ge_0|left; apply Rinv_0_lt_compat; nra]. }
    replace ((T - 2 * N) ^ 2 / (4 * N * T)) with (N / T - (1 - T / (4 * N))) in Hq by (field; lra). lra.
  - cbn [g3]. apply Rmult_le_pos; [lra|left; apply Rinv_0_lt_compat; lra].
  - rewrite map_length. cbn [g3]. apply (Rmult_le_reg_r T); [lra|]. field_simplify; lra.
  - rewrite map_length. cbn [g3]. apply (Rmult_le_reg_r T); [lra|]. field_simplify; lra.
Qed.

Lemma slot_value_ff : 1 - ((2 + total l) / n - 1) / 6 <= slot_value (false :: false :: l).
Proof.
  pose proof (total_bounds (false :: false :: l)) as [H1 H2]. cbn [length] in *. pose proof n_ge2. unfold n in *.
  pose proof (weights_total (false :: false :: l) ltac:(discriminate)) as Hw.
  set (T := total (false :: false :: l)) in *. assert (HT : T = 2 + total l) by (unfold T, total; cbn [map Rsum g3]; ring).
  unfold slot_value. cbn [map] in *. fold T. rewrite <- HT. set (N := INR (S (S (length l)))) in *.
  assert (HiT : 0 < / T) by (apply Rinv_0_lt_compat; lra). assert (HiN : 0 < / N) by (apply Rinv_0_lt_compat; lra).
  destruct (Rle_lt_dec T (2 * N)) as [Hc|Hc].
  - rewrite first_slot_light.
    + cbn [nth]. unfold is_false, b2r. assert (1 <= T / N) by (apply (Rmult_le_reg_r N); [lra|]; field_simplify; lra). lra.
    + cbn [g3]. unfold Rdiv. lra.
    + rewrite map_length. cbn [g3]. fold N. apply (Rmult_le_reg_r T); [lra|]. field_simplify; lra.
    + rewrite map_length. cbn [g3]. fold N. apply (Rmult_le_reg_r T); [lra|]. field_simplify; lra.
  - eapply Rle_trans; [|apply first_slot_two].
    + rewrite map_length. fold N. cbn [g3]. replace (N * (1 / T + 1 / T)) with (2 * (N / T)) by (field; lra).
      assert (Hq : 0 <= (3 * N - T) * (4 * N - T) / (6 * N * T)).
      { apply Rmult_le_pos; [nra|left; apply Rinv_0_lt_compat; nra]. }
      replace ((3 * N - T) * (4 * N - T) / (6 * N * T)) with (2 * (N / T) - (1 - (T / N - 1) / 6)) in Hq by (field; lra). lra.
    + exact Hw.
    + intros i. unfold is_false. destruct (nth i _ false); cbn; lra.
    + cbn. unfold is_false, b2r. lra.
    + cbn. unfold is_false, b2r. lra.
    + rewrite map_length. fold N. cbn [g3]. apply (Rmult_le_reg_r T); [lra|]. field_simplify; lra.
Qed.
End values.

Lemma E_nil {A} (f : A -> R) : E [] f = 0.
Proof. reflexivity. Qed.

Lemma slot_value_mean m : 1 / 3 <= E (dseq (repeat half (S (S m)))) slot_value.
Proof.
  cbn [repeat]. rewrite E_dseq_cons. set (F a := E (dseq (half :: repeat half m)) (fun l => slot_value (a :: l))).
  change (1/3 <= E half F). unfold half at 1. rewrite !E_cons, E_nil. unfold F. rewrite !E_dseq_cons.
  set (D := dseq (repeat half m)). assert (HD : is_prob D).
  { apply is_prob_dseq, Forall_forall. intros d Hd. apply repeat_spec in Hd. subst. exact half_prob. }
  unfold half. rewrite !E_cons, !E_nil.
  rewrite (E_ext D (fun l => slot_value (true :: false :: l)) (fun _ => 0)) by (intros; apply slot_value_true).
  rewrite (E_ext D (fun l => slot_value (true :: true :: l)) (fun _ => 0)) by (intros; apply slot_value_true). rewrite E_zero.
  set (N := INR (S (S m))). assert (HN : N = INR m + 2) by (unfold N; rewrite !S_INR; lra). pose proof (pos_INR m) as Hm.
  assert (H1 : 1 / 2 <= E D (fun l => slot_value (false :: true :: l))).
  { apply Rle_trans with (E D (fun l => (1 - 4 / (4 * N)) + - / (4 * N) * total l)).
    - rewrite E_plus, E_mult_l, (E_const _ _ HD). unfold D. rewrite total_mean. right. rewrite HN. field. lra.
    - apply E_le; [apply HD|]. intros l Hl. apply dseq_length in Hl. rewrite repeat_length in Hl.
      eapply Rle_trans; [|apply slot_value_ft]. rewrite Hl. fold N. right. field. lra. }
  assert (H2 : 5 / 6 <= E D (fun l => slot_value (false :: false :: l))).
  { apply Rle_trans with (E D (fun l => (1 - (2 / N - 1) / 6) + - / (6 * N) * total l)).
    - rewrite E_plus, E_mult_l, (E_const _ _ HD). unfold D. rewrite total_mean.
      replace (1 - (2 / N - 1) / 6 + - / (6 * N) * (2 * INR m)) with (5 / 6 + / (3 * N)) by (rewrite HN; field; lra).
      assert (0 < / (3 * N)) by (apply Rinv_0_lt_compat; lra). lra.
    - apply E_le; [apply HD|]. intros l Hl. apply dseq_length in Hl. rewrite repeat_length in Hl.
      eapply Rle_trans; [|apply slot_value_ff]. rewrite Hl. fold N. right. field. lra. }
  lra.
Qed.

Theorem reported_biased res n k : (res = stratified \/ res = systematic) -> (2 <= n)%nat ->
  1 / 3 <= law (conditional_sampler false tt id_trans b_lik res (fun _ => Ret [tt; tt]) [0; 1] b_init n k) is_false.
Proof.
  intros Hres Hn. destruct n as [|[|m]]; [lia|lia|]. eapply Rle_trans; [apply (slot_value_mean m)|]. right.
  unfold conditional_sampler. cbn [bind rev app]. rewrite law_bind. unfold bootstrap_filter. rewrite law_bind. unfold b_init.
  rewrite (b_draws_denotes _ (S (S m)) _ _). apply E_ext. intros us Hus. apply dseq_length in Hus. rewrite repeat_length in Hus.
  rewrite law_bind, <- Hus. rewrite <- (step_value res (split_key (split_key k 2) 1) us).
  - apply law_ext. intros [[c nell] out]. reflexivity.
  - intros w k' h Hw. destruct Hres as [ ->| ->]; [now apply stratified_first|now apply systematic_first].
  - intros w k' Hw tr A Hr. pose proof (weights_ok_nonempty w Hw) as Hne.
    destruct Hres as [ ->| ->]; [exact (proj1 (stratified_safe w k' Hne tr A Hr))|exact (proj1 (systematic_safe w k' Hne tr A Hr))].
  - destruct us; [discriminate|discriminate].
Qed.

Lemma biased_mean : filter_mean false tt (fun _ _ u => dret u) b_lg (fun _ => half) [tt; tt] [0; 1] is_false = 1 / 4.
Proof.
  unfold filter_mean. rewrite (filter_target_final false tt (fun _ _ u => dret u) b_lg (fun _ => half) [tt; tt] [0; 1] (fun _ => 1)), filter_target_final.
  cbn [step_data]. unfold half. rewrite !E_cons, !E_nil.
  rewrite !fk_final_cons, !b_exp, !E_dret. unfold fk_final. cbn [fk_of map fk_path]. rewrite !E_dret. cbn [last]. unfold is_false, b2r. lra.
Qed.

(** ** Resampling that ignores the numbering of the particles (killing): the first particle is asymptotically fair *)
Section fair.
Context {U V : Type} (udef : U) (vdef : V).
Variable transition_sampler : list U -> V -> R -> key -> prog (list U).
Variable measurement_cond_pdf : V -> list U -> V -> R -> list R.
Variable resampling : list R -> key -> prog (list nat).
Variable M : V -> R -> U -> dist U.
Variable lg : V -> V -> R -> U -> R.
Hypothesis Hfo : filter_ok transition_sampler measurement_cond_pdf resampling M lg.
Hypothesis Hcr : consistent_res resampling.
Variable r : list R -> dist (list nat).
Hypothesis Hr : forall w k, weights_ok w -> denotes (resampling w k) (r w).
Hypothesis Hv : forall w A, weights_ok w -> In A (map snd (r w)) -> valid_indices (length w) A.
Hypothesis He : equivariant r.
Variable m0 : V -> dist U.
Hypothesis Hm0 : forall v, is_prob (m0 v).
Variable init_sampler : key -> V -> nat -> prog (list U).
Hypothesis Hinit : forall k v n, denotes (init_sampler k v n) (dseq (repeat (m0 v) n)).
Variable n : nat.
Hypothesis Hn : (0 < n)%nat.
Notation bf := (bf_scan udef transition_sampler measurement_cond_pdf resampling n).
Notation bfilter := (bootstrap_filter udef vdef transition_sampler measurement_cond_pdf resampling).

Lemma bf_scan_aswap j k sd : (S j < n)%nat -> forall i us nell F, length us = n ->
  law (bf k i sd (aswap j us, nell)) (fun x => F (fst x)) = law (bf k i sd (us, nell)) (fun x => F (aswap j (fst (fst x)), snd (fst x))).
Proof.
  intros Hj. induction sd as [|[[v vp] t] sd IH]; intros i us nell F Hl; [reflexivity|].
  cbn [bf_scan]. rewrite !law_bind. unfold bf_body. rewrite !law_bind, !(fo_lik _ _ _ _ _ Hfo).
  destruct (weights_lik_ok lg n Hn v vp t us Hl) as [Hw Hwl].
  assert (Hl' : length (aswap j us) = n) by now rewrite aswap_length.
  destruct (weights_lik_ok lg n Hn v vp t _ Hl') as [Hw' Hwl'].
  change (map exp (map (fun x => x - logsumexp (map (lg v vp t) us)) (map (lg v vp t) us))) with (normalise (map (lg v vp t) us)).
  change (map exp (map (fun x => x - logsumexp (map (lg v vp t) (aswap j us))) (map (lg v vp t) (aswap j us))))
    with (normalise (map (lg v vp t) (aswap j us))).
  rewrite !(fo_trans _ _ _ _ _ Hfo _ _ _ _ _), aswap_map, E_dseq_aswap. apply E_ext. intros us' Hin.
  apply dseq_length in Hin. rewrite map_length in Hin. cbv beta. rewrite !law_bind.
  rewrite (Hr _ _ Hw _), (Hr _ _ Hw' _).
  replace (logsumexp (map (lg v vp t) (aswap j us))) with (logsumexp (map (lg v vp t) us)).
  2:{ unfold logsumexp. rewrite !aswap_map. now rewrite Rsum_aswap. }
  rewrite aswap_map, normalise_aswap, He by (try assumption; lia).
  apply E_ext. intros A HA. apply Hv in HA; [|assumption]. destruct HA as [HA _]. rewrite Hwl in HA.
  rewrite gather_aswap by lia. cbn [law]. rewrite !law_bind.
  rewrite (law_ext _ _ (fun x => F (fst x))) by (intros [cT out]; reflexivity).
  rewrite IH by (unfold gather; rewrite map_length; lia).
  apply law_ext. intros [cT out]. reflexivity.
Qed.

Lemma bfilter_last vs ts k lf rl (F : list U * R -> R) :
  law (bfilter vs ts init_sampler k n lf rl) (fun x => F (last (fst x) [], snd x)) =
  E (dseq (repeat (m0 (nth 0 vs vdef)) n)) (fun us => law (bf (split_key k 1) 0 (filter_inputs vs ts) (us, 0)) (fun x => F (fst x))).
Proof.
  unfold bootstrap_filter. rewrite law_bind, (Hinit _ _ _ _). apply E_ext'. intros us. rewrite law_bind.
  eapply law_ext_safe; [apply bf_scan_last|]. intros [[l nell] out] Hlast. cbn [law fst snd] in *. destruct rl; [reflexivity|].
  cbn [fst snd]. now rewrite Hlast.
Qed.

Theorem slot_fair vs ts k lf rl which phi : (which < n)%nat ->
  law (bfilter vs ts init_sampler k n lf rl) (fun x => exp (- snd x) * phi (nth which (last (fst x) []) udef)) =
  E (filter_target vdef M lg m0 vs ts) (fun p => phi (last p udef)).
Proof.
  pose (L := fun F : list U * R -> R => law (bfilter vs ts init_sampler k n lf rl) (fun x => F (last (fst x) [], snd x))).
  destruct (bootstrap_has_laws udef vdef _ _ _ M lg Hfo Hcr m0 Hm0 init_sampler Hinit n Hn vs ts lf rl) as (d & _ & Hd & Hs).
  specialize (Hd k). cbv beta in Hd.
  pose (f := fun j (c : list U * R) => exp (- snd c) * phi (nth j (fst c) udef)).
  assert (Hsym : forall j, (S j < n)%nat -> L (f (S j)) = L (f j)).
  { intros j Hj. unfold L. rewrite !bfilter_last. rewrite <- (aswap_repeat (m0 (nth 0 vs vdef)) j n) at 2. rewrite E_dseq_aswap.
    apply E_ext. intros us Hin. apply (init_length m0) in Hin. rewrite bf_scan_aswap by assumption.
    destruct (bf_scan_has_laws udef _ _ _ M lg Hfo Hcr n Hn (filter_inputs vs ts) 0 us 0 Hin) as (d' & _ & Hd' & Hs').
    rewrite !(Hd' (split_key k 1)). apply E_ext. intros c Hc. specialize (Hs' c Hc). destruct Hs' as [Hs' _]. unfold f. cbn [fst snd]. do 2 f_equal.
    rewrite nth_aswap by lia. unfold sigma. now rewrite Nat.eqb_refl. }
  assert (H0 : forall j, (j < n)%nat -> L (f j) = L (f 0%nat)).
  { induction j as [|j IH]; intros Hj; [reflexivity|]. rewrite Hsym by assumption. apply IH. lia. }
  intros Hw. change (L (f which) = E (filter_target vdef M lg m0 vs ts) (fun p => phi (last p udef))).
  rewrite <- (bootstrap_filter_unbiased udef vdef _ _ _ M lg Hfo m0 Hm0 init_sampler Hinit vs ts k n lf rl phi Hn).
  assert (HN : 0 < INR n) by (apply lt_0_INR; lia). rewrite Hd.
  rewrite (E_ext d _ (fun x => / INR n * Rsum (map (fun j => f j (last (fst x) [], snd x)) (seq 0 n)))).
  - rewrite E_mult_l, E_Rsum. rewrite (Rsum_map_ext _ (fun _ => L (f which))).
    + rewrite Rsum_map_const, seq_length. field. lra.
    + intros j Hj. apply in_seq in Hj. rewrite (H0 which Hw), <- (H0 j) by lia. unfold L. now rewrite Hd.
  - intros x Hx. specialize (Hs x Hx). cbv beta in Hs. unfold f. cbn [fst snd]. rewrite Rsum_map_mult_l.
    rewrite (Rsum_gather phi udef (last (fst x) [])), Hs. ring.
Qed.

Lemma E_sq_le {A} (d : dist A) f : is_prob d -> (E d f) ^ 2 <= E d (fun a => f a ^ 2).
Proof.
  intros Hd. pose proof (E_square d f 0 Hd) as H. pose proof (variance_nonneg d f Hd).
  rewrite (E_ext' d (fun a => f a ^ 2) (fun a => (0 + f a) ^ 2)) by (intros; ring). rewrite H. nra.
Qed.

Theorem slot_consistent G B phi vs ts k lf rl which : (which < n)%nat -> lik_bounded lg G (step_data vs ts) -> (forall u, Rabs (phi u) <= B) ->
  (law (bfilter vs ts init_sampler k n lf rl) (fun x => phi (nth which (last (fst x) []) udef)) - filter_mean udef vdef M lg m0 vs ts phi) ^ 2
  <= / INR n * ((2 * INR (length (step_data vs ts)) + 1) * G ^ (2 * length (step_data vs ts)) * B ^ 2 / E (filter_target vdef M lg m0 vs ts) (fun _ => 1) ^ 2).
Proof.
  intros Hw Hb HB.
  pose proof (target_mass_pos udef vdef _ _ _ M lg Hfo m0 Hm0 vs ts) as HZ. set (Z := E (filter_target vdef M lg m0 vs ts) (fun _ => 1)) in *.
  pose proof (slot_fair vs ts k lf rl which phi Hw) as Hf. unfold filter_mean. fold Z. rewrite <- Hf. clear Hf.
  pose proof (bootstrap_filter_mse udef vdef _ _ _ M lg Hfo Hcr n Hn G 1 (fun _ => 1) ltac:(intros; cbn beta; rewrite Rabs_R1; lra) m0 Hm0 init_sampler Hinit vs ts k lf rl Hb) as H2.
  cbv beta in H2. fold Z in H2.
  destruct (bootstrap_has_laws udef vdef _ _ _ M lg Hfo Hcr m0 Hm0 init_sampler Hinit n Hn vs ts lf rl) as (d & Hp & Hd & Hs).
  specialize (Hd k). cbv beta in Hd. rewrite Hd in H2. rewrite !Hd.
  assert (HN : 0 < INR n) by (apply lt_0_INR; lia).
  rewrite (E_ext d _ (fun x => (exp (- snd x) - Z) ^ 2)) in H2.
  2:{ intros x Hx. specialize (Hs x Hx). cbv beta in Hs. rewrite Rsum_map_const, Hs. f_equal. field. lra. }
  replace (E d (fun x => phi (nth which (last (fst x) []) udef)) - E d (fun x => exp (- snd x) * phi (nth which (last (fst x) []) udef)) / Z)
    with (E d (fun x => / Z * ((Z - exp (- snd x)) * phi (nth which (last (fst x) []) udef)))).
  2:{ rewrite E_mult_l. rewrite (E_ext' d (fun x => (Z - exp (- snd x)) * phi (nth which (last (fst x) []) udef))
        (fun x => Z * phi (nth which (last (fst x) []) udef) + (-1) * (exp (- snd x) * phi (nth which (last (fst x) []) udef)))) by (intros; ring).
      rewrite E_plus, !E_mult_l. field. lra. }
  eapply Rle_trans; [apply E_sq_le, Hp|].
  apply Rle_trans with (E d (fun x => (B ^ 2 / Z ^ 2) * (exp (- snd x) - Z) ^ 2)).
  - apply E_le; [apply Hp|]. intros x _. rewrite !Rpow_mult_distr.
    replace (B ^ 2 / Z ^ 2 * (exp (- snd x) - Z) ^ 2) with ((/ Z) ^ 2 * ((Z - exp (- snd x)) ^ 2 * B ^ 2)) by (field; lra).
    apply Rmult_le_compat_l; [apply pow2_ge_0|]. apply Rmult_le_compat_l; [apply pow2_ge_0|].
    rewrite <- (pow2_abs (phi _)). apply pow_incr. split; [apply Rabs_pos|apply HB].
  - rewrite E_mult_l. unfold mse_bound in H2.
    apply Rle_trans with (B ^ 2 / Z ^ 2 * (/ INR n * ((2 * INR (length (step_data vs ts)) + 1) * G ^ (2 * length (step_data vs ts)) * 1 ^ 2))).
    + apply Rmult_le_compat_l; [|exact H2]. apply Rmult_le_pos; [apply pow2_ge_0|left; apply Rinv_0_lt_compat, pow_lt; exact HZ].
    + right. field. split; lra.
Qed.

(** the experiment: the noised path of the observation is drawn as well *)
Theorem reported_consistent (fwd : key -> prog (list V)) (P : dist (list V)) ts k G B z phi : is_prob P -> (forall k, denotes (fwd k) P) -> 0 < z -> 0 <= G ->
  (forall ys, In ys (map snd P) -> lik_bounded lg G (step_data (rev ys) ts) /\ z <= E (filter_target vdef M lg m0 (rev ys) ts) (fun _ => 1) /\
                                   (length ys = length ts)%nat) -> (forall u, Rabs (phi u) <= B) ->
  (law (conditional_sampler udef vdef transition_sampler measurement_cond_pdf resampling fwd ts init_sampler n k) phi -
   E P (fun ys => filter_mean udef vdef M lg m0 (rev ys) ts phi)) ^ 2
  <= / INR n * ((2 * INR (length ts - 1) + 1) * G ^ (2 * (length ts - 1)) * B ^ 2 / z ^ 2).
Proof.
  intros HP Hfwd Hz HG Hys HB. unfold conditional_sampler. rewrite law_bind, (Hfwd _ _).
  set (a ys := law (bfilter (rev ys) ts init_sampler (split_key k 2) n true true) (fun x => phi (nth 0 (last (fst x) []) udef))).
  rewrite (E_ext' P _ a) by (intros ys; now rewrite law_bind).
  set (b ys := filter_mean udef vdef M lg m0 (rev ys) ts phi).
  replace (E P a - E P b) with (E P (fun ys => a ys + (-1) * b ys)) by (rewrite E_plus, E_mult_l; ring).
  eapply Rle_trans; [apply E_sq_le, HP|].
  set (C := / INR n * ((2 * INR (length ts - 1) + 1) * G ^ (2 * (length ts - 1)) * B ^ 2 / z ^ 2)).
  rewrite <- (E_const C P HP). apply E_le; [apply HP|]. intros ys Hin. destruct (Hys ys Hin) as (H1 & H2 & H3).
  replace (a ys + -1 * b ys) with (a ys - b ys) by ring. eapply Rle_trans; [apply (slot_consistent G B phi (rev ys) ts (split_key k 2) true true 0 Hn H1 HB)|].
  assert (Hlen : length (step_data (rev ys) ts) = (length ts - 1)%nat).
  { rewrite <- filter_inputs_step_data. rewrite <- H3, <- (rev_length ys). assert (Hl : length (rev ys) = length ts) by now rewrite rev_length.
    clear -Hl. revert ts Hl. induction (rev ys) as [|v [|v' l] IH]; intros [|t ts] Hl; try discriminate; [reflexivity|reflexivity|].
    cbn [filter_inputs length] in *. rewrite (IH ts) by congruence. cbn [length]. lia. }
  rewrite Hlen. unfold C. assert (HN : 0 < / INR n) by (apply Rinv_0_lt_compat, lt_0_INR; lia).
  apply Rmult_le_compat_l; [lra|]. unfold Rdiv. apply Rmult_le_compat_l.
  - apply Rmult_le_pos; [|apply pow2_ge_0]. apply Rmult_le_pos; [pose proof (pos_INR (length ts - 1)); lra|now apply pow_le].
  - apply Rinv_le_contravar; [now apply pow_lt|]. apply pow_incr. lra.
Qed.
End fair.
