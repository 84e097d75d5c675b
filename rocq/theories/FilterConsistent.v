(** Mean-square error of the particle filters (smc.py:bootstrap_filter, pmcmc_filter_step). *)
From Coquelicot Require Import Coquelicot.
From Coq Require Import Permutation.
From Verif Require Export ResVariance Pmcmc.
Open Scope R_scope.

(** A scheme whose error vanishes with the number of particles. *)
Record consistent_res (res : list R -> key -> prog (list nat)) : Prop := {
  cr_good : good_res res;
  cr_laws : forall w, weights_ok w -> has_laws (valid_indices (length w)) (res w);
  cr_var : small_var res }.

Lemma has_laws_le {A} P (p : key -> prog A) k f g : has_laws P p -> (forall a, P a -> f a <= g a) -> law (p k) f <= law (p k) g.
Proof. intros (d & H1 & H2 & H3) H. rewrite !H2. apply E_le; [apply H1|]. auto. Qed.
Lemma has_laws_const {A} P (p : key -> prog A) k c : has_laws P p -> law (p k) (fun _ => c) = c.
Proof. intros (d & H1 & H2 & H3). rewrite H2. now apply E_const. Qed.

Lemma resample_sq res w k h b a c : consistent_res res -> weights_ok w -> (forall i, (i < length w)%nat -> Rabs (h i) <= b) ->
  law (res w k) (fun A => (a * Rsum (map h A) - c) ^ 2) <=
  (a * (INR (length w) * E (dcat w) h) - c) ^ 2 + a ^ 2 * (INR (length w) * b ^ 2).
Proof.
  intros Hc Hw Hb. pose proof (cr_laws _ Hc w Hw) as Hl. set (mu := INR (length w) * E (dcat w) h).
  pose proof (cr_var _ Hc w k h b Hw Hb) as Hv. fold mu in Hv.
  assert (H1 : law (res w k) (fun A => Rsum (map h A) - mu) = 0).
  { rewrite (law_ext _ _ (fun A => 1 * Rsum (map h A) + (- mu) * (fun _ => 1) A)) by (intros; ring).
    rewrite (has_laws_lin _ _ _ _ _ _ _ Hl), (has_laws_const _ _ _ _ Hl).
    rewrite (gr_unbiased _ (cr_good _ Hc) w k h Hw). unfold mu. ring. }
  rewrite (law_ext _ _ (fun A => a ^ 2 * (Rsum (map h A) - mu) ^ 2 + 1 * (2 * a * (a * mu - c) * (Rsum (map h A) - mu) + (a * mu - c) ^ 2 * (fun _ => 1) A))) by (intros; ring).
  rewrite (has_laws_lin _ _ _ (a ^ 2) 1 (fun A => (Rsum (map h A) - mu) ^ 2) (fun A => 2 * a * (a * mu - c) * (Rsum (map h A) - mu) + (a * mu - c) ^ 2 * 1) Hl).
  rewrite (has_laws_lin _ _ _ (2 * a * (a * mu - c)) ((a * mu - c) ^ 2) (fun A => Rsum (map h A) - mu) (fun _ => 1) Hl).
  rewrite H1, (has_laws_const _ _ _ _ Hl). pose proof (pow2_ge_0 a). nra.
Qed.

Lemma dseq_sq {A B} (q : A -> dist B) (F : B -> R) (l : list A) b a c : (forall u, is_prob (q u)) -> (forall u, Rabs (F u) <= b) ->
  E (dseq (map q l)) (fun l' => (a * Rsum (map F l') - c) ^ 2) <=
  (a * Rsum (map (fun u => E (q u) F) l) - c) ^ 2 + a ^ 2 * (INR (length l) * b ^ 2).
Proof.
  intros Hq Hb. assert (Hp : Forall is_prob (map q l)) by (apply Forall_map, Forall_forall; auto).
  rewrite (E_ext _ _ (fun l' => a ^ 2 * (if Req_EM_T a 0 then 0 else (- (c / a) + zsum (repeat F (length (map q l))) l') ^ 2) + (if Req_EM_T a 0 then c ^ 2 else 0))).
  2:{ intros l' Hl. apply dseq_length in Hl. rewrite zsum_repeat by assumption. destruct (Req_EM_T a 0) as [ ->|Ha]; [ring|field; assumption]. }
  rewrite E_plus, E_mult_l, (E_const _ _ (is_prob_dseq _ Hp)). destruct (Req_EM_T a 0) as [ ->|Ha].
  - rewrite E_zero. right. ring.
  - rewrite E_dseq_square by (try assumption; apply repeat_length). rewrite zmean_repeat, map_map.
    assert (zvar (repeat F (length (map q l))) (map q l) <= INR (length (map q l)) * b ^ 2).
    { apply zvar_le; [assumption|apply repeat_length|]. intros f d x Hin Hx. apply in_combine_l, repeat_spec in Hin. subst. apply Hb. }
    rewrite map_length in H at 2. set (S := Rsum (map (fun u => E (q u) F) l)) in *. set (Z := zvar _ _) in *.
    assert (Hs : a ^ 2 * ((- (c / a) + S) ^ 2 + Z) + 0 = (a * S - c) ^ 2 + a ^ 2 * Z) by (field; assumption).
    rewrite Hs. pose proof (pow2_ge_0 a). nra.
Qed.

Section filters.
Context {U V : Type} (udef : U) (vdef : V).
Variable transition_sampler : list U -> V -> R -> key -> prog (list U).
Variable measurement_cond_pdf : V -> list U -> V -> R -> list R.
Variable resampling : list R -> key -> prog (list nat).
Variable M : V -> R -> U -> dist U.
Variable lg : V -> V -> R -> U -> R.
Hypothesis Hfo : filter_ok transition_sampler measurement_cond_pdf resampling M lg.
Hypothesis Hcr : consistent_res resampling.
Variable n : nat.
Hypothesis Hn : (0 < n)%nat.
Variables (G B : R).
Variable phi : U -> R.
Hypothesis Hphi : forall u, Rabs (phi u) <= B.

Let INRn : 0 < INR n.
Proof. apply lt_0_INR; lia. Qed.

Definition lik_bounded (sd : list (V * V * R)) : Prop :=
  Forall (fun x => forall u, exp (lg (fst (fst x)) (snd (fst x)) (snd x) u) <= G) sd.

Lemma G_nonneg x sd : lik_bounded (x :: sd) -> 0 <= G.
Proof. intros H. inversion H as [|? ? Hx ?]. specialize (Hx udef). pose proof (exp_pos (lg (fst (fst x)) (snd (fst x)) (snd x) udef)). lra. Qed.

Lemma B_nonneg : 0 <= B.
Proof. specialize (Hphi udef). pose proof (Rabs_pos (phi udef)). lra. Qed.

Lemma fk_final_bound sd : lik_bounded sd -> forall u, Rabs (fk_final M lg sd phi u) <= G ^ length sd * B.
Proof.
  induction sd as [|[[v vp] t] sd IH]; intros Hb u.
  - unfold fk_final. cbn [fk_of map fk_path length pow]. rewrite E_dret. rewrite Rmult_1_l. apply Hphi.
  - rewrite fk_final_cons, Rabs_mult, Rabs_pos_eq by (left; apply exp_pos). cbn [length pow]. rewrite Rmult_assoc.
    pose proof (G_nonneg _ _ Hb) as HG. pose proof (Forall_inv Hb) as Hx. pose proof (Forall_inv_tail Hb) as Hb'. cbn [fst snd] in Hx. apply Rmult_le_compat; [left; apply exp_pos|apply Rabs_pos|apply Hx|].
    apply E_bound; [apply Hfo|]. intros. now apply IH.
Qed.

Definition mse_const (m : nat) : R := 2 * INR m * G ^ (2 * m) * B ^ 2.

Lemma mse_const_S m : mse_const (S m) = G ^ 2 * (2 * (G ^ m * B) ^ 2 + mse_const m).
Proof. unfold mse_const. rewrite S_INR. replace (2 * S m)%nat with (2 + 2 * m)%nat by lia. rewrite pow_add, pow_mult. replace ((G ^ 2) ^ m) with (G ^ m * G ^ m); [ring|]. rewrite <- pow_add, <- pow_mult. f_equal. lia. Qed.

Lemma mse_const_nonneg m : 0 <= mse_const m.
Proof.
  unfold mse_const. apply Rmult_le_pos; [|apply pow2_ge_0]. apply Rmult_le_pos; [pose proof (pos_INR m); lra|].
  rewrite pow_mult. apply pow_le, pow2_ge_0.
Qed.

(** the mean likelihood as the factor of the estimate *)
Lemma lik_factor v vp t (us : list U) ell : length us = n ->
  exp (ell - ln (INR n) + logsumexp (map (lg v vp t) us)) = exp ell * (/ INR n * Rsum (map (fun u => exp (lg v vp t u)) us)).
Proof.
  intros Hl. assert (Hne : map (lg v vp t) us <> []) by (destruct us; [simpl in Hl; lia|discriminate]).
  pose proof (Rsum_exp_pos _ Hne) as HS. unfold Rminus, logsumexp. rewrite !exp_plus, exp_Ropp, !exp_ln by assumption. rewrite map_map. ring.
Qed.

Lemma lik_factor_le v vp t (us : list U) ell : length us = n -> (forall u, exp (lg v vp t u) <= G) ->
  exp (ell - ln (INR n) + logsumexp (map (lg v vp t) us)) <= exp ell * G.
Proof.
  intros Hl Hg. rewrite lik_factor by assumption. apply Rmult_le_compat_l; [left; apply exp_pos|].
  assert (Rsum (map (fun u => exp (lg v vp t u)) us) <= INR n * G).
  { rewrite <- Hl. clear -Hg. induction us as [|u us IH]; [cbn; lra|]. cbn [map Rsum length]. rewrite S_INR. specialize (Hg u). lra. }
  apply (Rmult_le_reg_l (INR n)); [assumption|]. rewrite <- Rmult_assoc, Rinv_r, Rmult_1_l by lra. assumption.
Qed.

Lemma sq_le x y : 0 <= x -> x <= y -> x ^ 2 <= y ^ 2.
Proof. intros. nra. Qed.

(** *** pmcmc_filter_step *)
Notation pf := (pf_scan udef transition_sampler measurement_cond_pdf resampling n).
Theorem pf_scan_mse k sd : lik_bounded sd -> forall i us ell c, length us = n ->
  law (pf k i sd (us, ell)) (fun r => (exp (snd r) * (/ INR n * Rsum (map phi (fst r))) - c) ^ 2) <=
  (exp ell * (/ INR n * Rsum (map (fk_final M lg sd phi) us)) - c) ^ 2 + exp ell ^ 2 * (/ INR n * mse_const (length sd)).
Proof.
  induction sd as [|[[v vp] t] sd IH]; intros Hb i us ell c Hl.
  - cbn [pf_scan law fst snd length]. right. unfold mse_const. cbn [INR]. rewrite Rmult_0_r, !Rmult_0_l, !Rmult_0_r, Rplus_0_r. do 5 f_equal.
    apply map_ext. intros u. unfold fk_final. cbn [fk_of map fk_path]. now rewrite E_dret.
  - pose proof (G_nonneg _ _ Hb) as HG. pose proof B_nonneg as HB. pose proof (Forall_inv Hb) as Hx. pose proof (Forall_inv_tail Hb) as Hb'. cbn [fst snd] in Hx. specialize (IH Hb').
    cbn [pf_scan]. rewrite law_bind. unfold pf_body. rewrite law_bind.
    rewrite (fo_lik _ _ _ _ _ Hfo). change (map exp (map (fun x => x - logsumexp (map (lg v vp t) us)) (map (lg v vp t) us)))
      with (normalise (map (lg v vp t) us)).
    destruct (weights_lik_ok lg n Hn v vp t us Hl) as [Hw Hwl].
    set (ell' := ell - ln (INR n) + logsumexp (map (lg v vp t) us)).
    set (F := fk_final M lg sd phi). set (b := G ^ length sd * B).
    assert (HF : forall u, Rabs (F u) <= b) by (intros; now apply fk_final_bound).
    set (h := fun j => E (M vp t (nth j us udef)) F).
    assert (Hh : forall j, Rabs (h j) <= b) by (intros; apply E_bound; [apply Hfo|auto]).
    set (e := exp ell'). set (K := mse_const (length sd)).
    apply Rle_trans with (law (resampling (normalise (map (lg v vp t) us)) (split_key (split_key k i) 1))
       (fun A => 1 * (e * / INR n * Rsum (map h A) - c) ^ 2 + (e ^ 2 * / INR n * (b ^ 2 + K)) * (fun _ => 1) A)).
    + eapply (has_laws_le _ (resampling (normalise (map (lg v vp t) us)))); [now apply (cr_laws _ Hcr)|].
      intros A [HA _]. rewrite Hwl in HA. rewrite law_bind, (fo_trans _ _ _ _ _ Hfo _ _ _ _ _). cbn [law].
      apply Rle_trans with (E (dseq (map (M vp t) (gather udef us A))) (fun us' => (e * / INR n * Rsum (map F us') - c) ^ 2 + e ^ 2 * (/ INR n * K))).
      * apply E_le; [apply is_prob_dseq, Forall_map, Forall_forall; intros; apply Hfo|].
        intros us' Hin. apply dseq_length in Hin. unfold gather in Hin. rewrite !map_length in Hin. rewrite HA in Hin.
        rewrite (Rmult_assoc e). apply (IH (S i) us' ell' c Hin).
      * rewrite E_plus, E_const by (apply is_prob_dseq, Forall_map, Forall_forall; intros; apply Hfo).
        pose proof (dseq_sq (M vp t) F (gather udef us A) b (e * / INR n) c ltac:(intros; apply Hfo) HF) as Hq.
        unfold gather in Hq at 2 3. rewrite map_map, map_length, HA in Hq. fold h in Hq.
        replace ((e * / INR n) ^ 2 * (INR n * b ^ 2)) with (e ^ 2 * / INR n * b ^ 2) in Hq by (field; lra). fold (gather udef us A) in Hq. 
        lra.
    + pose proof (cr_laws _ Hcr _ Hw) as Hlaws. rewrite (has_laws_lin _ _ _ _ _ _ _ Hlaws), (has_laws_const _ _ _ _ Hlaws), Rmult_1_l, Rmult_1_r.
      pose proof (resample_sq resampling _ (split_key (split_key k i) 1) h b (e * / INR n) c Hcr Hw ltac:(auto)) as Hr. rewrite Hwl, E_dcat, Hwl in Hr.
      replace ((e * / INR n) ^ 2 * (INR n * b ^ 2)) with (e ^ 2 * / INR n * b ^ 2) in Hr by (field; lra).
      assert (Hmu : e * / INR n * (INR n * Rsum (map (fun j => nth j (normalise (map (lg v vp t) us)) 0 * h j) (seq 0 n))) =
         exp ell * (/ INR n * Rsum (map (fk_final M lg ((v, vp, t) :: sd) phi) us))).
      { transitivity (e * Rsum (map (fun j => nth j (normalise (map (lg v vp t) us)) 0 * h j) (seq 0 n))); [field; lra|].
        unfold e, ell', h. rewrite (weight_identity udef lg n Hn v vp t us (fun u => E (M vp t u) F) ell Hl). do 3 f_equal. apply map_ext. intros u. now rewrite fk_final_cons. }
      rewrite Hmu in Hr. set (X := (exp ell * (/ INR n * Rsum (map (fk_final M lg ((v, vp, t) :: sd) phi) us)) - c) ^ 2) in *.
      cbn [length]. rewrite mse_const_S. fold b K.
      assert (He : e ^ 2 <= (exp ell * G) ^ 2) by (apply sq_le; [left; apply exp_pos|now apply lik_factor_le]).
      assert (0 <= / INR n * (2 * b ^ 2 + K)).
      { apply Rmult_le_pos; [left; now apply Rinv_0_lt_compat|]. pose proof (pow2_ge_0 b). pose proof (mse_const_nonneg (length sd)). unfold K. lra. }
      assert (e ^ 2 * (/ INR n * (2 * b ^ 2 + K)) <= (exp ell * G) ^ 2 * (/ INR n * (2 * b ^ 2 + K))) by now apply Rmult_le_compat_r.
      replace (exp ell ^ 2 * (/ INR n * (G ^ 2 * (2 * b ^ 2 + K)))) with ((exp ell * G) ^ 2 * (/ INR n * (2 * b ^ 2 + K))) by ring. lra.
Qed.

(** *** bootstrap_filter *)
Notation bf := (bf_scan udef transition_sampler measurement_cond_pdf resampling n).

Lemma weighted_sq v vp t (us : list U) ell c (F : U -> R) b : length us = n -> (forall u, Rabs (F u) <= b) -> (forall u, exp (lg v vp t u) <= G) ->
  E (dseq (map (M vp t) us)) (fun us' => (exp (ell - ln (INR n) + logsumexp (map (lg v vp t) us)) *
      Rsum (map (fun i => nth i (normalise (map (lg v vp t) us)) 0 * F (nth i us' udef)) (seq 0 n)) - c) ^ 2) <=
  (exp ell * (/ INR n * Rsum (map (fun u => exp (lg v vp t u) * E (M vp t u) F) us)) - c) ^ 2 + (exp ell * G) ^ 2 * (/ INR n * b ^ 2).
Proof.
  intros Hl HF Hg.
  assert (Hp : Forall is_prob (map (M vp t) us)) by (apply Forall_map, Forall_forall; intros; apply Hfo).
  set (fs := map (fun u0 u => exp ell * / INR n * exp (lg v vp t u0) * F u) us).
  assert (Hfl : length fs = length (map (M vp t) us)) by (unfold fs; now rewrite !map_length).
  assert (HG : 0 <= G) by (specialize (Hg udef); pose proof (exp_pos (lg v vp t udef)); lra).
  assert (Hb0 : 0 <= b) by (specialize (HF udef); pose proof (Rabs_pos (F udef)); lra).
  rewrite (E_ext _ _ (fun us' => (- c + zsum fs us') ^ 2)).
  2:{ intros us' Hin. apply dseq_length in Hin. rewrite map_length in Hin.
      replace (- c + zsum fs us') with (zsum fs us' - c) by ring. f_equal. f_equal.
      rewrite <- Rsum_map_mult_l.
      assert (Hz : zsum fs us' = Rsum (map (fun i => exp ell * / INR n * exp (lg v vp t (nth i us udef)) * F (nth i us' udef)) (seq 0 n))).
      { unfold zsum, fs. generalize (exp ell * / INR n). intros q. clear -Hl Hin. rewrite <- Hl. clear Hl. revert us' Hin; induction us as [|u us IH]; intros [|u' us'] H; try discriminate H; [reflexivity|].
        cbn [map combine Rsum fst snd length seq nth]. rewrite <- seq_shift, map_map. cbn [nth]. f_equal. apply IH. now injection H. }
      rewrite Hz. apply Rsum_map_ext. intros i Hi. apply in_seq in Hi.
      assert (Hne : map (lg v vp t) us <> []) by (destruct us; [simpl in Hl; lia|discriminate]).
      pose proof (Rsum_exp_pos _ Hne) as HS.
      rewrite lik_factor by assumption. rewrite normalise_eq by assumption.
      rewrite (nth_indep _ 0 (exp (lg v vp t udef) / Rsum (map exp (map (lg v vp t) us)))) by (rewrite !map_length; lia).
      rewrite (map_map (lg v vp t) (fun x => exp x / Rsum (map exp (map (lg v vp t) us)))). rewrite (map_nth (fun u => exp (lg v vp t u) / Rsum (map exp (map (lg v vp t) us)))).
      rewrite map_map in HS |- *. field. lra. }
  rewrite E_dseq_square by assumption.
  assert (Hm : zmean fs (map (M vp t) us) = exp ell * (/ INR n * Rsum (map (fun u => exp (lg v vp t u) * E (M vp t u) F) us))).
  { unfold zmean, fs. rewrite <- !Rsum_map_mult_l. clear. induction us as [|u us IH]; [reflexivity|]. cbn [map combine Rsum fst snd]. rewrite IH, E_mult_l. ring. }
  rewrite Hm. replace (- c + exp ell * (/ INR n * Rsum (map (fun u => exp (lg v vp t u) * E (M vp t u) F) us))) with (exp ell * (/ INR n * Rsum (map (fun u => exp (lg v vp t u) * E (M vp t u) F) us)) - c) by ring.
  apply Rplus_le_compat_l.
  pose proof (zvar_le _ (exp ell * / INR n * G * b) Hp fs Hfl) as Hz. rewrite map_length, Hl in Hz.
  replace (INR n * (exp ell * / INR n * G * b) ^ 2) with ((exp ell * G) ^ 2 * (/ INR n * b ^ 2)) in Hz by (field; lra).
  apply Hz. intros f d a Hin _. apply in_combine_l in Hin. unfold fs in Hin. apply in_map_iff in Hin. destruct Hin as (u0 & <- & _).
  rewrite Rabs_mult. pose proof (exp_pos ell). pose proof (exp_pos (lg v vp t u0)). pose proof (Rinv_0_lt_compat _ INRn).
  assert (0 < exp ell * / INR n) by now apply Rmult_lt_0_compat.
  rewrite (Rabs_pos_eq (exp ell * / INR n * exp (lg v vp t u0))) by (apply Rmult_le_pos; lra).
  apply Rmult_le_compat; [apply Rmult_le_pos; lra|apply Rabs_pos| |apply HF]. apply Rmult_le_compat_l; [lra|apply Hg].
Qed.

Theorem bf_scan_mse k sd : lik_bounded sd -> forall i us nell c, length us = n ->
  law (bf k i sd (us, nell)) (fun r => (exp (- snd (fst r)) * (/ INR n * Rsum (map phi (fst (fst r)))) - c) ^ 2) <=
  (exp (- nell) * (/ INR n * Rsum (map (fk_final M lg sd phi) us)) - c) ^ 2 + exp (- nell) ^ 2 * (/ INR n * mse_const (length sd)).
Proof.
  induction sd as [|[[v vp] t] sd IH]; intros Hb i us nell c Hl.
  - cbn [bf_scan law fst snd length]. right. unfold mse_const. cbn [INR]. rewrite Rmult_0_r, !Rmult_0_l, !Rmult_0_r, Rplus_0_r. do 5 f_equal.
    apply map_ext. intros u. unfold fk_final. cbn [fk_of map fk_path]. now rewrite E_dret.
  - pose proof (G_nonneg _ _ Hb) as HG. pose proof B_nonneg as HB. pose proof (Forall_inv Hb) as Hx. pose proof (Forall_inv_tail Hb) as Hb'. cbn [fst snd] in Hx. specialize (IH Hb').
    cbn [bf_scan]. rewrite law_bind. unfold bf_body. rewrite law_bind.
    rewrite (fo_lik _ _ _ _ _ Hfo). rewrite (fo_trans _ _ _ _ _ Hfo _ _ _ _ _).
    destruct (weights_lik_ok lg n Hn v vp t us Hl) as [Hw Hwl].
    set (L := logsumexp (map (lg v vp t) us)). set (ell' := - nell - ln (INR n) + L).
    set (F := fk_final M lg sd phi). set (b := G ^ length sd * B).
    assert (HF : forall u, Rabs (F u) <= b) by (intros; now apply fk_final_bound).
    set (e := exp ell'). set (K := mse_const (length sd)). set (W := normalise (map (lg v vp t) us)) in *.
    apply Rle_trans with (E (dseq (map (M vp t) us)) (fun us' => (e * Rsum (map (fun i => nth i W 0 * F (nth i us' udef)) (seq 0 n)) - c) ^ 2 + e ^ 2 * / INR n * (b ^ 2 + K))).
    + apply E_le; [apply is_prob_dseq, Forall_map, Forall_forall; intros; apply Hfo|].
      intros us' Hin. apply dseq_length in Hin. rewrite map_length in Hin.
      rewrite law_bind. change (map exp (map (fun x => x - L) (map (lg v vp t) us))) with W.
      apply Rle_trans with (law (resampling W (split_key (split_key k i) 1))
        (fun A => 1 * (e * / INR n * Rsum (map (fun j => F (nth j us' udef)) A) - c) ^ 2 + (e ^ 2 * / INR n * K) * (fun _ => 1) A)).
      * eapply (has_laws_le _ (resampling W)); [now apply (cr_laws _ Hcr)|].
        intros A [HA _]. rewrite Hwl in HA. cbn [law]. rewrite law_bind.
        rewrite (law_ext _ _ (fun r => (exp (- snd (fst r)) * (/ INR n * Rsum (map phi (fst (fst r)))) - c) ^ 2)) by (intros [[uT e0] out]; reflexivity).
        pose proof (IH (S i) (gather udef us' A) (nell - (L - ln (INR n))) c ltac:(unfold gather; now rewrite map_length)) as H.
        unfold gather in H at 2. rewrite map_map in H. replace (- (nell - (L - ln (INR n)))) with ell' in H by (unfold ell'; ring). fold e F K in H.
        rewrite (Rmult_assoc e). cbn [fst]. lra.
      * pose proof (cr_laws _ Hcr _ Hw) as Hlaws. rewrite (has_laws_lin _ _ _ 1 (e ^ 2 * / INR n * K) (fun A => (e * / INR n * Rsum (map (fun j => F (nth j us' udef)) A) - c) ^ 2) (fun _ => 1) Hlaws), (has_laws_const _ _ _ _ Hlaws), Rmult_1_l, Rmult_1_r.
        pose proof (resample_sq resampling W (split_key (split_key k i) 1) (fun j => F (nth j us' udef)) b (e * / INR n) c Hcr Hw (fun j _ => HF _)) as Hr.
        rewrite Hwl, E_dcat, Hwl in Hr.
        replace ((e * / INR n) ^ 2 * (INR n * b ^ 2)) with (e ^ 2 * / INR n * b ^ 2) in Hr by (field; lra).
        replace (e * / INR n * (INR n * Rsum (map (fun i => nth i W 0 * F (nth i us' udef)) (seq 0 n)))) with (e * Rsum (map (fun i => nth i W 0 * F (nth i us' udef)) (seq 0 n))) in Hr by (field; lra).
        lra.
    + rewrite E_plus, E_const by (apply is_prob_dseq, Forall_map, Forall_forall; intros; apply Hfo).
      pose proof (weighted_sq v vp t us (- nell) c F b Hl HF Hx) as Hq. fold L ell' e W in Hq.
      rewrite (map_ext (fun u => exp (lg v vp t u) * E (M vp t u) F) (fk_final M lg ((v, vp, t) :: sd) phi)) in Hq by (intros; unfold F; now rewrite fk_final_cons).
      cbn [length]. rewrite mse_const_S. fold b K.
      assert (He : e ^ 2 <= (exp (- nell) * G) ^ 2) by (apply sq_le; [left; apply exp_pos|now apply lik_factor_le]).
      assert (0 <= / INR n * (b ^ 2 + K)).
      { apply Rmult_le_pos; [left; now apply Rinv_0_lt_compat|]. pose proof (pow2_ge_0 b). pose proof (mse_const_nonneg (length sd)). unfold K. lra. }
      assert (e ^ 2 * (/ INR n * (b ^ 2 + K)) <= (exp (- nell) * G) ^ 2 * (/ INR n * (b ^ 2 + K))) by now apply Rmult_le_compat_r.
      replace (exp (- nell) ^ 2 * (/ INR n * (G ^ 2 * (2 * b ^ 2 + K)))) with ((exp (- nell) * G) ^ 2 * (/ INR n * (b ^ 2 + K)) + (exp (- nell) * G) ^ 2 * (/ INR n * b ^ 2)) by ring. lra.
Qed.

(** *** From the initial draw *)
Variable m0 : V -> dist U.
Hypothesis Hm0 : forall v, is_prob (m0 v).
Variable init_sampler : key -> V -> nat -> prog (list U).
Hypothesis Hinit : forall k v n, denotes (init_sampler k v n) (dseq (repeat (m0 v) n)).

Lemma init_sq v (Q : U -> R) b c : (forall u, Rabs (Q u) <= b) ->
  E (dseq (repeat (m0 v) n)) (fun us => (/ INR n * Rsum (map Q us) - c) ^ 2) <= (E (m0 v) Q - c) ^ 2 + / INR n * b ^ 2.
Proof.
  intros HQ. pose proof (dseq_sq (fun _ : unit => m0 v) Q (repeat tt n) b (/ INR n) c ltac:(intros; apply Hm0) HQ) as H.
  assert (Hr : forall {X} (x : X) m, map (fun _ : unit => x) (repeat tt m) = repeat x m) by (induction m; simpl; congruence).
  rewrite !Hr, repeat_length, Rsum_repeat in H.
  replace (/ INR n * (INR n * E (m0 v) Q)) with (E (m0 v) Q) in H by (field; lra).
  replace ((/ INR n) ^ 2 * (INR n * b ^ 2)) with (/ INR n * b ^ 2) in H by (field; lra). exact H.
Qed.

Definition mse_bound (m : nat) : R := / INR n * ((2 * INR m + 1) * G ^ (2 * m) * B ^ 2).

Lemma mse_bound_eq m : / INR n * mse_const m + / INR n * (G ^ m * B) ^ 2 = mse_bound m.
Proof.
  unfold mse_const, mse_bound. rewrite pow_mult. replace ((G ^ 2) ^ m) with (G ^ m * G ^ m); [ring|].
  rewrite <- pow_add, <- pow_mult. f_equal. lia.
Qed.

Theorem bootstrap_filter_mse vs ts k lf rl : lik_bounded (step_data vs ts) ->
  law (bootstrap_filter udef vdef transition_sampler measurement_cond_pdf resampling vs ts init_sampler k n lf rl)
    (fun r => (exp (- snd r) * (/ INR n * Rsum (map phi (last (fst r) []))) - E (filter_target vdef M lg m0 vs ts) (fun p => phi (last p udef))) ^ 2)
  <= mse_bound (length (step_data vs ts)).
Proof.
  intros Hb. set (c := E (filter_target vdef M lg m0 vs ts) (fun p => phi (last p udef))).
  unfold bootstrap_filter. rewrite law_bind, (Hinit _ _ _ _). rewrite filter_inputs_step_data.
  set (sd := step_data vs ts) in *.
  apply Rle_trans with (E (dseq (repeat (m0 (nth 0 vs vdef)) n)) (fun us => (/ INR n * Rsum (map (fk_final M lg sd phi) us) - c) ^ 2 + / INR n * mse_const (length sd))).
  - apply E_le; [apply is_prob_dseq, Forall_forall; intros d Hd; apply repeat_spec in Hd; subst; apply Hm0|].
    intros us Hin. apply dseq_length in Hin. rewrite repeat_length in Hin. rewrite law_bind.
    pose proof (bf_scan_mse (split_key k 1) sd Hb 0 us 0 c Hin) as H. rewrite Ropp_0, exp_0 in H. rewrite pow1, !Rmult_1_l in H.
    eapply Rle_trans; [|exact H]. right. eapply law_ext_safe; [apply bf_scan_last|].
    intros [[last_s nell] out] Hlast. cbn [law fst snd] in *. destruct rl; [reflexivity|]. cbn [fst snd]. now rewrite Hlast.
  - rewrite E_plus, E_const by (apply is_prob_dseq, Forall_forall; intros d Hd; apply repeat_spec in Hd; subst; apply Hm0).
    pose proof (init_sq (nth 0 vs vdef) (fk_final M lg sd phi) (G ^ length sd * B) c ltac:(intros; now apply fk_final_bound)) as H.
    assert (Hc : E (m0 (nth 0 vs vdef)) (fk_final M lg sd phi) = c).
    { unfold c. symmetry. eapply filter_target_final; eassumption. }
    rewrite Hc in H. rewrite <- mse_bound_eq. replace ((c - c) ^ 2) with 0 in H by ring. lra.
Qed.

Theorem pmcmc_filter_mse vs ts k1 k2 : lik_bounded (step_data vs ts) ->
  law (u0s <- init_sampler k1 (nth 0 vs vdef) n ;; pmcmc_filter_step udef transition_sampler measurement_cond_pdf resampling k2 vs u0s ts n)
    (fun r => (exp (snd r) * (/ INR n * Rsum (map phi (fst r))) - E (filter_target vdef M lg m0 vs ts) (fun p => phi (last p udef))) ^ 2)
  <= mse_bound (length (step_data vs ts)).
Proof.
  intros Hb. set (c := E (filter_target vdef M lg m0 vs ts) (fun p => phi (last p udef))).
  rewrite law_bind, (Hinit _ _ _ _). unfold pmcmc_filter_step. rewrite filter_inputs_step_data.
  set (sd := step_data vs ts) in *.
  apply Rle_trans with (E (dseq (repeat (m0 (nth 0 vs vdef)) n)) (fun us => (/ INR n * Rsum (map (fk_final M lg sd phi) us) - c) ^ 2 + / INR n * mse_const (length sd))).
  - apply E_le; [apply is_prob_dseq, Forall_forall; intros d Hd; apply repeat_spec in Hd; subst; apply Hm0|].
    intros us Hin. apply dseq_length in Hin. rewrite repeat_length in Hin.
    pose proof (pf_scan_mse k2 sd Hb 0 us 0 c Hin) as H. rewrite exp_0 in H. rewrite pow1, !Rmult_1_l in H. exact H.
  - rewrite E_plus, E_const by (apply is_prob_dseq, Forall_forall; intros d Hd; apply repeat_spec in Hd; subst; apply Hm0).
    pose proof (init_sq (nth 0 vs vdef) (fk_final M lg sd phi) (G ^ length sd * B) c ltac:(intros; now apply fk_final_bound)) as H.
    assert (Hc : E (m0 (nth 0 vs vdef)) (fk_final M lg sd phi) = c).
    { unfold c. symmetry. eapply filter_target_final; eassumption. }
    rewrite Hc in H. rewrite <- mse_bound_eq. replace ((c - c) ^ 2) with 0 in H by ring. lra.
Qed.
End filters.

Theorem multinomial_consistent : consistent_res multinomial.
Proof.
  constructor.
  - constructor; [intros w k Hw tr A Hr; exact (proj1 (multinomial_safe w k (weights_ok_nonempty w Hw) tr A Hr))|exact multinomial_unbiased].
  - intros w Hw. apply (has_laws_denotes _ _ (dmap nsort (dseq (repeat (dcat w) (length w))))).
    + apply is_prob_dmap, is_prob_dseq, Forall_forall. intros d Hd. apply repeat_spec in Hd. subst. now apply is_prob_dcat.
    + intros k. now apply multinomial_denotes.
    + intros A HA. unfold dmap in HA. rewrite map_map in HA. apply in_map_iff in HA. destruct HA as ([p B] & <- & HB). cbn [fst snd].
      assert (HB' : In B (map snd (dseq (repeat (dcat w) (length w))))) by (apply in_map_iff; exists (p, B); auto).
      split; [rewrite nsort_length, (dseq_length _ _ HB'); apply repeat_length|].
      rewrite Forall_forall. intros i Hi. apply (Permutation_in _ (nsort_perm B)) in Hi.
      apply dseq_Forall2 in HB'. pose proof (dcat_below w) as Hd. clear -HB' Hi Hd. revert Hi. induction HB' as [|x d l ds Hx H IH]; intros Hi; [destruct Hi|].
      destruct Hi as [ <-|Hi]; inversion Hd; subst; auto.
  - apply indep_small_var; [exact multinomial_unbiased|exact multinomial_indep].
Qed.

Theorem stratified_consistent : consistent_res stratified.
Proof.
  constructor.
  - constructor; [intros w k Hw tr A Hr; exact (proj1 (stratified_safe w k (weights_ok_nonempty w Hw) tr A Hr))|exact stratified_unbiased].
  - exact stratified_has_laws.
  - apply indep_small_var; [exact stratified_unbiased|exact stratified_indep].
Qed.

Theorem killing_consistent : consistent_res killing.
Proof.
  constructor.
  - constructor; [intros w k Hw; exact (killing_safe w k Hw)|exact killing_marginal_unbiased].
  - exact killing_has_laws.
  - apply indep_small_var; [exact killing_marginal_unbiased|exact killing_indep].
Qed.
