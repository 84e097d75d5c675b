(** The particle MCMC chain (smc.py [pmcmc_kernel] iterated by the scripts) converges to the pseudo-marginal target, and
    how long it stays where it starts. *)
From Coquelicot Require Import Coquelicot.
From Coq Require Import FunctionalExtensionality.
From Verif Require Import Pmcmc ToyPmcmc ResVariance FilterLimit.
Open Scope R_scope.

Section ergodic.
Context {U V : Type} (udef : U) (vdef : V).
Variable transition_sampler : list U -> V -> R -> key -> prog (list U).
Variable measurement_cond_pdf : V -> list U -> V -> R -> list R.
Variable resampling : list R -> key -> prog (list nat).
Variable M : V -> R -> U -> dist U.
Variable lg : V -> V -> R -> U -> R.
Hypothesis Hfo : filter_ok transition_sampler measurement_cond_pdf resampling M lg.
Variable m0 : V -> dist U.
Hypothesis Hm0 : forall v, is_prob (m0 v).
Variable init_sampler : key -> V -> nat -> prog (list U).
Hypothesis Hinit : forall k v n, denotes (init_sampler k v n) (dseq (repeat (m0 v) n)).
Hypothesis Hres : forall w, weights_ok w -> has_laws (valid_indices (length w)) (resampling w).
Variable P : dist (list V).
Variable q : list V -> dist (list V).
Variable propose : key -> list V -> prog (list V).
Hypothesis HP : is_prob P.
Hypothesis Hq : forall ys, is_prob (q ys).
Hypothesis Hprop : forall k ys, denotes (propose k ys) (q ys).
Hypothesis Hrev : forall G, E P (fun ys => E (q ys) (fun ys' => G ys ys')) = E P (fun ys => E (q ys) (fun ys' => G ys' ys)).
Variables (n which : nat) (ts : list R).
Hypothesis Hn : (0 < n)%nat.
Variable k0 : key.

Notation kernel := (pmcmc_kernel udef vdef transition_sampler measurement_cond_pdf resampling).
Notation RF := (run_filter udef vdef transition_sampler measurement_cond_pdf resampling init_sampler).
Notation L ys := (law (RF n ts k0 k0 (rev ys))).
Notation target := (pm_target udef vdef transition_sampler measurement_cond_pdf resampling init_sampler P n which ts k0).

(** gp_pmcmc.py:170-173 for chain [j]: [key, subkey = split(key)], [key_chains = split(subkey, nchains)] *)
Fixpoint pmcmc_chain (j : nat) (k : key) (m : nat) (u : U) (e : R) (ys : list V) : prog (U * R * list V) :=
  match m with
  | O => Ret (u, e, ys)
  | S m' => r <- kernel (split_key (split_key k 1) j) u e ys ts propose init_sampler n which ;;
            let '(u', e', ys', _) := r in pmcmc_chain j (split_key k 0) m' u' e' ys'
  end.

(** the Markov operator *)
Definition K (f : U -> R -> list V -> R) (u : U) (e : R) (ys : list V) : R :=
  E (q ys) (fun ys' => L ys' (fun c =>
     Rmin 1 (exp (snd c - e)) * f (nth which (fst c) udef) (snd c) ys' + (1 - Rmin 1 (exp (snd c - e))) * f u e ys)).
Fixpoint Kn (m : nat) (f : U -> R -> list V -> R) : U -> R -> list V -> R := match m with O => f | S m' => K (Kn m' f) end.

Lemma kernel_K k u e ys f : law (kernel k u e ys ts propose init_sampler n which) (fun r => let '(u', e', y', _) := r in f u' e' y') = K f u e ys.
Proof. apply (law_pmcmc_kernel udef vdef _ _ _ M lg Hfo m0 Hm0 init_sampler Hinit Hres q propose Hprop n which ts Hn k0). Qed.

Lemma chain_law f j m : forall k u e ys, law (pmcmc_chain j k m u e ys) (fun s => f (fst (fst s)) (snd (fst s)) (snd s)) = Kn m f u e ys.
Proof.
  induction m as [|m IH]; intros k u e ys; [reflexivity|]. cbn [pmcmc_chain Kn]. rewrite law_bind.
  rewrite <- (kernel_K (split_key (split_key k 1) j)). apply law_ext. intros [[[u' e'] ys'] st]. apply IH.
Qed.

(** ** Bounded likelihoods *)
Variable G : R.
Hypothesis HG : forall v vp t u, exp (lg v vp t u) <= G.
Hypothesis HPl : forall ys, In ys (map snd P) -> length ys = length ts.
Hypothesis Hql : forall ys ys', In ys' (map snd (q ys)) -> length ys' = length ts.
Definition B : R := G ^ (length ts - 1).

Lemma step_data_len (vs : list V) (l : list R) : length vs = length l -> length (step_data vs l) = (length l - 1)%nat.
Proof.
  revert l. induction vs as [|v vs IH]; intros [|t l] H; try (discriminate H); [reflexivity|].
  destruct vs as [|v' vs], l as [|t' l]; cbn in H; try discriminate H; [reflexivity|].
  specialize (IH (t' :: l) ltac:(cbn in *; lia)). cbn [step_data length] in *. rewrite IH. cbn. lia.
Qed.
Lemma G_pos : 0 < G.
Proof. destruct (m0 vdef) as [|[p u] l] eqn:Em. { destruct (Hm0 vdef) as [_ H]. rewrite Em in H. cbn in H. lra. } pose proof (HG vdef vdef 0 u). pose proof (exp_pos (lg vdef vdef 0 u)). lra. Qed.
Lemma B_pos : 0 < B.
Proof. apply pow_lt, G_pos. Qed.

Lemma pf_bounded sd : forall i us ell, length us = n ->
  has_laws (fun c => exp (snd c) <= G ^ (length sd) * exp ell)
    (fun k => pf_scan udef transition_sampler measurement_cond_pdf resampling n k i sd (us, ell)).
Proof.
  induction sd as [|[[v vp] t] sd IH]; intros i us ell Hl; cbn [pf_scan]; [apply has_laws_ret; cbn; lra|].
  apply (has_laws_bind (fun c => length (fst c) = n /\ exp (snd c) <= G * exp ell) _
    (fun k => pf_body udef transition_sampler measurement_cond_pdf resampling n (us, ell) (v, vp, t) k)
    (fun c' k => pf_scan udef transition_sampler measurement_cond_pdf resampling n k (S i) sd c') (fun k => split_key k i) (fun k => k)).
  - unfold pf_body. rewrite (fo_lik _ _ _ _ _ Hfo).
    destruct (weights_lik_ok lg n Hn v vp t us Hl) as [Hw Hwl].
    apply (has_laws_bind (valid_indices n) _ (resampling (normalise (map (lg v vp t) us)))
       (fun A k => bind (transition_sampler (gather udef us A) vp t (split_key k 0))
          (fun us' => Ret (us', ell - ln (INR n) + logsumexp (map (lg v vp t) us)))) (fun k => split_key k 1) (fun k => k)).
    + rewrite <- Hwl. now apply Hres.
    + intros A [HA _].
      apply (has_laws_bind (fun us' => length us' = n) _ (transition_sampler (gather udef us A) vp t)
         (fun us' _ => Ret (us', ell - ln (INR n) + logsumexp (map (lg v vp t) us))) (fun k => split_key k 0) (fun k => k)).
      * eapply has_laws_weaken; [|apply (trans_has_laws _ _ _ M lg Hfo)]. intros us'. unfold gather. rewrite map_length. congruence.
      * intros us' Hus'. apply has_laws_ret. cbn [fst snd]. split; [assumption|].
        assert (HnR : 0 < INR n) by (apply lt_0_INR; lia).
        assert (Hsum : 0 < Rsum (map exp (map (lg v vp t) us))).
        { destruct us as [|u us]; [cbn in Hl; lia|]. cbn [map Rsum]. pose proof (exp_pos (lg v vp t u)).
          assert (0 <= Rsum (map exp (map (lg v vp t) us))); [|lra]. apply Rsum_nonneg, Forall_forall. intros x Hx. apply in_map_iff in Hx. destruct Hx as (y & <- & _). left. apply exp_pos. }
        assert (Hle : Rsum (map exp (map (lg v vp t) us)) <= INR n * G).
        { rewrite <- Hl. clear -HG. induction us as [|u us IH]; [cbn; lra|]. cbn [map Rsum length]. rewrite S_INR. specialize (HG v vp t u). lra. }
        unfold Rminus. rewrite !exp_plus, exp_Ropp, exp_ln by assumption. unfold logsumexp. rewrite exp_ln by assumption.
        pose proof (exp_pos ell). rewrite Rmult_assoc, (Rmult_comm G). apply Rmult_le_compat_l; [lra|].
        apply (Rmult_le_reg_l (INR n)); [assumption|]. replace (INR n * (/ INR n * Rsum (map exp (map (lg v vp t) us)))) with (Rsum (map exp (map (lg v vp t) us))) by (field; lra). exact Hle.
  - intros [us' e'] [H He]. cbn [fst snd] in *. eapply has_laws_weaken; [|apply IH; exact H]. intros c Hc. cbn [length pow].
    eapply Rle_trans; [exact Hc|]. replace (G * G ^ length sd * exp ell) with (G ^ length sd * (G * exp ell)) by ring.
    apply Rmult_le_compat_l; [left; apply pow_lt, G_pos|exact He].
Qed.

Lemma L_bounded ys : length ys = length ts -> has_laws (fun c => exp (snd c) <= B) (fun _ => RF n ts k0 k0 (rev ys)).
Proof.
  intros Hl. unfold run_filter.
  apply (has_laws_bind (fun us => length us = n) _ (fun k => init_sampler k (nth 0 (rev ys) vdef) n)
    (fun u0s k => pmcmc_filter_step udef transition_sampler measurement_cond_pdf resampling k (rev ys) u0s ts n) (fun _ => k0) (fun _ => k0)).
  - apply (has_laws_denotes _ _ (dseq (repeat (m0 (nth 0 (rev ys) vdef)) n))).
    + apply is_prob_dseq, Forall_forall. intros d Hd. apply repeat_spec in Hd. subst. apply Hm0.
    + intros. apply Hinit.
    + apply (init_length m0).
  - intros us Hus. unfold pmcmc_filter_step. rewrite filter_inputs_step_data. eapply has_laws_weaken; [|apply pf_bounded; exact Hus].
    intros c. cbn beta. rewrite exp_0, Rmult_1_r, step_data_len by now rewrite rev_length. intros H; exact H.
Qed.

(** a state the chain can carry *)
Definition carried (e : R) (ys : list V) : Prop := exp e <= B /\ length ys = length ts.

Lemma acc_le1 x : 0 < Rmin 1 (exp x) <= 1.
Proof. pose proof (exp_pos x). unfold Rmin. destruct (Rle_dec 1 (exp x)); lra. Qed.

Lemma K_mono f g u e ys : carried e ys -> (forall u e ys, carried e ys -> f u e ys <= g u e ys) -> K f u e ys <= K g u e ys.
Proof.
  intros Hc H. unfold K. apply E_le; [apply Hq|]. intros ys' Hy. apply Hql in Hy.
  destruct (L_bounded ys' Hy) as (d & [Hd _] & Hdl & Hs). rewrite !(Hdl k0). apply E_le; [exact Hd|]. intros c Hin. specialize (Hs c Hin).
  pose proof (acc_le1 (snd c - e)) as Ha. apply Rplus_le_compat; apply Rmult_le_compat_l; try lra; apply H; [split; assumption|assumption].
Qed.
Lemma K_affine c d f u e ys : K (fun u e ys => c * f u e ys + d) u e ys = c * K f u e ys + d.
Proof.
  unfold K. transitivity (c * E (q ys) (fun ys' => L ys' (fun x => Rmin 1 (exp (snd x - e)) * f (nth which (fst x) udef) (snd x) ys' + (1 - Rmin 1 (exp (snd x - e))) * f u e ys))
    + E (q ys) (fun _ => d)); [|f_equal; now apply E_const].
  rewrite <- E_mult_l, <- E_plus. apply E_ext'. intros ys'.
  destruct (L_fin udef vdef _ _ _ M lg Hfo m0 Hm0 init_sampler Hinit Hres n ts Hn k0 ys') as (dd & Hd & Hdl & _). rewrite !(Hdl k0).
  transitivity (c * E dd (fun x => Rmin 1 (exp (snd x - e)) * f (nth which (fst x) udef) (snd x) ys' + (1 - Rmin 1 (exp (snd x - e))) * f u e ys) + E dd (fun _ => d)); [|f_equal; now apply E_const].
  rewrite <- E_mult_l, <- E_plus. apply E_ext'. intros x. ring.
Qed.
Lemma target_mono f g : (forall u e ys, carried e ys -> f u e ys <= g u e ys) -> target f <= target g.
Proof.
  intros H. unfold pm_target. apply E_le; [apply HP|]. intros ys Hy. apply HPl in Hy.
  destruct (L_bounded ys Hy) as (d & [Hd _] & Hdl & Hs). rewrite !(Hdl k0). apply E_le; [exact Hd|]. intros c Hin. specialize (Hs c Hin).
  apply Rmult_le_compat_l; [left; apply exp_pos|]. apply H. split; assumption.
Qed.
Lemma target_affine c d f : target (fun u e ys => c * f u e ys + d) = c * target f + d * target (fun _ _ _ => 1).
Proof.
  unfold pm_target. rewrite <- !E_mult_l, <- E_plus. apply E_ext'. intros ys.
  destruct (L_fin udef vdef _ _ _ M lg Hfo m0 Hm0 init_sampler Hinit Hres n ts Hn k0 ys) as (dd & Hd & Hdl & _). rewrite !(Hdl k0).
  rewrite <- !E_mult_l, <- E_plus. apply E_ext'. intros x. ring.
Qed.

Definition Z : R := target (fun _ _ _ => 1).
Definition pi (f : U -> R -> list V -> R) : R := target f / Z.
Lemma Z_pos : 0 < Z.
Proof.
  unfold Z, pm_target. apply E_pos; [apply HP|]. intros ys.
  destruct (L_fin udef vdef _ _ _ M lg Hfo m0 Hm0 init_sampler Hinit Hres n ts Hn k0 ys) as (dd & Hd & Hdl & _). rewrite (Hdl k0).
  apply E_pos; [apply Hd|]. intros c. rewrite Rmult_1_r. apply exp_pos.
Qed.
Lemma pi_affine c d f : pi (fun u e ys => c * f u e ys + d) = c * pi f + d.
Proof. unfold pi. rewrite target_affine. fold Z. pose proof Z_pos. field. lra. Qed.
Lemma pi_mono f g : (forall u e ys, carried e ys -> f u e ys <= g u e ys) -> pi f <= pi g.
Proof. intros H. unfold pi. pose proof Z_pos. apply Rmult_le_compat_r; [left; now apply Rinv_0_lt_compat|]. now apply target_mono. Qed.
Lemma pi_invariant f : pi (K f) = pi f.
Proof.
  unfold pi. f_equal.
  rewrite <- (pmcmc_invariant udef vdef _ _ _ M lg Hfo m0 Hm0 init_sampler Hinit Hres P q propose Hq Hprop Hrev n which ts Hn k0 [] f).
  f_equal. do 3 (apply functional_extensionality; intros ?). symmetry. apply kernel_K.
Qed.

(** ** Minorisation *)
Variable eps : R.
Hypothesis Heps : 0 <= eps.
(** every proposal law contains a multiple of the law of the path *)
Hypothesis Hmin : forall ys F, length ys = length ts -> (forall ys', 0 <= F ys') -> eps * E P F <= E (q ys) F.

Lemma Hmin' ys F : length ys = length ts -> (forall ys', length ys' = length ts -> 0 <= F ys') -> eps * E P F <= E (q ys) F.
Proof.
  intros Hl HF. set (F' := fun ys' : list V => if Nat.eq_dec (length ys') (length ts) then F ys' else 0).
  assert (E1 : E P F = E P F'). { apply E_ext. intros x Hx. unfold F'. destruct (Nat.eq_dec (length x) (length ts)); [reflexivity|]. now apply HPl in Hx. }
  assert (E2 : E (q ys) F = E (q ys) F'). { apply E_ext. intros x Hx. unfold F'. destruct (Nat.eq_dec (length x) (length ts)); [reflexivity|]. now apply Hql in Hx. }
  rewrite E1, E2. apply Hmin; [assumption|]. intros y. unfold F'. destruct (Nat.eq_dec (length y) (length ts)); [now apply HF|lra].
Qed.

Definition delta : R := eps * Z / B.
Lemma K_minor f u e ys : carried e ys -> (forall u e ys, carried e ys -> 0 <= f u e ys) -> delta * pi f <= K f u e ys.
Proof.
  intros [He Hl] Hf. pose proof B_pos as HB. pose proof Z_pos as HZ.
  replace (delta * pi f) with (eps * E P (fun ys' => / B * L ys' (fun c => exp (snd c) * f (nth which (fst c) udef) (snd c) ys'))).
  2: { rewrite E_mult_l. fold (target f). unfold delta, pi. field. lra. }
  unfold K. eapply Rle_trans; [apply (Hmin' ys); [exact Hl|]|].
  - intros ys' Hy. apply Rmult_le_pos; [left; now apply Rinv_0_lt_compat|].
    destruct (L_bounded ys' Hy) as (d & [Hd _] & Hdl & Hs). rewrite (Hdl k0). apply E_nonneg; [exact Hd|]. intros c Hin. specialize (Hs c Hin).
    apply Rmult_le_pos; [left; apply exp_pos|]. apply Hf. split; assumption.
  - apply E_le; [apply Hq|]. intros ys' Hy. apply Hql in Hy.
    destruct (L_bounded ys' Hy) as (d & [Hd _] & Hdl & Hs). rewrite !(Hdl k0), <- E_mult_l. apply E_le; [exact Hd|]. intros c Hin. specialize (Hs c Hin).
    assert (H1 : 0 <= f (nth which (fst c) udef) (snd c) ys') by (apply Hf; split; assumption).
    assert (H2 : 0 <= f u e ys) by (apply Hf; split; assumption).
    pose proof (acc_le1 (snd c - e)) as Ha.
    assert (H3 : / B * exp (snd c) <= Rmin 1 (exp (snd c - e))).
    { apply Rmin_glb.
      - apply (Rmult_le_reg_l B); [assumption|]. rewrite <- Rmult_assoc, Rinv_r, Rmult_1_l, Rmult_1_r by lra. exact Hs.
      - unfold Rminus. rewrite exp_plus, exp_Ropp, Rmult_comm. apply Rmult_le_compat_l; [left; apply exp_pos|]. apply Rinv_le_contravar; [apply exp_pos|exact He]. }
    pose proof (Rmult_le_compat_r _ _ _ H1 H3). pose proof (Rmult_le_pos (1 - Rmin 1 (exp (snd c - e))) _ ltac:(lra) H2). lra.
Qed.
Lemma delta_bounds : 0 <= delta <= 1.
Proof.
  pose proof B_pos as HB. pose proof Z_pos as HZ. split.
  - unfold delta, Rdiv. apply Rmult_le_pos; [apply Rmult_le_pos; lra|left; now apply Rinv_0_lt_compat].
  - destruct P as [|[p ys] l] eqn:EP. { destruct HP as [_ H]. cbn in H. lra. }
    assert (Hy : length ys = length ts) by (apply HPl; left; reflexivity). rewrite <- EP in *.
    pose proof (K_minor (fun _ _ _ => 1) udef (ln B) ys ltac:(split; [rewrite exp_ln by assumption; lra|assumption]) ltac:(intros; lra)) as H.
    replace (pi (fun _ _ _ => 1)) with 1 in H by (unfold pi; fold Z; field; lra).
    pose proof (K_affine 0 1 (fun _ _ _ => 0) udef (ln B) ys) as HK. cbv beta in HK. 
    replace (fun (_ : U) (_ : R) (_ : list V) => 0 * 0 + 1) with (fun (_ : U) (_ : R) (_ : list V) => 1) in HK by (do 3 (apply functional_extensionality; intros ?); ring). lra.
Qed.

Lemma K_interval f a b : (forall u e ys, carried e ys -> a <= f u e ys <= b) -> forall u e ys, carried e ys ->
  a + delta * (pi f - a) <= K f u e ys <= b - delta * (b - pi f).
Proof.
  intros Hf u e ys Hc. split.
  - pose proof (K_minor (fun u e ys => 1 * f u e ys + - a) u e ys Hc ltac:(intros u' e' y' H'; specialize (Hf u' e' y' H'); lra)) as H. rewrite K_affine, pi_affine in H. lra.
  - pose proof (K_minor (fun u e ys => -1 * f u e ys + b) u e ys Hc ltac:(intros u' e' y' H'; specialize (Hf u' e' y' H'); lra)) as H. rewrite K_affine, pi_affine in H. lra.
Qed.
Lemma Kn_interval f a b m : (forall u e ys, carried e ys -> a <= f u e ys <= b) ->
  exists a', forall u e ys, carried e ys -> a' <= Kn m f u e ys <= a' + (1 - delta) ^ m * (b - a).
Proof.
  intros Hf. induction m as [|m [a' IH]]; [exists a; intros u e ys Hc; cbn [Kn pow]; specialize (Hf u e ys Hc); lra|].
  exists (a' + delta * (pi (Kn m f) - a')). intros u e ys Hc. pose proof (K_interval _ _ _ IH u e ys Hc) as H. cbn [Kn pow]. lra.
Qed.

Theorem pmcmc_chain_converges j k m u e ys f a b : carried e ys -> (forall u e ys, a <= f u e ys <= b) ->
  Rabs (law (pmcmc_chain j k m u e ys) (fun s => f (fst (fst s)) (snd (fst s)) (snd s)) - pi f) <= (1 - delta) ^ m * (b - a).
Proof.
  intros Hc Hf. rewrite chain_law. destruct (Kn_interval f a b m (fun u e ys _ => Hf u e ys)) as [a' H].
  assert (Hi : pi (Kn m f) = pi f). { clear H. induction m as [|m IH]; [reflexivity|]. cbn [Kn]. now rewrite pi_invariant. }
  assert (H2 : a' <= pi f <= a' + (1 - delta) ^ m * (b - a)).
  { assert (HE : forall d, pi (fun _ _ _ => d) = d).
    { intros d. pose proof (pi_affine 0 d (fun _ _ _ => 0)) as H0. cbv beta in H0.
      replace (fun (_ : U) (_ : R) (_ : list V) => 0 * 0 + d) with (fun (_ : U) (_ : R) (_ : list V) => d) in H0 by (do 3 (apply functional_extensionality; intros ?); ring). lra. }
    rewrite <- Hi. split.
    - rewrite <- (HE a'). apply pi_mono. intros u' e' y' H'. apply H, H'.
    - rewrite <- (HE (a' + (1 - delta) ^ m * (b - a))). apply pi_mono. intros u' e' y' H'. apply H, H'. }
  specialize (H u e ys Hc). apply Rabs_le. lra.
Qed.

(** ** Where it starts it stays: a start with a too large value of log_ell *)
Lemma K_stay f u e ys : (forall u e ys, 0 <= f u e ys) -> (1 - B / exp e) * f u e ys <= K f u e ys.
Proof.
  intros Hf. unfold K. rewrite <- (E_const ((1 - B / exp e) * f u e ys) (q ys)) by apply Hq. apply E_le; [apply Hq|]. intros ys' Hy. apply Hql in Hy.
  destruct (L_bounded ys' Hy) as (d & Hd & Hdl & Hs). rewrite !(Hdl k0). rewrite <- (E_const ((1 - B / exp e) * f u e ys) d) by exact Hd.
  apply E_le; [apply Hd|]. intros c Hin. specialize (Hs c Hin). pose proof (acc_le1 (snd c - e)) as Ha.
  pose proof (Rmult_le_pos (Rmin 1 (exp (snd c - e))) (f (nth which (fst c) udef) (snd c) ys') ltac:(lra) (Hf _ _ _)).
  assert (H3 : Rmin 1 (exp (snd c - e)) <= B / exp e).
  { eapply Rle_trans; [apply Rmin_r|]. unfold Rminus, Rdiv. rewrite exp_plus, exp_Ropp. apply Rmult_le_compat_r; [left; apply Rinv_0_lt_compat, exp_pos|exact Hs]. }
  pose proof (Rmult_le_compat_r _ _ _ (Hf u e ys) (Rplus_le_compat_l 1 _ _ (Ropp_le_contravar _ _ H3))). lra.
Qed.
Lemma K_nonneg f u e ys : (forall u e ys, 0 <= f u e ys) -> 0 <= K f u e ys.
Proof.
  intros Hf. unfold K. apply E_nonneg; [apply Hq|]. intros ys' _.
  destruct (L_fin udef vdef _ _ _ M lg Hfo m0 Hm0 init_sampler Hinit Hres n ts Hn k0 ys') as (dd & [Hd _] & Hdl & _). rewrite (Hdl k0).
  apply E_nonneg; [exact Hd|]. intros c _. pose proof (acc_le1 (snd c - e)) as Ha. pose proof (Rmult_le_pos (Rmin 1 (exp (snd c - e))) (f (nth which (fst c) udef) (snd c) ys') ltac:(lra) (Hf _ _ _)).
  pose proof (Rmult_le_pos (1 - Rmin 1 (exp (snd c - e))) (f u e ys) ltac:(lra) (Hf _ _ _)). lra.
Qed.
Lemma Kn_nonneg f m : (forall u e ys, 0 <= f u e ys) -> forall u e ys, 0 <= Kn m f u e ys.
Proof. intros Hf. induction m as [|m IH]; [exact Hf|]. intros u e ys. apply K_nonneg. exact IH. Qed.
Theorem pmcmc_chain_stuck j k m u e ys f : B <= exp e -> (forall u e ys, 0 <= f u e ys) ->
  (1 - B / exp e) ^ m * f u e ys <= law (pmcmc_chain j k m u e ys) (fun s => f (fst (fst s)) (snd (fst s)) (snd s)).
Proof.
  intros He Hf. rewrite chain_law. induction m as [|m IH]; [cbn; lra|]. cbn [Kn pow].
  eapply Rle_trans; [|apply K_stay; now apply Kn_nonneg]. rewrite Rmult_assoc. apply Rmult_le_compat_l; [|exact IH].
  assert (B / exp e <= 1); [|lra]. apply (Rmult_le_reg_r (exp e)); [apply exp_pos|]. unfold Rdiv. rewrite Rmult_assoc, Rinv_l, Rmult_1_r, Rmult_1_l; [exact He|]. pose proof (exp_pos e). lra.
Qed.
End ergodic.

(** ** The state gp_pmcmc.py starts from *)
Section start.
Context {U V : Type} (udef : U) (vdef : V).
Variable trans : list U -> V -> R -> key -> prog (list U).
Variable meas : V -> list U -> V -> R -> list R.
Variable res : list R -> key -> prog (list nat).
Variable lg : V -> V -> R -> U -> R.
Hypothesis Hlik : forall v us vp t, meas v us vp t = map (lg v vp t) us.
Hypothesis Hrl : forall w k, w <> [] -> safe (res w k) (fun A => length A = length w).
Variable ref : key -> V -> nat -> prog (list U).
Hypothesis ref_len : forall k v n, safe (ref k v n) (fun l => length l = n).
Variable G : R.
Hypothesis HG : forall v vp t u, exp (lg v vp t u) <= G.
Variable n : nat.
Hypothesis Hn : (0 < n)%nat.

Lemma mean_weight_le us v vp t : length us = n -> Rsum (map exp (map (lg v vp t) us)) <= INR n * G /\ 0 < Rsum (map exp (map (lg v vp t) us)).
Proof.
  intros Hl. split.
  - rewrite <- Hl. clear -HG. induction us as [|u us IH]; [cbn; lra|]. cbn [map Rsum length]. rewrite S_INR. specialize (HG v vp t u). lra.
  - destruct us as [|u us]; [cbn in Hl; lia|]. cbn [map Rsum]. pose proof (exp_pos (lg v vp t u)).
    assert (0 <= Rsum (map exp (map (lg v vp t) us))); [|lra]. apply Rsum_nonneg, Forall_forall. intros x Hx. apply in_map_iff in Hx. destruct Hx as (y & <- & _). left. apply exp_pos.
Qed.

Lemma bf_value_bounded inputs : forall k i us e, length us = n ->
  safe (bf_scan udef trans meas res n k i inputs (us, e)) (fun r => exp (- snd (fst r)) <= G ^ length inputs * exp (- e)).
Proof.
  induction inputs as [|[[v vp] t] inputs IH]; intros k i us e Hl; cbn [bf_scan length pow]; [apply safe_ret; cbn [fst snd]; lra|].
  destruct (mean_weight_le us v vp t Hl) as [Hle Hpos].
  assert (HnR : 0 < INR n) by (apply lt_0_INR; lia).
  assert (HGp : 0 < G). { destruct us as [|u us]; [cbn in Hl; lia|]. pose proof (HG v vp t u). pose proof (exp_pos (lg v vp t u)). lra. }
  apply safe_bind with (P := fun r => length (fst r) = n /\ exp (- snd r) <= G * exp (- e)).
  - unfold bf_body. apply safe_bind with (P := fun _ => True); [intros ? ? ?; exact I|]. intros l _. eapply safe_bind; [apply Hrl|].
    + rewrite Hlik. destruct us; [cbn in Hl; lia|discriminate].
    + intros A HA. apply safe_ret. cbn [fst snd]. split.
      * unfold gather. rewrite map_length, HA, !map_length, Hlik, map_length. exact Hl.
      * rewrite Hlik. replace (- (e - (logsumexp (map (lg v vp t) us) - ln (INR n)))) with (- ln (INR n) + logsumexp (map (lg v vp t) us) + - e) by ring.
        rewrite !exp_plus, (exp_Ropp (ln (INR n))), exp_ln by assumption. unfold logsumexp. rewrite exp_ln by assumption.
        apply Rmult_le_compat_r; [left; apply exp_pos|]. apply (Rmult_le_reg_l (INR n)); [assumption|]. rewrite <- Rmult_assoc, Rinv_r, Rmult_1_l by lra. exact Hle.
  - intros [us' e'] [Hl' He']. cbn [fst snd] in *. eapply safe_bind; [apply IH; exact Hl'|]. intros [cT out] H. apply safe_ret. cbn [fst snd] in *.
    eapply Rle_trans; [exact H|]. replace (G * G ^ length inputs * exp (- e)) with (G ^ length inputs * (G * exp (- e))) by ring.
    apply Rmult_le_compat_l; [left; now apply pow_lt|exact He'].
Qed.

(** the value of [log_ell] handed to the first kernel *)
Lemma init_value_bounded (fwd_ys : key -> prog (list V)) ts k : (forall k, safe (fwd_ys k) (fun ys => length ys = length ts)) ->
  safe (pmcmc_init udef vdef trans meas res fwd_ys ref k ts n) (fun s => exp (- snd (fst s)) <= B ts G).
Proof.
  intros Hfl. unfold pmcmc_init. eapply safe_bind; [apply Hfl|]. intros path_y Hp.
  apply safe_bind with (P := fun r => exp (- snd r) <= B ts G).
  - unfold bootstrap_filter. eapply safe_bind; [apply ref_len|]. intros us Hl. eapply safe_bind; [apply bf_value_bounded; exact Hl|].
    intros [[us' e] out] H. apply safe_ret. cbn [fst snd] in *. rewrite Ropp_0, exp_0, Rmult_1_r, filter_inputs_step_data, (step_data_len n Hn) in H by now rewrite rev_length. exact H.
  - intros [x0s e] He. apply safe_bind with (P := fun _ => True); [intros ? ? ?; exact I|]. intros ys _. apply safe_ret. exact He.
Qed.
End start.

Section started.
Context {U V : Type} (udef : U) (vdef : V).
Variable trans : list U -> V -> R -> key -> prog (list U).
Variable meas : V -> list U -> V -> R -> list R.
Variable res : list R -> key -> prog (list nat).
Variable M : V -> R -> U -> dist U.
Variable lg : V -> V -> R -> U -> R.
Hypothesis Hfo : filter_ok trans meas res M lg.
Hypothesis Hrl : forall w k, w <> [] -> safe (res w k) (fun A => length A = length w).
Variable m0 : V -> dist U.
Hypothesis Hm0 : forall v, is_prob (m0 v).
Variable ref : key -> V -> nat -> prog (list U).
Hypothesis Hinit : forall k v n, denotes (ref k v n) (dseq (repeat (m0 v) n)).
Hypothesis ref_len : forall k v n, safe (ref k v n) (fun l => length l = n).
Hypothesis Hres : forall w, weights_ok w -> has_laws (valid_indices (length w)) (res w).
Variable q : list V -> dist (list V).
Variable propose : key -> list V -> prog (list V).
Hypothesis Hq : forall ys, is_prob (q ys).
Hypothesis Hprop : forall k ys, denotes (propose k ys) (q ys).
Variables (n which : nat) (ts : list R).
Hypothesis Hn : (0 < n)%nat.
Variable G : R.
Hypothesis HG : forall v vp t u, exp (lg v vp t u) <= G.
Hypothesis HG1 : G <= 1.
Hypothesis Hql : forall ys ys', In ys' (map snd (q ys)) -> length ys' = length ts.

Theorem script_start_stuck (fwd_ys : key -> prog (list V)) k : (forall k, safe (fwd_ys k) (fun ys => length ys = length ts)) ->
  safe (pmcmc_init udef vdef trans meas res fwd_ys ref k ts n)
    (fun s => forall j k' m f, (forall u e ys, 0 <= f u e ys) ->
       (1 - G ^ (2 * (length ts - 1))) ^ m * f (fst (fst s)) (snd (fst s)) (snd s) <=
       law (pmcmc_chain udef vdef trans meas res ref propose n which ts j k' m (fst (fst s)) (snd (fst s)) (snd s))
         (fun r => f (fst (fst r)) (snd (fst r)) (snd r))).
Proof.
  intros Hfl. eapply safe_weaken; [|apply (init_value_bounded udef vdef trans meas res lg (fo_lik _ _ _ _ _ Hfo) Hrl ref ref_len G HG n Hn fwd_ys ts k Hfl)].
  intros [[u e] ys] He j k' m f Hf. cbn [fst snd] in *.
  assert (HB : 0 < B ts G) by (apply (B_pos vdef lg m0 Hm0 ts G HG)).
  assert (HG0 : 0 < G) by (apply (G_pos vdef lg m0 Hm0 G HG)).
  assert (HB1 : B ts G <= 1). { unfold B. rewrite <- (pow1 (length ts - 1)). apply pow_incr. lra. }
  assert (He' : B ts G / exp e <= B ts G * B ts G).
  { unfold Rdiv. rewrite <- exp_Ropp. apply Rmult_le_compat_l; [lra|exact He]. }
  assert (HBB : B ts G * B ts G <= 1) by (replace 1 with (1 * 1) by ring; apply Rmult_le_compat; lra).
  eapply Rle_trans; [|apply (pmcmc_chain_stuck udef vdef trans meas res M lg Hfo m0 Hm0 ref Hinit Hres q propose Hq Hprop n which ts Hn [] G HG Hql j k' m u e ys f); [|exact Hf]].
  - apply Rmult_le_compat_r; [apply Hf|]. apply pow_incr.
    replace (G ^ (2 * (length ts - 1))) with (B ts G * B ts G) by (unfold B; rewrite <- pow_add; f_equal; lia). lra.
  - apply (Rmult_le_reg_r (/ exp e)); [apply Rinv_0_lt_compat, exp_pos|]. rewrite Rinv_r by (pose proof (exp_pos e); lra). fold (B ts G / exp e). lra.
Qed.
End started.

Theorem image_start_stuck {U V} (udef : U) (vdef : V) trans meas res M lg : filter_ok trans meas res M lg ->
  forall m0, (forall v, is_prob (m0 v)) -> forall ref : key -> V -> nat -> prog (list U), (forall k v n, denotes (ref k v n) (dseq (repeat (m0 v) n))) ->
  (forall w, weights_ok w -> has_laws (valid_indices (length w)) (res w)) ->
  forall q propose, (forall ys, is_prob (q ys)) -> (forall k ys, denotes (propose k ys) (q ys)) ->
  forall n which ts, (0 < n)%nat -> forall G, (forall v vp t u, exp (lg v vp t u) <= G) -> G <= 1 ->
  (forall ys ys', In ys' (map snd (q ys)) -> length ys' = length ts) ->
  forall (fwd_ys : key -> prog (list V)) k,
  safe (img_init udef fwd_ys k)
    (fun s => forall j k' m f, (forall u e ys, 0 <= f u e ys) ->
       (1 - G ^ (length ts - 1)) ^ m * f (fst (fst s)) (snd (fst s)) (snd s) <=
       law (pmcmc_chain udef vdef trans meas res ref propose n which ts j k' m (fst (fst s)) (snd (fst s)) (snd s))
         (fun r => f (fst (fst r)) (snd (fst r)) (snd r))).
Proof.
  intros Hfo m0 Hm0 ref Hinit Hres q propose Hq Hprop n which ts Hn G HG HG1 Hql fwd_ys k.
  unfold img_init. apply safe_bind with (P := fun _ => True); [intros ? ? ?; exact I|]. intros ys _. apply safe_ret. intros j k' m f Hf. cbn [fst snd].
  pose proof (G_pos vdef lg m0 Hm0 G HG) as HG0.
  pose proof (pmcmc_chain_stuck udef vdef trans meas res M lg Hfo m0 Hm0 ref Hinit Hres q propose Hq Hprop n which ts Hn [] G HG Hql j k' m udef 0 ys f) as H.
  rewrite exp_0 in H. unfold B in H. replace (G ^ (length ts - 1) / 1) with (G ^ (length ts - 1)) in H by field. apply H; [|exact Hf].
  rewrite <- (pow1 (length ts - 1)). apply pow_incr. lra.
Qed.
