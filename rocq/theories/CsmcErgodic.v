(** The chain of tracing kernels forgets its start geometrically fast. *)
From Coquelicot Require Import Coquelicot.
From Coq Require Import Permutation FunctionalExtensionality.
From Verif Require Export CsmcPath.
From Verif Require Import ResVariance FilterLimit.
Open Scope R_scope.

Section ergodic.
Context {U V : Type} (udef : U) (vdef : V).
Variable init_sampler : key -> nat -> prog (list U).
Variable init_likelihood_logpdf : V -> list U -> V -> list R.
Variable transition_sampler : list U -> V -> R -> key -> prog (list U).
Variable transition_logpdf : U -> list U -> V -> R -> list R.
Variable likelihood_logpdf : V -> list U -> V -> R -> list R.
Variable cond_resampling : key -> list R -> nat -> nat -> bool -> prog (list nat).
Variable m0 : dist U.
Variable lG0 : V -> V -> U -> R.
Variable M : V -> R -> U -> dist U.
Variable lg : V -> V -> R -> U -> R.
Variable r : list R -> dist (list nat).
Hypothesis Hmo : model_ok init_sampler init_likelihood_logpdf transition_sampler likelihood_logpdf cond_resampling m0 lG0 M lg r.
Hypothesis Hsh : shapes_ok init_sampler init_likelihood_logpdf transition_sampler transition_logpdf likelihood_logpdf cond_resampling.
Variable Phi : forall X, R * X -> list (R * X) -> (X -> list X -> R) -> R.
Variable kappa : nat -> R.
Hypothesis HPhi : phi_law cond_resampling Phi.
Hypothesis Hx : exch_scheme Phi kappa.

Notation kernel := (csmc_kernel udef vdef init_sampler init_likelihood_logpdf transition_sampler transition_logpdf likelihood_logpdf cond_resampling).
Notation target vs ts := (smoothing vdef m0 lG0 M lg vs ts).

(** the loop around the kernel (tests/test_csmc.py, experiments): a fresh key per iteration, path and indices handed on *)
Fixpoint csmc_chain (k : key) (i n : nat) (us : list U) (bs : list nat) (vs : list V) (ts : list R) (nsamples : nat) : prog (list U * list nat) :=
  match n with
  | O => Ret (us, bs)
  | S n' => res <- kernel (split_key k i) us bs vs ts nsamples false ;; csmc_chain k (S i) n' (fst res) (snd res) vs ts nsamples
  end.

Variable vs : list V.
Variable ts : list R.
Variable nsamples : nat.
Hypothesis Hvs : vs <> [].
Hypothesis Hts : length ts = length vs.
Local Notation N := (nsamples + 1)%nat.
Lemma HN : (0 < N)%nat.
Proof. lia. Qed.
Lemma HN1 : (N - 1)%nat = nsamples.
Proof. lia. Qed.

Definition ref_ok (us : list U) (bs : list nat) : Prop := length us = length vs /\ length bs = length vs /\ Forall (fun b => (b < nsamples + 1)%nat) bs.

Lemma kernel_shape k us bs : ref_ok us bs -> safe (kernel k us bs vs ts nsamples false) (fun res => ref_ok (fst res) (snd res)).
Proof.
  intros (H1 & H2 & H3) keys [path idx] Hr. assert (Hne : us <> []) by (destruct us, vs; cbn in *; easy).
  destruct (csmc_kernel_path udef vdef _ _ _ _ _ _ Hsh k us bs vs ts nsamples false keys _ Hne ltac:(lia) ltac:(lia) ltac:(lia) H3 Hr)
    as (tr1 & As & lws & uss & Hf & (A1 & A2 & A3 & A4 & A5 & A6 & _) & (P1 & P2 & P3 & P4 & P5)).
  assert (Hl : length uss = length us) by (destruct us; [easy|simpl in *; lia]).
  rewrite Hl in *. cbn [fst snd] in *. split; [lia|]. split; [lia|].
  apply Forall_forall. intros b Hb. apply (In_nth _ _ 0%nat) in Hb. destruct Hb as (j & Hj & <-).
  assert (Hj' : (j < length us)%nat) by lia. specialize (P3 j Hj').
  rewrite Forall_forall in A6. rewrite (A6 (nth j uss [])) in P3; [exact P3|]. apply nth_In. lia.
Qed.

(** the Markov operator on functions of the path *)
Definition P (f : list U -> R) (us : list U) : R := kernel_value udef vdef m0 lG0 M lg N Phi (traced f) vs ts (hd udef us) (tl us).

Lemma kernel_P k us bs f : ref_ok us bs -> law (kernel k us bs vs ts nsamples false) (fun res => f (fst res)) = P f us.
Proof.
  intros (H1 & H2 & H3). assert (Hne : us <> []) by (destruct us, vs; cbn in *; easy).
  pose proof (kernel_path_law udef vdef _ _ _ transition_logpdf _ _ m0 lG0 M lg r Hmo N HN Hsh Phi kappa HPhi Hx k vs ts us bs f Hne) as H.
  rewrite HN1 in H. apply H; try lia. exact H3.
Qed.

(** the law of the returned path does not depend on the indices of the reference *)
Theorem path_law_forgets_indices k k' us bs bs' f : ref_ok us bs -> ref_ok us bs' ->
  law (kernel k us bs vs ts nsamples false) (fun res => f (fst res)) = law (kernel k' us bs' vs ts nsamples false) (fun res => f (fst res)).
Proof. intros H H'. now rewrite !kernel_P. Qed.

Fixpoint Pn (n : nat) (f : list U -> R) : list U -> R := match n with O => f | S n' => P (Pn n' f) end.

Lemma chain_law f n : forall k i us bs, ref_ok us bs ->
  law (csmc_chain k i n us bs vs ts nsamples) (fun res => f (fst res)) = Pn n f us.
Proof.
  induction n as [|n IH]; intros k i us bs Hr; [reflexivity|]. cbn [csmc_chain Pn]. rewrite law_bind.
  rewrite <- (kernel_P (split_key k i) us bs (Pn n f) Hr).
  apply (law_ext_safe _ (fun res => ref_ok (fst res) (snd res))); [now apply kernel_shape|]. intros res Hres. now apply IH.
Qed.

Lemma exists_bs us : length us = length vs -> ref_ok us (repeat 0%nat (length vs)).
Proof. intros H. split; [assumption|]. split; [apply repeat_length|]. apply Forall_repeat. lia. Qed.

Lemma P_agree f g us : length us = length vs -> (forall p, length p = length vs -> f p = g p) -> P f us = P g us.
Proof.
  intros Hu H. rewrite <- !(kernel_P [] us _ _ (exists_bs us Hu)).
  apply (law_ext_safe _ (fun res => ref_ok (fst res) (snd res))); [apply kernel_shape, (exists_bs us Hu)|]. intros res (Hres & _). now apply H.
Qed.
Lemma P_total us : length us = length vs -> P (fun _ => 1) us = 1.
Proof.
  intros Hu. destruct (exists_bs us Hu) as (H1 & H2 & H3). rewrite <- (kernel_P [] us _ (fun _ => 1) (exists_bs us Hu)).
  pose proof (kernel_total udef vdef _ _ _ transition_logpdf _ _ m0 lG0 M lg r Hmo N HN Hsh [] us (repeat 0%nat (length vs)) vs ts) as H.
  rewrite HN1 in H. apply H; try lia; try exact H3. destruct us, vs; cbn in *; easy.
Qed.
Lemma smoothing_length p : In p (map snd (target vs ts)) -> length p = length vs.
Proof.
  unfold smoothing, fk_measure. intros H. apply in_map_iff in H. destruct H as ([w q] & <- & H). cbn [snd].
  unfold dbind in H. apply in_flat_map in H. destruct H as ([w0 u0] & _ & H). apply in_map_iff in H. destruct H as ([w1 q1] & E1 & H).
  cbn [fst snd] in *. injection E1 as _ <-. unfold dscale in H. apply in_map_iff in H. destruct H as ([w2 q2] & E2 & H). cbn [fst snd] in *.
  injection E2 as _ <-. unfold dmap in H. apply in_map_iff in H. destruct H as ([w3 q3] & E3 & H). cbn [fst snd] in *. injection E3 as _ <-.
  apply (in_map snd) in H. apply fk_path_length in H. cbn [snd length] in *. rewrite H. unfold fk_of. rewrite map_length, length_step_data by assumption.
  destruct vs; [easy|cbn; lia].
Qed.
Lemma fk_path_nonneg sd : forall u, Forall (fun pa => 0 <= fst pa) (fk_path (fk_of M lg sd) u).
Proof.
  induction sd as [|[[v vp] t] sd IH]; intros u; [repeat constructor; cbn; lra|]. cbn [fk_of map fk_path]. unfold dscale.
  apply Forall_map. unfold dbind. apply Forall_flat_map. eapply Forall_impl; [|apply (mo_M _ _ _ _ _ _ _ _ _ _ Hmo)].
  intros [w u'] Hw. cbn [fst snd] in *. apply Forall_map. unfold dmap. apply Forall_map. eapply Forall_impl; [|apply IH].
  intros [w' p] Hw'. cbn [fst snd] in *. apply Rmult_le_pos; [left; apply exp_pos|]. now apply Rmult_le_pos.
Qed.
Lemma smoothing_nonneg : Forall (fun pa => 0 <= fst pa) (target vs ts).
Proof.
  unfold smoothing, fk_measure, dbind. apply Forall_flat_map. eapply Forall_impl; [|apply (mo_m0 _ _ _ _ _ _ _ _ _ _ Hmo)].
  intros [w u] Hw. cbn [fst snd] in *. apply Forall_map. unfold dscale, dmap. apply Forall_map, Forall_map. eapply Forall_impl; [|apply fk_path_nonneg].
  intros [w' p] Hw'. cbn [fst snd] in *. apply Rmult_le_pos; [assumption|]. apply Rmult_le_pos; [left; apply exp_pos|assumption].
Qed.
Lemma target_agree f g : (forall p, length p = length vs -> f p = g p) -> E (target vs ts) f = E (target vs ts) g.
Proof. intros H. apply E_ext. intros p Hp. apply H. now apply smoothing_length. Qed.

Lemma P_invariant f : E (target vs ts) (P f) = E (target vs ts) f.
Proof.
  pose proof (csmc_trace_invariant udef vdef _ _ _ transition_logpdf _ _ m0 lG0 M lg r Hmo Hsh [] vs ts nsamples (fun res => f (fst res)) Hvs Hts) as H.
  assert (Hui : is_prob (unif_indices (nsamples + 1) (length vs))).
  { apply is_prob_dseq, Forall_repeat, is_prob_dunif. lia. }
  transitivity (E (target vs ts) (fun us => E (unif_indices (nsamples + 1) (length vs)) (fun bs => law (kernel [] us bs vs ts nsamples false) (fun res => f (fst res))))).
  - apply E_ext. intros us Hus. apply smoothing_length in Hus.
    rewrite (E_ext _ _ (fun _ => P f us)); [symmetry; now apply E_const|]. intros bs Hbs. apply kernel_P. split; [assumption|].
    apply dseq_repeat_support in Hbs. destruct Hbs as [Hb1 Hb2]. split; [assumption|]. eapply Forall_impl; [|exact Hb2].
    intros b Hb. now apply dunif_support in Hb.
  - rewrite H. apply E_ext'. intros us. cbn [fst]. now apply E_const.
Qed.

Variable G G0 : R.
Hypothesis HG : forall v vp t u, exp (lg v vp t u) <= G.
Hypothesis HG0 : forall v v' u, exp (lG0 v v' u) <= G0.
Hypothesis Hns : (0 < nsamples)%nat.

Definition norm_const : R := E (target vs ts) (fun _ => 1).
Definition posterior_mean (f : list U -> R) : R := E (target vs ts) f / norm_const.
Definition delta : R := minor N kappa G G0 (length vs - 1) * norm_const.

Lemma fkv_pos sd : forall p, 0 < fkv udef M lg (fun _ => 1) sd p.
Proof.
  induction sd as [|[[v vp] t] sd IH]; intros p; cbn [fkv]; [lra|]. apply Rmult_lt_0_compat; [apply exp_pos|].
  apply E_pos; [apply (mo_M _ _ _ _ _ _ _ _ _ _ Hmo)|]. intros; apply IH.
Qed.
Lemma norm_const_pos : 0 < norm_const.
Proof.
  unfold norm_const. rewrite (E_smoothing_fkv udef). apply E_pos; [apply (mo_m0 _ _ _ _ _ _ _ _ _ _ Hmo)|].
  intros u. apply Rmult_lt_0_compat; [apply exp_pos|apply fkv_pos].
Qed.
Lemma minor_pos K : 0 < minor N kappa G G0 K.
Proof.
  unfold minor. assert (0 < G0) by (eapply Rlt_le_trans; [apply exp_pos|apply (HG0 vdef vdef udef)]).
  assert (0 < G) by (eapply Rlt_le_trans; [apply exp_pos|apply (HG vdef vdef 0 udef)]).
  assert (0 < INR N) by (apply lt_0_INR; lia). assert (0 < INR (N - 1)) by (apply lt_0_INR; lia).
  apply Rmult_lt_0_compat; [apply Rdiv_lt_0_compat; [assumption|now apply Rmult_lt_0_compat]|].
  apply pow_lt. apply Rdiv_lt_0_compat; [apply (xs_kappa _ _ Hx); lia|now apply Rmult_lt_0_compat].
Qed.

Lemma P_minor f us : length us = length vs -> (forall p, length p = length vs -> 0 <= f p) ->
  delta * posterior_mean f <= P f us.
Proof.
  intros Hu Hf. set (f' := fun p => if Nat.eqb (length p) (length vs) then f p else 0).
  assert (Hff : forall p, length p = length vs -> f p = f' p) by (intros p Hp; unfold f'; now rewrite Hp, Nat.eqb_refl).
  rewrite (P_agree f f' us Hu Hff).
  pose proof norm_const_pos as HZ. unfold posterior_mean. rewrite (target_agree f f' Hff).
  replace (delta * (E (target vs ts) f' / norm_const)) with (minor N kappa G G0 (length vs - 1) * E (target vs ts) f') by (unfold delta; field; lra).
  assert (Htl : length (tl us) = length (step_data vs ts)).
  { rewrite length_step_data by assumption. destruct us; cbn in *; lia. }
  replace (length vs - 1)%nat with (length (tl us)) by (rewrite Htl, length_step_data by assumption; reflexivity).
  assert (Hf' : forall p, 0 <= f' p) by (intros p; unfold f'; destruct (Nat.eqb_spec (length p) (length vs)); [now apply Hf|lra]).
  apply (kernel_value_ge udef vdef _ _ _ _ _ m0 lG0 M lg r Hmo N HN Phi kappa Hx G HG (fun _ => True)); auto; [|lia].
  intros ref rest _ Hw _. now apply traced_ge.
Qed.
Lemma posterior_const c : posterior_mean (fun _ => c) = c.
Proof.
  pose proof norm_const_pos. unfold posterior_mean. rewrite (E_ext' _ _ (fun _ => c * 1)) by (intros; ring). rewrite E_mult_l. fold norm_const. field. lra.
Qed.
Lemma delta_bounds : 0 < delta <= 1.
Proof.
  split; [apply Rmult_lt_0_compat; [apply minor_pos|apply norm_const_pos]|].
  assert (exists us : list U, length us = length vs) as [us Hu] by (exists (repeat udef (length vs)); apply repeat_length).
  pose proof (P_minor (fun _ => 1) us Hu ltac:(intros; lra)) as H. rewrite P_total, posterior_const in H by assumption. lra.
Qed.
Lemma P_plus f g us : P (fun p => f p + g p) us = P f us + P g us.
Proof. apply (kernel_value_plus udef vdef m0 lG0 M lg N Phi kappa Hx). intros. apply E_plus. Qed.

Lemma P_scal c f us : P (fun p => c * f p) us = c * P f us.
Proof. apply (kernel_value_scal udef vdef m0 lG0 M lg N Phi kappa Hx). intros. apply E_mult_l. Qed.
Lemma P_affine c d f us : length us = length vs -> P (fun p => c * f p + d) us = c * P f us + d.
Proof.
  intros Hu. rewrite P_plus, P_scal. f_equal. rewrite (P_agree (fun _ => d) (fun _ => d * 1) us Hu) by (intros; ring).
  rewrite P_scal, P_total by assumption. ring.
Qed.
Lemma posterior_affine c d f : posterior_mean (fun p => c * f p + d) = c * posterior_mean f + d.
Proof.
  transitivity (c * posterior_mean f + posterior_mean (fun _ => d)); [|now rewrite posterior_const].
  pose proof norm_const_pos. unfold posterior_mean. rewrite E_plus, E_mult_l. field. lra.
Qed.

Lemma P_contract f a us : length us = length vs -> (forall p, length p = length vs -> a <= f p) ->
  posterior_mean f - (1 - delta) * (posterior_mean f - a) <= P f us.
Proof.
  intros Hu Hf. pose proof (P_minor (fun p => 1 * f p + (- a)) us Hu) as H. rewrite P_affine, posterior_affine in H by assumption.
  assert (H' : forall p, length p = length vs -> 0 <= 1 * f p + - a) by (intros p Hp; specialize (Hf p Hp); lra). specialize (H H'). lra.
Qed.

Lemma Pn_lower n : forall f a, (forall p, length p = length vs -> a <= f p) -> forall us, length us = length vs ->
  posterior_mean f - (1 - delta) ^ n * (posterior_mean f - a) <= Pn n f us.
Proof.
  induction n as [|n IH]; intros f a Hf us Hu; [cbn [pow Pn]; specialize (Hf us Hu); lra|].
  assert (Hpn : forall g n us, Pn (S n) g us = Pn n (P g) us).
  { intros g m. induction m as [|m IHm]; intros vs0; [reflexivity|]. change (P (Pn (S m) g) vs0 = P (Pn m (P g)) vs0).
    f_equal. apply functional_extensionality. exact IHm. }
  rewrite Hpn. specialize (IH (P f) (posterior_mean f - (1 - delta) * (posterior_mean f - a)) (fun p Hp => P_contract f a p Hp Hf) us Hu).
  assert (Hi : posterior_mean (P f) = posterior_mean f) by (unfold posterior_mean; now rewrite P_invariant).
  rewrite Hi in IH. cbn [pow]. lra.
Qed.

Lemma Pn_affine c d f n us : length us = length vs -> Pn n (fun p => c * f p + d) us = c * Pn n f us + d.
Proof.
  revert us. induction n as [|n IH]; intros us Hu; [reflexivity|]. cbn [Pn]. rewrite <- P_affine by assumption.
  apply P_agree; [assumption|]. exact IH.
Qed.

Theorem chain_converges k n us bs f a b : ref_ok us bs -> (forall p, length p = length vs -> a <= f p <= b) ->
  Rabs (law (csmc_chain k 0 n us bs vs ts nsamples) (fun res => f (fst res)) - posterior_mean f) <= (1 - delta) ^ n * (b - a).
Proof.
  intros Hr Hf. rewrite (chain_law f n k 0 us bs Hr). destruct Hr as (Hu & _).
  pose proof (Pn_lower n f a (fun p Hp => proj1 (Hf p Hp)) us Hu) as H1.
  pose proof (Pn_lower n (fun p => -1 * f p + 0) (- b) ltac:(intros p Hp; specialize (Hf p Hp); lra) us Hu) as H2.
  rewrite Pn_affine, posterior_affine in H2 by assumption.
  assert (Hm : a <= posterior_mean f <= b).
  { pose proof norm_const_pos as HZ. split; apply Rmult_le_reg_r with norm_const; try assumption; unfold posterior_mean, Rdiv;
    rewrite Rmult_assoc, Rinv_l, Rmult_1_r by lra; unfold norm_const; rewrite <- E_mult_l; apply E_le.
    - apply smoothing_nonneg.
    - intros p Hp. apply smoothing_length in Hp. specialize (Hf p Hp). lra.
    - apply smoothing_nonneg.
    - intros p Hp. apply smoothing_length in Hp. specialize (Hf p Hp). lra. }
  assert (Hd : 0 <= (1 - delta) ^ n) by (apply pow_le; pose proof delta_bounds; lra).
  assert (0 <= (1 - delta) ^ n * (b - posterior_mean f)) by (apply Rmult_le_pos; lra).
  assert (0 <= (1 - delta) ^ n * (posterior_mean f - a)) by (apply Rmult_le_pos; lra).
  apply Rabs_le. split; nra.
Qed.
End ergodic.
