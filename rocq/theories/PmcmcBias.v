(** The particle kept by pmcmc_kernel is biased under stratified and systematic resampling. *)
From Coquelicot Require Import Coquelicot.
From Verif Require Export PmcmcSlot.
Open Scope R_scope.

(** law of the first ancestor *)
Definition first_slot (w : list R) (h : nat -> R) : R := RInt (fun u => inv_cdf_fun w h ((0 + u) / INR (length w))) 0 1.

Lemma systematic_first w k h : w <> [] -> law (systematic w k) (fun A => h (nth 0 A 0%nat)) = first_slot w h.
Proof.
  intros Hne. unfold systematic. cbn [law]. rewrite uint1. apply RInt_ext. intros u _. cbn [nth].
  unfold systematic_of, inverse_cdf_indices, strat_points. rewrite repeat_length. destruct w as [|x w]; [easy|]. reflexivity.
Qed.

Lemma stratified_first w k h : w <> [] -> law (stratified w k) (fun A => h (nth 0 A 0%nat)) = first_slot w h.
Proof.
  intros Hne. unfold stratified. cbn [law]. destruct w as [|x w]; [easy|]. cbn [length uint].
  apply RInt_ext. intros u _. rewrite (uint_ext _ _ (fun _ => inv_cdf_fun (x :: w) h ((0 + u) / INR (length (x :: w))))).
  - apply uint_const.
  - intros us Hus. unfold stratified_of, inverse_cdf_indices, strat_points, inv_cdf_fun. cbn [length seq combine map fst snd nth INR].
    rewrite Hus. reflexivity.
Qed.

Lemma first_slot_heavy x w h : 1 <= INR (S (length w)) * x -> first_slot (x :: w) h = h 0%nat.
Proof.
  intros Hx. unfold first_slot. assert (Hn : 0 < INR (S (length w))) by (apply lt_0_INR; lia).
  apply is_RInt_unique. apply (is_RInt_ext (fun _ => h 0%nat)).
  - intros u Hu. rewrite Rmin_left, Rmax_right in Hu by lra. unfold inv_cdf_fun, cumsum. cbn [length cumsum_from searchsorted].
    destruct (Rlt_dec (0 + x) ((0 + u) / INR (S (length w)))) as [H|H]; [|reflexivity].
    exfalso. apply (Rmult_lt_compat_l (INR (S (length w)))) in H; [|assumption].
    replace (INR (S (length w)) * ((0 + u) / INR (S (length w)))) with u in H by (field; lra). lra.
  - pose proof (is_RInt_const_R 0 1 (h 0%nat)) as H. now replace ((1 - 0) * h 0%nat) with (h 0%nat) in H by ring.
Qed.

Lemma first_slot_light x y w h : 0 <= x -> INR (S (S (length w))) * x <= 1 -> 1 <= INR (S (S (length w))) * (x + y) ->
  first_slot (x :: y :: w) h = INR (S (S (length w))) * x * h 0%nat + (1 - INR (S (S (length w))) * x) * h 1%nat.
Proof.
  intros H0 Hx Hy. unfold first_slot. cbn [length]. set (n := INR (S (S (length w)))) in *.
  assert (Hn : 0 < n) by (apply lt_0_INR; lia).
  apply is_RInt_unique. apply (is_RInt_Chasles_R _ 0 (n * x) 1).
  - apply (is_RInt_ext (fun _ => h 0%nat)).
    + intros u Hu. rewrite Rmin_left, Rmax_right in Hu by nra. unfold inv_cdf_fun, cumsum. cbn [length cumsum_from searchsorted].
      destruct (Rlt_dec (0 + x) ((0 + u) / n)) as [H|H]; [|reflexivity].
      exfalso. apply (Rmult_lt_compat_l n) in H; [|assumption]. replace (n * ((0 + u) / n)) with u in H by (field; lra). lra.
    + replace (n * x * h 0%nat) with ((n * x - 0) * h 0%nat) by ring. apply is_RInt_const_R.
  - apply (is_RInt_ext (fun _ => h 1%nat)); [|apply is_RInt_const_R].
    intros u Hu. rewrite Rmin_left, Rmax_right in Hu by nra. unfold inv_cdf_fun, cumsum. cbn [length cumsum_from searchsorted].
    destruct (Rlt_dec (0 + x) ((0 + u) / n)) as [H|H].
    + destruct (Rlt_dec (0 + x + y) ((0 + u) / n)) as [G|G]; [|reflexivity].
      exfalso. apply (Rmult_lt_compat_l n) in G; [|assumption]. replace (n * ((0 + u) / n)) with u in G by (field; lra). lra.
    + exfalso. apply H. apply (Rmult_lt_reg_l n); [assumption|]. replace (n * ((0 + u) / n)) with u by (field; lra). lra.
Qed.

(** ** Counterexample: one step, three particles, states false/true with likelihoods 1 and 3 *)
Definition id_trans (us : list bool) (v : unit) (t : R) (k : key) : prog (list bool) := Ret us.
Definition b_lg (v vp : unit) (t : R) (u : bool) : R := if u then ln 3 else 0.
Definition b_lik (v : unit) (us : list bool) (vp : unit) (t : R) : list R := map (b_lg v vp t) us.
Definition half : dist bool := [(1/2, false); (1/2, true)].
Definition b_draw (k : key) : prog bool := Fin k [1/2; 1/2] (fun i => Ret (Nat.eqb i 1)).
Fixpoint b_draws (k : key) (i n : nat) : prog (list bool) :=
  match n with O => Ret [] | S n' => b <- b_draw (split_key k i) ;; l <- b_draws k (S i) n' ;; Ret (b :: l) end.
Definition b_init (k : key) (v : unit) (n : nat) : prog (list bool) := b_draws k 0 n.

Lemma half_prob : is_prob half.
Proof. split; [repeat constructor; simpl; lra|]. unfold E, half. simpl. lra. Qed.

Lemma b_draws_denotes k n : forall i, denotes (b_draws k i n) (dseq (repeat half n)).
Proof.
  induction n as [|n IH]; intros i f; [exact (eq_sym (E_dret [] f))|].
  cbn [b_draws repeat]. rewrite law_bind, E_dseq_cons.
  change (law (b_draw (split_key k i)) (fun a => law (bind (b_draws k (S i) n) (fun l => Ret (a :: l))) f))
    with (E [(1/2, 0%nat); (1/2, 1%nat)] (fun j => law (bind (b_draws k (S i) n) (fun l => Ret (Nat.eqb j 1 :: l))) f)).
  unfold half. rewrite !E_cons. cbn [Nat.eqb]. rewrite !law_bind, !(IH _ _). reflexivity.
Qed.

Lemma id_denotes us v t k : denotes (id_trans us v t k) (dseq (map (fun u => dret u) us)).
Proof.
  intros f. cbn [id_trans law]. revert f. induction us as [|u us IH]; intros f; cbn [map].
  - exact (eq_sym (E_dret [] f)).
  - rewrite E_dseq_cons, E_dret. exact (IH (fun l => f (u :: l))).
Qed.

Lemma bias_filter_ok res : good_res res -> filter_ok id_trans b_lik res (fun _ _ u => dret u) b_lg.
Proof. intros H. constructor; [intros; apply is_prob_dret|intros; apply id_denotes|reflexivity|exact H]. Qed.

Definition b2r (b : bool) : R := if b then 1 else 0.

Lemma b_exp v vp t u : exp (b_lg v vp t u) = if u then 3 else 1.
Proof. destruct u; simpl; [apply exp_ln; lra|apply exp_0]. Qed.

Definition g3 (u : bool) : R := if u then 3 else 1.
Definition inner (a b c : bool) : R :=
  let S := g3 a + g3 b + g3 c in
  first_slot [g3 a / S; g3 b / S; g3 c / S] (fun i => S / 3 * b2r (nth i [a; b; c] false)).

Lemma inner_values : inner false false false = 0 /\ inner true false false = 5/3 /\ inner false true false = 2/3 /\
  inner false false true = 0 /\ inner true true false = 7/3 /\ inner true false true = 7/3 /\ inner false true true = 4/3 /\ inner true true true = 3.
Proof.
  assert (H3 : INR 3 = 3) by (simpl; lra).
  unfold inner, g3, b2r. repeat split.
  all: first [ rewrite first_slot_heavy; [cbn [nth]; lra|cbn [length]; rewrite H3; lra]
             | rewrite first_slot_light; [cbn [nth length]; rewrite H3; lra|lra|cbn [length]; rewrite H3; lra|cbn [length]; rewrite H3; lra] ].
Qed.

Lemma bias_inner (res : list R -> key -> prog (list nat)) k a b c :
  (forall w k h, w <> [] -> law (res w k) (fun A => h (nth 0 A 0%nat)) = first_slot w h) ->
  (forall w k, weights_ok w -> safe (res w k) (valid_indices (length w))) ->
  law (pmcmc_filter_step false id_trans b_lik res k [tt; tt] [a; b; c] [0; 1] 3)
    (fun c => exp (snd c) * b2r (nth 0 (fst c) false)) = inner a b c.
Proof.
  intros Hf Hv. unfold pmcmc_filter_step. cbn [filter_inputs pf_scan]. rewrite law_bind. unfold pf_body. rewrite law_bind.
  set (ll := b_lik tt [a; b; c] tt 0).
  assert (Hne : ll <> []) by discriminate.
  assert (HS : Rsum (map exp ll) = g3 a + g3 b + g3 c).
  { unfold ll, b_lik. cbn [map Rsum]. rewrite !b_exp. unfold g3. ring. }
  assert (HSp : 0 < g3 a + g3 b + g3 c) by (unfold g3; destruct a, b, c; lra).
  change (map exp (map (fun x => x - logsumexp ll) ll)) with (normalise ll).
  transitivity (law (res (normalise ll) (split_key (split_key k 0) 1))
     (fun A => (fun i => (g3 a + g3 b + g3 c) / 3 * b2r (nth i [a; b; c] false)) (nth 0 A 0%nat))).
  - eapply law_ext_safe; [apply Hv; now apply normalise_ok|]. intros A [HA _]. rewrite law_bind. cbn [id_trans law fst snd].
    f_equal.
    + unfold Rminus. rewrite !exp_plus, exp_Ropp, exp_0. unfold logsumexp. rewrite HS.
      replace (INR 3) with 3 by (simpl; lra). rewrite !exp_ln by lra. field.
    + unfold gather. destruct A as [|i A]; [discriminate|]. reflexivity.
  - rewrite (Hf _ _ (fun i => (g3 a + g3 b + g3 c) / 3 * b2r (nth i [a; b; c] false))) by discriminate.
    unfold inner. cbv zeta. f_equal. rewrite normalise_eq, HS by assumption.
    unfold ll, b_lik. cbn [map]. now rewrite !b_exp.
Qed.

Lemma bias_value (res : list R -> key -> prog (list nat)) k1 k2 :
  (forall w k h, w <> [] -> law (res w k) (fun A => h (nth 0 A 0%nat)) = first_slot w h) ->
  (forall w k, weights_ok w -> safe (res w k) (valid_indices (length w))) ->
  law (run_filter false tt id_trans b_lik res b_init 3 [0; 1] k1 k2 [tt; tt])
    (fun c => exp (snd c) * b2r (nth 0 (fst c) false)) = 17 / 12.
Proof.
  intros Hf Hv. unfold run_filter. rewrite law_bind. unfold b_init. rewrite (b_draws_denotes _ 3 _ _).
  cbn [repeat]. rewrite E_dseq_cons.
  rewrite (E_ext' half _ (fun a => E half (fun b => E half (fun c => inner a b c)))).
  - destruct inner_values as (H1 & H2 & H3 & H4 & H5 & H6 & H7 & H8).
    unfold half, E. cbn [map fst snd Rsum]. rewrite H1, H2, H3, H4, H5, H6, H7, H8. lra.
  - intros a. rewrite E_dseq_cons. apply E_ext'. intros b. rewrite E_dseq_cons. apply E_ext'. intros c.
    cbn [dseq]. rewrite E_dret. now apply bias_inner.
Qed.

Lemma bias_target : E (filter_target tt (fun _ _ u => dret u) b_lg (fun _ => half) [tt; tt] [0; 1]) (fun p => b2r (last p false)) = 3/2.
Proof.
  rewrite filter_target_final. cbn [step_data]. unfold half. rewrite !E_cons. cbn [E map Rsum].
  rewrite !fk_final_cons, !b_exp, !E_dret. unfold fk_final. cbn [fk_of map fk_path]. rewrite !E_dret. cbn [last b2r]. unfold E; simpl. lra.
Qed.
