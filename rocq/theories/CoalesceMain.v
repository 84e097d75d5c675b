(** Coalescence of the ancestors in the bootstrap filter, and what the coalescence figure shows of it. *)
From Coq Require Import FunctionalExtensionality Permutation Reals Lra Lia List.
From Coquelicot Require Import Coquelicot.
From Verif Require Export Coalesce.
Open Scope R_scope.

Section main.
Context {U V : Type} (udef : U) (vdef : V).
Variable transition_sampler : list U -> V -> R -> key -> prog (list U).
Variable measurement_cond_pdf : V -> list U -> V -> R -> list R.
Variable init_sampler : key -> V -> nat -> prog (list U).
Variable n : nat.
Hypothesis Hn : (0 < n)%nat.
Hypothesis Htrans : forall us v t, length us = n -> has_laws (fun us' => length us' = n) (transition_sampler us v t).
Hypothesis Hlik : forall v us vp t, length (measurement_cond_pdf v us vp t) = length us.
Hypothesis Hinit : forall v, has_laws (fun us => length us = n) (fun k => init_sampler k v n).
Notation tagged res := (tagged_filter udef vdef transition_sampler measurement_cond_pdf res init_sampler).

Lemma E_const_on {A} (d : dist A) g c : is_prob d -> (forall a, In a (map snd d) -> g a = c) -> E d g = c.
Proof using. intros Hd H. rewrite <- (E_const c d Hd). apply E_ext. exact H. Qed.

Lemma E_le_on {A} (d : dist A) g c : is_prob d -> (forall a, In a (map snd d) -> g a <= c) -> E d g <= c.
Proof using. intros Hd H. rewrite <- (E_const c d Hd). apply E_le; [apply Hd|exact H]. Qed.

Theorem multinomial_coalesces vs ts k lg rl :
  law (tagged multinomial vs ts k n lg rl) (fun r => not_coalesced (tags (last (fst r) []))) <= (1 - agree_rate n) ^ length (filter_inputs vs ts).
Proof using Hn Htrans Hlik Hinit.
  pose proof (agree_rate_bounds n Hn) as Hr.
  apply (filter_of_scan udef vdef transition_sampler measurement_cond_pdf multinomial init_sampler n Hn Htrans Hlik Hinit (cr_laws _ multinomial_consistent) vs ts k lg rl
    not_coalesced (fun x => x <= (1 - agree_rate n) ^ length (filter_inputs vs ts))).
  - intros c k' Hc Ht x ->. eapply Rle_trans.
    + apply (scan_upper udef transition_sampler measurement_cond_pdf multinomial n Hn Htrans Hlik (cr_laws _ multinomial_consistent) not_coalesced (1 - agree_rate n)); [lra| |assumption].
      intros v l vp t k'' Hl. destruct (lik_weights measurement_cond_pdf n Hn Hlik v l vp t Hl) as [Hw Hwl].
      rewrite <- Hwl. apply multinomial_agree_step; [assumption|]. unfold tags. rewrite map_length. congruence.
    + rewrite <- (Rmult_1_r ((1 - agree_rate n) ^ _)) at 2. apply Rmult_le_compat_l; [apply pow_le; lra|]. unfold not_coalesced. destruct (coalesced _); lra.
  - intros d g Hd H. now apply E_le_on.
Qed.

Section neutral.
(** a likelihood that does not depend on the particle *)
Hypothesis Hflat : forall v us vp t, exists c, measurement_cond_pdf v us vp t = repeat c (length us).

Lemma flat_weights v (l : list (nat * U)) vp t : length l = n -> normalise (tag_likelihood measurement_cond_pdf v l vp t) = repeat (/ INR n) n.
Proof using Hn Hflat.
  intros Hl. unfold tag_likelihood. destruct (Hflat v (map snd l) vp t) as [c ->]. rewrite map_length, Hl. now apply normalise_equal.
Qed.

Theorem multinomial_neutral_rate vs ts k lg rl :
  law (tagged multinomial vs ts k n lg rl) (fun r => distinct_pairs (tags (last (fst r) []))) =
  INR n * (INR n - 1) * (1 - / INR n) ^ length (filter_inputs vs ts).
Proof using Hn Htrans Hlik Hinit Hflat.
  apply (filter_of_scan udef vdef transition_sampler measurement_cond_pdf multinomial init_sampler n Hn Htrans Hlik Hinit (cr_laws _ multinomial_consistent) vs ts k lg rl
    distinct_pairs (fun x => x = INR n * (INR n - 1) * (1 - / INR n) ^ length (filter_inputs vs ts))).
  - intros c k' Hc Ht x ->. rewrite (scan_exact udef transition_sampler measurement_cond_pdf multinomial n Hn Htrans Hlik (cr_laws _ multinomial_consistent) distinct_pairs (1 - / INR n)); [|intros|assumption].
    + rewrite Ht, distinct_pairs_iota. ring.
    + rewrite flat_weights by assumption. apply multinomial_neutral_step; [assumption|]. unfold tags. now rewrite map_length.
  - intros d g Hd H. now apply E_const_on.
Qed.

Theorem neutral_identity_kept res vs ts k lg rl (F : list nat -> R) : neutral_identity res -> (forall w, weights_ok w -> has_laws (valid_indices (length w)) (res w)) ->
  law (tagged res vs ts k n lg rl) (fun r => F (tags (last (fst r) []))) = F (seq 0 n).
Proof using Hn Htrans Hlik Hinit Hflat.
  intros Hid Hres.
  apply (filter_of_scan udef vdef transition_sampler measurement_cond_pdf res init_sampler n Hn Htrans Hlik Hinit Hres vs ts k lg rl F (fun x => x = F (seq 0 n))).
  - intros c k' Hc Ht x ->. rewrite (scan_exact udef transition_sampler measurement_cond_pdf res n Hn Htrans Hlik Hres F 1); [|intros|assumption].
    + rewrite Ht, pow1. ring.
    + rewrite flat_weights by assumption. rewrite Hid by assumption. rewrite Rmult_1_l. f_equal. unfold gather.
      assert (Hlt : length (tags l) = n) by (unfold tags; now rewrite map_length). rewrite <- Hlt. apply map_nth_seq.
  - intros d g Hd H. now apply E_const_on.
Qed.
End neutral.
End main.

Section parents.
Context {U V : Type} (udef : U) (vdef : V).
Variable transition_sampler : list U -> V -> R -> key -> prog (list U).
Variable measurement_cond_pdf : V -> list U -> V -> R -> list R.
Variable resampling : list R -> key -> prog (list nat).
Variable init_sampler : key -> V -> nat -> prog (list U).
Hypothesis Hlen : forall us v t k, safe (transition_sampler us v t k) (fun us' => length us' = length us).
Hypothesis Hlik : forall v us vp t, length (measurement_cond_pdf v us vp t) = length us.
Hypothesis Hres : forall w k, weights_ok w -> safe (resampling w k) (valid_indices (length w)).
Hypothesis Hinit : forall k v n, safe (init_sampler k v n) (fun us => length us = n).
Variable n : nat.
Hypothesis Hn : (0 < n)%nat.

(** the particle in slot [p] after a step is the moved particle of some slot [a] before it *)
Definition parent_step (x : V * V * R) (c c' : list U) : Prop :=
  exists k tr us, runs (transition_sampler c (snd (fst x)) (snd x) k) tr us /\ length us = n /\ length c' = n /\
    forall p, (p < n)%nat -> exists a, (a < n)%nat /\ nth p c' udef = nth a us udef.

Definition parents (inputs : list (V * V * R)) (ls : list (list U)) : Prop :=
  length ls = S (length inputs) /\ forall j x, nth_error inputs j = Some x -> parent_step x (nth j ls []) (nth (S j) ls []).

Lemma body_parent c x k : length (fst c) = n ->
  safe (bf_body udef transition_sampler measurement_cond_pdf resampling n c x k) (fun c' => parent_step x (fst c) (fst c')).
Proof using Hlen Hlik Hres Hn.
  destruct c as [l nell], x as [[v vp] t]. cbn [fst]. intros Hl tr c' H. unfold bf_body in H.
  apply runs_bind in H. destruct H as (tr1 & us & tr2 & -> & H1 & H). apply runs_bind in H. destruct H as (tr3 & A & tr4 & -> & H2 & [_ ->]).
  set (lw := measurement_cond_pdf v l vp t) in *. change (map exp (map (fun x => x - logsumexp lw) lw)) with (normalise lw) in H2.
  assert (Hlw : length lw = n) by (unfold lw; now rewrite Hlik). assert (Hw : weights_ok (normalise lw)) by (apply normalise_ok; intros E; rewrite E in Hlw; cbn in Hlw; lia).
  destruct (Hres _ _ Hw _ _ H2) as [HA1 HA2]. rewrite length_normalise, Hlw in HA1, HA2. pose proof (Hlen _ _ _ _ _ _ H1) as Hus. cbn beta in Hus.
  exists (split_key k 0), tr1, us. cbn [fst snd]. split; [assumption|]. split; [congruence|]. split; [now rewrite length_gather|].
  intros p Hp. exists (nth p A 0%nat). split; [apply (Forall_nth_lt (fun i => (i < n)%nat)); [assumption|lia]|]. apply gather_nth. lia.
Qed.

Lemma scan_parents k sd : forall i c, length (fst c) = n ->
  safe (bf_scan udef transition_sampler measurement_cond_pdf resampling n k i sd c) (fun r => parents sd (fst c :: snd r)).
Proof using Hlen Hlik Hres Hn.
  induction sd as [|x sd IH]; intros i c Hc; cbn [bf_scan].
  - apply safe_ret. split; [reflexivity|]. intros [|j] y Hy; discriminate Hy.
  - eapply safe_bind; [now apply body_parent|]. intros c' Hp. cbn beta in Hp. eapply safe_bind; [apply (IH (S i) c')|].
    { destruct Hp as (? & ? & ? & _ & _ & H & _). exact H. }
    intros [cT out] [H1 H2]. apply safe_ret. cbn [fst snd] in *. split; [cbn [length] in *; lia|].
    intros [|j] y Hy; [cbn in Hy; injection Hy as <-; exact Hp|]. exact (H2 j y Hy).
Qed.

Theorem filter_parents vs ts k lg :
  safe (bootstrap_filter udef vdef transition_sampler measurement_cond_pdf resampling vs ts init_sampler k n lg false) (fun r => parents (filter_inputs vs ts) (fst r)).
Proof using Hlen Hlik Hres Hinit Hn.
  unfold bootstrap_filter. eapply safe_bind; [apply Hinit|]. intros us Hus. cbn beta in Hus. eapply safe_bind; [apply (scan_parents _ _ 0%nat (us, 0)); exact Hus|].
  intros [[lT nell] out] H. apply safe_ret. exact H.
Qed.
End parents.

(** ** Witnesses *)
Definition still_trans (us : list R) (v : R) (t : R) (k : key) : prog (list R) := Ret us.
Definition value_lik (v : R) (us : list R) (vp t : R) : list R := us.

Lemma weights_2 : normalise [0; ln 9] = [1/10; 9/10].
Proof. rewrite normalise_eq by discriminate. cbn [map Rsum]. rewrite exp_0, exp_ln by lra. apply f_equal2; [field|apply f_equal2; [field|reflexivity]]. Qed.

Lemma weights_3 : normalise [0; 0; ln 2] = [1/4; 1/4; 1/2].
Proof. rewrite normalise_eq by discriminate. cbn [map Rsum]. rewrite exp_0, exp_ln by lra. apply f_equal2; [field|apply f_equal2; [field|apply f_equal2; [field|reflexivity]]]. Qed.

Lemma index_of w v i : weights_ok w -> (i < length w)%nat -> v <= Rsum (firstn (S i) w) -> (match i with O => True | S j => Rsum (firstn (S j) w) < v end) ->
  clip_index (length w) (searchsorted (cumsum w) v) = i.
Proof.
  intros [Hw _] Hi H1 H2. assert (G1 : (searchsorted (cumsum_from 0 w) v <= i)%nat) by (apply searchsorted_le_iff; [assumption..|lra]).
  unfold cumsum, clip_index. destruct i as [|j]; [lia|].
  assert (G2 : ~ (searchsorted (cumsum_from 0 w) v <= j)%nat) by (rewrite searchsorted_le_iff; [lra|assumption|lia]). lia.
Qed.

Lemma w2_ok : weights_ok [1/10; 9/10].
Proof. split; [repeat constructor; lra|cbn [Rsum]; lra]. Qed.
Lemma w3q_ok : weights_ok [1/4; 1/4; 1/2].
Proof. split; [repeat constructor; lra|cbn [Rsum]; lra]. Qed.

Lemma strat_2 : stratified_of [1/10; 9/10] [1/2; 1/2] = [1; 1]%nat.
Proof.
  unfold stratified_of, inverse_cdf_indices. rewrite strat_points_map. cbn [length seq map nth].
  apply f_equal2; [|apply f_equal2; [|reflexivity]]; apply (index_of [1/10; 9/10]); try exact w2_ok; cbn [length firstn Rsum INR]; try lia; try lra.
Qed.

Lemma strat_3a : stratified_of [1/4; 1/4; 1/2] [1/2; 1/4; 1/2] = [0; 1; 2]%nat.
Proof.
  unfold stratified_of, inverse_cdf_indices. rewrite strat_points_map. cbn [length seq map nth].
  apply f_equal2; [|apply f_equal2; [|apply f_equal2; [|reflexivity]]]; apply (index_of [1/4; 1/4; 1/2]); try exact w3q_ok; cbn [length firstn Rsum INR]; try lia; try lra.
Qed.

Lemma strat_3b : stratified_of [1/4; 1/4; 1/2] [9/10; 1/4; 1/2] = [1; 1; 2]%nat.
Proof.
  unfold stratified_of, inverse_cdf_indices. rewrite strat_points_map. cbn [length seq map nth].
  apply f_equal2; [|apply f_equal2; [|apply f_equal2; [|reflexivity]]]; apply (index_of [1/4; 1/4; 1/2]); try exact w3q_ok; cbn [length firstn Rsum INR]; try lia; try lra.
Qed.

(** Nothing moves and yet the line of slot 0 jumps: it is not the path of a particle. *)
Theorem slot_line_jumps : exists tr ls ell,
  runs (bootstrap_filter 0 0 still_trans value_lik stratified [0; 0] [0] (fun _ _ _ => Ret [0; ln 9]) [] 2 true false) tr (ls, ell) /\
  nth 0 (nth 1 ls []) 0 <> nth 0 (nth 0 ls []) 0 /\
  forall us tr', runs (still_trans (nth 0 ls []) 0 0 []) tr' us -> nth 0 (nth 1 ls []) 0 <> nth 0 us 0.
Proof.
  exists [split_key (split_key (split_key [] 1) 0) 1], [[0; ln 9]; [ln 9; ln 9]].
  set (ell := 0 - (logsumexp [0; ln 9] - ln (INR 2))). exists ell.
  assert (Hpos : ln 9 <> 0) by (rewrite <- ln_1; intros H; apply ln_inv in H; lra).
  split; [|split; [cbn [nth]; assumption|]].
  - unfold bootstrap_filter. cbn [bind nth filter_inputs bf_scan bf_body still_trans value_lik].
    unfold value_lik. change (map exp (map (fun x => x - logsumexp [0; ln 9]) [0; ln 9])) with (normalise [0; ln 9]). rewrite weights_2. unfold stratified. cbn [bind runs length].
    exists [1/2; 1/2], []. split; [reflexivity|]. split; [reflexivity|]. split; [repeat constructor; unfold in01; lra|].
    rewrite strat_2. cbn [gather map nth fst]. split; reflexivity.
  - intros us tr' [_ ->]. cbn [nth]. assumption.
Qed.

(** The same clouds, hence the same figure, from two different genealogies. *)
Theorem clouds_do_not_tell_ancestors : exists tr1 tr2 ls1 ls2 ell,
  runs (tagged_filter 0 0 still_trans value_lik stratified (fun _ _ _ => Ret [0; 0; ln 2]) [0; 0] [0] [] 3 true false) tr1 (ls1, ell) /\
  runs (tagged_filter 0 0 still_trans value_lik stratified (fun _ _ _ => Ret [0; 0; ln 2]) [0; 0] [0] [] 3 true false) tr2 (ls2, ell) /\
  map (map snd) ls1 = map (map snd) ls2 /\
  length (nodup Nat.eq_dec (tags (last ls1 []))) = 3%nat /\ length (nodup Nat.eq_dec (tags (last ls2 []))) = 2%nat.
Proof.
  exists [split_key (split_key (split_key [] 1) 0) 1], [split_key (split_key (split_key [] 1) 0) 1],
    [[(0%nat, 0); (1%nat, 0); (2%nat, ln 2)]; [(0%nat, 0); (1%nat, 0); (2%nat, ln 2)]], [[(0%nat, 0); (1%nat, 0); (2%nat, ln 2)]; [(1%nat, 0); (1%nat, 0); (2%nat, ln 2)]].
  set (ell := 0 - (logsumexp [0; 0; ln 2] - ln (INR 3))). exists ell.
  split; [|split; [|split; [reflexivity|split; reflexivity]]].
  all: unfold tagged_filter, bootstrap_filter, tag_init; cbn [bind nth filter_inputs bf_scan bf_body]; unfold tag_transition, tag_likelihood, still_trans, value_lik, retag;
    cbn [bind length seq map fst snd nth];
    change [exp (0 - logsumexp [0; 0; ln 2]); exp (0 - logsumexp [0; 0; ln 2]); exp (ln 2 - logsumexp [0; 0; ln 2])] with (normalise [0; 0; ln 2]); rewrite weights_3; unfold stratified; cbn [bind runs length].
  - exists [1/2; 1/4; 1/2], []. split; [reflexivity|]. split; [reflexivity|]. split; [repeat constructor; unfold in01; lra|].
    rewrite strat_3a. cbn [gather map nth fst]. split; reflexivity.
  - exists [9/10; 1/4; 1/2], []. split; [reflexivity|]. split; [reflexivity|]. split; [repeat constructor; unfold in01; lra|].
    rewrite strat_3b. cbn [gather map nth fst]. split; reflexivity.
Qed.
