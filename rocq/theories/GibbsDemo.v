(** Concrete models for the Gibbs kernel: a compatible one, and the witness against explicit_final. *)
From Coq Require Import String.
From Verif Require Export GibbsMore.
Open Scope R_scope.

(** ** A compatible model: u0, v0 uniform; u1 ~ sticky(u0); v1 = u0 with probability 3/4; conditioned on v1 = true *)
Definition gd_ts : list R := [0; 1].
Definition gd_back (x0 : bool) : dist bool := if x0 then [(9/10, true); (1/10, false)] else [(1/2, true); (1/2, false)].
Definition gd_fwd (k : key) (x0 y0 : bool) : prog (list bool * list bool) :=
  u0 <- fin_draw false (split_key k 0) (gd_back x0) ;;
  v0 <- fin_draw false (split_key k 1) coin ;;
  Ret ([x0; u0], [y0; v0]).
Definition gd_FW (x0 : bool) : dist (list bool * list bool) :=
  dbind (gd_back x0) (fun u0 => dmap (fun v0 => ([x0; u0], [true; v0])) coin).
Definition gd_bridge (k : key) (y y' : bool) (ts : list R) : prog (list bool) := Ret [y; y'].
Definition gd_lg (v v' : bool) (t : R) (u : bool) : R := if eqb v u then ln (3/4) else ln (1/4).
Definition gd_lik (v : bool) (us : list bool) (v' : bool) (t : R) : list R := map (gd_lg v v' t) us.
Definition gd_pi : dist bool := [(5/8, true); (3/8, false)].

Lemma gd_back_prob x : is_prob (gd_back x).
Proof. destruct x; (split; [repeat constructor; simpl; lra|]); unfold E, gd_back; simpl; lra. Qed.

Lemma gd_model : gibbs_model_ok gd_fwd gd_bridge demo_trans demo_translp gd_lik true gd_ts gd_FW (fun y y' => dret [y; y']) demo_M gd_lg.
Proof.
  constructor.
  - intros k x0 f. unfold gd_fwd, gd_FW. rewrite law_bind, (fin_draw_denotes false _ _ _), E_dbind. apply E_ext'. intros u0.
    rewrite law_bind, (fin_draw_denotes false _ _ _), E_dmap. reflexivity.
  - intros x0. unfold gd_FW. apply is_prob_dbind; [apply gd_back_prob|]. intros. apply is_prob_dmap, coin_prob.
  - intros x0 p Hin. assert (Hx : exists u v, p = ([x0; u], [true; v])).
    { destruct x0; simpl in Hin; intuition subst; eauto. }
    destruct Hx as (u & v & ->). auto.
  - intros k y y' f. exact (eq_sym (E_dret [y; y'] f)).
  - intros. apply is_prob_dret.
  - intros y y' l [<-|[]]. reflexivity.
  - intros. apply sticky_prob.
  - intros. apply fin_draws_denotes.
  - intros. unfold demo_trans. eapply safe_weaken; [|apply fin_draws_length]. intros l Hl. now rewrite map_length in Hl.
  - intros. apply map_length.
  - reflexivity.
Qed.

Lemma gd_compatible marg_y : compatible (U := bool) (V := bool) true gd_ts gd_FW (fun y y' => dret [y; y']) demo_M gd_lg marg_y gd_pi.
Proof.
  exists [(1/2, (true, [true; true])); (1/2, (true, [false; true])); (1/2, (false, [true; true])); (1/2, (false, [false; true]))].
  split.
  - intros uv Hin. simpl in Hin. intuition subst; reflexivity.
  - intros F.
    assert (Hn : forall x0 G, E (noised true gd_FW (fun y y' : bool => dret [y; y']) marg_y x0) G =
       E (gd_back x0) (fun u0 => E coin (fun v0 => G ([u0; x0], [v0; true])))).
    { intros x0 G. unfold noised, gd_FW. rewrite E_dbind, E_dbind. apply E_ext'. intros u0. rewrite E_dmap. apply E_ext'. intros v0.
      destruct marg_y; [rewrite E_dmap|]; now rewrite E_dret. }
    unfold gd_pi. rewrite !E_cons, !Hn. unfold E, gd_back, coin, demo_M, sticky, gd_lg.
    cbn. rewrite !exp_ln by lra. field.
Qed.

Lemma gd_regular n : (0 < n)%nat -> regular_likelihood gd_lg n.
Proof.
  intros Hn. destruct (Nat.eq_dec n 1) as [->|H1]; [apply regular_one|]. apply (regular_of_bounded gd_lg n (ln 3)); [lia| |].
  - rewrite exp_Ropp, exp_ln by lra. apply Rinv_le_contravar; lra.
  - intros v v' t u u'. unfold gd_lg. assert (ln (3/4) = ln 3 + ln (1/4)) by (rewrite <- ln_mult by lra; f_equal; lra).
    assert (0 < ln 3) by (rewrite <- ln_1; apply ln_increasing; lra).
    destruct (eqb v u), (eqb v u'); lra.
Qed.

(** ** explicit_final: the initial weight is spurious *)
Definition ef_fwd (k : key) (x0 y0 : bool) : prog (list bool * list bool) := Ret ([x0; x0], [y0; negb y0]).
Definition ef_FW (x0 : bool) : dist (list bool * list bool) := dret ([x0; x0], [true; false]).
Definition ef_trans (us : list bool) (v : bool) (t : R) (k : key) : prog (list bool) := Ret us.
Definition ef_translp (x : bool) (us : list bool) (v : bool) (t : R) : list R := map (fun _ => 0) us.
Definition ef_lg (v v' : bool) (t : R) (u : bool) : R := if (negb v && v' && u)%bool then ln 3 else 0.
Definition ef_lik (v : bool) (us : list bool) (v' : bool) (t : R) : list R := map (ef_lg v v' t) us.

Lemma dseq_dret_map (us : list bool) : forall f, f us = E (dseq (map dret us)) f.
Proof. induction us as [|u us IH]; intros f; cbn [map]; [exact (eq_sym (E_dret [] f))|]. rewrite E_dseq_cons, E_dret. apply (IH (fun l => f (u :: l))). Qed.

Lemma ef_model : gibbs_model_ok ef_fwd gd_bridge ef_trans ef_translp ef_lik true gd_ts ef_FW (fun y y' => dret [y; y']) (fun _ _ u => dret u) ef_lg.
Proof.
  constructor.
  - intros k x0 f. exact (eq_sym (E_dret ([x0; x0], [true; false]) f)).
  - intros. apply is_prob_dret.
  - intros x0 p [<-|[]]. auto.
  - intros k y y' f. exact (eq_sym (E_dret [y; y'] f)).
  - intros. apply is_prob_dret.
  - intros y y' l [<-|[]]. reflexivity.
  - intros. apply is_prob_dret.
  - intros us v t k f. unfold ef_trans. cbn [law]. apply dseq_dret_map.
  - intros. now apply safe_ret.
  - intros. apply map_length.
  - reflexivity.
Qed.

Lemma ef_compatible : compatible (U := bool) (V := bool) true gd_ts ef_FW (fun y y' => dret [y; y']) (fun _ _ u => dret u) ef_lg false coin.
Proof.
  exists [(1/2, (false, [false; true])); (1/2, (true, [false; true]))]. split.
  - intros uv Hin. simpl in Hin. intuition subst; reflexivity.
  - intros F. unfold coin. rewrite !E_cons. unfold noised, ef_FW. rewrite !E_dbind, !E_dret. cbn [fst snd rev app].
    unfold E. cbn. unfold ef_lg. cbn. rewrite exp_0. field.
Qed.

Lemma ef_regular : regular_likelihood ef_lg 1.
Proof. apply regular_one. Qed.

(** conditional killing for two particles, slot 0 pinned to index 0 *)
Lemma E_cdist2 a b f : 0 < a -> 0 < b -> a + b = 1 ->
  E (cdist rolled_killing_dist [a; b] 0 0) f =
  / a * (/ 2 * (slot_prob [a; b] 0 0 * (slot_prob [a; b] 1 0 * f [0; 0]%nat + slot_prob [a; b] 1 1 * f [0; 1]%nat)) +
         / 2 * (slot_prob [a; b] 1 0 * (slot_prob [a; b] 0 0 * f [0; 0]%nat + slot_prob [a; b] 0 1 * f [0; 1]%nat))).
Proof.
  intros Ha Hb Hab. unfold cdist. rewrite E_scale, (E_filter (fun A => Nat.eqb (nth 0 A 0%nat) 0)). cbn [nth]. f_equal.
  unfold rolled_killing_dist. rewrite E_dbind, E_dunif. cbn [length seq map Rsum]. rewrite !E_dmap.
  assert (Hk : forall h, E (killing_dist [a; b]) h =
    slot_prob [a; b] 0 0 * (slot_prob [a; b] 1 0 * h [0; 0]%nat + slot_prob [a; b] 1 1 * h [0; 1]%nat) +
    slot_prob [a; b] 0 1 * (slot_prob [a; b] 1 0 * h [1; 0]%nat + slot_prob [a; b] 1 1 * h [1; 1]%nat)).
  { intros h. unfold killing_dist. cbn [length seq map]. rewrite E_dseq_cons, E_killing_slot by (cbn [length]; lia).
    cbn [length seq map Rsum]. rewrite !E_dseq_cons, !E_killing_slot by (cbn [length]; lia). cbn [length seq map Rsum]. cbn [dseq]. rewrite !E_dret. ring. }
  rewrite !Hk. simpl INR.
  change (Z.of_nat 0) with 0%Z. change (Z.of_nat 1) with 1%Z.
  change (roll 0%nat 0 [0; 0]%nat) with [0; 0]%nat. change (roll 0%nat 0 [0; 1]%nat) with [0; 1]%nat.
  change (roll 0%nat 0 [1; 0]%nat) with [1; 0]%nat. change (roll 0%nat 0 [1; 1]%nat) with [1; 1]%nat.
  change (roll 0%nat 1 [0; 0]%nat) with [0; 0]%nat. change (roll 0%nat 1 [0; 1]%nat) with [1; 0]%nat.
  change (roll 0%nat 1 [1; 0]%nat) with [0; 1]%nat. change (roll 0%nat 1 [1; 1]%nat) with [1; 1]%nat.
  cbn [nth Nat.eqb]. lra.
Qed.

Lemma cd_31 f : E (cdist rolled_killing_dist [3/4; 1/4] 0 0) f = 2/3 * f [0; 0]%nat + 1/3 * f [0; 1]%nat.
Proof.
  rewrite E_cdist2 by lra. unfold slot_prob. cbn [Nat.eqb nth]. assert (Hm : Rmax_list [3/4; 1/4] = 3/4).
  { unfold Rmax_list. cbn [fold_left fold_right hd tl]. try rewrite Rmax_left by lra; try rewrite Rmax_right by lra; try reflexivity. }
  rewrite Hm. field.
Qed.
Lemma cd_13 f : E (cdist rolled_killing_dist [1/4; 3/4] 0 0) f = f [0; 1]%nat.
Proof.
  rewrite E_cdist2 by lra. unfold slot_prob. cbn [Nat.eqb nth]. assert (Hm : Rmax_list [1/4; 3/4] = 3/4).
  { unfold Rmax_list. cbn [fold_left fold_right hd tl]. try rewrite Rmax_right by lra; try rewrite Rmax_left by lra; try reflexivity. }
  rewrite Hm. field.
Qed.
Lemma cd_11 f : E (cdist rolled_killing_dist [1/2; 1/2] 0 0) f = f [0; 1]%nat.
Proof.
  rewrite E_cdist2 by lra. unfold slot_prob. cbn [Nat.eqb nth]. assert (Hm : Rmax_list [1/2; 1/2] = 1/2).
  { unfold Rmax_list. cbn [fold_left fold_right hd tl]. try rewrite Rmax_right by lra; try rewrite Rmax_left by lra; try reflexivity. }
  rewrite Hm. field.
Qed.

Lemma fm_half k g : law (force_move k [1/2; 1/2] 0) (fun r => g (fst r)) = g 1%nat.
Proof.
  assert (Hw : weights_ok [1/2; 1/2]) by (split; [repeat constructor; lra|cbn [Rsum]; lra]).
  assert (Ht : nth 0 [1/2; 1/2] 0 < fm_threshold (length [1/2; 1/2])).
  { apply Rlt_le_trans with (1 - / 10 ^ 12); [|apply fm_threshold_ge]. cbn [nth].
    assert (/ 10 ^ 12 < / 2) by (apply Rinv_lt_contravar; lra). lra. }
  rewrite force_move_law by (assumption || (cbn [length]; lia)). rewrite E_dcat, length_fm_rest. cbn [length seq map Rsum].
  rewrite !fm_rest_low by (assumption || (cbn [length]; lia)). cbn [Nat.eqb nth fst]. cbv zeta. unfold acc.
  destruct (Rle_dec (1 - 1/2) 0); [lra|]. destruct (Rle_dec (1 - 1/2) (1 - 1/2)); [|lra]. field.
Qed.

Lemma ef_csmc_model : model_ok (gk_init demo_init true 1 false) (gk_initll ef_lik true 1 0) ef_trans ef_lik ckilling
  coin (fun v v' => ef_lg v v' 0) (fun _ _ u => dret u) ef_lg rolled_killing_dist.
Proof.
  constructor.
  - exact coin_prob.
  - intros. apply is_prob_dret.
  - intros. apply fin_draws_denotes.
  - reflexivity.
  - intros us v t k f. apply dseq_dret_map.
  - reflexivity.
  - exact exact_ckilling.
Qed.

Notation ef_kernel := (gibbs_kernel false true ef_fwd gd_bridge demo_init ef_trans ef_translp ef_lik).

Lemma ef_forward k k' x0 g :
  law (forward_pass false true (gk_init demo_init true 1 false) (gk_initll ef_lik true 1 0) ef_trans ef_lik ckilling k [x0; x0] [0; 0]%nat [false; true] gd_ts 1)
    (fun res => law (force_move k' (map exp (last (snd (fst res)) [])) 0) (fun r => g (nth (fst r) (last (snd res) []) false))) =
  E coin (fun o => E (cdist rolled_killing_dist (normalise [ef_lg false true 0 x0; ef_lg false true 0 o]) 0 0)
    (fun A => g (nth (nth 1 A 0%nat) [x0; o] false))).
Proof.
  unfold forward_pass. rewrite law_bind. unfold gk_init at 1. unfold demo_init at 1. rewrite (fin_draws_denotes false _ _ _ _).
  cbn [Nat.add repeat]. rewrite E_dseq_cons.
  match goal with |- E coin ?F = _ => rewrite (E_ext' coin F (fun _ => E coin (fun o => E (cdist rolled_killing_dist (normalise [ef_lg false true 0 x0; ef_lg false true 0 o]) 0 0)
    (fun A => g (nth (nth 1 A 0%nat) [x0; o] false))))) end.
  { apply E_const, coin_prob. }
  intros a. rewrite E_dseq_cons. apply E_ext'. intros o. cbn [dseq]. rewrite E_dret. cbn [nth set_nth]. cbv zeta. rewrite law_bind. cbn [law].
  cbn [scan_inputs gd_ts]. set (lw := normalise_log _).
  assert (Hl : length lw = 2%nat) by reflexivity.
  assert (Hs : Rsum (map exp lw) = 1) by (apply normalise_log_sum; discriminate).
  rewrite (law_scan_step false _ _ _ _ _ coin _ (fun _ _ u => dret u) ef_lg rolled_killing_dist ef_csmc_model 2) by (assumption || lia).
  change (map exp lw) with (normalise [ef_lg false true 0 x0; ef_lg false true 0 o]).
  apply E_ext. intros A HA. apply cdist_support in HA. destruct HA as [HA _].
  apply (ec_valid _ _ exact_ckilling) in HA; [|apply normalise_ok; discriminate]. destruct HA as [HAl _].
  rewrite length_normalise in HAl. destruct A as [|a0 [|a1 [|? ?]]]; try discriminate. cbn [gather map]. cbv zeta.
  rewrite (E_ext' _ _ (fun us' => (fun us' : list bool => g (nth 1 us' false)) us')).
  - rewrite E_dseq_cons, E_dret, E_dseq_cons, E_dret. cbn [dseq]. rewrite E_dret. reflexivity.
  - intros us'. cbn [scan_forward law map fst snd last].
    assert (Hw : map exp (normalise_log (map (ef_lg true false 0) [nth a0 [x0; o] false; nth a1 [x0; o] false])) = [1/2; 1/2]).
    { change (normalise [0; 0] = [1/2; 1/2]). rewrite normalise_eq by discriminate. cbn [map Rsum]. rewrite exp_0. f_equal; [lra|]. f_equal. lra. }
    cbn [map] in Hw. rewrite Hw. rewrite (fm_half k' (fun i => g (nth i (set_nth 0 x0 us') false))). rewrite nth_set_nth_neq by discriminate. reflexivity.
Qed.

Lemma ef_kernel_law k x0 us_star g :
  law (ef_kernel k x0 true us_star [0; 0]%nat gd_ts 1 false true true) (fun out => g (fst (fst (fst out)))) =
  E coin (fun o => E (cdist rolled_killing_dist (normalise [ef_lg false true 0 x0; ef_lg false true 0 o]) 0 0)
    (fun A => g (nth (nth 1 A 0%nat) [x0; o] false))).
Proof.
  rewrite <- (ef_forward (split_key (split_key k 1) 0) (split_key (split_key k 1) 1) x0 g).
  unfold gibbs_kernel. rewrite law_bind. unfold noise_stage. cbn [bind ef_fwd law rev app negb]. cbv zeta.
  cbn [nth gd_ts last]. rewrite law_bind, law_bind. apply law_ext. intros [[As lws] uss]. cbn [fst snd].
  rewrite law_bind. apply law_ext. intros [idx al]. cbn [fst bind law rev app last].
  apply E_const. apply is_prob_dseq, Forall_repeat, is_prob_dunif. unfold rint_hi. lia.
Qed.

Lemma list2_eq (a b c d : R) : a = c -> b = d -> [a; b] = [c; d].
Proof. now intros -> ->. Qed.

Lemma norm2 a b : 0 < a -> 0 < b -> normalise [ln a; ln b] = [a / (a + b); b / (a + b)].
Proof. intros Ha Hb. rewrite normalise_eq by discriminate. cbn [map Rsum]. rewrite !exp_ln by assumption. rewrite Rplus_0_r. reflexivity. Qed.

Lemma ef_value k us_star :
  E coin (fun x0 => E (unif_indices 1 (length gd_ts)) (fun bs =>
    law (ef_kernel k x0 true us_star bs gd_ts 1 false true true) (fun out => if fst (fst (fst out)) then 1 else 0))) = 2/3.
Proof.
  assert (Hu : forall F, E (unif_indices 1 (length gd_ts)) F = F [0; 0]%nat).
  { intros F. unfold unif_indices, gd_ts. cbn [length repeat]. rewrite !E_dseq_cons, !E_dunif. cbn [seq map Rsum].
    rewrite !E_dseq_cons, !E_dunif. cbn [seq map Rsum dseq]. rewrite E_dret. simpl INR. lra. }
  rewrite (E_ext' coin _ (fun x0 => E coin (fun o => E (cdist rolled_killing_dist (normalise [ef_lg false true 0 x0; ef_lg false true 0 o]) 0 0)
    (fun A => (fun b : bool => if b then 1 else 0) (nth (nth 1 A 0%nat) [x0; o] false))))).
  2:{ intros x0. rewrite Hu. apply (ef_kernel_law k x0 us_star (fun b : bool => if b then 1 else 0)). }
  unfold coin. rewrite !E_cons. unfold ef_lg. cbn [negb andb].
  assert (Htt : normalise [ln 3; ln 3] = [1/2; 1/2]) by (rewrite norm2 by lra; apply list2_eq; lra).
  assert (Hft : normalise [0; ln 3] = [1/4; 3/4]) by (rewrite <- ln_1; rewrite norm2 by lra; apply list2_eq; lra).
  assert (Htf : normalise [ln 3; 0] = [3/4; 1/4]) by (rewrite <- ln_1; rewrite norm2 by lra; apply list2_eq; lra).
  assert (Hff : normalise [0; 0] = [1/2; 1/2]) by (rewrite <- ln_1; rewrite norm2 by lra; apply list2_eq; lra).
  rewrite Htt, Hft, Htf, Hff, !cd_11, !cd_13, !cd_31. unfold E. cbn [map Rsum nth]. lra.
Qed.

(** ** gibbs_init with method 'smoother': the returned state need not be the end of the returned path *)
Definition gi_normal (k : key) (n : nat) : prog (list bool) := Ret [false; true].
Definition gi_lik (v : bool) (us : list bool) (v' : bool) (t : R) : list R := map (fun _ => 0) us.

Lemma strat_half : stratified_of [1/2; 1/2] [1/2; 1/2] = [0; 1]%nat.
Proof.
  unfold stratified_of, inverse_cdf_indices, strat_points. simpl.
  repeat (destruct Rlt_dec; try lra); repeat (destruct Rle_dec; try lra); reflexivity.
Qed.

Lemma gibbs_init_filter_run : exists p tr r,
  gibbs_init false false ef_fwd gd_bridge gi_normal ef_trans ef_translp gi_lik false [] true gd_ts 2 "filter" false None = Some p /\
  runs p tr r /\ (forall k x y tr p, runs (ef_fwd k x y) tr p -> nth_error (fst p) 0 = Some x).
Proof.
  eexists. eexists. eexists. split; [reflexivity|]. split; [|intros k x0 y tr0 p0 [_ ->]; reflexivity].
  unfold noise_stage, bootstrap_filter, stratified, choice_unif, gi_normal, ef_fwd, ef_trans, gd_ts.
  cbn [bind rev app nth filter_inputs bf_scan negb length]. unfold bf_body, ef_trans, stratified. cbn [bind].
  cbn [runs]. exists [1/2; 1/2]. eexists.
  split; [reflexivity|]. split; [reflexivity|]. split; [repeat constructor; unfold in01; lra|].
  cbn [bind runs]. split; reflexivity.
Qed.

Lemma gibbs_init_smoother_inconsistent : exists p tr x us,
  gibbs_init false false ef_fwd gd_bridge gi_normal ef_trans ef_translp gi_lik false [] true gd_ts 2 "smoother" false None = Some p /\
  runs p tr (InitState x us) /\ last us false <> x.
Proof.
  eexists. eexists. exists false. eexists. split; [reflexivity|]. split.
  - unfold noise_stage, bootstrap_filter, bootstrap_backward_smoother, stratified, choice_unif, gi_normal, ef_fwd, ef_trans, gd_ts.
    cbn [bind rev app nth filter_inputs bf_scan negb length]. unfold bf_body, ef_trans, stratified. cbn [bind].
    cbn [runs]. exists [1/2; 1/2]. eexists.
    split; [reflexivity|]. split; [reflexivity|]. split; [repeat constructor; unfold in01; lra|].
    cbn [bind].
    assert (Hst : stratified_of (map exp (map (fun x => x - logsumexp (gi_lik true [false; true] false 0)) (gi_lik true [false; true] false 0))) [1/2; 1/2] = [0; 1]%nat).
    { change (map exp (map (fun x => x - logsumexp (gi_lik true [false; true] false 0)) (gi_lik true [false; true] false 0))) with (normalise [0; 0]).
      replace (normalise [0; 0]) with [1/2; 1/2] by (rewrite <- ln_1; rewrite norm2 by lra; apply list2_eq; lra). exact strat_half. }
    rewrite Hst. cbn [gather map nth fst last removelast rev app combine sm_scan]. unfold choice. cbn [bind runs].
    exists [1%nat]. eexists. split; [reflexivity|]. split; [reflexivity|]. split; [repeat constructor; unfold rint_hi; simpl; lia|].
    exists [1/2]. eexists. split; [reflexivity|]. split; [reflexivity|]. split; [repeat constructor; unfold in01; lra|].
    split; reflexivity.
  - rewrite last_last. discriminate.
Qed.
