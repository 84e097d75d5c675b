(** The keys used by the backward smoother, and the indices refreshed by the Gibbs kernel, for every model. *)
From Verif Require Export Hygiene Gibbs.
Open Scope R_scope.

Lemma sm_scan_keys {U V} (udef : U) (translp : U -> list U -> V -> R -> list R) k rows : forall i x tr l,
  runs (sm_scan udef translp k i x rows) tr l -> tr = map (split_key k) (seq i (length rows)).
Proof.
  induction rows as [|[[us v] t] rows IH]; intros i x tr l Hr; cbn [sm_scan length seq map] in *.
  - destruct Hr as [-> _]. reflexivity.
  - apply runs_bind in Hr. destruct Hr as (t1 & j & t2 & -> & H1 & Hr). apply runs_bind in Hr. destruct Hr as (t3 & out & t4 & -> & H2 & [-> _]).
    unfold choice in H1. cbn [bind runs] in H1. destruct H1 as (u & t5 & -> & _ & _ & [-> _]). apply IH in H2. rewrite H2, app_nil_r. reflexivity.
Qed.

Lemma smoother_keys {U V} (udef : U) (translp : U -> list U -> V -> R -> list R) k filter_us vs ts tr path n :
  length filter_us = S n -> length vs = S n -> length ts = S n ->
  runs (bootstrap_backward_smoother udef translp k filter_us vs ts) tr path ->
  tr = k :: map (split_key (split_key k 1)) (seq 0 n).
Proof.
  intros H1 H2 H3 Hr. unfold bootstrap_backward_smoother in Hr. apply runs_bind in Hr. destruct Hr as (t1 & j & t2 & -> & Hj & Hr).
  apply runs_bind in Hr. destruct Hr as (t3 & traj & t4 & -> & Ht & [-> _]). apply sm_scan_keys in Ht.
  assert (G : forall A (l : list A), length l = S n -> length (rev (removelast l)) = n).
  { intros A l Hl. rewrite rev_length. destruct (@exists_last _ l) as (l' & a & ->); [intros ->; discriminate|]. rewrite removelast_last.
    rewrite app_length in Hl. cbn [length] in Hl. lia. }
  rewrite !combine_length, !G, !Nat.min_id in Ht by assumption. unfold choice_unif in Hj. cbn [bind runs] in Hj.
  destruct Hj as (i & t5 & -> & _ & _ & [-> _]). rewrite Ht, app_nil_r. reflexivity.
Qed.

Lemma refreshed_below {U V} (udef : U) (vdef : V) fwd bridge normal trans translp lik k x0 y0 us_star bs ts n marg_y ef :
  (0 < n)%nat ->
  safe (gibbs_kernel udef vdef fwd bridge normal trans translp lik k x0 y0 us_star bs ts n marg_y true ef)
    (fun out => Forall (fun b => (b < n)%nat) (snd (fst out))).
Proof.
  intros Hn. unfold gibbs_kernel. apply safe_bind with (P := fun _ => True); [intros ? ? ?; exact I|]. intros [us vs] _. cbv zeta.
  apply safe_bind with (P := fun ub : list U * list nat => Forall (fun b => (b < n)%nat) (snd ub)).
  - apply safe_bind with (P := fun _ => True); [intros ? ? ?; exact I|]. intros [[As lws] uss] _.
    apply safe_bind with (P := fun _ => True); [intros ? ? ?; exact I|]. intros [idx al] _.
    apply safe_bind with (P := fun _ => True); [intros ? ? ?; exact I|]. intros [px py] _. cbn [bind].
    apply safe_rint. intros l Hl Hf. apply safe_ret. cbn [snd]. eapply Forall_impl; [|exact Hf]. intros b Hb. cbv beta in Hb. unfold rint_hi in Hb. lia.
  - intros [us'' bs''] H. apply safe_ret. exact H.
Qed.
