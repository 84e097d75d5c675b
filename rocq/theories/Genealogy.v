(** Ancestors of the particles of the bootstrap filter (smc.py:9-88), the "coalescence" that
    experiments/tabulators/plot_img_coalescence.py sets out to show.

    The filter is polymorphic in the particles, so the ancestors can be followed by running it on
    particles that carry a tag: the slot of the particle of the initial cloud they descend from.
    The transition moves the particle and keeps its tag; the likelihood does not look at the tag. *)
From Coq Require Import FunctionalExtensionality Permutation Reals Lra Lia List.
From Coquelicot Require Import Coquelicot.
From Verif Require Export FilterConsistent.
Open Scope R_scope.

Section tagged.
Context {U V : Type} (udef : U) (vdef : V).
Variable transition_sampler : list U -> V -> R -> key -> prog (list U).
Variable measurement_cond_pdf : V -> list U -> V -> R -> list R.
Variable resampling : list R -> key -> prog (list nat).
Variable init_sampler : key -> V -> nat -> prog (list U).

Definition retag (tags : list nat) (us : list U) : list (nat * U) :=
  map (fun i => (nth i tags 0%nat, nth i us udef)) (seq 0 (length us)).
Definition tag_transition (l : list (nat * U)) (v : V) (t : R) (k : key) : prog (list (nat * U)) :=
  us <- transition_sampler (map snd l) v t k ;; Ret (retag (map fst l) us).
Definition tag_likelihood (v : V) (l : list (nat * U)) (vp : V) (t : R) : list R := measurement_cond_pdf v (map snd l) vp t.
Definition tag_init (k : key) (v : V) (n : nat) : prog (list (nat * U)) :=
  us <- init_sampler k v n ;; Ret (retag (seq 0 n) us).
Definition tagged_filter (vs : list V) (ts : list R) (k : key) (n : nat) (lg rl : bool) : prog (list (list (nat * U)) * R) :=
  bootstrap_filter (0%nat, udef) vdef tag_transition tag_likelihood resampling vs ts tag_init k n lg rl.

(** ** Forgetting the tags gives the filter back *)

Lemma map_snd_retag tags us : map snd (retag tags us) = us.
Proof using. unfold retag. rewrite map_map. cbn [snd]. apply map_nth_seq. Qed.

Lemma length_retag tags us : length (retag tags us) = length us.
Proof using. unfold retag. now rewrite map_length, seq_length. Qed.

Lemma map_fst_retag tags us : length tags = length us -> map fst (retag tags us) = tags.
Proof using. intros H. unfold retag. rewrite map_map. cbn [fst]. rewrite <- H. apply map_nth_seq. Qed.

Lemma map_snd_gather l A : map snd (gather (0%nat, udef) l A) = gather udef (map snd l) A.
Proof using. unfold gather. rewrite map_map. apply map_ext. intros i. now rewrite <- (map_nth snd l (0%nat, udef) i). Qed.

Lemma map_fst_gather l A : map fst (gather (0%nat, udef) l A) = gather 0%nat (map fst l) A.
Proof using. unfold gather. rewrite map_map. apply map_ext. intros i. now rewrite <- (map_nth fst l (0%nat, udef) i). Qed.

Lemma bind_bind {A B C} (p : prog A) (g : A -> prog B) (h : B -> prog C) : bind (bind p g) h = bind p (fun a => bind (g a) h).
Proof using. induction p as [a|k n c IH|k n hi c IH|k ps c IH]; cbn [bind]; [reflexivity| | |]; f_equal; extensionality x; apply IH. Qed.

Lemma bind_ext {A B} (p : prog A) (g h : A -> prog B) : (forall a, g a = h a) -> bind p g = bind p h.
Proof using. intros H. f_equal. extensionality a. apply H. Qed.

Notation bft := (bf_scan (0%nat, udef) tag_transition tag_likelihood resampling).
Notation bfu := (bf_scan udef transition_sampler measurement_cond_pdf resampling).

Lemma bf_scan_untag n k sd : forall (C : Type) i c (K : list U * R * list (list U) -> prog C),
  bind (bft n k i sd c) (fun r => K ((map snd (fst (fst r)), snd (fst r)), map (map snd) (snd r))) =
  bind (bfu n k i sd (map snd (fst c), snd c)) K.
Proof using.
  induction sd as [|[[v vp] t] sd IH]; intros C i [l nell] K; [reflexivity|].
  cbn [bf_scan fst snd bf_body]. unfold tag_transition. rewrite !bind_bind. apply bind_ext. intros us. cbn [bind].
  unfold tag_likelihood. rewrite !bind_bind. apply bind_ext. intros A. cbn [bind]. rewrite !bind_bind.
  set (l' := gather (0%nat, udef) (retag (map fst l) us) A).
  assert (Hl : gather udef us A = map snd l') by (unfold l'; now rewrite map_snd_gather, map_snd_retag).
  rewrite Hl. set (ne' := nell - _).
  change (map snd l', ne') with (map snd (fst (l', ne')), snd (l', ne')).
  rewrite <- (IH _ (S i) (l', ne')). apply bind_ext. intros [cT out]. reflexivity.
Qed.

Theorem tagged_filter_forget vs ts k n lg rl :
  bind (tagged_filter vs ts k n lg rl) (fun r => Ret (map (map snd) (fst r), snd r)) =
  bootstrap_filter udef vdef transition_sampler measurement_cond_pdf resampling vs ts init_sampler k n lg rl.
Proof using.
  unfold tagged_filter, bootstrap_filter, tag_init. rewrite !bind_bind. apply bind_ext. intros us. cbn [bind]. rewrite bind_bind.
  rewrite <- (map_snd_retag (seq 0 n) us) at 2.
  change (map snd (retag (seq 0 n) us), 0) with (map snd (fst (retag (seq 0 n) us, 0)), snd (retag (seq 0 n) us, 0)).
  rewrite <- bf_scan_untag. apply bind_ext. intros [[l nell] out]. cbn [bind fst snd]. destruct rl; cbn [map fst snd]; [reflexivity|].
  now rewrite map_snd_retag.
Qed.

(** ** Along every run the sets of ancestors are nested *)
Section runs.
Hypothesis Hlen : forall us v t k, safe (transition_sampler us v t k) (fun us' => length us' = length us).
Hypothesis Hlik : forall v us vp t, length (measurement_cond_pdf v us vp t) = length us.
Hypothesis Hres : forall w k, weights_ok w -> safe (resampling w k) (valid_indices (length w)).
Hypothesis Hinit : forall k v n, safe (init_sampler k v n) (fun us => length us = n).
Variable n : nat.
Hypothesis Hn : (0 < n)%nat.

Definition tags (l : list (nat * U)) : list nat := map fst l.

Lemma body_nested c v vp t k : length (fst c) = n ->
  safe (bf_body (0%nat, udef) tag_transition tag_likelihood resampling n c (v, vp, t) k)
    (fun c' => length (fst c') = n /\ incl (tags (fst c')) (tags (fst c))).
Proof using Hlen Hlik Hres Hn.
  destruct c as [l nell]. cbn [fst]. intros Hl. unfold bf_body, tag_transition.
  eapply safe_bind.
  { apply (safe_bind _ _ (fun us => length us = n) (fun l' => length l' = n /\ tags l' = tags l)).
    - eapply safe_weaken; [|apply Hlen]. intros us H. cbn beta in H. now rewrite H, map_length.
    - intros us Hus. apply safe_ret. split; [now rewrite length_retag|]. unfold tags; apply map_fst_retag. rewrite map_length. congruence. }
  intros l' [Hl' Ht]. cbn beta.
  set (lw := tag_likelihood v l vp t).
  assert (Hlw : length lw = n) by (unfold lw, tag_likelihood; now rewrite Hlik, map_length).
  change (map exp (map (fun x => x - logsumexp lw) lw)) with (normalise lw).
  assert (Hw : weights_ok (normalise lw)) by (apply normalise_ok; intros E; rewrite E in Hlw; cbn in Hlw; lia).
  eapply safe_bind; [apply (Hres _ _ Hw)|]. intros A [HA1 HA2]. apply safe_ret. cbn [fst].
  rewrite length_normalise, Hlw in HA1, HA2. split; [now rewrite length_gather|].
  intros a Ha. unfold tags in Ha. rewrite map_fst_gather in Ha. unfold gather in Ha. apply in_map_iff in Ha. destruct Ha as (i & <- & Hi).
  rewrite Forall_forall in HA2. specialize (HA2 i Hi). change (map fst l') with (tags l'). rewrite Ht. apply nth_In. unfold tags. rewrite map_length. lia.
Qed.

Definition nested (c : list (nat * U)) (ls : list (list (nat * U))) : Prop :=
  forall j, (j < length ls)%nat -> length (nth j ls []) = n /\ incl (tags (nth j ls [])) (tags (nth j (c :: ls) [])).

Lemma nested_cons c c' ls : length c' = n -> incl (tags c') (tags c) -> nested c' ls -> nested c (c' :: ls).
Proof using. intros H1 H2 H3 [|j] Hj; [now split|]. cbn [length] in Hj. exact (H3 j (proj2 (Nat.succ_lt_mono _ _) Hj)). Qed.

Lemma scan_nested k sd : forall i c, length (fst c) = n ->
  safe (bft n k i sd c) (fun r => nested (fst c) (snd r) /\ length (snd r) = length sd /\ fst (fst r) = last (fst c :: snd r) []).
Proof using Hlen Hlik Hres Hn.
  induction sd as [|[[v vp] t] sd IH]; intros i c Hc; cbn [bf_scan].
  - apply safe_ret. cbn [fst snd length]. split; [intros j Hj; cbn in Hj; lia|split; reflexivity].
  - eapply safe_bind; [now apply body_nested|]. intros c' [H1 H2]. cbn beta. eapply safe_bind; [now apply (IH (S i) c')|].
    intros [cT out] (H3 & H4 & H5). apply safe_ret. cbn [fst snd length] in *. split; [now apply nested_cons|]. split; [lia|]. exact H5.
Qed.

Theorem filter_nested vs ts k lg : safe (tagged_filter vs ts k n lg false) (fun r =>
  length (fst r) = S (length (filter_inputs vs ts)) /\ tags (nth 0 (fst r) []) = seq 0 n /\
  forall j, (S j < length (fst r))%nat -> length (nth (S j) (fst r) []) = n /\
    incl (tags (nth (S j) (fst r) [])) (tags (nth j (fst r) [])) /\
    (length (nodup Nat.eq_dec (tags (nth (S j) (fst r) []))) <= length (nodup Nat.eq_dec (tags (nth j (fst r) []))))%nat).
Proof using Hlen Hlik Hres Hinit Hn.
  unfold tagged_filter, bootstrap_filter. eapply safe_bind.
  { unfold tag_init. eapply (safe_bind _ _ _ (fun l => length l = n /\ tags l = seq 0 n)); [apply Hinit|]. intros us Hus. cbn beta in Hus. apply safe_ret.
    split; [now rewrite length_retag|]. apply map_fst_retag. now rewrite seq_length. }
  intros l [Hl Ht]. cbn beta. eapply safe_bind; [now apply (scan_nested _ _ 0%nat (l, 0))|].
  intros [[lT nell] out] (H1 & H2 & _). apply safe_ret. cbn [fst snd length nth] in *. rewrite H2. split; [reflexivity|]. split; [assumption|].
  intros j Hj. specialize (H1 j ltac:(lia)). destruct H1 as [H1 H3]. split; [assumption|]. split; [exact H3|].
  apply NoDup_incl_length; [apply NoDup_nodup|]. intros a Ha. apply nodup_In in Ha. apply nodup_In. now apply H3.
Qed.
End runs.

(** ** Laws *)
Section laws.
Variable n : nat.
Hypothesis Hn : (0 < n)%nat.
Hypothesis Htrans : forall us v t, length us = n -> has_laws (fun us' => length us' = n) (transition_sampler us v t).
Hypothesis Hlik : forall v us vp t, length (measurement_cond_pdf v us vp t) = length us.
Hypothesis Hinit : forall v, has_laws (fun us => length us = n) (fun k => init_sampler k v n).

Lemma lik_weights v (l : list (nat * U)) vp t : length l = n ->
  weights_ok (normalise (tag_likelihood v l vp t)) /\ length (normalise (tag_likelihood v l vp t)) = n.
Proof using Hlik Hn.
  intros Hl. assert (H : length (tag_likelihood v l vp t) = n) by (unfold tag_likelihood; now rewrite Hlik, map_length).
  split; [|now rewrite length_normalise]. apply normalise_ok. intros E. rewrite E in H. cbn in H. lia.
Qed.

Hypothesis Hreslaw : forall w, weights_ok w -> has_laws (valid_indices (length w)) (resampling w).

Notation body := (bf_body (0%nat, udef) tag_transition tag_likelihood resampling n).

Lemma tag_trans_laws l v t : length l = n -> has_laws (fun l' => length l' = n /\ tags l' = tags l) (tag_transition l v t).
Proof using Htrans.
  intros Hl. destruct (Htrans (map snd l) v t) as (d & H1 & H2 & H3); [now rewrite map_length|].
  exists (dmap (retag (map fst l)) d). split; [now apply is_prob_dmap|]. split.
  - intros k f. unfold tag_transition. rewrite law_bind. cbn [law]. rewrite H2, E_dmap. reflexivity.
  - intros l' H. unfold dmap in H. rewrite map_map in H. cbn [snd] in H. apply in_map_iff in H. destruct H as ([p us] & <- & Hin).
    specialize (H3 us (in_map snd _ _ Hin)). cbn beta in H3. cbn [snd]. split; [now rewrite length_retag|]. unfold tags; apply map_fst_retag. rewrite map_length. congruence.
Qed.

Lemma body_laws c v vp t : length (fst c) = n -> has_laws (fun c' => length (fst c') = n) (body c (v, vp, t)).
Proof using Hn Htrans Hlik Hreslaw.
  destruct c as [l nell]. cbn [fst]. intros Hl. unfold bf_body.
  change (map exp (map (fun x => x - logsumexp (tag_likelihood v l vp t)) (tag_likelihood v l vp t))) with (normalise (tag_likelihood v l vp t)).
  destruct (lik_weights v l vp t Hl) as [Hw Hwl].
  apply (has_laws_bind (fun l' => length l' = n /\ tags l' = tags l) _ (tag_transition l vp t)
    (fun us k => bind (resampling (normalise (tag_likelihood v l vp t)) (split_key k 1))
       (fun inds => Ret (gather (0%nat, udef) us inds, nell - (logsumexp (tag_likelihood v l vp t) - ln (INR n))))) (fun k => split_key k 0) (fun k => k)); [now apply tag_trans_laws|].
  intros l' _. apply (has_laws_bind (valid_indices (length (normalise (tag_likelihood v l vp t)))) _ (resampling (normalise (tag_likelihood v l vp t)))
    (fun inds _ => Ret (gather (0%nat, udef) l' inds, nell - (logsumexp (tag_likelihood v l vp t) - ln (INR n)))) (fun k => split_key k 1) (fun k => k)); [now apply Hreslaw|].
  intros A [HA _]. apply has_laws_ret. cbn [fst]. rewrite length_gather. lia.
Qed.

(** the new tags are the resampled old ones *)
Lemma body_tags c v vp t k (F : list nat -> R) : length (fst c) = n ->
  law (body c (v, vp, t) k) (fun c' => F (tags (fst c'))) =
  law (resampling (normalise (tag_likelihood v (fst c) vp t)) (split_key k 1)) (fun A => F (gather 0%nat (tags (fst c)) A)).
Proof using Htrans.
  destruct c as [l nell]. cbn [fst]. intros Hl. unfold bf_body. rewrite law_bind.
  change (map exp (map (fun x => x - logsumexp (tag_likelihood v l vp t)) (tag_likelihood v l vp t))) with (normalise (tag_likelihood v l vp t)).
  pose proof (tag_trans_laws l vp t Hl) as HL.
  set (c0 := law _ (fun A => F _)). rewrite <- (has_laws_const _ _ (split_key k 0) c0 HL).
  destruct HL as (d & _ & Hd & Hs). rewrite !Hd. apply E_ext. intros l' Hl'. destruct (Hs l' Hl') as [_ Ht].
  rewrite law_bind. unfold c0. f_equal. extensionality A. cbn [law fst]. unfold tags at 1. rewrite map_fst_gather. now rewrite <- Ht.
Qed.

Lemma scan_laws sd : forall i c, length (fst c) = n ->
  has_laws (fun r => length (fst (fst r)) = n /\ last (fst c :: snd r) [] = fst (fst r)) (fun k => bft n k i sd c).
Proof using Hn Htrans Hlik Hreslaw.
  induction sd as [|[[v vp] t] sd IH]; intros i c Hc; cbn [bf_scan].
  - apply has_laws_ret. cbn [fst snd]. now split.
  - apply (has_laws_bind (fun c' => length (fst c') = n) _ (body c (v, vp, t))
      (fun c' k => bind (bft n k (S i) sd c') (fun x => let (cT, out) := x in Ret (cT, fst c' :: out))) (fun k => split_key k i) (fun k => k)); [now apply body_laws|].
    intros c' Hc'. apply (has_laws_bind (fun r => length (fst (fst r)) = n /\ last (fst c' :: snd r) [] = fst (fst r)) _ (fun k => bft n k (S i) sd c')
      (fun x _ => let (cT, out) := x in Ret (cT, fst c' :: out)) (fun k => k) (fun k => k)); [now apply IH|].
    intros [cT out] [H1 H2]. apply has_laws_ret. cbn [fst snd] in *. split; [assumption|exact H2].
Qed.

Section rate.
Variable F : list nat -> R.
Variable rate : R.
Hypothesis Hrate : 0 <= rate.

Section upper.
Hypothesis Hstep : forall v (l : list (nat * U)) vp t k, length l = n ->
  law (resampling (normalise (tag_likelihood v l vp t)) k) (fun A => F (gather 0%nat (tags l) A)) <= rate * F (tags l).

Lemma scan_upper k sd : forall i c, length (fst c) = n ->
  law (bft n k i sd c) (fun r => F (tags (fst (fst r)))) <= rate ^ length sd * F (tags (fst c)).
Proof using Hn Htrans Hlik Hreslaw Hstep Hrate.
  induction sd as [|[[v vp] t] sd IH]; intros i c Hc; cbn [bf_scan length pow].
  - cbn [law fst]. lra.
  - rewrite law_bind.
    apply Rle_trans with (law (body c (v, vp, t) (split_key k i)) (fun c' => rate ^ length sd * F (tags (fst c')))).
    + apply (has_laws_le _ _ _ _ _ (body_laws c v vp t Hc)). intros c' Hc'. cbn beta. rewrite law_bind.
      eapply Rle_trans; [|apply (IH (S i) c' Hc')]. right. f_equal. extensionality r. destruct r as [cT out]. reflexivity.
    + rewrite (body_tags c v vp t _ (fun a => rate ^ length sd * F a) Hc).
      destruct (lik_weights v (fst c) vp t Hc) as [Hw _]. destruct (Hreslaw _ Hw) as (d & _ & Hd & _).
      rewrite Hd, E_mult_l, <- (Hd (split_key (split_key k i) 1)). rewrite (Rmult_comm rate), Rmult_assoc. apply Rmult_le_compat_l; [now apply pow_le|]. now apply Hstep.
Qed.
End upper.

Section exact.
Hypothesis Hstep : forall v (l : list (nat * U)) vp t k, length l = n ->
  law (resampling (normalise (tag_likelihood v l vp t)) k) (fun A => F (gather 0%nat (tags l) A)) = rate * F (tags l).

Lemma scan_exact k sd : forall i c, length (fst c) = n ->
  law (bft n k i sd c) (fun r => F (tags (fst (fst r)))) = rate ^ length sd * F (tags (fst c)).
Proof using Hn Htrans Hlik Hreslaw Hstep.
  induction sd as [|[[v vp] t] sd IH]; intros i c Hc; cbn [bf_scan length pow].
  - cbn [law fst]. lra.
  - rewrite law_bind. transitivity (law (body c (v, vp, t) (split_key k i)) (fun c' => rate ^ length sd * F (tags (fst c')))).
    + destruct (body_laws c v vp t Hc) as (d & _ & Hd & Hs). rewrite !Hd. apply E_ext. intros c' Hc'. cbn beta. rewrite law_bind.
      rewrite <- (IH (S i) c' (Hs c' Hc')). f_equal. extensionality r. destruct r as [cT out]. reflexivity.
    + rewrite (body_tags c v vp t _ (fun a => rate ^ length sd * F a) Hc).
      destruct (lik_weights v (fst c) vp t Hc) as [Hw _]. destruct (Hreslaw _ Hw) as (d & _ & Hd & _).
      rewrite Hd, E_mult_l, <- (Hd (split_key (split_key k i) 1)), Hstep by assumption. ring.
Qed.
End exact.
End rate.

(** from the scan to the filter: the tags start as 0..n-1 *)
Lemma filter_of_scan vs ts k lg rl (F : list nat -> R) (P : R -> Prop) :
  (forall c k, length (fst c) = n -> tags (fst c) = seq 0 n -> forall x, x = law (bft n k 0 (filter_inputs vs ts) c) (fun r => F (tags (fst (fst r)))) -> P x) ->
  (forall (d : dist (list (nat * U))) g, is_prob d -> (forall a, In a (map snd d) -> P (g a)) -> P (E d g)) ->
  P (law (tagged_filter vs ts k n lg rl) (fun r => F (tags (last (fst r) [])))).
Proof using Hn Htrans Hlik Hreslaw Hinit.
  intros HP HE. unfold tagged_filter, bootstrap_filter. rewrite law_bind.
  assert (HI : has_laws (fun l => length l = n /\ tags l = seq 0 n) (fun k => tag_init k (nth 0 vs vdef) n)).
  { destruct (Hinit (nth 0 vs vdef)) as (d & H1 & H2 & H3). exists (dmap (retag (seq 0 n)) d). split; [now apply is_prob_dmap|]. split.
    - intros k' f. unfold tag_init. rewrite law_bind. cbn [law]. rewrite H2, E_dmap. reflexivity.
    - intros l H. unfold dmap in H. rewrite map_map in H. cbn [snd] in H. apply in_map_iff in H. destruct H as ([p us] & <- & Hin).
      specialize (H3 us (in_map snd _ _ Hin)). cbn beta in H3. cbn [snd]. split; [now rewrite length_retag|]. unfold tags; apply map_fst_retag. rewrite seq_length. congruence. }
  destruct HI as (d & H1 & H2 & H3). rewrite H2. apply HE; [assumption|]. intros l Hl. destruct (H3 l Hl) as [Hl1 Hl2].
  apply (HP (l, 0) (split_key k 1) Hl1 Hl2). rewrite law_bind.
  destruct (scan_laws (filter_inputs vs ts) 0 (l, 0) Hl1) as (d' & _ & Hd' & Hs'). rewrite !Hd'. apply E_ext. intros [[lT ne] out] Hr.
  destruct (Hs' _ Hr) as [_ Hlast]. cbn [fst snd] in Hlast. cbn [law fst]. destruct rl; cbn [fst]; [reflexivity|]. now rewrite Hlast.
Qed.
End laws.
End tagged.
