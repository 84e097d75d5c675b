(** Key discipline of the samplers: every key is consumed at most once and never both consumed and split. *)
From Verif Require Export SmcProofs.
Open Scope R_scope.

(** [good_bind_under] up to the list of children used *)
Lemma good_seq {A B} k (is js ks : list nat) (p : prog A) (g : A -> prog B) :
  (forall i j, In i is -> In j js -> i <> j) -> (forall i, In i is \/ In i js -> In i ks) ->
  good (map (split_key k) is) p -> (forall a, good (map (split_key k) js) (g a)) -> good (map (split_key k) ks) (bind p g).
Proof.
  intros Hd Hk Hp Hg. eapply good_weaken; [|apply (good_bind_under k is js); eassumption].
  intros k' Hk'. apply in_map_iff in Hk'. destruct Hk' as (i & <- & Hi). apply in_app_iff, Hk in Hi.
  apply Exists_exists. exists (split_key k i). split; [now apply in_map|apply prefix_refl].
Qed.

(** a scan whose step [i] only uses keys below [split_key k i] *)
Lemma good_step {A B} k i m (p : prog A) (g : A -> prog B) :
  good [split_key k i] p -> (forall a, good (map (split_key k) (seq (S i) m)) (g a)) -> good (map (split_key k) (seq i (S m))) (bind p g).
Proof.
  intros Hp Hg. apply (good_seq k [i] (seq (S i) m)); [|intros x Hx; apply in_seq; rewrite in_seq in Hx; simpl in Hx; lia|exact Hp|exact Hg].
  intros a b [<-|[]] Hb. apply in_seq in Hb. lia.
Qed.

Ltac keys_in := intros ? [?|?]; simpl in *; tauto.

Section csmc.
Context {U V : Type} (udef : U) (vdef : V).
Variable init_sampler : key -> nat -> prog (list U).
Variable init_likelihood_logpdf : V -> list U -> V -> list R.
Variable transition_sampler : list U -> V -> R -> key -> prog (list U).
Variable transition_logpdf : U -> list U -> V -> R -> list R.
Variable likelihood_logpdf : V -> list U -> V -> R -> list R.
Variable cond_resampling : key -> list R -> nat -> nat -> bool -> prog (list nat).
Hypothesis Hinit : forall k n, good [k] (init_sampler k n).
Hypothesis Htrans : forall us v t k, good [k] (transition_sampler us v t k).
Hypothesis Hres : forall k w i j b, good [k] (cond_resampling k w i j b).

Lemma scan_body_good lw us s k : good [k] (scan_body udef transition_sampler likelihood_logpdf cond_resampling lw us s k).
Proof.
  apply (good_under k [0; 1]%nat). unfold scan_body.
  apply (good_seq k [0%nat] [1%nat]); [key_disjoint|keys_in|apply Hres|]. intros A. apply good_bind_ret, Htrans.
Qed.

Lemma scan_forward_good k inputs : forall i lw us,
  good (map (split_key k) (seq i (length inputs))) (scan_forward udef transition_sampler likelihood_logpdf cond_resampling k i inputs lw us).
Proof.
  induction inputs as [|s rest IH]; intros i lw us; cbn [scan_forward length]; [apply good_ret|].
  apply good_step; [apply scan_body_good|]. intros [[lw' A] us']. apply good_bind_ret, IH.
Qed.

Lemma forward_pass_good k us_star bs vs ts n :
  good [k] (forward_pass udef vdef init_sampler init_likelihood_logpdf transition_sampler likelihood_logpdf cond_resampling k us_star bs vs ts n).
Proof.
  apply (good_under k [0; 1]%nat). unfold forward_pass.
  apply (good_seq k [0%nat] [1%nat]); [key_disjoint|keys_in|apply Hinit|]. intros us. apply good_bind_ret. eapply good_under, scan_forward_good.
Qed.

Lemma scan_backward_good k inp : forall i x, good (map (split_key k) (seq i (length inp))) (scan_backward udef transition_logpdf k i x inp).
Proof.
  induction inp as [|[[[xs lw] v] t] inp IH]; intros i x; cbn [scan_backward length]; [apply good_ret|].
  apply good_step; [apply good_choice|]. intros B. apply good_bind_ret, IH.
Qed.

Lemma combine_length_le {A B} (l : list A) (l' : list B) : (length (combine l l') <= length l)%nat.
Proof. rewrite combine_length. lia. Qed.

Lemma backward_sampling_good k vs ts uss lws : good [k] (backward_sampling_pass udef transition_logpdf k vs ts uss lws).
Proof.
  unfold backward_sampling_pass.
  set (inp := combine _ _). assert (Hl : (length inp <= length uss - 1)%nat).
  { unfold inp. eapply Nat.le_trans; [apply combine_length_le|]. eapply Nat.le_trans; [apply combine_length_le|].
    eapply Nat.le_trans; [apply combine_length_le|]. rewrite rev_length, length_removelast. lia. }
  apply (good_under k ([length uss - 1]%nat ++ seq 0 (length inp))). apply good_bind_under.
  - intros i j [<-|[]] Hj. apply in_seq in Hj. lia.
  - apply good_choice.
  - intros B. apply good_bind_ret. apply scan_backward_good.
Qed.

Theorem csmc_kernel_good k us bs vs ts n b :
  good [k] (csmc_kernel udef vdef init_sampler init_likelihood_logpdf transition_sampler transition_logpdf likelihood_logpdf cond_resampling k us bs vs ts n b).
Proof.
  apply (good_under k [0; 1]%nat). unfold csmc_kernel.
  apply (good_seq k [0%nat] [1%nat]); [key_disjoint|keys_in|apply forward_pass_good|]. intros [[As lws] xss]. destruct b.
  - apply backward_sampling_good.
  - unfold backward_scanning_pass. apply good_bind_ret, good_choice.
Qed.
End csmc.

Section smc.
Context {U V : Type} (udef : U) (vdef : V).
Variable transition_sampler : list U -> V -> R -> key -> prog (list U).
Variable measurement_cond_pdf : V -> list U -> V -> R -> list R.
Variable resampling : list R -> key -> prog (list nat).
Variable init_sampler : key -> V -> nat -> prog (list U).
Hypothesis Hinit : forall k v n, good [k] (init_sampler k v n).
Hypothesis Htrans : forall us v t k, good [k] (transition_sampler us v t k).
Hypothesis Hres : forall w k, good [k] (resampling w k).

Lemma bf_scan_good n k sd : forall i c,
  good (map (split_key k) (seq i (length sd))) (bf_scan udef transition_sampler measurement_cond_pdf resampling n k i sd c).
Proof.
  induction sd as [|x sd IH]; intros i c; cbn [bf_scan length]; [apply good_ret|].
  apply good_step.
  - apply (good_under _ [0; 1]%nat). unfold bf_body. destruct c as [us nell], x as [[v vp] t].
    apply (good_seq _ [0%nat] [1%nat]); [key_disjoint|keys_in|apply Htrans|]. intros us'. apply good_bind_ret, Hres.
  - intros c'. apply (good_weaken (map (split_key k) (seq (S i) (length sd)) ++ [])).
    + intros k' Hk'. rewrite app_nil_r in Hk'. apply Exists_exists. exists k'. split; [assumption|apply prefix_refl].
    + apply good_bind; [intros ? ? _ []|apply IH|]. intros [cT out]. apply good_ret.
Qed.

Theorem bootstrap_filter_good vs ts k n lg rl :
  good [k] (bootstrap_filter udef vdef transition_sampler measurement_cond_pdf resampling vs ts init_sampler k n lg rl).
Proof.
  apply (good_under k [0; 1]%nat). unfold bootstrap_filter.
  apply (good_seq k [0%nat] [1%nat]); [key_disjoint|keys_in|apply Hinit|]. intros us.
  rewrite <- (app_nil_r (map (split_key k) [1%nat])). apply good_bind; [intros ? ? _ []| |].
  - eapply good_under, bf_scan_good.
  - intros [[l nell] fs]. apply good_ret.
Qed.

Lemma pf_scan_good n k sd : forall i c,
  good (map (split_key k) (seq i (length sd))) (pf_scan udef transition_sampler measurement_cond_pdf resampling n k i sd c).
Proof.
  induction sd as [|x sd IH]; intros i c; cbn [pf_scan length]; [apply good_ret|].
  apply good_step; [|intros; apply IH].
  apply (good_under _ [0; 1]%nat). unfold pf_body. destruct c as [us nell], x as [[v vp] t].
  apply (good_seq _ [1%nat] [0%nat]); [key_disjoint|keys_in|apply Hres|]. intros A. apply good_bind_ret, Htrans.
Qed.

Variable propose : key -> list V -> prog (list V).
Hypothesis Hprop : forall k ys, good [k] (propose k ys).

Theorem pmcmc_kernel_good k uT ell ys ts n which :
  good [k] (pmcmc_kernel udef vdef transition_sampler measurement_cond_pdf resampling k uT ell ys ts propose init_sampler n which).
Proof.
  apply (good_under k [0; 1; 2; 3]%nat). unfold pmcmc_kernel.
  apply (good_seq k [0%nat] [1; 2; 3]%nat); [key_disjoint|keys_in|apply Hprop|]. intros ys'. cbv zeta.
  apply (good_seq k [1%nat] [2; 3]%nat); [key_disjoint|keys_in|apply Hinit|]. intros u0s.
  apply (good_seq k [2%nat] [3]%nat); [key_disjoint|keys_in|eapply good_under, pf_scan_good|]. intros [us e].
  apply (good_unif (split_key k 3) 1).
Qed.
End smc.

Lemma pcn_proposal_good k delta x mean sampler : (forall k, good [k] (sampler k)) -> good [k] (pcn_proposal k delta x mean sampler).
Proof.
  intros H. apply (good_under k [0; 1]%nat). unfold pcn_proposal.
  apply (good_seq k [0%nat] [1%nat]); [key_disjoint|keys_in|apply H|]. intros r0. apply good_bind_ret, H.
Qed.

Section twisted.
Context {U Y : Type} (udef : U).
Variable transition_logpdf : list U -> list U -> R -> list R.
Variable twisting_logpdf : Y -> list U -> R -> list R.
Variable twisting_prop_sampler : key -> list U -> R -> Y -> prog (list U).
Variable twisting_prop_logpdf : list U -> list U -> R -> Y -> list R.
Variable resampling : list R -> key -> prog (list nat).
Variable init_sampler : key -> nat -> prog (list U).
Hypothesis Hinit : forall k n, good [k] (init_sampler k n).
Hypothesis Hprop : forall k us t y, good [k] (twisting_prop_sampler k us t y).
Hypothesis Hres : forall w k, good [k] (resampling w k).

Lemma tw_scan_good y k ts : forall i c, good (map (split_key k) (seq i (length ts)))
  (tw_scan udef transition_logpdf twisting_logpdf twisting_prop_sampler twisting_prop_logpdf resampling y k i ts c).
Proof.
  induction ts as [|t ts IH]; intros i c; cbn [tw_scan length]; [apply good_ret|].
  apply good_step; [|intros; apply IH]. apply (good_under _ [0; 1]%nat). unfold tw_body. destruct c as [[xs lps] lws].
  apply (good_seq _ [0%nat] [1%nat]); [key_disjoint|keys_in|apply Hres|]. intros A. apply good_bind_ret, Hprop.
Qed.

Theorem twisted_smc_good k y ts n : good [k]
  (twisted_smc udef transition_logpdf twisting_logpdf twisting_prop_sampler twisting_prop_logpdf resampling k y ts init_sampler n).
Proof.
  apply (good_under k [0; 1]%nat). unfold twisted_smc.
  apply (good_seq k [0%nat] [1%nat]); [key_disjoint|keys_in|apply Hinit|]. intros us.
  rewrite <- (app_nil_r (map (split_key k) [1%nat])). apply good_bind; [intros ? ? _ []| |].
  - eapply good_under, tw_scan_good.
  - intros [[l nell] fs]. apply good_ret.
Qed.
End twisted.

(** The backward smoother draws the last state with [key] itself and the others with its descendants. *)
Lemma smoother_reuses_key {U V} (udef : U) translp k (us0 us1 : list U) (v0 v1 : V) (t0 t1 : R) tr path :
  runs (bootstrap_backward_smoother udef translp k [us0; us1] [v0; v1] [t0; t1]) tr path ->
  tr = [k; split_key (split_key k 1) 0].
Proof.
  unfold bootstrap_backward_smoother. cbn [removelast rev app combine]. unfold choice_unif. cbn [bind runs].
  intros (l & tr' & -> & _ & _ & H). f_equal. cbn [sm_scan] in H. unfold choice in H. cbn [bind runs] in H.
  destruct H as (us & tr2 & -> & _ & _ & [-> _]). reflexivity.
Qed.
