(** Proofs about fbs/samplers/csmc/csmc.py. *)
From Verif Require Export Csmc CondResamplingProofs.
Open Scope R_scope.

(** ** normalise *)

Lemma Rsum_exp_pos l : l <> [] -> 0 < Rsum (map exp l).
Proof.
  intros H. apply Rsum_pos; [destruct l; [easy|discriminate]|].
  apply Forall_map, Forall_forall. intros. apply exp_pos.
Qed.

Lemma normalise_eq l : l <> [] -> normalise l = map (fun x => exp x / Rsum (map exp l)) l.
Proof.
  intros H. unfold normalise, normalise_log, logsumexp. rewrite map_map. apply map_ext. intros x.
  unfold Rminus. rewrite exp_plus, exp_Ropp, exp_ln by now apply Rsum_exp_pos. reflexivity.
Qed.

Lemma length_normalise_log l : length (normalise_log l) = length l.
Proof. apply map_length. Qed.
Lemma length_normalise l : length (normalise l) = length l.
Proof. unfold normalise. now rewrite map_length, length_normalise_log. Qed.

Lemma normalise_pos l : Forall (fun x => 0 < x) (normalise l).
Proof. unfold normalise. apply Forall_map, Forall_forall. intros. apply exp_pos. Qed.

Lemma normalise_ok l : l <> [] -> weights_ok (normalise l).
Proof.
  intros H. split.
  - eapply Forall_impl; [|apply normalise_pos]. simpl; intros; lra.
  - rewrite normalise_eq by assumption. unfold Rdiv. rewrite Rsum_map_mult_r.
    apply Rinv_r. pose proof (Rsum_exp_pos l H). lra.
Qed.

Lemma normalise_log_sum l : l <> [] -> Rsum (map exp (normalise_log l)) = 1.
Proof. intros H. apply (normalise_ok l H). Qed.

Lemma normalise_idem l : l <> [] -> normalise (normalise_log l) = normalise l.
Proof.
  intros H. rewrite (normalise_eq (normalise_log l)) by (destruct l; [easy|discriminate]).
  rewrite normalise_log_sum by assumption. unfold normalise. apply map_ext. intros; field.
Qed.

Lemma normalise_log_idem l : l <> [] -> normalise_log (normalise_log l) = normalise_log l.
Proof.
  intros H. unfold normalise_log at 1. unfold logsumexp. rewrite normalise_log_sum, ln_1 by assumption.
  rewrite (map_ext _ (fun x => x)) by (intros; ring). apply map_id.
Qed.

(** normalising is invariant under a common shift of the log-weights *)
Lemma normalise_shift c l : l <> [] -> normalise (map (fun x => x - c) l) = normalise l.
Proof.
  intros H. rewrite !normalise_eq by (destruct l; [easy|discriminate]). rewrite map_map.
  assert (He : map exp (map (fun x => x - c) l) = map (fun x => exp (-c) * exp x) l).
  { rewrite map_map. apply map_ext. intros x. rewrite <- exp_plus. f_equal. ring. }
  rewrite He, Rsum_map_mult_l. apply map_ext. intros x. unfold Rminus. rewrite exp_plus.
  pose proof (Rsum_exp_pos l H). pose proof (exp_pos (-c)). field. lra.
Qed.

(** ** Input zipping *)

Section csmc.
Context {U V : Type} (udef : U) (vdef : V).

(** (v_k, v_{k-1}, t_{k-1}) for k = 1..K *)
Fixpoint step_data (vs : list V) (ts : list R) : list (V * V * R) :=
  match vs, ts with
  | v0 :: ((v1 :: _) as vs'), t0 :: ts' => (v1, v0, t0) :: step_data vs' ts'
  | _, _ => []
  end.

Fixpoint mk_inputs (sd : list (V * V * R)) (b : nat) (refs : list (nat * U)) : list (@step_in U V) :=
  match sd, refs with
  | (v, vp, t) :: sd', (b', u') :: refs' => mk_step v vp t b b' u' :: mk_inputs sd' b' refs'
  | _, _ => []
  end.

Lemma scan_inputs_mk vs ts b bs u us :
  length bs = length us -> (length vs = S (length us)) -> length ts = length vs ->
  scan_inputs vs ts (b :: bs) (u :: us) = mk_inputs (step_data vs ts) b (combine bs us).
Proof.
  revert vs ts b bs u; induction us as [|u1 us IH]; intros vs ts b bs u Hb Hv Ht.
  - destruct bs; [|discriminate]. destruct vs as [|v0 [|v1 vs]]; try discriminate.
    destruct ts; reflexivity.
  - destruct bs as [|b1 bs]; [discriminate|]. destruct vs as [|v0 [|v1 vs]]; try discriminate.
    destruct ts as [|t0 ts]; [discriminate|].
    change (scan_inputs (v0 :: v1 :: vs) (t0 :: ts) (b :: b1 :: bs) (u :: u1 :: us))
      with (mk_step v1 v0 t0 b b1 u1 :: scan_inputs (v1 :: vs) ts (b1 :: bs) (u1 :: us)).
    change (step_data (v0 :: v1 :: vs) (t0 :: ts)) with ((v1, v0, t0) :: step_data (v1 :: vs) ts).
    cbn [combine mk_inputs]. f_equal. apply IH; simpl in *; lia.
Qed.

Lemma length_step_data vs ts : length ts = length vs -> length (step_data vs ts) = (length vs - 1)%nat.
Proof.
  revert ts; induction vs as [|v0 vs IH]; intros ts Ht; [reflexivity|]. destruct vs as [|v1 vs].
  - destruct ts; reflexivity.
  - destruct ts as [|t0 ts]; [discriminate|].
    change (step_data (v0 :: v1 :: vs) (t0 :: ts)) with ((v1, v0, t0) :: step_data (v1 :: vs) ts).
    cbn [length]. rewrite IH by (simpl in *; lia). simpl. lia.
Qed.

Lemma length_mk_inputs sd b refs : length sd = length refs -> length (mk_inputs sd b refs) = length sd.
Proof.
  revert b refs; induction sd as [|[[v vp] t] sd IH]; intros b [|[b' u'] refs] H; simpl in *; try lia.
  rewrite IH; lia.
Qed.

Lemma mk_inputs_nth sd b refs k : length sd = length refs -> (k < length sd)%nat ->
  exists v vp t, nth_error sd k = Some (v, vp, t) /\
  nth_error (mk_inputs sd b refs) k =
  Some (mk_step v vp t (nth k (b :: map fst refs) 0%nat) (nth (S k) (b :: map fst refs) 0%nat)
                (nth k (map snd refs) udef)).
Proof.
  revert b refs k; induction sd as [|[[v vp] t] sd IH]; intros b [|[b' u'] refs] k Hl Hk; simpl in *; try lia.
  destruct k as [|k]; [exists v, vp, t; split; reflexivity|].
  destruct (IH b' refs k ltac:(lia) ltac:(lia)) as (v1 & vp1 & t1 & H1 & H2).
  exists v1, vp1, t1. split; [exact H1|]. exact H2.
Qed.

(** ** Every-outcome properties (C09, C10) *)

Variable init_sampler : key -> nat -> prog (list U).
Variable init_likelihood_logpdf : V -> list U -> V -> list R.
Variable transition_sampler : list U -> V -> R -> key -> prog (list U).
Variable transition_logpdf : U -> list U -> V -> R -> list R.
Variable likelihood_logpdf : V -> list U -> V -> R -> list R.
Variable cond_resampling : key -> list R -> nat -> nat -> bool -> prog (list nat).

(** shapes returned by the user functions *)
Record shapes_ok : Prop := {
  sh_init : forall k n, safe (init_sampler k n) (fun us => length us = n);
  sh_initll : forall v us v', length (init_likelihood_logpdf v us v') = length us;
  sh_trans : forall us v t k, safe (transition_sampler us v t k) (fun us' => length us' = length us);
  sh_translp : forall u us v t, length (transition_logpdf u us v t) = length us;
  sh_lik : forall v us v' t, length (likelihood_logpdf v us v' t) = length us;
  sh_res : forall k w i j, weights_ok w -> (i < length w)%nat -> (j < length w)%nat ->
     safe (cond_resampling k w i j true) (fun A => valid_indices (length w) A /\ nth j A 0%nat = i) }.

Hypothesis Hsh : shapes_ok.

Definition step_ok (N : nat) (s : @step_in U V) (o : list R * list nat * list U) : Prop :=
  let '(lw, A, us) := o in
  (length lw = N /\ Rsum (map exp lw) = 1) /\
  (valid_indices N A /\ nth (s_b s) A 0%nat = s_bprev s) /\
  (length us = N /\ nth_error us (s_b s) = Some (s_u s)).

Lemma weights_ok_exp lw : Rsum (map exp lw) = 1 -> weights_ok (map exp lw).
Proof.
  intros H. split; [|assumption]. apply Forall_map, Forall_forall. intros. left. apply exp_pos.
Qed.

Lemma scan_body_safe N lw us s k :
  length lw = N -> Rsum (map exp lw) = 1 -> length us = N -> (s_bprev s < N)%nat -> (s_b s < N)%nat ->
  safe (scan_body udef transition_sampler likelihood_logpdf cond_resampling lw us s k) (step_ok N s).
Proof.
  intros Hl Hs Hu Hb1 Hb2. unfold scan_body.
  eapply safe_bind. { apply (sh_res Hsh); [now apply weights_ok_exp| |]; rewrite map_length; lia. }
  intros A [HA1 HA2]. rewrite map_length, Hl in HA1. cbv zeta.
  eapply safe_bind; [apply (sh_trans Hsh)|]. intros us1 Hus1. rewrite length_gather in Hus1.
  destruct HA1 as [HAl HAr]. apply safe_ret. split; [split|split; split].
  - rewrite length_normalise_log, (sh_lik Hsh), length_gather. assumption.
  - apply normalise_log_sum. intros H0. apply (f_equal (@length R)) in H0.
    rewrite (sh_lik Hsh), length_gather in H0. simpl in H0. lia.
  - split; assumption.
  - assumption.
  - rewrite length_set_nth. lia.
  - rewrite nth_error_set_nth, Nat.eqb_refl. destruct (Nat.ltb_spec (s_b s) (length us1)); [reflexivity|lia].
Qed.

Lemma scan_forward_safe N k inputs : forall i lw us,
  length lw = N -> Rsum (map exp lw) = 1 -> length us = N ->
  Forall (fun s => (s_bprev s < N)%nat /\ (s_b s < N)%nat) inputs ->
  safe (scan_forward udef transition_sampler likelihood_logpdf cond_resampling k i inputs lw us)
       (Forall2 (step_ok N) inputs).
Proof.
  induction inputs as [|s rest IH]; intros i lw us Hl Hs Hu Hb; cbn [scan_forward].
  - apply safe_ret. constructor.
  - inversion Hb as [|? ? [Hb1 Hb2] Hb3]; subst.
    eapply safe_bind; [apply (scan_body_safe (length lw)); eauto|].
    intros [[lw' A] us'] Ho. pose proof Ho as Ho'. destruct Ho' as ((Hl' & Hs') & _ & (Hu' & _)).
    eapply safe_bind. { apply IH; [exact Hl'|exact Hs'|exact Hu'|exact Hb3]. }
    intros out Hout. apply safe_ret. constructor; assumption.
Qed.

(** What the forward pass guarantees. *)
Definition forward_ok (N : nat) (us_star : list U) (bs_star : list nat)
  (res : list (list nat) * list (list R) * list (list U)) : Prop :=
  let '(As, lws, uss) := res in
  let K := (length us_star - 1)%nat in
  length As = K /\ length lws = S K /\ length uss = S K /\
  Forall (fun lw => length lw = N /\ Rsum (map exp lw) = 1) lws /\
  Forall (valid_indices N) As /\
  Forall (fun us => length us = N) uss /\
  (forall k, (k <= K)%nat -> nth_error (nth k uss []) (nth k bs_star 0%nat) = nth_error us_star k) /\
  (forall k, (k < K)%nat -> nth (nth (S k) bs_star 0%nat) (nth k As []) 0%nat = nth k bs_star 0%nat).

Lemma Forall2_nth_error {A B} (P : A -> B -> Prop) la lb k a :
  Forall2 P la lb -> nth_error la k = Some a -> exists b, nth_error lb k = Some b /\ P a b.
Proof.
  intros H; revert k; induction H as [|x y la lb Hxy H IH]; intros [|k] Hk; simpl in *; try discriminate.
  - injection Hk as <-. eauto.
  - auto.
Qed.

Lemma Forall2_length {A B} (P : A -> B -> Prop) la lb : Forall2 P la lb -> length la = length lb.
Proof. induction 1; simpl; lia. Qed.

Lemma nth_of_nth_error {A} (l : list A) k a d : nth_error l k = Some a -> nth k l d = a.
Proof. intros H. apply nth_error_nth with (d := d) in H. exact H. Qed.

Lemma mk_inputs_bounds N sd b refs : (b < N)%nat -> Forall (fun bu => (fst bu < N)%nat) refs ->
  Forall (fun s : @step_in U V => (s_bprev s < N)%nat /\ (s_b s < N)%nat) (mk_inputs sd b refs).
Proof.
  revert b refs; induction sd as [|[[v vp] t] sd IH]; intros b [|[b' u'] refs] Hb Hr; simpl; try constructor.
  - inversion Hr; subst. simpl in *. auto.
  - inversion Hr; subst. simpl in *. auto.
Qed.

Lemma map_fst_combine {A B} (l : list A) (l' : list B) : length l = length l' -> map fst (combine l l') = l.
Proof. revert l'; induction l; intros [|b l'] H; simpl in *; try lia; f_equal; auto. Qed.
Lemma map_snd_combine {A B} (l : list A) (l' : list B) : length l = length l' -> map snd (combine l l') = l'.
Proof. revert l'; induction l; intros [|b l'] H; simpl in *; try lia; f_equal; auto. Qed.

Theorem forward_pass_safe k us_star bs_star vs ts nsamples :
  us_star <> [] -> length bs_star = length us_star -> length vs = length us_star -> length ts = length us_star ->
  Forall (fun b => (b < nsamples + 1)%nat) bs_star ->
  safe (forward_pass udef vdef init_sampler init_likelihood_logpdf transition_sampler likelihood_logpdf
          cond_resampling k us_star bs_star vs ts nsamples)
       (forward_ok (nsamples + 1) us_star bs_star).
Proof.
  intros Hne Hb Hv Ht HB. set (N := (nsamples + 1)%nat) in *.
  destruct us_star as [|u0 us]; [easy|]. destruct bs_star as [|b0 bs]; [discriminate|].
  unfold forward_pass. fold N. cbn [nth].
  eapply safe_bind; [apply (sh_init Hsh)|]. intros us1 Hus1. cbv beta in Hus1. cbv zeta.
  set (us0 := set_nth b0 u0 us1). assert (Hus0 : length us0 = N) by (unfold us0; now rewrite length_set_nth).
  set (ll := init_likelihood_logpdf _ _ _). assert (Hll : length ll = N) by (unfold ll; now rewrite (sh_initll Hsh)).
  assert (Hlne : ll <> []) by (destruct ll; [unfold N in Hll; simpl in Hll; lia|discriminate]).
  rewrite scan_inputs_mk by (simpl in *; lia).
  inversion HB as [|? ? HB0 HB1]; subst. simpl in Hb, Hv, Ht.
  set (refs := combine bs us).
  assert (Hrl : length refs = length us) by (unfold refs; rewrite combine_length; lia).
  assert (Hsd : length (step_data vs ts) = length us) by (rewrite length_step_data; lia).
  eapply safe_bind.
  { apply (scan_forward_safe N); [now rewrite length_normalise_log|now apply normalise_log_sum|assumption|].
    apply mk_inputs_bounds; [assumption|]. apply Forall_forall. intros [b u] Hin.
    apply in_combine_l in Hin. rewrite Forall_forall in HB1. simpl. auto. }
  intros out Hout. apply safe_ret.
  assert (Hol : length out = length us).
  { apply Forall2_length in Hout. rewrite length_mk_inputs in Hout; lia. }
  unfold forward_ok. cbn [length]. rewrite Nat.sub_succ, Nat.sub_0_r. cbv zeta.
  assert (Hall : forall j, (j < length us)%nat -> exists lw A us', nth_error out j = Some (lw, A, us') /\
     length lw = N /\ Rsum (map exp lw) = 1 /\ valid_indices N A /\ length us' = N /\
     nth (nth (S j) (b0 :: bs) 0%nat) A 0%nat = nth j (b0 :: bs) 0%nat /\
     nth_error us' (nth (S j) (b0 :: bs) 0%nat) = nth_error (u0 :: us) (S j)).
  { intros j Hj. destruct (mk_inputs_nth (step_data vs ts) b0 refs j ltac:(lia) ltac:(lia)) as (v & vp & t & _ & Hin).
    destruct (Forall2_nth_error _ _ _ _ _ Hout Hin) as ([[lw A] us'] & Hno & Hok).
    destruct Hok as ((H1 & H2) & (H3 & H4) & (H5 & H6)). cbn [s_b s_bprev s_u] in *.
    unfold refs in H4, H6. rewrite map_fst_combine in H4, H6 by lia. rewrite map_snd_combine in H6 by lia.
    exists lw, A, us'. repeat split; try assumption; try apply H3.
    rewrite H6. cbn [nth_error]. symmetry. now apply nth_error_nth'. }
  assert (Hfor : forall P : list R * list nat * list U -> Prop,
     (forall j lw A us', (j < length us)%nat -> nth_error out j = Some (lw, A, us') -> P (lw, A, us')) -> Forall P out).
  { intros P HP. apply Forall_forall. intros o Ho. apply In_nth_error in Ho. destruct Ho as [j Hj].
    destruct o as [[lw A] us']. eapply HP; eauto. rewrite <- Hol. apply nth_error_Some. rewrite Hj. discriminate. }
  repeat split.
  - now rewrite map_length.
  - simpl. now rewrite map_length, Hol.
  - simpl. now rewrite map_length, Hol.
  - constructor; [split; [now rewrite length_normalise_log|now apply normalise_log_sum]|].
    apply Forall_map, Hfor. intros j lw A us' Hj Hn. destruct (Hall j Hj) as (lw1 & A1 & us1' & Hn' & Hx).
    rewrite Hn in Hn'. injection Hn' as <- <- <-. simpl. tauto.
  - apply Forall_map, Hfor. intros j lw A us' Hj Hn. destruct (Hall j Hj) as (lw1 & A1 & us1' & Hn' & Hx).
    rewrite Hn in Hn'. injection Hn' as <- <- <-. simpl. tauto.
  - constructor; [assumption|].
    apply Forall_map, Hfor. intros j lw A us' Hj Hn. destruct (Hall j Hj) as (lw1 & A1 & us1' & Hn' & Hx).
    rewrite Hn in Hn'. injection Hn' as <- <- <-. simpl. tauto.
  - intros [|j] Hj.
    + simpl. unfold us0. rewrite nth_error_set_nth, Nat.eqb_refl.
      destruct (Nat.ltb_spec b0 (length us1)); [reflexivity|lia].
    + destruct (Hall j ltac:(lia)) as (lw1 & A1 & us1' & Hn' & Hx).
      change (nth (S j) (us0 :: map snd out) []) with (nth j (map snd out) []).
      rewrite (nth_of_nth_error (map snd out) j us1') by (rewrite nth_error_map, Hn'; reflexivity). tauto.
  - intros j Hj. destruct (Hall j ltac:(lia)) as (lw1 & A1 & us1' & Hn' & Hx).
    rewrite (nth_of_nth_error (map (fun o => snd (fst o)) out) j A1) by (rewrite nth_error_map, Hn'; reflexivity). tauto.
Qed.

(** *** backward passes *)

Definition path_ok (As : list (list nat)) (uss : list (list U)) (traced : bool) (res : list U * list nat) : Prop :=
  let '(path, idx) := res in
  length path = length uss /\ length idx = length uss /\
  (forall k, (k < length uss)%nat -> (nth k idx 0%nat < length (nth k uss []))%nat) /\
  (forall k, (k < length uss)%nat -> nth_error (nth k uss []) (nth k idx 0%nat) = nth_error path k) /\
  (traced = true -> forall k, (S k < length uss)%nat -> nth k idx 0%nat = nth (nth (S k) idx 0%nat) (nth k As []) 0%nat).

(** reversed form: newest first *)
Definition rpath_ok (rAs : list (list nat)) (russ : list (list U)) (traced : bool) (out : list (U * nat)) : Prop :=
  length out = length russ /\
  (forall k, (k < length russ)%nat -> (nth k (map snd out) 0 < length (nth k russ []))%nat) /\
  (forall k, (k < length russ)%nat -> nth_error (nth k russ []) (nth k (map snd out) 0%nat) = nth_error (map fst out) k) /\
  (traced = true -> forall k, (S k < length russ)%nat ->
     nth (S k) (map snd out) 0%nat = nth (nth k (map snd out) 0%nat) (nth k rAs []) 0%nat).

Lemma rpath_path As uss traced out :
  S (length As) = length uss ->
  rpath_ok (rev As) (rev uss) traced out ->
  path_ok As uss traced (rev (map fst out), rev (map snd out)).
Proof.
  intros HA (H1 & H2 & H3 & H4). rewrite rev_length in *.
  assert (Hnth : forall k, (k < length uss)%nat -> nth k (rev (map snd out)) 0%nat = nth (length uss - S k) (map snd out) 0%nat).
  { intros k Hk. rewrite rev_nth by (rewrite map_length; lia). now rewrite map_length, H1. }
  assert (Hu : forall k, (k < length uss)%nat -> nth (length uss - S k) (rev uss) [] = nth k uss []).
  { intros k Hk. rewrite rev_nth by lia. f_equal. lia. }
  split; [|split; [|split; [|split]]].
  - now rewrite rev_length, map_length.
  - now rewrite rev_length, map_length.
  - intros k Hk. rewrite Hnth by assumption. rewrite <- (Hu k Hk). apply H2. lia.
  - intros k Hk. rewrite Hnth by assumption. rewrite <- (Hu k Hk), H3 by lia.
    assert (Hd : exists d : U, True) by (exists udef; trivial).
    rewrite (nth_error_nth' (map fst out) udef) by (rewrite map_length; lia).
    rewrite (nth_error_nth' (rev (map fst out)) udef) by (rewrite rev_length, map_length; lia).
    rewrite rev_nth by (rewrite map_length; lia). now rewrite map_length, H1.
  - intros Ht k Hk. rewrite !Hnth by lia.
    replace (length uss - S k)%nat with (S (length uss - S (S k))) by lia.
    rewrite (H4 Ht) by lia. f_equal. rewrite rev_nth by lia. f_equal. lia.
Qed.

Lemma trace_back_rpath N rA russ B x xs :
  length xs = N -> (B < N)%nat -> nth_error xs B = Some x ->
  length rA = length russ -> Forall (valid_indices N) rA -> Forall (fun us => length us = N) russ ->
  rpath_ok rA (xs :: russ) true ((x, B) :: trace_back udef B (combine russ rA)).
Proof.
  revert rA B x xs; induction russ as [|us russ IH]; intros rA B x xs Hxs HB Hx HrA HA Hus.
  - simpl. split; [reflexivity|]. split; [|split].
    + intros [|k] Hk; simpl in *; lia.
    + intros [|k] Hk; simpl in *; [assumption|lia].
    + intros _ k Hk. simpl in Hk. lia.
  - destruct rA as [|A rA]; [discriminate|].
    inversion HA as [|? ? [HAl HAr] HA']; subst. inversion Hus as [|? ? Hul Hus']; subst.
    cbn [combine trace_back]. set (B' := nth B A 0%nat).
    assert (HB' : (B' < length xs)%nat) by (apply (Forall_nth_lt (fun i => (i < length xs)%nat)); [assumption|lia]).
    destruct (IH rA B' (nth B' us udef) us Hul HB') as (H1 & H2 & H3 & H4); [|simpl in *; lia|assumption|assumption|].
    { apply nth_error_nth'. lia. }
    split; [simpl in *; lia|]. split; [|split].
    + intros [|k] Hk; [simpl; lia|]. apply H2. simpl in *; lia.
    + intros [|k] Hk; [simpl; assumption|]. apply H3. simpl in *; lia.
    + intros _ [|k] Hk; [reflexivity|]. apply (H4 eq_refl). simpl in *; lia.
Qed.

Lemma rev_last_removelast {A} (l : list A) d : l <> [] -> rev l = last l d :: rev (removelast l).
Proof.
  intros H. rewrite (app_removelast_last d H) at 1. rewrite rev_app_distr. reflexivity.
Qed.

Lemma last_In {A} (l : list A) d : l <> [] -> In (last l d) l.
Proof.
  intros H. rewrite (app_removelast_last d H) at 2. apply in_or_app. right. now left.
Qed.

Lemma Forall_removelast {A} (P : A -> Prop) l : Forall P l -> Forall P (removelast l).
Proof.
  induction 1 as [|x l Hx H IH]; simpl; [constructor|]. destruct l; [constructor|]. now constructor.
Qed.

Lemma length_removelast {A} (l : list A) : length (removelast l) = (length l - 1)%nat.
Proof.
  destruct l as [|x l]; [reflexivity|].
  assert (H : x :: l <> []) by discriminate. pose proof (app_removelast_last x H) as Hr.
  apply (f_equal (@length A)) in Hr. rewrite app_length in Hr. cbn [length] in *. lia.
Qed.

Theorem backward_scanning_safe N k As uss lwT :
  (0 < N)%nat -> length lwT = N -> S (length As) = length uss ->
  Forall (valid_indices N) As -> Forall (fun us => length us = N) uss ->
  safe (backward_scanning_pass udef k As uss lwT) (path_ok As uss true).
Proof.
  intros HN Hl HA HAs Hus. unfold backward_scanning_pass, barker_move.
  assert (Hne : lwT <> []) by (destruct lwT; simpl in *; [lia|discriminate]).
  eapply safe_bind; [apply choice_safe; now apply normalise_ok|].
  intros B HB. rewrite length_normalise, Hl in HB. apply safe_ret.
  assert (Hune : uss <> []) by (destruct uss; [discriminate|discriminate]).
  assert (Hlast : length (last uss []) = N).
  { rewrite Forall_forall in Hus. apply Hus. now apply last_In. }
  apply rpath_path; [assumption|]. rewrite (rev_last_removelast uss []) by assumption.
  apply (trace_back_rpath N); try assumption.
  - apply nth_error_nth'. lia.
  - rewrite !rev_length, length_removelast. lia.
  - now apply Forall_rev.
  - apply Forall_rev. now apply Forall_removelast.
Qed.

Lemma scan_backward_safe N k inp : forall i x B xs,
  length xs = N -> (B < N)%nat -> nth_error xs B = Some x ->
  Forall (fun q => let '(us, lw, v, t) := q in length us = N /\ length lw = N) inp ->
  safe (scan_backward udef transition_logpdf k i x inp)
       (fun out => rpath_ok [] (xs :: map (fun q => fst (fst (fst q))) inp) false ((x, B) :: out)).
Proof.
  induction inp as [|[[[us lw] v] t] inp IH]; intros i x B xs Hxs HB Hx Hin; cbn [scan_backward].
  - apply safe_ret. split; [reflexivity|]. split; [|split].
    + intros [|j] Hj; simpl in *; lia.
    + intros [|j] Hj; simpl in *; [assumption|lia].
    + discriminate.
  - inversion Hin as [|? ? H12 H3]; subst. cbv beta iota in H12. destruct H12 as [H1 H2].
    assert (Hw : length (backward_weights transition_logpdf x us lw v t) = length us).
    { unfold backward_weights. cbv zeta. rewrite length_normalise, map_length, combine_length, map_length, (sh_translp Hsh). lia. }
    eapply safe_bind.
    { apply choice_safe. apply normalise_ok. intros H0. apply (f_equal (@length R)) in H0.
      rewrite map_length, combine_length, map_length, (sh_translp Hsh) in H0. simpl in H0. lia. }
    intros B' HB'. rewrite Hw in HB'. cbv zeta.
    eapply safe_bind. { apply (IH (S i) (nth B' us udef) B' us); [lia|lia|now apply nth_error_nth'|assumption]. }
    intros out (Ho1 & Ho2 & Ho3 & _). apply safe_ret. split; [simpl in *; lia|]. split; [|split].
    + intros [|j] Hj; [simpl; lia|]. apply Ho2. simpl in *; lia.
    + intros [|j] Hj; [simpl; assumption|]. apply Ho3. simpl in *; lia.
    + discriminate.
Qed.

Theorem backward_sampling_safe N k vs ts uss lws :
  (0 < N)%nat -> length lws = length uss -> length vs = length uss -> length ts = length uss -> uss <> [] ->
  Forall (fun lw => length lw = N) lws -> Forall (fun us => length us = N) uss ->
  safe (backward_sampling_pass udef transition_logpdf k vs ts uss lws) (path_ok (repeat [] (length uss - 1)) uss false).
Proof.
  intros HN Hlw Hv Ht Hune Hlws Hus. unfold backward_sampling_pass, barker_move.
  assert (Hlne : lws <> []) by (destruct lws, uss; simpl in *; try lia; easy).
  assert (HlT : length (last lws []) = N) by (rewrite Forall_forall in Hlws; apply Hlws; now apply last_In).
  assert (HuT : length (last uss []) = N) by (rewrite Forall_forall in Hus; apply Hus; now apply last_In).
  eapply safe_bind. { apply choice_safe, normalise_ok. intros H0. rewrite H0 in HlT. simpl in HlT. lia. }
  intros B HB. rewrite length_normalise, HlT in HB. cbv zeta.
  eapply safe_bind.
  { apply (scan_backward_safe N k _ 0%nat (nth B (last uss []) udef) B (last uss []));
      [assumption|assumption|apply nth_error_nth'; lia|].
    apply Forall_forall. intros [[[us lw] v] t] Hin.
    apply in_combine_l in Hin. apply in_combine_l in Hin.
    assert (H1 := in_combine_l _ _ _ _ Hin). assert (H2 := in_combine_r _ _ _ _ Hin).
    rewrite <- in_rev in H1, H2. split.
    - pose proof (Forall_removelast _ _ Hus) as Hx. rewrite Forall_forall in Hx. auto.
    - pose proof (Forall_removelast _ _ Hlws) as Hx. rewrite Forall_forall in Hx. auto. }
  intros out Hout. apply safe_ret. apply rpath_path.
  { rewrite repeat_length. destruct uss; [easy|simpl; lia]. }
  rewrite (rev_last_removelast uss []) by assumption.
  set (inp := combine (combine (combine (rev (removelast uss)) (rev (removelast lws))) (rev (removelast vs))) (rev (removelast ts))) in Hout.
  assert (Hm : map (fun q => fst (fst (fst q))) inp = rev (removelast uss)).
  { unfold inp. rewrite <- (map_map fst (fun q => fst (fst q))). rewrite <- (map_map fst fst).
    rewrite !map_fst_combine; [reflexivity| | |];
      rewrite ?combine_length, ?rev_length, ?length_removelast; lia. }
  rewrite Hm in Hout. destruct Hout as (H1 & H2 & H3 & _). split; [assumption|]. split; [assumption|].
  split; [assumption|discriminate].
Qed.

(** csmc_kernel: the returned pair is a genuine path of the particle system built by the forward pass. *)
Theorem csmc_kernel_path k us_star bs_star vs ts nsamples backward tr res :
  us_star <> [] -> length bs_star = length us_star -> length vs = length us_star -> length ts = length us_star ->
  Forall (fun b => (b < nsamples + 1)%nat) bs_star ->
  runs (csmc_kernel udef vdef init_sampler init_likelihood_logpdf transition_sampler transition_logpdf likelihood_logpdf
          cond_resampling k us_star bs_star vs ts nsamples backward) tr res ->
  exists tr1 As lws uss,
    runs (forward_pass udef vdef init_sampler init_likelihood_logpdf transition_sampler likelihood_logpdf
          cond_resampling (split_key k 0) us_star bs_star vs ts nsamples) tr1 (As, lws, uss) /\
    forward_ok (nsamples + 1) us_star bs_star (As, lws, uss) /\
    path_ok As uss (negb backward) res.
Proof.
  intros Hne Hb Hv Ht HB Hr. unfold csmc_kernel in Hr. apply runs_bind in Hr.
  destruct Hr as (tr1 & [[As lws] uss] & tr2 & -> & H1 & H2).
  exists tr1, As, lws, uss. split; [exact H1|].
  pose proof (forward_pass_safe (split_key k 0) us_star bs_star vs ts nsamples Hne Hb Hv Ht HB tr1 _ H1) as Hok.
  split; [exact Hok|]. destruct Hok as (HA & HL & HU & HLs & HAs & HUs & _ & _).
  assert (Hlen : length us_star = S (length us_star - 1)) by (destruct us_star; [easy|simpl; lia]).
  destruct backward; cbn [negb].
  - pose proof (backward_sampling_safe (nsamples + 1) (split_key k 1) vs ts uss lws ltac:(lia)) as Hs.
    specialize (Hs ltac:(lia) ltac:(lia) ltac:(lia)). destruct res as [path idx].
    destruct (Hs ltac:(destruct uss; [simpl in *; lia|discriminate])
                 (Forall_impl _ (fun a H => proj1 H) HLs) HUs tr2 _ H2) as (P1 & P2 & P3 & P4 & _).
    split; [exact P1|]. split; [exact P2|]. split; [exact P3|]. split; [exact P4|discriminate].
  - apply (backward_scanning_safe (nsamples + 1) (split_key k 1) As uss (last lws [])) with (tr := tr2); try assumption; try lia.
    assert (Hx : In (last lws []) lws) by (apply last_In; destruct lws; [simpl in *; lia|discriminate]).
    rewrite Forall_forall in HLs. apply (HLs _ Hx).
Qed.

End csmc.
