(** Gibbs kernel: bookkeeping, key discipline, the explicit_final option, and gibbs_init. *)
From Coq Require Import String.
From Verif Require Export GibbsProofs Hygiene.
Open Scope R_scope.

(** ** Every-outcome bookkeeping *)
Section book.
Context {U V : Type} (udef : U) (vdef : V).
Variable fwd_sampler : key -> U -> V -> prog (list U * list V).
Variable bridge_sampler : key -> V -> V -> list R -> prog (list V).
Variable normal_sampler : key -> nat -> prog (list U).
Variable transition_sampler : list U -> V -> R -> key -> prog (list U).
Variable transition_logpdf : U -> list U -> V -> R -> list R.
Variable likelihood_logpdf : V -> list U -> V -> R -> list R.
Variable ts : list R.

(** array shapes of the user functions *)
Record gibbs_shapes : Prop := {
  gs_fwd : forall k x y, safe (fwd_sampler k x y) (fun p => length (fst p) = length ts /\ length (snd p) = length ts);
  gs_bridge : forall k y y', safe (bridge_sampler k y y' ts) (fun l => length l = length ts);
  gs_normal : forall k n, safe (normal_sampler k n) (fun us => length us = n);
  gs_trans : forall us v t k, safe (transition_sampler us v t k) (fun us' => length us' = length us);
  gs_translp : forall u us v t, length (transition_logpdf u us v t) = length us;
  gs_lik : forall v us v' t, length (likelihood_logpdf v us v' t) = length us }.
Hypothesis Hs : gibbs_shapes.

Lemma copies_shapes' u0 c : shapes_ok (copies u0) (flat_ll c) transition_sampler transition_logpdf likelihood_logpdf ckilling.
Proof.
  constructor.
  - intros k n. apply safe_ret. apply repeat_length.
  - intros. apply map_length.
  - apply (gs_trans Hs).
  - apply (gs_translp Hs).
  - apply (gs_lik Hs).
  - intros. now apply ckilling_safe.
Qed.

Lemma normal_shapes t0 n u0 : shapes_ok (gk_init normal_sampler true n u0) (gk_initll likelihood_logpdf true n t0)
  transition_sampler transition_logpdf likelihood_logpdf ckilling.
Proof.
  constructor.
  - apply (gs_normal Hs).
  - intros. apply (gs_lik Hs).
  - apply (gs_trans Hs).
  - apply (gs_translp Hs).
  - apply (gs_lik Hs).
  - intros. now apply ckilling_safe.
Qed.

(** the number of particles actually simulated *)
Definition actual_particles (explicit_final : bool) (n : nat) : nat := if explicit_final then (n + 1)%nat else n.

Lemma gk_forward_safe ef n u0 t0 k us bs vs :
  (0 < n)%nat -> us <> [] -> length bs = length us -> length vs = length us -> length ts = length us ->
  Forall (fun b => (b < actual_particles ef n)%nat) bs ->
  safe (forward_pass udef vdef (gk_init normal_sampler ef n u0) (gk_initll likelihood_logpdf ef n t0) transition_sampler likelihood_logpdf ckilling k us bs vs ts n)
    (forward_ok (actual_particles ef n) us bs).
Proof.
  intros Hn Hne Hb Hv Ht HB. destruct ef; cbn [actual_particles] in *.
  - apply (forward_pass_safe udef vdef) with (transition_logpdf := transition_logpdf); try assumption. apply normal_shapes.
  - rewrite forward_pass_copies by assumption. assert (HN1 : (n - 1 + 1)%nat = n) by lia.
    pose proof (forward_pass_safe udef vdef _ _ _ transition_logpdf _ _ (copies_shapes' u0 (- ln (INR n))) k us bs vs ts (n - 1)) as H.
    rewrite HN1 in H. now apply H.
Qed.

Definition gibbs_out_ok (n : nat) (bs : list nat) (out : U * list U * list nat * list bool) : Prop :=
  let '(x0', us', bs', changed) := out in
  length us' = length ts /\ length bs' = length ts /\ length changed = length ts /\
  Forall (fun b => (b < n)%nat) bs' /\
  x0' = last us' udef /\
  (forall i, (i < length ts)%nat -> nth i changed false = true <-> nth i bs' 0%nat <> nth i bs 0%nat).

Lemma path_ok_indices As uss traced path idx N : path_ok As uss traced (path, idx) -> Forall (fun us : list U => length us = N) uss ->
  length path = length uss /\ length idx = length uss /\ Forall (fun b => (b < N)%nat) idx.
Proof.
  intros (H1 & H2 & H3 & _) HU. split; [assumption|]. split; [assumption|].
  apply Forall_forall. intros b Hb. destruct (In_nth idx b 0%nat Hb) as (i & Hi & <-).
  rewrite <- (Forall_nth_lt _ uss [] i HU); [apply H3|]; lia.
Qed.

Theorem gibbs_kernel_safe k x0 y0 us_star bs n marg_y eb ef :
  ts <> [] -> (0 < n)%nat -> length bs = length ts -> Forall (fun b => (b < actual_particles ef n)%nat) bs ->
  safe (gibbs_kernel udef vdef fwd_sampler bridge_sampler normal_sampler transition_sampler transition_logpdf likelihood_logpdf
          k x0 y0 us_star bs ts n marg_y eb ef)
       (gibbs_out_ok (actual_particles ef n) bs).
Proof.
  intros Hts Hn Hb HB. unfold gibbs_kernel.
  apply safe_bind with (P := fun p : list U * list V => length (fst p) = length ts /\ length (snd p) = length ts).
  { unfold noise_stage. eapply safe_bind; [apply (gs_fwd Hs)|]. intros [px py] [H1 H2]. cbn [fst snd] in *. destruct marg_y.
    - eapply safe_bind; [apply (gs_bridge Hs)|]. intros l Hl. cbv beta in Hl. apply safe_ret. cbn [fst snd]. now rewrite !rev_length.
    - apply safe_ret. cbn [fst snd]. now rewrite !rev_length. }
  intros [us vs] [Hu Hv]. cbn [fst snd] in *. cbv zeta.
  assert (Hune : us <> []) by (destruct us; [destruct ts; [easy|discriminate]|discriminate]).
  apply safe_bind with (P := fun ub : list U * list nat => length (fst ub) = length ts /\ length (snd ub) = length ts /\ Forall (fun b => (b < actual_particles ef n)%nat) (snd ub)).
  - assert (Hfw : forall kk, safe (forward_pass udef vdef (gk_init normal_sampler ef n (nth 0 us udef)) (gk_initll likelihood_logpdf ef n (nth 0 ts 0)) transition_sampler likelihood_logpdf ckilling kk us bs vs ts n)
      (forward_ok (actual_particles ef n) us bs)) by (intros; apply gk_forward_safe; try assumption; lia).
    destruct eb.
    + eapply safe_bind; [apply Hfw|]. intros [[As lws] uss] Hok.
      destruct (scan_lastlw_ok _ _ _ _ _ _ Hune Hok) as [Hl1 Hl2].
      eapply safe_bind; [apply force_move_safe|].
      * now apply weights_ok_exp.
      * rewrite map_length, Hl1. rewrite Forall_forall in HB. apply HB. apply last_In. destruct bs; [destruct ts; [easy|discriminate]|discriminate].
      * intros [idx al] _. eapply safe_bind; [apply (gs_fwd Hs)|]. intros [px py] [H1 H2]. cbn [fst snd] in *. cbn [bind].
        apply safe_rint. intros l Hl Hf. apply safe_ret. cbn [fst snd]. rewrite rev_length. split; [assumption|]. split; [lia|].
        eapply Forall_impl; [|exact Hf]. intros a Ha. unfold rint_hi in Ha. unfold actual_particles. destruct ef; lia.
    + unfold csmc_kernel. eapply safe_bind; [apply Hfw|]. intros [[As lws] uss] Hok.
      destruct (scan_lastlw_ok _ _ _ _ _ _ Hune Hok) as [Hl1 Hl2]. pose proof Hok as (HA & HL & HU & HLs & HAs & HUs & _ & _).
      assert (HNpos : (0 < actual_particles ef n)%nat) by (unfold actual_particles; destruct ef; lia).
      eapply safe_weaken; [|apply (backward_scanning_safe udef (actual_particles ef n)); try assumption; lia].
      intros [path idx] Hp. destruct (path_ok_indices _ _ _ _ _ _ Hp HUs) as (P1 & P2 & P3). cbn [fst snd].
      assert (length us = S (length us - 1)) by (destruct us; [easy|simpl; lia]).
      split; [lia|]. split; [lia|assumption].
  - intros [us' bs'] (H1 & H2 & H3). cbn [fst snd] in *. apply safe_ret.
    split; [assumption|]. split; [assumption|]. split; [rewrite map_length, combine_length; lia|]. split; [assumption|]. split; [reflexivity|].
    intros i Hi. set (g := fun ab : nat * nat => negb (Nat.eqb (fst ab) (snd ab))).
    change false with (g (0, 0)%nat). rewrite map_nth, combine_nth by lia. unfold g. cbn [fst snd].
    rewrite Bool.negb_true_iff. apply Nat.eqb_neq.
Qed.

(** the legacy argument [us_star] has no influence *)
Theorem gibbs_kernel_us_star k x0 y0 us1 us2 bs n marg_y eb ef :
  gibbs_kernel udef vdef fwd_sampler bridge_sampler normal_sampler transition_sampler transition_logpdf likelihood_logpdf k x0 y0 us1 bs ts n marg_y eb ef =
  gibbs_kernel udef vdef fwd_sampler bridge_sampler normal_sampler transition_sampler transition_logpdf likelihood_logpdf k x0 y0 us2 bs ts n marg_y eb ef.
Proof. reflexivity. Qed.
End book.

(** ** Key discipline *)
Section keys.
Context {U V : Type} (udef : U) (vdef : V).
Variable fwd_sampler : key -> U -> V -> prog (list U * list V).
Variable bridge_sampler : key -> V -> V -> list R -> prog (list V).
Variable normal_sampler : key -> nat -> prog (list U).
Variable transition_sampler : list U -> V -> R -> key -> prog (list U).
Variable transition_logpdf : U -> list U -> V -> R -> list R.
Variable likelihood_logpdf : V -> list U -> V -> R -> list R.
Hypothesis Hfwd : forall k x y, good [k] (fwd_sampler k x y).
Hypothesis Hbridge : forall k y y' ts, good [k] (bridge_sampler k y y' ts).
Hypothesis Hnormal : forall k n, good [k] (normal_sampler k n).
Hypothesis Htrans : forall us v t k, good [k] (transition_sampler us v t k).

Lemma noise_stage_good k i j x0 y0 ts marg_y : i <> j ->
  good (map (split_key k) [i; j]) (noise_stage vdef fwd_sampler bridge_sampler (split_key k i) (split_key k j) x0 y0 ts marg_y).
Proof.
  intros Hij. unfold noise_stage. apply (good_seq k [i] [j]); [intros a b [<-|[]] [<-|[]]; assumption|keys_in|apply Hfwd|].
  intros [px py]. destruct marg_y; [apply good_bind_ret, Hbridge|apply good_ret].
Qed.

Lemma gk_init_good ef n u0 k m : good [k] (gk_init normal_sampler ef n u0 k m).
Proof. unfold gk_init. destruct ef; [apply Hnormal|apply good_ret]. Qed.

Theorem gibbs_kernel_good k x0 y0 us_star bs ts n marg_y eb ef :
  good [k] (gibbs_kernel udef vdef fwd_sampler bridge_sampler normal_sampler transition_sampler transition_logpdf likelihood_logpdf
              k x0 y0 us_star bs ts n marg_y eb ef).
Proof.
  apply (good_under k [0; 1; 2]%nat). unfold gibbs_kernel.
  apply (good_seq k [0; 2]%nat [1]%nat); [key_disjoint|keys_in|now apply noise_stage_good|]. intros [us vs]. cbv zeta.
  cut (forall p : prog (list U * list nat), good [split_key k 1] p ->
    good (map (split_key k) [1%nat]) (' (us_star_next, bs_star_next) <- p ;; Ret (last us_star_next udef, us_star_next, bs_star_next,
       map (fun ab => negb (Nat.eqb (fst ab) (snd ab))) (combine bs_star_next bs)))).
  2:{ intros p Hp. rewrite <- (app_nil_r (map (split_key k) [1%nat])). apply good_bind; [intros ? ? _ []|exact Hp|]. intros [? ?]. apply good_ret. }
  intros Hcut. apply Hcut. clear Hcut. destruct eb.
  - set (kc := split_key k 1). apply (good_under kc [0; 1; 2; 3]%nat).
    apply (good_seq kc [0%nat] [1; 2; 3]%nat); [key_disjoint|keys_in| |].
    { apply forward_pass_good; [exact transition_logpdf|intros; apply gk_init_good|assumption|intros; apply ckilling_good]. }
    intros [[As lws] uss]. apply (good_seq kc [1%nat] [2; 3]%nat); [key_disjoint|keys_in|apply force_move_good|]. intros [idx al].
    apply (good_seq kc [2%nat] [3]%nat); [key_disjoint|keys_in|apply Hfwd|]. intros [px py]. cbn [bind]. apply (good_rint _ _ _ (fun l => (rev px, l))).
  - apply csmc_kernel_good; [intros; apply gk_init_good|assumption|intros; apply ckilling_good].
Qed.

(** gibbs_init: the initial particles are drawn with [key_u0], the filter's own first sub-key is not used *)
Variable uzero : U.
Lemma gibbs_init_filter_good k y0 ts n method marg_y x0 p : (method = "filter"%string \/ method = "debug"%string) ->
  gibbs_init udef vdef fwd_sampler bridge_sampler normal_sampler transition_sampler transition_logpdf likelihood_logpdf uzero
    k y0 ts n method marg_y x0 = Some p -> good [k] p.
Proof.
  assert (Hrun : forall rl vs, good (map (split_key k) [2; 3]%nat)
     (bootstrap_filter udef vdef transition_sampler likelihood_logpdf stratified vs ts
      (fun _ _ _ => normal_sampler (split_key k 2) n) (split_key k 3) n true rl)).
  { intros rl vs. unfold bootstrap_filter. apply (good_seq k [2%nat] [3%nat]); [key_disjoint|keys_in|apply Hnormal|]. intros us.
    cbn [map]. rewrite <- (app_nil_r [split_key k 3]). apply good_bind; [intros ? ? _ []| |].
    - apply (good_under (split_key k 3) [1%nat]). eapply good_under, bf_scan_good; [assumption|intros; apply stratified_good].
    - intros [[? ?] ?]. apply good_ret. }
  intros Hm. unfold gibbs_init. destruct Hm as [-> | ->]; cbn [String.eqb Ascii.eqb Bool.eqb]; intros H; injection H as <-.
  - apply (good_under k [0; 1; 2; 3; 4]%nat).
    apply (good_seq k [0; 1]%nat [2; 3; 4]%nat); [key_disjoint|keys_in|now apply noise_stage_good|]. intros [us vs].
    apply (good_seq k [2; 3]%nat [4]%nat); [key_disjoint|keys_in|apply Hrun|]. intros [uss nell]. cbv zeta.
    cbn [map]. rewrite <- (app_nil_r [split_key k 4]). apply good_bind; [intros ? ? _ []|apply Hfwd|]. intros [? ?]. apply good_ret.
  - apply (good_under k [0; 1; 2; 3]%nat).
    apply (good_seq k [0; 1]%nat [2; 3]%nat); [key_disjoint|keys_in|now apply noise_stage_good|]. intros [us vs].
    rewrite <- (app_nil_r (map (split_key k) [2; 3]%nat)). apply good_bind; [intros ? ? _ []|apply Hrun|]. intros [? ?]. apply good_ret.
Qed.

(** ** gibbs_init: methods *)
Theorem gibbs_init_methods k y0 ts n method marg_y x0 :
  gibbs_init udef vdef fwd_sampler bridge_sampler normal_sampler transition_sampler transition_logpdf likelihood_logpdf uzero
    k y0 ts n method marg_y x0 <> None <-> In method ["filter"; "smoother"; "debug"]%string.
Proof.
  unfold gibbs_init. cbn [In].
  destruct (String.eqb_spec method "filter"); [split; [intros _; left; congruence|discriminate]|].
  destruct (String.eqb_spec method "smoother"); [split; [intros _; right; left; congruence|discriminate]|].
  destruct (String.eqb_spec method "debug"); [split; [intros _; right; right; left; congruence|discriminate]|].
  split; [easy|]. intros [H|[H|[H|[]]]]; congruence.
Qed.

(** with method 'filter' the returned state is the end of the returned path *)
Theorem gibbs_init_filter_consistent k y0 ts n marg_y x0 p :
  (forall k x y, safe (fwd_sampler k x y) (fun p => nth_error (fst p) 0 = Some x)) ->
  gibbs_init udef vdef fwd_sampler bridge_sampler normal_sampler transition_sampler transition_logpdf likelihood_logpdf uzero
    k y0 ts n "filter" marg_y x0 = Some p ->
  safe p (fun r => match r with InitState x us => last us udef = x | InitDebug _ => False end).
Proof.
  intros Hf. unfold gibbs_init. cbn [String.eqb Ascii.eqb Bool.eqb]. intros H. injection H as <-.
  apply safe_bind with (P := fun _ => True); [intros ? ? ?; exact I|]. intros [us vs] _.
  apply safe_bind with (P := fun _ => True); [intros ? ? ?; exact I|]. intros [uss nell] _. cbv zeta.
  eapply safe_bind; [apply Hf|]. intros [px py] Hp. cbn [fst] in Hp. apply safe_ret.
  destruct px as [|a l]; [discriminate|]. injection Hp as ->. cbn [rev]. apply last_last.
Qed.
End keys.
