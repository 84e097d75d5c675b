(** The Gibbs kernel (gibbs.py:68-168): which law it leaves invariant. *)
From Verif Require Export ForceMove Demo.
Open Scope R_scope.

Lemma last_nth_eq {A} (l : list A) d : last l d = nth (length l - 1) l d.
Proof.
  induction l as [|a l IH]; [reflexivity|]. destruct l as [|b l]; [reflexivity|].
  change (last (a :: b :: l) d) with (last (b :: l) d). rewrite IH. cbn [length]. rewrite !Nat.sub_succ, !Nat.sub_0_r. reflexivity.
Qed.

(** ** Moving the terminal index by the forced move leaves the law of the terminal particle unchanged *)
Section move.
Context {U V : Type} (udef : U) (vdef : V).
Variable init_sampler : key -> nat -> prog (list U).
Variable init_likelihood_logpdf : V -> list U -> V -> list R.
Variable transition_sampler : list U -> V -> R -> key -> prog (list U).
Variable transition_logpdf : U -> list U -> V -> R -> list R.
Variable likelihood_logpdf : V -> list U -> V -> R -> list R.
Variable cond_resampling : key -> list R -> nat -> nat -> bool -> prog (list nat).
Variable m0 : dist U.
Variable lG0 : V -> V -> U -> R.
Variable M : V -> R -> U -> dist U.
Variable lg : V -> V -> R -> U -> R.
Variable r : list R -> dist (list nat).
Hypothesis Hmo : model_ok init_sampler init_likelihood_logpdf transition_sampler likelihood_logpdf cond_resampling m0 lG0 M lg r.
Hypothesis Hsh : shapes_ok init_sampler init_likelihood_logpdf transition_sampler transition_logpdf likelihood_logpdf cond_resampling.
Variable N : nat.
Hypothesis HN : (0 < N)%nat.
Hypothesis Hreg0 : forall v v' us, length us = N -> fm_regular (normalise (map (lG0 v v') us)).
Hypothesis Hreg : forall v v' t us, length us = N -> fm_regular (normalise (map (lg v v' t) us)).

Lemma free_move sd : forall lw us F F',
  length lw = N -> Rsum (map exp lw) = 1 -> fm_regular (map exp lw) -> length us = N ->
  (forall out, let lwl := lastlw lw out in length lwl = N -> Rsum (map exp lwl) = 1 -> fm_regular (map exp lwl) ->
     Rsum (map (fun b => exp (nth b lwl 0) * F out b) (seq 0 N)) = Rsum (map (fun b => exp (nth b lwl 0) * F' out b) (seq 0 N))) ->
  free udef M lg r N sd lw us F = free udef M lg r N sd lw us F'.
Proof.
  induction sd as [|[[v vp] t] sd IH]; intros lw us F F' Hl Hs Hr Hu H; cbn [free].
  - exact (H [] Hl Hs Hr).
  - assert (Hw : weights_ok (map exp lw)) by now apply weights_ok_exp.
    apply E_ext. intros A HA. destruct (ec_valid _ _ (mo_res _ _ _ _ _ _ _ _ _ _ Hmo) _ _ Hw HA) as [HAl HAr].
    rewrite map_length, Hl in *. cbv zeta.
    assert (Hll : length (map (lg v vp t) (gather udef us A)) = N) by now rewrite map_length, length_gather.
    assert (Hlne : map (lg v vp t) (gather udef us A) <> []) by (intros H0; rewrite H0 in Hll; simpl in Hll; lia).
    apply E_ext. intros us' Hus'. apply dseq_length in Hus'. rewrite map_length, length_gather in Hus'. f_equal.
    apply IH.
    + now rewrite length_normalise_log.
    + now apply normalise_log_sum.
    + apply Hreg. now rewrite length_gather.
    + lia.
    + intros out lwl. cbv zeta in H. apply (H ((normalise_log (map (lg v vp t) (gather udef us A)), A, us') :: out)).
Qed.

Notation fwd := (forward_pass udef vdef init_sampler init_likelihood_logpdf transition_sampler likelihood_logpdf cond_resampling).

Theorem forward_force_move k k' vs ts h : vs <> [] -> length ts = length vs ->
  joint vdef m0 lG0 M lg N vs ts (fun us bs =>
    law (fwd k us bs vs ts (N - 1)) (fun res =>
      law (force_move k' (map exp (last (snd (fst res)) [])) (last bs 0%nat)) (fun i => h (nth (fst i) (last (snd res) []) udef)))) =
  joint vdef m0 lG0 M lg N vs ts (fun us bs => h (last us udef)).
Proof.
  intros Hv Ht.
  transitivity (free_run udef m0 lG0 M lg r N (step_data vs ts) (nth 0 vs vdef) (nth 1 vs vdef)
     (fun lw0 us0 out b => h (nth b (last (snd (fwd_out (lw0, us0, out))) []) udef))).
  - transitivity (free_run udef m0 lG0 M lg r N (step_data vs ts) (nth 0 vs vdef) (nth 1 vs vdef)
      (fun lw0 us0 out b => law (force_move k' (map exp (last (snd (fst (fwd_out (lw0, us0, out)))) [])) b)
          (fun i => h (nth (fst i) (last (snd (fwd_out (lw0, us0, out))) []) udef)))).
    + unfold joint. exact (swap_forward udef vdef _ _ _ _ _ m0 lG0 M lg r Hmo N HN k vs ts
        (fun res b => law (force_move k' (map exp (last (snd (fst res)) [])) b) (fun i => h (nth (fst i) (last (snd res) []) udef))) Hv Ht).
    + unfold free_run. apply E_ext. intros us0 Hus0. apply dseq_length in Hus0. rewrite repeat_length in Hus0. cbv zeta. f_equal.
      assert (Hll : length (map (lG0 (nth 0 vs vdef) (nth 1 vs vdef)) us0) = N) by now rewrite map_length.
      assert (Hlne : map (lG0 (nth 0 vs vdef) (nth 1 vs vdef)) us0 <> []) by (intros H0; rewrite H0 in Hll; simpl in Hll; lia).
      apply free_move.
      * now rewrite length_normalise_log.
      * now apply normalise_log_sum.
      * now apply Hreg0.
      * assumption.
      * cbv zeta. intros out Hl Hs Hr. set (ll := normalise_log (map (lG0 (nth 0 vs vdef) (nth 1 vs vdef)) us0)) in *.
        change (last (snd (fst (fwd_out (ll, us0, out)))) []) with (lastlw ll out).
        set (lwl := lastlw ll out) in *. set (xs := last (snd (fwd_out (ll, us0, out))) []).
        pose proof (force_move_invariant k' (map exp lwl) (fun i => h (nth i xs udef)) (weights_ok_exp _ Hs) Hr) as Hinv.
        rewrite !E_dcat, map_length, Hl in Hinv.
        transitivity (Rsum (map (fun i => nth i (map exp lwl) 0 * law (force_move k' (map exp lwl) i) (fun i0 => h (nth (fst i0) xs udef))) (seq 0 N))).
        { apply Rsum_map_ext. intros b Hb. apply in_seq in Hb. rewrite nth_exp by lia. reflexivity. }
        rewrite Hinv. apply Rsum_map_ext. intros b Hb. apply in_seq in Hb. rewrite nth_exp by lia. reflexivity.
  - rewrite <- (swap_forward udef vdef _ _ _ _ _ m0 lG0 M lg r Hmo N HN k vs ts
        (fun res b => h (nth b (last (snd res) []) udef)) Hv Ht).
    unfold joint. apply E_ext'. intros u0. f_equal. apply E_ext. intros b0 Hb0. apply dunif_support in Hb0.
    apply E_ext. intros refs Hrefs. apply gamma_support in Hrefs. destruct Hrefs as [H1 H2].
    rewrite length_step_data in H1 by assumption.
    assert (Hlen : length vs = S (length refs)) by (destruct vs; [easy|simpl in *; lia]).
    rewrite <- (law_fwd_const udef vdef _ _ _ _ _ m0 lG0 M lg r Hmo N HN k vs ts u0 b0 refs) by assumption.
    assert (HN1 : (N - 1 + 1)%nat = N) by lia.
    apply (law_ext_safe _ (forward_ok N (u0 :: map snd refs) (b0 :: map fst refs))).
    + rewrite <- HN1 at 2. apply (forward_pass_safe udef vdef) with (transition_logpdf := transition_logpdf); try assumption.
      * discriminate.
      * cbn [length]. now rewrite !map_length.
      * cbn [length]. now rewrite map_length.
      * cbn [length]. rewrite map_length. lia.
      * rewrite HN1. constructor; [assumption|]. apply Forall_map. exact H2.
    + intros [[As lws] uss] (_ & _ & HU & _ & _ & _ & Href & _). cbn [snd].
      specialize (Href (length (u0 :: map snd refs) - 1)%nat (Nat.le_refl _)).
      rewrite (last_nth_eq uss []), HU.
      replace (S (length (u0 :: map snd refs) - 1) - 1)%nat with (length (u0 :: map snd refs) - 1)%nat by lia.
      unfold final_idx. rewrite (last_nth_eq (b0 :: map fst refs) 0%nat).
      replace (length (b0 :: map fst refs)) with (length (u0 :: map snd refs)) by (cbn [length]; now rewrite !map_length).
      f_equal. rewrite (last_nth_eq (u0 :: map snd refs) udef). apply nth_of_nth_error. rewrite Href.
      apply nth_error_nth'. cbn [length]. lia.
Qed.
End move.

(** ** The Gibbs kernel *)
Section gibbs_inv.
Context {U V : Type} (udef : U) (vdef : V).
Variable fwd_sampler : key -> U -> V -> prog (list U * list V).
Variable bridge_sampler : key -> V -> V -> list R -> prog (list V).
Variable normal_sampler : key -> nat -> prog (list U).
Variable transition_sampler : list U -> V -> R -> key -> prog (list U).
Variable transition_logpdf : U -> list U -> V -> R -> list R.
Variable likelihood_logpdf : V -> list U -> V -> R -> list R.

Variable y0 : V.
Variable ts : list R.

(** the laws the user functions implement *)
Variable FW : U -> dist (list U * list V).        (* noising of (x0, y0) *)
Variable BR : V -> V -> dist (list V).            (* bridge of y *)
Variable M : V -> R -> U -> dist U.
Variable lg : V -> V -> R -> U -> R.

(** law of the reversed pair (us, vs) given x0 *)
Definition noised (marg_y : bool) (x0 : U) : dist (list U * list V) :=
  dbind (FW x0) (fun p =>
    if marg_y then dmap (fun l => (rev (fst p), rev l)) (BR (nth 0 (snd p) vdef) (last (snd p) vdef))
    else dret (rev (fst p), rev (snd p))).

Record gibbs_model_ok : Prop := {
  gm_fwd : forall k x0, denotes (fwd_sampler k x0 y0) (FW x0);
  gm_fwd_prob : forall x0, is_prob (FW x0);
  gm_fwd_shape : forall x0 p, In p (map snd (FW x0)) ->
     length (fst p) = length ts /\ length (snd p) = length ts /\ nth_error (fst p) 0 = Some x0;
  gm_bridge : forall k y y', denotes (bridge_sampler k y y' ts) (BR y y');
  gm_bridge_prob : forall y y', is_prob (BR y y');
  gm_bridge_shape : forall y y' l, In l (map snd (BR y y')) -> length l = length ts;
  gm_M : forall v t u, is_prob (M v t u);
  gm_trans : forall us v t k, denotes (transition_sampler us v t k) (dseq (map (M v t) us));
  gm_trans_shape : forall us v t k, safe (transition_sampler us v t k) (fun us' => length us' = length us);
  gm_translp : forall u us v t, length (transition_logpdf u us v t) = length us;
  gm_lik : forall v us v' t, likelihood_logpdf v us v' t = map (lg v v' t) us }.
Hypothesis Hg : gibbs_model_ok.

(** [pi] is the law of x0 given y0 for which noising forwards in time agrees with the backward model:
    the pair (us, vs) obtained by noising has, given its first element u0 and vs, the Feynman-Kac law of the model. *)
Definition compatible (marg_y : bool) (pi : dist U) : Prop :=
  exists B : dist (U * list V),
    (forall uv, In uv (map snd B) -> length (snd uv) = length ts) /\
    forall F : list U -> list V -> R,
      E pi (fun x0 => E (noised marg_y x0) (fun p => F (fst p) (snd p))) =
      E B (fun uv => E (fk_path (fk_of M lg (step_data (snd uv) ts)) (fst uv)) (fun us => F (fst uv :: us) (snd uv))).

Lemma noise_stage_denotes k1 k2 x0 marg_y : denotes (noise_stage vdef fwd_sampler bridge_sampler k1 k2 x0 y0 ts marg_y) (noised marg_y x0).
Proof.
  intros f. unfold noise_stage, noised. rewrite law_bind, (gm_fwd Hg k1 x0 _), E_dbind. apply E_ext'. intros [px py]. cbn [fst snd].
  destruct marg_y.
  - rewrite law_bind, (gm_bridge Hg _ _ _ _), E_dmap. reflexivity.
  - cbn [law]. now rewrite E_dret.
Qed.

Lemma noised_shape marg_y x0 p : ts <> [] -> In p (map snd (noised marg_y x0)) ->
  length (fst p) = length ts /\ length (snd p) = length ts /\ last (fst p) udef = x0.
Proof.
  intros Hts Hin. unfold noised, dbind in Hin. apply in_map_iff in Hin. destruct Hin as ([q p'] & <- & Hin).
  apply in_flat_map in Hin. destruct Hin as ([q1 p1] & Hin1 & Hin). apply in_map_iff in Hin. destruct Hin as ([q2 p2] & He & Hin).
  cbn [fst snd] in *. injection He as _ <-.
  destruct (gm_fwd_shape Hg x0 p1) as (H1 & H2 & H3). { apply in_map_iff. now exists (q1, p1). }
  assert (Hlast : last (rev (fst p1)) udef = x0).
  { destruct (fst p1) as [|a l]; [discriminate|]. injection H3 as ->. cbn [rev]. apply last_last. }
  destruct marg_y.
  - unfold dmap in Hin. apply in_map_iff in Hin. destruct Hin as ([q3 l] & He & Hin). cbn [fst snd] in *. injection He as _ <-. cbn [fst snd].
    rewrite !rev_length. split; [assumption|]. split; [|assumption].
    eapply (gm_bridge_shape Hg). apply in_map_iff. exists (q3, l). split; [reflexivity|exact Hin].
  - destruct Hin as [He|[]]. injection He as _ <-. cbn [fst snd]. rewrite !rev_length. auto.
Qed.

Lemma noised_fst marg_y x0 g : E (noised marg_y x0) (fun p => g (fst p)) = E (FW x0) (fun p => g (rev (fst p))).
Proof.
  unfold noised. rewrite E_dbind. apply E_ext'. intros [px py]. cbn [fst snd]. destruct marg_y.
  - rewrite E_dmap. cbn [fst]. apply E_const. apply (gm_bridge_prob Hg).
  - now rewrite E_dret.
Qed.

(** Without [explicit_final] the initial particles are copies of u0 with equal weights, and there are nparticles of them. *)
Definition copies (u0 : U) (k : key) (n : nat) : prog (list U) := Ret (repeat u0 n).
Definition flat_ll (c : R) (v : V) (us : list U) (v' : V) : list R := map (fun _ => c) us.

Lemma map_const_repeat {A B} (c : B) (l : list A) : map (fun _ => c) l = repeat c (length l).
Proof. induction l; simpl; congruence. Qed.

Lemma forward_pass_copies n u0 t0 cres k us bs vs : (0 < n)%nat ->
  forward_pass udef vdef (gk_init normal_sampler false n u0) (gk_initll likelihood_logpdf false n t0) transition_sampler likelihood_logpdf cres k us bs vs ts n =
  forward_pass udef vdef (copies u0) (flat_ll (- ln (INR n))) transition_sampler likelihood_logpdf cres k us bs vs ts (n - 1).
Proof.
  intros Hn. unfold forward_pass, gk_init, gk_initll, copies, flat_ll. cbn [bind]. replace (n - 1 + 1)%nat with n by lia.
  rewrite map_const_repeat, length_set_nth, repeat_length. reflexivity.
Qed.

Lemma E_smoothing_copies u0 c vs G :
  E (smoothing vdef (dret u0) (fun _ _ _ => c) M lg vs ts) G =
  exp c * E (fk_path (fk_of M lg (step_data vs ts)) u0) (fun us => G (u0 :: us)).
Proof. unfold smoothing, fk_measure. rewrite E_dbind, E_dret, E_dscale, E_dmap. reflexivity. Qed.

Lemma dseq_dret {A} (a : A) n : forall f, f (repeat a n) = E (dseq (repeat (dret a) n)) f.
Proof. induction n as [|n IH]; intros f; cbn [repeat]; [exact (eq_sym (E_dret [] f))|]. rewrite E_dseq_cons, E_dret. apply (IH (fun l => f (a :: l))). Qed.

Lemma copies_model u0 c : model_ok (copies u0) (flat_ll c) transition_sampler likelihood_logpdf ckilling
  (dret u0) (fun _ _ _ => c) M lg rolled_killing_dist.
Proof.
  constructor.
  - apply is_prob_dret.
  - apply (gm_M Hg).
  - intros k n f. unfold copies. cbn [law]. apply dseq_dret.
  - reflexivity.
  - apply (gm_trans Hg).
  - apply (gm_lik Hg).
  - exact exact_ckilling.
Qed.

Lemma copies_shapes u0 c : shapes_ok (copies u0) (flat_ll c) transition_sampler transition_logpdf likelihood_logpdf ckilling.
Proof.
  constructor.
  - intros k n. apply safe_ret. apply repeat_length.
  - intros. apply map_length.
  - apply (gm_trans_shape Hg).
  - apply (gm_translp Hg).
  - intros. rewrite (gm_lik Hg). apply map_length.
  - intros. now apply ckilling_safe.
Qed.

Lemma normalise_const c n : (0 < n)%nat -> normalise (repeat c n) = repeat (/ INR n) n.
Proof.
  intros Hn. assert (0 < INR n) by now apply lt_0_INR. pose proof (exp_pos c).
  rewrite normalise_eq by (destruct n; [lia|discriminate]).
  assert (Hs : Rsum (map exp (repeat c n)) = INR n * exp c).
  { rewrite <- Rsum_repeat. f_equal. clear. induction n; simpl; congruence. }
  rewrite Hs. replace (/ INR n) with (exp c / (INR n * exp c)) by (field; split; lra).
  clear Hs. set (q := INR n) in *. clearbody q. induction n as [|n IH]; [lia|]. cbn [repeat map]. f_equal. destruct n; [reflexivity|]. apply IH. lia.
Qed.

Lemma fm_regular_unif n : (0 < n)%nat -> fm_regular (repeat (/ INR n) n).
Proof.
  intros Hn. apply Forall_repeat. rewrite repeat_length. destruct (Nat.eq_dec n 1) as [->|H1]; [right; simpl; lra|]. left.
  apply Rlt_le_trans with (1 - / 10 ^ 12); [|apply fm_threshold_ge].
  assert (/ INR n <= / 2).
  { apply Rinv_le_contravar; [lra|]. change 2 with (INR 2). apply le_INR. lia. }
  assert (/ 10 ^ 12 < / 2) by (apply Rinv_lt_contravar; lra). lra.
Qed.

Notation gk := (gibbs_kernel udef vdef fwd_sampler bridge_sampler normal_sampler transition_sampler transition_logpdf likelihood_logpdf).

(** the second half of the kernel, given the noised paths *)
Definition second_stage (eb : bool) (n : nat) (key_csmc : key) (us : list U) (vs : list V) (bs : list nat) : prog (list U * list nat) :=
  let init := copies (nth 0 us udef) in let ill := flat_ll (- ln (INR n)) in
  if eb then
    ' (_, log_ws, uss) <- forward_pass udef vdef init ill transition_sampler likelihood_logpdf ckilling (split_key key_csmc 0) us bs vs ts (n - 1) ;;
    ' (idx, _) <- force_move (split_key key_csmc 1) (map exp (last log_ws [])) (last bs 0%nat) ;;
    ' (path_x, _) <- fwd_sampler (split_key key_csmc 2) (nth idx (last uss []) udef) y0 ;;
    bs' <- Rint (split_key key_csmc 3) (length us) n (fun l => Ret l) ;;
    Ret (rev path_x, bs')
  else csmc_kernel udef vdef init ill transition_sampler transition_logpdf likelihood_logpdf ckilling key_csmc us bs vs ts (n - 1) false.

Lemma gibbs_kernel_stages k x0 us_star bs n marg_y eb f : (0 < n)%nat ->
  law (gk k x0 y0 us_star bs ts n marg_y eb false) f =
  E (noised marg_y x0) (fun p => law (second_stage eb n (split_key k 1) (fst p) (snd p) bs)
    (fun ub => f (last (fst ub) udef, fst ub, snd ub, map (fun ab => negb (Nat.eqb (fst ab) (snd ab))) (combine (snd ub) bs)))).
Proof.
  intros Hn. unfold gibbs_kernel. rewrite law_bind, (noise_stage_denotes _ _ _ _ _). apply E_ext'. intros [us vs]. cbn [fst snd].
  cbv zeta. rewrite law_bind. unfold second_stage. cbv zeta. destruct eb.
  - rewrite forward_pass_copies by assumption. apply law_ext. intros [us' bs']. reflexivity.
  - unfold csmc_kernel. rewrite forward_pass_copies by assumption. apply law_ext. intros [us' bs']. reflexivity.
Qed.

Definition regular_likelihood (n : nat) : Prop :=
  forall v v' t us, length us = n -> fm_regular (normalise (map (lg v v' t) us)).

Lemma second_stage_invariant eb n kc u0 vs f :
  ts <> [] -> length vs = length ts -> (0 < n)%nat -> (eb = true -> regular_likelihood n) ->
  E (fk_path (fk_of M lg (step_data vs ts)) u0) (fun us => E (unif_indices n (length ts)) (fun bs =>
     law (second_stage eb n kc (u0 :: us) vs bs) f)) =
  E (fk_path (fk_of M lg (step_data vs ts)) u0) (fun us =>
     if eb then E (FW (last (u0 :: us) udef)) (fun p => E (unif_indices n (length ts)) (fun bs => f (rev (fst p), bs)))
     else E (unif_indices n (length ts)) (fun bs => f (u0 :: us, bs))).
Proof.
  intros Hts Hvs Hn Hreg.
  assert (Hvne : vs <> []) by (destruct vs; [destruct ts; [easy|discriminate]|discriminate]).
  set (c := - ln (INR n)). pose proof (exp_pos c) as Hc.
  apply (Rmult_eq_reg_l (exp c)); [|lra].
  set (GL := fun us : list U => E (unif_indices n (length ts)) (fun bs => law (second_stage eb n kc us vs bs) f)).
  set (GR := fun us : list U => if eb then E (FW (last us udef)) (fun p => E (unif_indices n (length ts)) (fun bs => f (rev (fst p), bs)))
     else E (unif_indices n (length ts)) (fun bs => f (us, bs))).
  change (exp c * E (fk_path (fk_of M lg (step_data vs ts)) u0) (fun us => GL (u0 :: us)) =
          exp c * E (fk_path (fk_of M lg (step_data vs ts)) u0) (fun us => GR (u0 :: us))).
  rewrite <- !(E_smoothing_copies u0 c vs). unfold GL, GR. clear GL GR.
  pose proof (copies_model u0 c) as Hmo. pose proof (copies_shapes u0 c) as Hsh.
  assert (Hsupp : forall us, In us (map snd (smoothing vdef (dret u0) (fun _ _ _ => c) M lg vs ts)) -> exists p, us = u0 :: p /\ length us = length ts).
  { intros us Hin. unfold smoothing, fk_measure, dbind, dret in Hin. cbn [flat_map] in Hin. rewrite app_nil_r, map_map in Hin. cbn [snd] in Hin.
    apply in_map_iff in Hin. destruct Hin as ([q l] & <- & Hin). unfold dscale in Hin. apply in_map_iff in Hin. destruct Hin as ([q1 l1] & He & Hin).
    cbn [fst snd] in *. injection He as _ <-. unfold dmap in Hin. apply in_map_iff in Hin. destruct Hin as ([q2 l2] & He & Hin). cbn [fst snd] in *.
    injection He as _ <-. exists l2. split; [reflexivity|]. cbn [length].
    assert (Hl : In l2 (map snd (fk_path (fk_of M lg (step_data vs ts)) u0))) by (apply in_map_iff; now exists (q2, l2)).
    apply fk_path_length in Hl. unfold fk_of in Hl. rewrite map_length, length_step_data in Hl by lia.
    destruct vs; [easy|simpl in *; lia]. }
  destruct eb.
  - pose proof (forward_force_move udef vdef _ _ _ transition_logpdf _ _ (dret u0) (fun _ _ _ => c) M lg rolled_killing_dist Hmo Hsh n Hn
       ltac:(intros v v' us Hl; cbv beta; rewrite map_const_repeat, Hl, normalise_const by assumption; now apply fm_regular_unif)
       (Hreg eq_refl) (split_key kc 0) (split_key kc 1) vs ts
       (fun x => E (FW x) (fun p => E (unif_indices n (length ts)) (fun bs => f (rev (fst p), bs)))) Hvne (eq_sym Hvs)) as H.
    rewrite !joint_spec in H by (assumption || lia). rewrite Hvs in H.
    transitivity (E (smoothing vdef (dret u0) (fun _ _ _ => c) M lg vs ts) (fun us => E (unif_indices n (length ts)) (fun bs =>
      law (forward_pass udef vdef (copies u0) (flat_ll c) transition_sampler likelihood_logpdf ckilling (split_key kc 0) us bs vs ts (n - 1))
        (fun res => law (force_move (split_key kc 1) (map exp (last (snd (fst res)) [])) (last bs 0%nat))
          (fun i => E (FW (nth (fst i) (last (snd res) []) udef)) (fun p => E (unif_indices n (length ts)) (fun bs' => f (rev (fst p), bs')))))))).
    { apply E_ext. intros us Hus. destruct (Hsupp us Hus) as (p & -> & Hl). apply E_ext'. intros bs.
      unfold second_stage. cbv zeta. cbn [nth]. fold c. rewrite law_bind. apply law_ext. intros [[As lws] uss]. cbn [fst snd].
      rewrite law_bind. apply law_ext. intros [idx al]. cbn [fst]. rewrite law_bind, (gm_fwd Hg _ _ _). apply E_ext'. intros [px py]. cbn [fst snd].
      cbn [bind law]. unfold rint_hi, unif_indices. rewrite Nat.max_r by lia. rewrite Hl. reflexivity. }
    rewrite H. apply E_ext'. intros us. apply E_const. apply is_prob_dseq, Forall_repeat, is_prob_dunif. assumption.
  - pose proof (csmc_trace_invariant udef vdef _ _ _ transition_logpdf _ _ (dret u0) (fun _ _ _ => c) M lg rolled_killing_dist Hmo Hsh kc vs ts (n - 1) f Hvne (eq_sym Hvs)) as H.
    replace (n - 1 + 1)%nat with n in H by lia. rewrite Hvs in H. rewrite <- H.
    apply E_ext. intros us Hus. destruct (Hsupp us Hus) as (p & -> & Hl). reflexivity.
Qed.

(** The kernel leaves invariant: x0 from [pi], us the noised path of x0, bs uniform. *)
Theorem gibbs_kernel_invariant k us_star n marg_y eb pi f :
  ts <> [] -> (0 < n)%nat -> compatible marg_y pi -> (eb = true -> regular_likelihood n) ->
  E pi (fun x0 => E (unif_indices n (length ts)) (fun bs =>
    law (gk k x0 y0 us_star bs ts n marg_y eb false) (fun out => let '(x', us', bs', _) := out in f x' us' bs'))) =
  E pi (fun x0 => E (FW x0) (fun p => E (unif_indices n (length ts)) (fun bs => f x0 (rev (fst p)) bs))).
Proof.
  intros Hts Hn (B & HB & Hc) Hreg.
  set (g := fun ub : list U * list nat => f (last (fst ub) udef) (fst ub) (snd ub)).
  transitivity (E pi (fun x0 => E (noised marg_y x0) (fun p => E (unif_indices n (length ts)) (fun bs => law (second_stage eb n (split_key k 1) (fst p) (snd p) bs) g)))).
  { apply E_ext'. intros x0. rewrite E_exchange. apply E_ext'. intros bs. rewrite gibbs_kernel_stages by assumption. reflexivity. }
  rewrite (Hc (fun us vs => E (unif_indices n (length ts)) (fun bs => law (second_stage eb n (split_key k 1) us vs bs) g))).
  transitivity (E B (fun uv => E (fk_path (fk_of M lg (step_data (snd uv) ts)) (fst uv)) (fun us =>
     (fun us (_ : list V) => if eb then E (FW (last us udef)) (fun p => E (unif_indices n (length ts)) (fun bs => g (rev (fst p), bs)))
     else E (unif_indices n (length ts)) (fun bs => g (us, bs))) (fst uv :: us) (snd uv)))).
  { apply E_ext. intros [u0 vs] Huv. apply HB in Huv. cbn [fst snd] in *. apply second_stage_invariant; assumption. }
  rewrite <- (Hc (fun us (_ : list V) => if eb then E (FW (last us udef)) (fun p => E (unif_indices n (length ts)) (fun bs => g (rev (fst p), bs)))
     else E (unif_indices n (length ts)) (fun bs => g (us, bs)))).
  apply E_ext'. intros x0.
  assert (Hback : E (FW x0) (fun p => E (unif_indices n (length ts)) (fun bs => g (rev (fst p), bs))) =
                  E (FW x0) (fun p => E (unif_indices n (length ts)) (fun bs => f x0 (rev (fst p)) bs))).
  { apply E_ext. intros p Hp. destruct (gm_fwd_shape Hg x0 p Hp) as (H1 & H2 & H3). unfold g. cbn [fst snd].
    destruct (fst p) as [|a l]; [discriminate|]. injection H3 as ->. cbn [rev]. rewrite last_last. reflexivity. }
  destruct eb.
  - transitivity (E (noised marg_y x0) (fun p => E (FW x0) (fun p' => E (unif_indices n (length ts)) (fun bs => g (rev (fst p'), bs))))).
    { apply E_ext. intros p Hp. destruct (noised_shape _ _ _ Hts Hp) as (_ & _ & Hl). rewrite Hl. reflexivity. }
    rewrite (noised_fst marg_y x0 (fun _ => _)). rewrite E_const by apply (gm_fwd_prob Hg). exact Hback.
  - rewrite (noised_fst marg_y x0 (fun us => E (unif_indices n (length ts)) (fun bs => g (us, bs)))). exact Hback.
Qed.

(** A sufficient condition: log-likelihood ratios bounded, at least two particles. *)
Lemma regular_of_bounded n c : (2 <= n)%nat -> / 10 ^ 11 <= exp (- c) ->
  (forall v v' t u u', lg v v' t u - lg v v' t u' <= c) -> regular_likelihood n.
Proof.
  intros Hn Hc Hb v v' t us Hl. set (ll := map (lg v v' t) us). assert (Hll : length ll = n) by (unfold ll; now rewrite map_length).
  assert (Hne : ll <> []) by (intros H0; rewrite H0 in Hll; simpl in Hll; lia).
  rewrite normalise_eq by assumption. apply Forall_map. rewrite map_length. apply Forall_forall. intros x Hx. left.
  apply Rlt_le_trans with (1 - / 10 ^ 12); [|apply fm_threshold_ge].
  pose proof (Rsum_exp_pos ll Hne) as HS.
  destruct (In_nth ll x 0 Hx) as (i & Hi & <-).
  (* some other entry exists *)
  set (j := if Nat.eqb i 0 then 1%nat else 0%nat).
  assert (Hj : (j < length ll)%nat /\ j <> i) by (unfold j; destruct (Nat.eqb_spec i 0); lia).
  assert (Hsum : exp (nth i ll 0) + exp (nth j ll 0) <= Rsum (map exp ll)).
  { assert (Hset : Rsum (map exp ll) = exp (nth i ll 0) + Rsum (set_nth i 0 (map exp ll))).
    { rewrite Rsum_set_nth by (now rewrite map_length). rewrite (nth_exp ll i Hi). ring. }
    rewrite Hset. apply Rplus_le_compat_l. apply Rsum_In_le.
    - apply Forall_set_nth; [lra|]. apply Forall_map. apply Forall_forall. intros; apply Rlt_le, exp_pos.
    - rewrite <- (nth_exp ll j) by apply Hj. rewrite <- (nth_set_nth_neq i j 0 0 (map exp ll)) by (apply not_eq_sym, Hj).
      apply nth_In. rewrite length_set_nth, map_length. apply Hj. }
  assert (Hnthl : forall a, (a < length ll)%nat -> exists u, nth a ll 0 = lg v v' t u).
  { intros a Ha. assert (Hin : In (nth a ll 0) ll) by now apply nth_In. unfold ll at 2 in Hin. apply in_map_iff in Hin.
    destruct Hin as (u & Hu & _). exists u. now symmetry. }
  destruct (Hnthl i Hi) as [ui Hui]. destruct (Hnthl j (proj1 Hj)) as [uj Huj].
  pose proof (Hb v v' t ui uj) as Hd. rewrite <- Hui, <- Huj in Hd.
  assert (He : exp (nth i ll 0) * exp (- c) <= exp (nth j ll 0)).
  { rewrite <- exp_plus. destruct (Rle_lt_or_eq_dec (nth i ll 0 + - c) (nth j ll 0) ltac:(lra)) as [H|H]; [left; now apply exp_increasing|rewrite H; lra]. }
  set (a := exp (nth i ll 0)) in *. pose proof (exp_pos (nth i ll 0)) as Ha. fold a in Ha.
  assert (H1 : a * (1 + / 10 ^ 11) <= Rsum (map exp ll)).
  { apply Rle_trans with (a + a * exp (- c)); [|lra]. rewrite Rmult_plus_distr_l, Rmult_1_r. apply Rplus_le_compat_l. apply Rmult_le_compat_l; lra. }
  apply (Rmult_lt_reg_r (Rsum (map exp ll))); [assumption|]. unfold Rdiv. rewrite Rmult_assoc, Rinv_l, Rmult_1_r by lra.
  assert (Hp : 0 < 1 - / 10 ^ 12) by (assert (/ 10 ^ 12 < / 2) by (apply Rinv_lt_contravar; lra); lra).
  apply Rlt_le_trans with ((1 - / 10 ^ 12) * (a * (1 + / 10 ^ 11))); [|apply Rmult_le_compat_l; lra].
  replace (/ 10 ^ 11) with (10 * / 10 ^ 12) by field. set (e := / 10 ^ 12) in *.
  assert (0 < e) by (apply Rinv_0_lt_compat, pow_lt; lra).
  assert (e < / 2) by (apply Rinv_lt_contravar; lra).
  replace ((1 - e) * (a * (1 + 10 * e))) with (a + a * (e * (9 - 10 * e))) by ring.
  assert (0 < a * (e * (9 - 10 * e))) by (apply Rmult_lt_0_compat; [assumption|apply Rmult_lt_0_compat; lra]). lra.
Qed.

Lemma regular_one : regular_likelihood 1.
Proof.
  intros v v' t us Hl. destruct us as [|u [|? ?]]; try discriminate. cbn [map].
  change (map (lg v v' t) [u]) with [lg v v' t u]. rewrite normalise_eq by discriminate. cbn [map Rsum]. constructor; [|constructor].
  right. pose proof (exp_pos (lg v v' t u)). field. lra.
Qed.

End gibbs_inv.
