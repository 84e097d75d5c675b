(** Property C129: the ancestors of the particles of the bootstrap filter and their coalescence. *)
From Coq Require Import Reals Lra Lia List.
From Verif Require Import CoalesceMain.
Open Scope R_scope.

(** ** C129 *)
Theorem C129_tags_are_harmless : forall (U V : Type) (udef : U) (vdef : V) trans lik res init vs ts k n lg rl,
  bind (tagged_filter udef vdef trans lik res init vs ts k n lg rl) (fun r => Ret (map (map snd) (fst r), snd r)) =
  bootstrap_filter udef vdef trans lik res vs ts init k n lg rl.
Proof. intros. apply tagged_filter_forget. Qed.

Theorem C129_ancestors_nested : forall (U V : Type) (udef : U) (vdef : V) trans lik res init n,
  (forall us v t k, safe (trans us v t k) (fun us' => length us' = length us)) ->
  (forall v us vp t, length (lik v us vp t) = length us) ->
  (forall w k, weights_ok w -> safe (res w k) (valid_indices (length w))) ->
  (forall k v m, safe (init k v m) (fun us => length us = m)) -> (0 < n)%nat ->
  forall vs ts k lg tr r, runs (tagged_filter udef vdef trans lik res init vs ts k n lg false) tr r ->
  length (fst r) = S (length (filter_inputs vs ts)) /\ tags (nth 0 (fst r) []) = seq 0 n /\
  forall j, (S j < length (fst r))%nat -> length (nth (S j) (fst r) []) = n /\
    incl (tags (nth (S j) (fst r) [])) (tags (nth j (fst r) [])) /\
    (length (nodup Nat.eq_dec (tags (nth (S j) (fst r) []))) <= length (nodup Nat.eq_dec (tags (nth j (fst r) []))))%nat.
Proof. intros U V udef vdef trans lik res init n H1 H2 H3 H4 Hn vs ts k lg tr r H. exact (filter_nested udef vdef trans lik res init H1 H2 H3 H4 n Hn vs ts k lg tr r H). Qed.

Theorem C129_multinomial_coalesces_partial : forall (U V : Type) (udef : U) (vdef : V) trans lik init n, (0 < n)%nat ->
  (forall us v t, length us = n -> has_laws (fun us' => length us' = n) (trans us v t)) ->
  (forall v us vp t, length (lik v us vp t) = length us) ->
  (forall v, has_laws (fun us => length us = n) (fun k => init k v n)) ->
  forall vs ts k lg rl,
  law (tagged_filter udef vdef trans lik multinomial init vs ts k n lg rl)
      (fun r => if forallb (Nat.eqb (nth 0 (tags (last (fst r) [])) 0%nat)) (tags (last (fst r) [])) then 0 else 1)
  <= (1 - INR n * (/ INR n) ^ n) ^ length (filter_inputs vs ts).
Proof. intros. now apply multinomial_coalesces. Qed.

Theorem C129_multinomial_rate_partial : forall (U V : Type) (udef : U) (vdef : V) trans lik init n, (0 < n)%nat ->
  (forall us v t, length us = n -> has_laws (fun us' => length us' = n) (trans us v t)) ->
  (forall v us vp t, length (lik v us vp t) = length us) ->
  (forall v, has_laws (fun us => length us = n) (fun k => init k v n)) ->
  (forall v us vp t, exists c, lik v us vp t = repeat c (length us)) ->
  forall vs ts k lg rl,
  law (tagged_filter udef vdef trans lik multinomial init vs ts k n lg rl) (fun r => distinct_pairs (tags (last (fst r) []))) =
  INR n * (INR n - 1) * (1 - / INR n) ^ length (filter_inputs vs ts).
Proof. intros. now apply multinomial_neutral_rate. Qed.

(** With the stratified resampling that gibbs_init uses (and with systematic and killing) the claim
    "the ancestors coalesce" is false: a flat likelihood keeps them all, however many the steps. *)
Theorem C129_coalescence_refuted : forall (U V : Type) (udef : U) (vdef : V) trans lik init n res,
  (res = stratified \/ res = systematic \/ res = killing) -> (0 < n)%nat ->
  (forall us v t, length us = n -> has_laws (fun us' => length us' = n) (trans us v t)) ->
  (forall v us vp t, length (lik v us vp t) = length us) ->
  (forall v, has_laws (fun us => length us = n) (fun k => init k v n)) ->
  (forall v us vp t, exists c, lik v us vp t = repeat c (length us)) ->
  forall vs ts k lg rl F,
  law (tagged_filter udef vdef trans lik res init vs ts k n lg rl) (fun r => F (tags (last (fst r) []))) = F (seq 0 n).
Proof.
  intros U V udef vdef trans lik init n res Hr. intros. destruct Hr as [ ->|[ ->| ->]].
  - exact (neutral_identity_kept udef vdef trans lik init n H H0 H1 H2 H3 _ vs ts k lg rl F stratified_neutral stratified_has_laws).
  - exact (neutral_identity_kept udef vdef trans lik init n H H0 H1 H2 H3 _ vs ts k lg rl F systematic_neutral systematic_has_laws).
  - exact (neutral_identity_kept udef vdef trans lik init n H H0 H1 H2 H3 _ vs ts k lg rl F killing_neutral killing_has_laws).
Qed.

Theorem C129_survivors : forall res w k, unbiased_res res -> has_laws (valid_indices (length w)) (res w) -> weights_ok w ->
  law (res w k) (survivors (length w)) <= Rsum (map (fun x => Rmin 1 (INR (length w) * x)) w).
Proof. exact survivors_upper. Qed.
Theorem C129_systematic_survivors : forall w k, weights_ok w ->
  law (systematic w k) (survivors (length w)) = Rsum (map (fun x => Rmin 1 (INR (length w) * x)) w).
Proof. exact systematic_survivors. Qed.

Theorem C129_parents : forall (U V : Type) (udef : U) (vdef : V) trans lik res init n,
  (forall us v t k, safe (trans us v t k) (fun us' => length us' = length us)) ->
  (forall v us vp t, length (lik v us vp t) = length us) ->
  (forall w k, weights_ok w -> safe (res w k) (valid_indices (length w))) ->
  (forall k v m, safe (init k v m) (fun us => length us = m)) -> (0 < n)%nat ->
  forall vs ts k lg tr r, runs (bootstrap_filter udef vdef trans lik res vs ts init k n lg false) tr r ->
  length (fst r) = S (length (filter_inputs vs ts)) /\
  forall j v vp t, nth_error (filter_inputs vs ts) j = Some (v, vp, t) ->
    exists k' tr' us, runs (trans (nth j (fst r) []) vp t k') tr' us /\ length us = n /\ length (nth (S j) (fst r) []) = n /\
      forall p, (p < n)%nat -> exists a, (a < n)%nat /\ nth p (nth (S j) (fst r) []) udef = nth a us udef.
Proof.
  intros U V udef vdef trans lik res init n H1 H2 H3 H4 Hn vs ts k lg tr r H.
  destruct (filter_parents udef vdef trans lik res init H1 H2 H3 H4 n Hn vs ts k lg tr r H) as [G1 G2].
  exact (conj G1 (fun j v vp t Hj => G2 j (v, vp, t) Hj)).
Qed.

(** The lines of the figure join the particles of one slot; they are not paths of particles. *)
Theorem C129_particle_trajectory_refuted : exists tr ls ell,
  runs (bootstrap_filter 0 0 still_trans value_lik stratified [0; 0] [0] (fun _ _ _ => Ret [0; ln 9]) [] 2 true false) tr (ls, ell) /\
  nth 0 (nth 1 ls []) 0 <> nth 0 (nth 0 ls []) 0 /\
  forall us tr', runs (still_trans (nth 0 ls []) 0 0 []) tr' us -> nth 0 (nth 1 ls []) 0 <> nth 0 us 0.
Proof. exact slot_line_jumps. Qed.

Theorem C129_figure_shows_ancestors_refuted : exists tr1 tr2 ls1 ls2 ell,
  runs (tagged_filter 0 0 still_trans value_lik stratified (fun _ _ _ => Ret [0; 0; ln 2]) [0; 0] [0] [] 3 true false) tr1 (ls1, ell) /\
  runs (tagged_filter 0 0 still_trans value_lik stratified (fun _ _ _ => Ret [0; 0; ln 2]) [0; 0] [0] [] 3 true false) tr2 (ls2, ell) /\
  map (map snd) ls1 = map (map snd) ls2 /\
  length (nodup Nat.eq_dec (tags (last ls1 []))) = 3%nat /\ length (nodup Nat.eq_dec (tags (last ls2 []))) = 2%nat.
Proof. exact clouds_do_not_tell_ancestors. Qed.

Print Assumptions C129_tags_are_harmless.
Print Assumptions C129_ancestors_nested.
Print Assumptions C129_multinomial_coalesces_partial.
Print Assumptions C129_multinomial_rate_partial.
Print Assumptions C129_coalescence_refuted.
Print Assumptions C129_survivors.
Print Assumptions C129_systematic_survivors.
Print Assumptions C129_parents.
Print Assumptions C129_particle_trajectory_refuted.
Print Assumptions C129_figure_shows_ancestors_refuted.

(** two particles, three steps, flat likelihood: the multinomial filter keeps two ancestors with
    chance 1/8, the stratified filter always. *)
Definition flat_lik (v : R) (us : list R) (vp t : R) : list R := repeat 0 (length us).
Definition two_init (k : key) (v : R) (m : nat) : prog (list R) := Ret (repeat 0 m).
Example C129_example : forall k,
  law (tagged_filter 0 0 still_trans flat_lik multinomial two_init [0; 1; 2; 3] [0; 1; 2] k 2 true true)
      (fun r => if forallb (Nat.eqb (nth 0 (tags (last (fst r) [])) 0%nat)) (tags (last (fst r) [])) then 0 else 1) <= 1/8 /\
  law (tagged_filter 0 0 still_trans flat_lik multinomial two_init [0; 1; 2; 3] [0; 1; 2] k 2 true true) (fun r => distinct_pairs (tags (last (fst r) []))) = 2 * (1/8) /\
  law (tagged_filter 0 0 still_trans flat_lik stratified two_init [0; 1; 2; 3] [0; 1; 2] k 2 true true) (fun r => distinct_pairs (tags (last (fst r) []))) = 2 /\
  law (systematic [1/10; 9/10] k) (survivors 2) = 12/10.
Proof.
  intros k.
  assert (A1 : forall (us : list R) (v t : R), length us = 2%nat -> has_laws (fun us' => length us' = 2%nat) (still_trans us v t)) by (intros us v t Hl; now apply has_laws_ret).
  assert (A2 : forall (v : R) us (vp t : R), length (flat_lik v us vp t) = length us) by (intros; apply repeat_length).
  assert (A3 : forall v : R, has_laws (fun us => length us = 2%nat) (fun k => two_init k v 2)) by (intros v; now apply has_laws_ret).
  assert (A4 : forall (v : R) us (vp t : R), exists c, flat_lik v us vp t = repeat c (length us)) by (intros; now exists 0).
  split; [|split; [|split]].
  - eapply Rle_trans; [apply (C129_multinomial_coalesces_partial R R 0 0 still_trans flat_lik two_init 2 (Nat.lt_0_succ 1) A1 A2 A3)|]. cbn [filter_inputs length INR pow]. lra.
  - rewrite (C129_multinomial_rate_partial R R 0 0 still_trans flat_lik two_init 2 (Nat.lt_0_succ 1) A1 A2 A3 A4). cbn [filter_inputs length INR pow]. lra.
  - rewrite (C129_coalescence_refuted R R 0 0 still_trans flat_lik two_init 2 stratified (or_introl eq_refl) (Nat.lt_0_succ 1) A1 A2 A3 A4 _ _ _ _ _ distinct_pairs).
    rewrite distinct_pairs_iota. cbn [INR]. lra.
  - pose proof (C129_systematic_survivors [1/10; 9/10] k w2_ok) as H. change (length [1/10; 9/10]) with 2%nat in H. rewrite H.
    cbn [map Rsum INR]. rewrite Rmin_right, Rmin_left by lra. lra.
Qed.
