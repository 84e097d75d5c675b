(** The memory-saving loss, the marginal simulators, stationarity and the whole loss function. *)
From Coquelicot Require Import Coquelicot.
From Verif Require Export SdeLoss.
Open Scope R_scope.

(** ** whole-batch loss *)
Definition batch_paths (sde : linear_sde) (ts : list R) (x0s : list (list R)) (rndss : list (list (list R))) :=
  map (fun q => exact_path (FQ sde) (fst q) ts (snd q)) (combine x0s rndss).

Definition net_shape (d : nat) (nn : list (list R) -> R -> list (list R)) : Prop :=
  forall xs t, Forall (fun x => length x = d) xs -> length (nn xs t) = length xs /\ Forall (fun x => length x = d) (nn xs t).

Lemma Forall_combine_l {A B} (P : A -> Prop) (la : list A) (lb : list B) : Forall P la -> Forall (fun q => P (fst q)) (combine la lb).
Proof. intros H. apply Forall_forall. intros [a b] Hi. apply in_combine_l in Hi. rewrite Forall_forall in H. now apply H. Qed.
Lemma Forall_combine_r {A B} (P : B -> Prop) (la : list A) (lb : list B) : Forall P lb -> Forall (fun q => P (snd q)) (combine la lb).
Proof. intros H. apply Forall_forall. intros [a b] Hi. apply in_combine_r in Hi. rewrite Forall_forall in H. now apply H. Qed.

Theorem linear_loss_spec sde nn d lt ts x0s rndss :
  (0 < d)%nat -> net_shape d nn -> (2 <= length ts)%nat -> x0s <> [] -> length rndss = length x0s ->
  Forall (fun x => length x = d) x0s ->
  Forall (fun rnds => length rnds = (length ts - 1)%nat /\ Forall (fun r => length r = d) rnds) rndss ->
  (forall k, (1 <= k < length ts)%nat -> 0 < snd (FQ sde (nth k ts 0) (nth 0 ts 0))) -> lt <> Lunknown ->
  exists L, linear_loss sde nn lt ts x0s rndss = Some L /\ 0 <= L /\
    (L = 0 <-> matches (FQ sde) (cond_score sde) nn ts (batch_paths sde ts x0s rndss) lt).
Proof.
  intros Hd Hnn Hts Hne Hl Hx Hr HQ Hlt. unfold linear_loss. fold (batch_paths sde ts x0s rndss).
  apply (loss_value_spec (FQ sde) (cond_score sde) nn d Hd Hnn); try assumption.
  - intros x t x0 s H1 H2. unfold cond_score. rewrite length_score_of; congruence.
  - intros H. apply (f_equal (@length _)) in H. unfold batch_paths in H. rewrite map_length, combine_length, Hl, Nat.min_id in H.
    destruct x0s; [easy|discriminate].
  - unfold batch_paths. apply Forall_map, Forall_forall. intros [x r] Hi.
    pose proof (in_combine_l _ _ _ _ Hi) as H1. pose proof (in_combine_r _ _ _ _ Hi) as H2. rewrite Forall_forall in Hx, Hr. destruct (Hr r H2) as [Hr1 Hr2].
    apply exact_path_shape; [destruct ts; [simpl in Hts; lia|easy]|now apply Hx|assumption|assumption].
Qed.

(** ** the loss function with its random draws *)
Definition normal_shape (normal : normal_sampler) : Prop :=
  forall k m d, safe (normal k m d) (fun rnds => length rnds = m /\ Forall (fun r => length r = d) rnds).

Lemma draw_batch_safe normal k m d : normal_shape normal -> forall n i,
  safe (draw_batch normal k i n m d) (fun rs => length rs = n /\ Forall (fun rnds => length rnds = m /\ Forall (fun r => length r = d) rnds) rs).
Proof.
  intros HN. induction n as [|n IH]; intros i; cbn [draw_batch]; [apply safe_ret; auto|].
  eapply safe_bind; [apply HN|]. intros r Hr. eapply safe_bind; [apply IH|]. intros rs [Hl HF]. apply safe_ret. cbn [length]. split; [lia|constructor; assumption].
Qed.

Theorem loss_fn_spec sde nn d t0 T nsteps random_times lt normal k x0s :
  sde_defined sde -> (0 < d)%nat -> net_shape d nn -> (1 <= nsteps)%nat -> t0 + / 10 ^ 5 <= T -> normal_shape normal ->
  x0s <> [] -> Forall (fun x => length x = d) x0s -> (forall t, t0 < t <= T -> noisy_between sde t0 t) ->
  safe (loss_fn sde nn t0 T nsteps random_times lt normal k x0s)
    (fun r => if match lt with Lunknown => true | _ => false end then r = None else exists L, r = Some L /\ 0 <= L).
Proof.
  intros Hsde Hd Hnn Hn HT HN Hne Hx Hnoise. assert (He : 0 < / 10 ^ 5) by (apply Rinv_0_lt_compat; lra).
  assert (Hd0 : length (nth 0 x0s []) = d) by (rewrite Forall_forall in Hx; apply Hx, nth_In; destruct x0s; [easy|cbn [length]; lia]).
  unfold loss_fn. rewrite Hd0.
  apply (safe_bind _ _ (fun draws => (random_times = true -> length draws = (nsteps - 1)%nat) /\ Forall in01 draws)).
  { destruct random_times; [|apply safe_ret; split; [discriminate|constructor]]. apply safe_unif. intros us Hl Hus. apply safe_ret. auto. }
  intros draws [Hlen Hus].
  pose proof (loss_grid_spec random_times (t0 + / 10 ^ 5) t0 T nsteps draws Hn ltac:(lra) ltac:(lra) Hlen Hus) as Hg. cbv zeta in Hg.
  set (ts := loss_grid random_times (t0 + / 10 ^ 5) t0 T nsteps draws) in *. destruct Hg as (Hl & H0 & Hk).
  eapply safe_bind; [apply draw_batch_safe, HN|]. intros rndss [Hrl HF]. apply safe_ret.
  destruct (match lt with Lunknown => true | _ => false end) eqn:E.
  - destruct lt; try discriminate. reflexivity.
  - destruct (linear_loss_spec sde nn d lt ts x0s rndss) as (L & HL & HL0 & _); try assumption; [lia| |destruct lt; easy|].
    + intros j Hj. destruct (Hk j ltac:(lia)) as [[H|[_ H]] HTj]; [|lra]. rewrite H0. apply Q_pos; [assumption|assumption|apply Hnoise; lra].
    + exists L. auto.
Qed.

(** ** the memory-saving loss *)
Theorem save_mem_score_spec sde nn d t0 ts x0s rnds :
  (0 < d)%nat ->
  (forall xs, Forall (fun x => length x = d) xs -> length (nn xs ts) = length xs /\ Forall (fun x => length x = d) (nn xs ts)) ->
  x0s <> [] -> length ts = length x0s -> length rnds = length x0s ->
  Forall (fun x => length x = d) x0s -> Forall (fun x => length x = d) rnds ->
  Forall (fun t => 0 < snd (FQ sde t t0)) ts ->
  let x i := move (FQ sde (nth i ts 0) t0) (nth i x0s []) (nth i rnds []) in
  exists L, save_mem_loss sde nn Lscore t0 ts x0s rnds = Some L /\ 0 <= L /\
    (L = 0 <-> forall i, (i < length x0s)%nat ->
       nth i (nn (map x (seq 0 (length x0s))) ts) [] = cond_score sde (x i) (nth i ts 0) (nth i x0s []) t0).
Proof.
  intros Hd Hnn Hne Hlt Hlr Hx Hr HQ x. eexists. split; [reflexivity|].
  set (xs := map (fun q : list R * (R * list R) => let '(x0, (t, rnd)) := q in move (FQ sde t t0) x0 rnd) (combine x0s (combine ts rnds))).
  assert (Hxs : xs = map x (seq 0 (length x0s))).
  { unfold xs. apply (nth_ext _ _ [] []); [rewrite !map_length, combine_length, combine_length, seq_length; lia|]. intros i Hi.
    rewrite map_length, !combine_length in Hi.
    set (f := fun q : list R * (R * list R) => let '(x0, (t, rnd)) := q in move (FQ sde t t0) x0 rnd).
    rewrite (nth_indep _ [] (f ([], (0, [])))) by (rewrite map_length, !combine_length; lia). rewrite (map_nth f).
    rewrite (nth_indep (map x _) [] (x 0%nat)) by (rewrite map_length, seq_length; lia). rewrite (map_nth x), seq_nth by lia.
    rewrite combine_nth by (rewrite combine_length; lia). rewrite combine_nth by congruence. reflexivity. }
  assert (Hxl : length xs = length x0s) by (rewrite Hxs, map_length, seq_length; reflexivity).
  assert (Hxi : forall i, (i < length x0s)%nat -> length (x i) = d).
  { intros i Hi. rewrite Forall_forall in Hx, Hr. unfold x. rewrite length_move; [apply Hx, nth_In; assumption|].
    rewrite (Hx (nth i x0s [])) by (now apply nth_In). symmetry. apply Hr, nth_In. lia. }
  assert (Hxd : Forall (fun x => length x = d) xs).
  { rewrite Hxs. apply Forall_map, Forall_forall. intros i Hi. apply in_seq in Hi. apply Hxi. lia. }
  rewrite <- Hxs. destruct (Hnn xs Hxd) as [Hol Hod]. set (outs := nn xs ts) in *.
  assert (Hnn0 : Forall (fun x => 0 <= x) (map (fun q : list R * (list R * (list R * R)) => let '(out, (x, (x0, t))) := q in Rmean (sq_diff out (cond_score sde x t x0 t0)) * snd (FQ sde t t0))
              (combine outs (combine xs (combine x0s ts))))).
  { apply Forall_map, Forall_forall. intros [out [y [x0 t]]] Hi. apply Rmult_le_pos; [apply Rmean_nonneg, sq_diff_nonneg|].
    apply in_combine_r, in_combine_r, in_combine_r in Hi. rewrite Forall_forall in HQ. left. now apply HQ. }
  split; [now apply Rmean_nonneg|]. rewrite Rmean_zero_iff; [|intros H; apply map_eq_nil in H; apply (f_equal (@length _)) in H; rewrite !combine_length in H; destruct x0s; [easy|cbn [length] in *; lia]|assumption].
  rewrite Forall_map.
  pose proof (Forall_combine3 [] [] ([], 0) (fun out y p => Rmean (sq_diff out (cond_score sde y (snd p) (fst p) t0)) * snd (FQ sde (snd p) t0) = 0) outs xs (combine x0s ts)
    Hol ltac:(rewrite combine_length; lia)) as HF.
  transitivity (Forall (fun q : list R * (list R * (list R * R)) => Rmean (sq_diff (fst q) (cond_score sde (fst (snd q)) (snd (snd (snd q))) (fst (snd (snd q))) t0)) * snd (FQ sde (snd (snd (snd q))) t0) = 0)
    (combine outs (combine xs (combine x0s ts)))).
  { rewrite !Forall_forall. split; intros H [out [y [x0 t]]] Hi; exact (H _ Hi). }
  rewrite HF, Hol, Hxl. split; intros H i Hi; specialize (H i Hi).
  - rewrite combine_nth in H by congruence. cbn [fst snd] in H.
    apply Rmult_integral in H as [H|H]; [|exfalso; rewrite Forall_forall in HQ; pose proof (HQ (nth i ts 0) ltac:(apply nth_In; lia)); lra].
    assert (Hout : length (nth i outs []) = d) by (rewrite Forall_forall in Hod; apply Hod, nth_In; lia).
    assert (Hxi' : nth i xs [] = x i).
    { rewrite Hxs. rewrite (nth_indep _ [] (x 0%nat)) by (rewrite map_length, seq_length; lia). rewrite (map_nth x), seq_nth by lia. reflexivity. }
    rewrite Hxi' in H.
    assert (Hsl : length (cond_score sde (x i) (nth i ts 0) (nth i x0s []) t0) = d).
    { unfold cond_score. rewrite length_score_of; [now apply Hxi|]. rewrite Hxi by assumption. rewrite Forall_forall in Hx. symmetry. apply Hx, nth_In. assumption. }
    apply Rmean_zero_iff in H; [|apply sq_diff_nil; [intros H'; rewrite H' in Hout; cbn [length] in Hout; lia|congruence]|apply sq_diff_nonneg].
    apply sq_diff_zero in H; [assumption|congruence].
  - rewrite combine_nth by congruence. cbn [fst snd].
    assert (Hxi' : nth i xs [] = x i).
    { rewrite Hxs. rewrite (nth_indep _ [] (x 0%nat)) by (rewrite map_length, seq_length; lia). rewrite (map_nth x), seq_nth by lia. reflexivity. }
    rewrite H, Hxi'.
    set (v := cond_score sde (x i) (nth i ts 0) (nth i x0s []) t0).
    assert (Hz : Forall (fun a => a = 0) (sq_diff v v)) by (now apply sq_diff_zero).
    assert (Hv : length v = d).
    { unfold v, cond_score. rewrite length_score_of; [now apply Hxi|]. rewrite Hxi by assumption. rewrite Forall_forall in Hx. symmetry. apply Hx, nth_In. assumption. }
    assert (Hm : Rmean (sq_diff v v) = 0).
    { apply Rmean_zero_iff; [apply sq_diff_nil; [intros H'; rewrite H' in Hv; cbn [length] in Hv; lia|reflexivity]|apply sq_diff_nonneg|assumption]. }
    rewrite Hm. ring.
Qed.

Theorem save_mem_ipf_fails sde nn lt t0 ts x0s rnds :
  lt = Lipf \/ lt = Lipfscore -> ~ (length x0s = 2%nat /\ length (nth 0 x0s []) = 2%nat) -> save_mem_loss sde nn lt t0 ts x0s rnds = None.
Proof.
  intros Hlt Hn. assert (H : save_mem_ipf_ok (length x0s) (length (nth 0 x0s [])) = false).
  { unfold save_mem_ipf_ok. destruct (Nat.eqb_spec (length x0s) 2) as [E1|E1], (Nat.eqb_spec (length (nth 0 x0s [])) 2) as [E2|E2]; try reflexivity. now contradict Hn. }
  unfold save_mem_loss. rewrite H. now destruct Hlt as [-> | ->].
Qed.

(** ** marginal simulation *)
Theorem marginal_moments sde d row x0 t t0 : sde_defined sde -> white d row -> length x0 = d -> 0 <= snd (FQ sde t t0) ->
  (forall rnd, exists x, marginal_at sde x0 t t0 rnd = Some x) /\
  (forall i, (i < d)%nat -> E row (fun rnd => match marginal_at sde x0 t t0 rnd with Some x => nth i x 0 | None => 0 end) = fst (FQ sde t t0) * nth i x0 0) /\
  (forall i j, (i < d)%nat -> (j < d)%nat ->
     E row (fun rnd => match marginal_at sde x0 t t0 rnd with Some x => nth i x 0 * nth j x 0 | None => 0 end) =
     fst (FQ sde t t0) * fst (FQ sde t t0) * (nth i x0 0 * nth j x0 0) + (if Nat.eqb i j then snd (FQ sde t t0) else 0)).
Proof.
  intros Hs Hw Hl HQ. unfold marginal_at. rewrite (discretise_FQ sde t t0 Hs). repeat split.
  - intros. eexists. reflexivity.
  - intros i Hi. exact (E_move_mean d row Hw (FQ sde t t0) x0 i Hl Hi).
  - intros i j Hi Hj. exact (E_move_cov d row Hw (FQ sde t t0) x0 i j Hl Hi Hj HQ).
Qed.

(** the documented array form *)
Theorem marginals_array_no_t0 sde x0 ts rnds : marginals_array sde x0 ts None rnds = None.
Proof. reflexivity. Qed.

Lemma option_all_map {A B} (f : A -> option B) (g : A -> B) l : (forall a, f a = Some (g a)) -> option_all (map f l) = Some (map g l).
Proof. intros H. induction l as [|a l IH]; [reflexivity|]. cbn [map option_all fold_right]. rewrite H. unfold option_all in IH. rewrite IH. reflexivity. Qed.

(** a vector of n times and a state with d entries, n <> d, both at least 2: the shapes do not broadcast *)
Theorem marginals_array_shape_error sde x0 ts s rnds : length ts <> length x0 -> (2 <= length ts)%nat -> (2 <= length x0)%nat ->
  marginals_array sde x0 ts (Some s) rnds = None.
Proof.
  intros Hne H2 H2'. unfold marginals_array. cbn [obind].
  destruct (option_all (map (fun t => discretise sde t s) ts)) as [FQs|] eqn:E; [|reflexivity]. cbn [obind].
  assert (Hl : length FQs = length ts).
  { clear Hne H2. revert FQs E. induction ts as [|t ts IH]; intros FQs E; [cbn in E; injection E as <-; reflexivity|].
    cbn [map option_all fold_right] in E. unfold option_all in IH. destruct (discretise sde t s); [|discriminate].
    destruct (fold_right _ _ _); [|discriminate]. injection E as <-. cbn [length]. now rewrite (IH _ eq_refl). }
  assert (H : bcast1 Rmult (map fst FQs) x0 = None).
  { unfold bcast1. rewrite map_length, Hl. destruct (Nat.eqb_spec (length ts) (length x0)); [easy|].
    destruct (Nat.eqb_spec (length ts) 1); [lia|]. destruct (Nat.eqb_spec (length x0) 1); [lia|reflexivity]. }
  now rewrite H.
Qed.

(** equal sizes: entry j of every row belongs to time j *)
Theorem marginals_array_wrong sde x0 ts s rnds : sde_defined sde -> length ts = length x0 -> length rnds = length ts -> Forall (fun r => length r = length x0) rnds ->
  exists out, marginals_array sde x0 ts (Some s) rnds = Some out /\
  forall k j, (k < length ts)%nat -> (j < length x0)%nat ->
    nth j (nth k out []) 0 = fst (FQ sde (nth j ts 0) s) * nth j x0 0 + sqrt (snd (FQ sde (nth j ts 0) s)) * nth j (nth k rnds []) 0.
Proof.
  intros Hs Hl Hr HF. unfold marginals_array. cbn [obind]. rewrite (option_all_map _ (fun t => FQ sde t s)) by (intros; now apply discretise_FQ).
  cbn [obind]. set (FQs := map (fun t => FQ sde t s) ts). assert (HFl : length FQs = length x0) by (unfold FQs; rewrite map_length; assumption).
  unfold bcast1 at 1. rewrite map_length, HFl, Nat.eqb_refl. cbn [obind].
  set (m := vmap2 Rmult (map fst FQs) x0). assert (Hm : length m = length x0) by (unfold m; rewrite length_vmap2; rewrite map_length; assumption).
  assert (H1 : forall f v rows, length v = length x0 -> Forall (fun r => length r = length x0) rows -> bcast_rows f v rows = Some (map (vmap2 f v) rows)).
  { intros f v rows Hv Hrows. unfold bcast_rows. clear -Hv Hrows. induction Hrows as [|r rows H HF IH]; [reflexivity|].
    cbn [map option_all fold_right]. unfold option_all in IH. rewrite IH. unfold bcast1. now rewrite Hv, H, Nat.eqb_refl. }
  set (sq := map (fun fq : R * R => sqrt (snd fq)) FQs). assert (Hsq : length sq = length x0) by (unfold sq; rewrite map_length; assumption).
  rewrite H1 by assumption. cbn [obind]. rewrite H1.
  2: assumption.
  2: { apply Forall_map. apply Forall_forall. intros r Hi. rewrite Forall_forall in HF. rewrite length_vmap2; [assumption|]. rewrite Hsq. symmetry. now apply HF. }
  eexists. split; [reflexivity|]. intros k j Hk Hj.
  assert (Hrk : length (nth k rnds []) = length x0) by (rewrite Forall_forall in HF; apply HF, nth_In; lia).
  rewrite (nth_indep _ [] (vmap2 Rplus m [])) by (rewrite !map_length; lia). rewrite (map_nth (vmap2 Rplus m)).
  rewrite (nth_indep _ [] (vmap2 Rmult sq [])) by (rewrite map_length; lia). rewrite (map_nth (vmap2 Rmult sq)).
  rewrite nth_vmap2; [|lia|rewrite length_vmap2; lia]. rewrite nth_vmap2; [|lia|lia].
  unfold m. rewrite nth_vmap2; [|rewrite map_length; lia|rewrite map_length; lia].
  unfold sq. set (g := fun fq : R * R => sqrt (snd fq)). rewrite (nth_indep (map g FQs) 0 (g (FQ sde 0 s))) by (rewrite map_length; lia).
  rewrite (map_nth g). unfold g. rewrite (nth_indep _ 0 (fst (FQ sde 0 s))) by (rewrite map_length; lia). rewrite (map_nth fst).
  unfold FQs. rewrite (map_nth (fun t => FQ sde t s)). reflexivity.
Qed.

(** the OU helper's marginals: row [k] is one exact transition from time 0 *)
Theorem ou_marginals_law a b row x0 f : is_prob row -> forall ts k, (k < length ts)%nat ->
  E (dseq (repeat row (length ts))) (fun rnds => f (nth k (ou_marginals a b x0 ts rnds) [])) = E row (fun r => f (move (FQ (ConstSDE a b) (nth k ts 0) 0) x0 r)).
Proof.
  intros Hp. induction ts as [|t ts IH]; intros k Hk; [simpl in Hk; lia|]. cbn [length repeat]. rewrite E_dseq_cons.
  destruct k as [|k].
  - apply E_ext'. intros r. rewrite (E_ext' _ _ (fun _ => f (move (FQ (ConstSDE a b) t 0) x0 r))).
    + apply E_const. apply is_prob_dseq. apply Forall_forall. intros x Hx. apply repeat_spec in Hx. now subst.
    + intros rs. unfold ou_marginals. cbn [combine map nth fst snd]. rewrite <- ou_FQ, Rminus_0_r. reflexivity.
  - rewrite (E_ext' _ _ (fun _ => E row (fun r => f (move (FQ (ConstSDE a b) (nth k ts 0) 0) x0 r)))); [now apply E_const|].
    intros r. cbn [length] in Hk. rewrite <- (IH k) by lia. apply E_ext'. intros rs. reflexivity.
Qed.

(** ** stationarity *)
Definition stationary_variance (sde : linear_sde) : R :=
  match sde with ConstSDE a b | ExpSDE a b _ _ => - (b * b) / (2 * a) | LinSDE _ _ _ _ => 1 | OtherSDE => 0 end.
Lemma stationary_preserved sde t s : sde_defined sde ->
  fst (FQ sde t s) * fst (FQ sde t s) * stationary_variance sde + snd (FQ sde t s) = stationary_variance sde.
Proof.
  intros H. destruct sde as [a b|m M t0 T|a b c z|]; cbn [sde_defined stationary_variance FQ fst snd] in *; [| | |contradiction].
  - rewrite <- exp_plus. replace (a * (t - s) + a * (t - s)) with (2 * a * (t - s)) by ring. field. assumption.
  - rewrite <- exp_plus. cbv zeta. cbn [fst snd]. replace (Ropp (1/2) * beta_integral m M t0 T t s + Ropp (1/2) * beta_integral m M t0 T t s) with (- beta_integral m M t0 T t s) by lra. ring.
  - cbv zeta. cbn [fst snd]. rewrite <- exp_plus. set (r := a * _ / c). replace (r + r) with (2 * r) by ring. field. tauto.
Qed.
