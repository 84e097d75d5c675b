(** Proofs about the training losses of linear.py. *)
From Coq Require Sorted.
From Verif Require Export SdePaths.
Open Scope R_scope.

Lemma Rsum_zero_iff l : Forall (fun x => 0 <= x) l -> (Rsum l = 0 <-> Forall (fun x => x = 0) l).
Proof.
  induction 1 as [|x l Hx H IH]; [split; intros; [constructor|reflexivity]|]. pose proof (Rsum_nonneg l H). cbn [Rsum]. split.
  - intros Hs. constructor; [lra|]. apply IH. lra.
  - intros HF. apply Forall_cons_iff in HF as [H1 H2]. apply IH in H2. lra.
Qed.
Lemma Rmean_nonneg l : Forall (fun x => 0 <= x) l -> 0 <= Rmean l.
Proof.
  intros H. unfold Rmean. destruct l as [|x l]; [unfold Rdiv; simpl; lra|].
  apply Rmult_le_pos; [now apply Rsum_nonneg|]. left. apply Rinv_0_lt_compat, lt_0_INR. cbn [length]. lia.
Qed.
Lemma Rmean_zero_iff l : l <> [] -> Forall (fun x => 0 <= x) l -> (Rmean l = 0 <-> Forall (fun x => x = 0) l).
Proof.
  intros Hne H. rewrite <- Rsum_zero_iff by assumption. unfold Rmean.
  assert (INR (length l) <> 0) by (apply not_0_INR; destruct l; cbn [length]; lia || congruence).
  split; intros Hz.
  - apply Rmult_integral in Hz as [Hz|Hz]; [assumption|]. now apply Rinv_neq_0_compat in Hz.
  - rewrite Hz. unfold Rdiv. ring.
Qed.

Lemma sq_diff_nonneg x y : Forall (fun a => 0 <= a) (sq_diff x y).
Proof. unfold sq_diff, vmap2. apply Forall_map, Forall_forall. intros [a b] _. cbn [fst snd]. apply Rle_0_sqr. Qed.
Lemma sq_diff_zero x y : length x = length y -> (Forall (fun a => a = 0) (sq_diff x y) <-> x = y).
Proof.
  revert y; induction x as [|a x IH]; intros [|b y] Hl; try discriminate; [split; [reflexivity|constructor]|].
  unfold sq_diff, vmap2 in *. cbn [combine map fst snd]. rewrite Forall_cons_iff, IH by (now injection Hl). split.
  - intros [H1 ->]. f_equal. apply Rmult_integral in H1. lra.
  - intros [= -> ->]. split; [ring|reflexivity].
Qed.
Lemma sq_diff_nil x y : x <> [] -> length x = length y -> sq_diff x y <> [].
Proof. destruct x, y; easy. Qed.

Lemma Forall_concat {A} (P : A -> Prop) ls : Forall P (concat ls) <-> Forall (Forall P) ls.
Proof.
  induction ls as [|l ls IH]; cbn [concat]; [split; constructor|]. rewrite Forall_app, Forall_cons_iff, IH. reflexivity.
Qed.
Lemma concat_ne {A} (ls : list (list A)) l : In l ls -> l <> [] -> concat ls <> [].
Proof.
  induction ls as [|l' ls IH]; [easy|]. cbn [concat]. intros [->|Hin] Hl H; apply app_eq_nil in H as [H1 H2]; [contradiction|].
  now apply IH.
Qed.

(** a statement about all entries of a three-fold zip, by index *)
Lemma Forall_combine3 {A B C} (dA : A) (dB : B) (dC : C) (P : A -> B -> C -> Prop) la lb lc :
  length la = length lb -> length lb = length lc ->
  (Forall (fun q => P (fst q) (fst (snd q)) (snd (snd q))) (combine la (combine lb lc)) <->
   forall i, (i < length la)%nat -> P (nth i la dA) (nth i lb dB) (nth i lc dC)).
Proof.
  revert lb lc; induction la as [|a la IH]; intros [|b lb] [|c lc] H1 H2; try discriminate.
  - split; [intros _ i Hi; simpl in Hi; lia|constructor].
  - cbn [combine]. rewrite Forall_cons_iff, IH by (cbn [length] in *; lia). cbn [fst snd]. split.
    + intros [Ha H] [|i] Hi; cbn [nth]; [assumption|]. apply H. cbn [length] in Hi. lia.
    + intros H. split; [apply (H 0%nat); cbn [length]; lia|]. intros i Hi. apply (H (S i)). cbn [length]. lia.
Qed.

Section loss_facts.
Variable disc : R -> R -> R * R.
Variable score : list R -> R -> list R -> R -> list R.
Variable nn : list (list R) -> R -> list (list R).
Variable d : nat.
Hypothesis Hd : (0 < d)%nat.
(** the network maps a batch of [d]-vectors to a batch of [d]-vectors of the same size *)
Hypothesis Hnn : forall xs t, Forall (fun x => length x = d) xs -> length (nn xs t) = length xs /\ Forall (fun x => length x = d) (nn xs t).
Hypothesis Hscore : forall x t x0 s, length x = d -> length x0 = d -> length (score x t x0 s) = d.
Variable ts : list R.
Variable paths : list (list (list R)).
Hypothesis Hts : (2 <= length ts)%nat.
Hypothesis Hpaths : paths <> [].
Hypothesis Hshape : Forall (fun p => length p = length ts /\ Forall (fun x => length x = d) p) paths.

Lemma column_shape k : (k < length ts)%nat -> length (column paths k) = length paths /\ Forall (fun x => length x = d) (column paths k).
Proof.
  intros Hk. split; [apply map_length|]. unfold column. apply Forall_map. eapply Forall_impl; [|exact Hshape].
  intros p [Hl HF]. rewrite Forall_forall in HF. apply HF, nth_In. lia.
Qed.

(** what the network should return for sample [i] at step [k] *)
Definition target (lt : loss_type) (k i : nat) : list R :=
  let x m := nth m (nth i paths []) [] in let t m := nth m ts 0 in
  match lt with
  | Lscore => score (x k) (t k) (x 0%nat) (t 0%nat)
  | Lipf => ipf_target disc (t k) (t (k - 1)%nat) (x k) (x (k - 1)%nat)
  | Lipfscore => score (x k) (t k) (x (k - 1)%nat) (t (k - 1)%nat)
  | Lunknown => []
  end.
Definition matches (lt : loss_type) : Prop :=
  forall k i, (1 <= k < length ts)%nat -> (i < length paths)%nat -> nth i (nn (column paths k) (nth k ts 0)) [] = target lt k i.

Definition terms (lt : loss_type) (k : nat) : list R :=
  match lt with Lscore => score_terms disc score nn ts paths k | Lipf => ipf_terms disc nn ts paths k
  | Lipfscore => ipfscore_terms score nn ts paths k | Lunknown => [] end.
Hypothesis HQ : forall k, (1 <= k < length ts)%nat -> 0 < snd (disc (nth k ts 0) (nth 0 ts 0)).

Lemma nth_column k i : (i < length paths)%nat -> nth i (column paths k) [] = nth k (nth i paths []) [].
Proof.
  intros Hi. unfold column. rewrite (nth_indep _ [] (nth k [] [])) by (now rewrite map_length).
  apply (map_nth (fun p => nth k p [])).
Qed.

(** the IPF target, coordinate by coordinate *)
Lemma ipf_target_coordinate t s x xp j : length x = d -> length xp = d -> (j < d)%nat ->
  nth j (ipf_target disc t s x xp) 0 = nth j x 0 + fst (disc t s) * nth j xp 0 - fst (disc t s) * nth j x 0.
Proof.
  intros H1 H2 Hj. unfold ipf_target, vadd. set (F := fst (disc t s)).
  assert (L1 : length (vmap2 Rplus x (vscale F xp)) = d) by (rewrite length_vmap2; rewrite ?length_vscale; congruence).
  rewrite (nth_vmap2 Rminus), (nth_vmap2 Rplus), !nth_vscale; rewrite ?length_vscale; try congruence; lia.
Qed.
Lemma length_ipf_target t s x xp : length x = d -> length xp = d -> length (ipf_target disc t s x xp) = d.
Proof.
  intros H1 H2. unfold ipf_target, vadd. rewrite length_vmap2; rewrite length_vmap2; rewrite ?length_vscale; congruence.
Qed.
Lemma matches_ipf : matches Lipf <-> forall k i j, (1 <= k < length ts)%nat -> (i < length paths)%nat -> (j < d)%nat ->
  let x m := nth j (nth m (nth i paths []) []) 0 in let F := fst (disc (nth k ts 0) (nth (k - 1) ts 0)) in
  nth j (nth i (nn (column paths k) (nth k ts 0)) []) 0 = x k + F * x (k - 1)%nat - F * x k.
Proof.
  assert (Hx : forall i m, (i < length paths)%nat -> (m < length ts)%nat -> length (nth m (nth i paths []) []) = d).
  { intros i m Hi Hm. rewrite Forall_forall in Hshape. destruct (Hshape (nth i paths []) (nth_In _ _ Hi)) as [Hl HF].
    rewrite Forall_forall in HF. apply HF, nth_In. lia. }
  assert (Ho : forall i k, (i < length paths)%nat -> (k < length ts)%nat -> length (nth i (nn (column paths k) (nth k ts 0)) []) = d).
  { intros i k Hi Hk. destruct (column_shape k Hk) as [H1 H2]. destruct (Hnn _ (nth k ts 0) H2) as [H3 H4].
    rewrite Forall_forall in H4. apply H4, nth_In. lia. }
  split.
  - intros H k i j Hk Hi Hj. cbv zeta. rewrite (H k i Hk Hi). cbn [target]. rewrite ipf_target_coordinate by (try apply Hx; lia). reflexivity.
  - intros H k i Hk Hi. apply nth_ext with (d := 0) (d' := 0).
    + cbn [target]. rewrite length_ipf_target by (apply Hx; lia). apply Ho; lia.
    + intros j Hj. rewrite Ho in Hj by lia. specialize (H k i j Hk Hi Hj). cbv zeta in H. rewrite H. cbn [target].
      rewrite ipf_target_coordinate by (try apply Hx; lia). reflexivity.
Qed.

Lemma terms_spec lt k : lt <> Lunknown -> (1 <= k < length ts)%nat ->
  terms lt k <> [] /\ Forall (fun x => 0 <= x) (terms lt k) /\
  (Forall (fun x => x = 0) (terms lt k) <-> forall i, (i < length paths)%nat -> nth i (nn (column paths k) (nth k ts 0)) [] = target lt k i).
Proof.
  intros Hlt Hk.
  destruct (column_shape k ltac:(lia)) as [Hc Hcs]. destruct (column_shape 0 ltac:(lia)) as [Hc0 Hcs0]. destruct (column_shape (k - 1) ltac:(lia)) as [Hc1 Hcs1].
  destruct (Hnn (column paths k) (nth k ts 0) Hcs) as [Ho Hos]. pose proof (HQ k Hk) as Hq.
  assert (Hsh : forall i m, (i < length paths)%nat -> (m < length ts)%nat -> length (nth m (nth i paths []) []) = d).
  { intros i m Hi Hm. destruct (column_shape m Hm) as [Hl HF]. rewrite <- (nth_column m i) by assumption. rewrite Forall_forall in HF. apply HF, nth_In. lia. }
  assert (Hout : forall i, (i < length paths)%nat -> length (nth i (nn (column paths k) (nth k ts 0)) []) = d).
  { intros i Hi. rewrite Forall_forall in Hos. apply Hos, nth_In. lia. }
  assert (Hp : (0 < length paths)%nat) by (destruct paths; [easy|cbn [length]; lia]).
  assert (Hne : forall lc : list (list R), length lc = length paths -> combine (nn (column paths k) (nth k ts 0)) (combine (column paths k) lc) <> []).
  { intros lc Hl H. apply (f_equal (@length _)) in H. rewrite !combine_length in H. cbn [length] in H. lia. }
  destruct lt; try easy; cbn [terms].
  - unfold score_terms.
    assert (Hm : forall i, (i < length paths)%nat -> let out := nth i (nn (column paths k) (nth k ts 0)) [] in
      let y := nth i (column paths k) [] in let z := nth i (column paths 0) [] in
      Rmean (sq_diff out (score y (nth k ts 0) z (nth 0 ts 0))) * snd (disc (nth k ts 0) (nth 0 ts 0)) = 0 <-> out = target Lscore k i).
    { intros i Hi out y z. unfold y, z. rewrite !nth_column by assumption. cbn [target].
      assert (Hlen : length out = length (score (nth k (nth i paths []) []) (nth k ts 0) (nth 0 (nth i paths []) []) (nth 0 ts 0))).
      { rewrite Hscore by (apply Hsh; lia). now apply Hout. }
      rewrite <- sq_diff_zero by assumption. rewrite <- Rmean_zero_iff; [|apply sq_diff_nil; [intros H; apply (f_equal (@length _)) in H; unfold out in H; rewrite Hout in H by assumption; cbn [length] in H; lia|assumption]|apply sq_diff_nonneg].
      split; [intros H; apply Rmult_integral in H as [H|H]; [assumption|lra]|intros ->; ring]. }
    split; [intros H; apply map_eq_nil in H; now apply Hne in H|]. split.
    + apply Forall_map, Forall_forall. intros [out [x x0]] _. apply Rmult_le_pos; [apply Rmean_nonneg, sq_diff_nonneg|lra].
    + rewrite Forall_map.
      pose proof (Forall_combine3 [] [] [] (fun out x x0 => Rmean (sq_diff out (score x (nth k ts 0) x0 (nth 0 ts 0))) * snd (disc (nth k ts 0) (nth 0 ts 0)) = 0)
        (nn (column paths k) (nth k ts 0)) (column paths k) (column paths 0) Ho ltac:(congruence)) as HF.
      rewrite Ho, Hc in HF.
      transitivity (Forall (fun q : list R * (list R * list R) => Rmean (sq_diff (fst q) (score (fst (snd q)) (nth k ts 0) (snd (snd q)) (nth 0 ts 0))) * snd (disc (nth k ts 0) (nth 0 ts 0)) = 0)
        (combine (nn (column paths k) (nth k ts 0)) (combine (column paths k) (column paths 0)))).
      * rewrite !Forall_forall. split; intros H q Hq'; specialize (H q Hq'); destruct q as [out [x x0]]; exact H.
      * rewrite HF. split; intros H i Hi; specialize (H i Hi); now apply Hm.
  - unfold ipf_terms.
    assert (Hm : forall i, (i < length paths)%nat -> let out := nth i (nn (column paths k) (nth k ts 0)) [] in
      let y := nth i (column paths k) [] in let z := nth i (column paths (k - 1)) [] in
      Forall (fun x => x = 0) (sq_diff out (ipf_target disc (nth k ts 0) (nth (k - 1) ts 0) y z)) <-> out = target Lipf k i).
    { intros i Hi out y z. unfold y, z. rewrite !nth_column by assumption. cbn [target]. apply sq_diff_zero.
      rewrite length_ipf_target by (apply Hsh; lia). now apply Hout. }
    split; [|split].
    + match goal with |- concat (map ?F ?l) <> [] => apply (concat_ne (map F l) (F (nth 0 l ([], ([], []))))); [apply (in_map F), nth_In|] end.
      * rewrite !combine_length. lia.
      * rewrite combine_nth by (rewrite combine_length; lia). rewrite combine_nth by congruence. apply sq_diff_nil.
        -- intros H. apply (f_equal (@length _)) in H. rewrite Hout in H by assumption. cbn [length] in H. lia.
        -- rewrite Hout by assumption. rewrite !nth_column by assumption. symmetry. apply length_ipf_target; apply Hsh; lia.
    + apply Forall_concat, Forall_map, Forall_forall. intros [out [x x0]] _. apply sq_diff_nonneg.
    + rewrite Forall_concat, Forall_map.
      pose proof (Forall_combine3 [] [] [] (fun out x x0 => Forall (fun x => x = 0) (sq_diff out (ipf_target disc (nth k ts 0) (nth (k - 1) ts 0) x x0)))
        (nn (column paths k) (nth k ts 0)) (column paths k) (column paths (k - 1)) Ho ltac:(congruence)) as HF.
      rewrite Ho, Hc in HF.
      transitivity (Forall (fun q : list R * (list R * list R) => Forall (fun x => x = 0) (sq_diff (fst q) (ipf_target disc (nth k ts 0) (nth (k - 1) ts 0) (fst (snd q)) (snd (snd q)))))
        (combine (nn (column paths k) (nth k ts 0)) (combine (column paths k) (column paths (k - 1))))).
      * rewrite !(Forall_forall _ (combine _ _)). split; intros H q Hq'; specialize (H q Hq'); destruct q as [out [x x0]]; exact H.
      * rewrite HF. split; intros H i Hi; specialize (H i Hi); now apply Hm.
  - unfold ipfscore_terms.
    assert (Hm : forall i, (i < length paths)%nat -> let out := nth i (nn (column paths k) (nth k ts 0)) [] in
      let y := nth i (column paths k) [] in let z := nth i (column paths (k - 1)) [] in
      Forall (fun x => x = 0) (sq_diff out (score y (nth k ts 0) z (nth (k - 1) ts 0))) <-> out = target Lipfscore k i).
    { intros i Hi out y z. unfold y, z. rewrite !nth_column by assumption. cbn [target]. apply sq_diff_zero.
      rewrite Hscore by (apply Hsh; lia). now apply Hout. }
    split; [|split].
    + match goal with |- concat (map ?F ?l) <> [] => apply (concat_ne (map F l) (F (nth 0 l ([], ([], []))))); [apply (in_map F), nth_In|] end.
      * rewrite !combine_length. lia.
      * rewrite combine_nth by (rewrite combine_length; lia). rewrite combine_nth by congruence. apply sq_diff_nil.
        -- intros H. apply (f_equal (@length _)) in H. rewrite Hout in H by assumption. cbn [length] in H. lia.
        -- rewrite Hout by assumption. rewrite !nth_column by assumption. symmetry. apply Hscore; apply Hsh; lia.
    + apply Forall_concat, Forall_map, Forall_forall. intros [out [x x0]] _. apply sq_diff_nonneg.
    + rewrite Forall_concat, Forall_map.
      pose proof (Forall_combine3 [] [] [] (fun out x x0 => Forall (fun x => x = 0) (sq_diff out (score x (nth k ts 0) x0 (nth (k - 1) ts 0))))
        (nn (column paths k) (nth k ts 0)) (column paths k) (column paths (k - 1)) Ho ltac:(congruence)) as HF.
      rewrite Ho, Hc in HF.
      transitivity (Forall (fun q : list R * (list R * list R) => Forall (fun x => x = 0) (sq_diff (fst q) (score (fst (snd q)) (nth k ts 0) (snd (snd q)) (nth (k - 1) ts 0))))
        (combine (nn (column paths k) (nth k ts 0)) (combine (column paths k) (column paths (k - 1))))).
      * rewrite !(Forall_forall _ (combine _ _)). split; intros H q Hq'; specialize (H q Hq'); destruct q as [out [x x0]]; exact H.
      * rewrite HF. split; intros H i Hi; specialize (H i Hi); now apply Hm.
Qed.

Theorem loss_value_spec lt : lt <> Lunknown ->
  exists L, loss_value disc score nn lt ts paths = Some L /\ 0 <= L /\ (L = 0 <-> matches lt).
Proof.
  intros Hlt. exists (Rmean (concat (map (terms lt) (seq 1 (length ts - 1))))). split; [destruct lt; easy|].
  assert (Hnn' : Forall (fun x => 0 <= x) (concat (map (terms lt) (seq 1 (length ts - 1))))).
  { apply Forall_concat, Forall_map, Forall_forall. intros k Hk. apply in_seq in Hk. apply terms_spec; [assumption|lia]. }
  split; [now apply Rmean_nonneg|]. rewrite Rmean_zero_iff; [|eapply concat_ne; [apply in_map, in_seq; split; [apply le_n|lia]|apply terms_spec; [assumption|lia]]|assumption].
  rewrite Forall_concat, Forall_map, Forall_forall. unfold matches. split.
  - intros H k i Hk Hi. apply terms_spec; [assumption|assumption| |assumption]. apply H, in_seq. lia.
  - intros H k Hk. apply in_seq in Hk. apply terms_spec; [assumption|lia|]. intros i Hi. apply H; [lia|assumption].
Qed.
End loss_facts.

(** ** shapes of the simulated batch *)
Lemma path_scan_shape disc d : forall ts x t rnds, length x = d -> Forall (fun r => length r = d) rnds -> Forall (fun x => length x = d) (path_scan disc x t ts rnds).
Proof.
  induction ts as [|t' ts IH]; intros x t [|r rnds] Hx HF; cbn [path_scan]; try constructor.
  - apply Forall_cons_iff in HF as [Hr HF]. rewrite length_move; congruence.
  - apply Forall_cons_iff in HF as [Hr HF]. apply IH; [rewrite length_move; congruence|assumption].
Qed.

Lemma exact_path_shape disc d x0 ts rnds : ts <> [] -> length x0 = d -> length rnds = (length ts - 1)%nat -> Forall (fun r => length r = d) rnds ->
  length (exact_path disc x0 ts rnds) = length ts /\ Forall (fun x => length x = d) (exact_path disc x0 ts rnds).
Proof.
  intros Hne Hx Hr HF. split; [now apply length_exact_path|]. destruct ts as [|t ts]; [easy|]. cbn [exact_path]. constructor; [assumption|].
  now apply path_scan_shape.
Qed.

Lemma length_score_of p x x0 : length x = length x0 -> length (score_of p x x0) = length x.
Proof. apply length_vmap2. Qed.

(** sorting *)
Lemma insert_In x y l : In y (insert x l) <-> y = x \/ In y l.
Proof.
  induction l as [|z l IH]; cbn [insert]; [simpl; intuition congruence|]. destruct Rle_dec; cbn [In]; [intuition congruence|].
  rewrite IH. tauto.
Qed.
Lemma insert_sorted x l : Coq.Sorting.Sorted.Sorted Rle l -> Coq.Sorting.Sorted.Sorted Rle (insert x l).
Proof.
  induction 1 as [|z l Hs IH Hh]; cbn [insert]; [repeat constructor|]. destruct Rle_dec as [H|H].
  - constructor; [now constructor|now constructor].
  - constructor; [assumption|]. destruct l as [|w l]; cbn [insert]; [constructor; lra|]. inversion Hh; subst. destruct Rle_dec; constructor; lra.
Qed.
Lemma sort_sorted l : Coq.Sorting.Sorted.Sorted Rle (sort l).
Proof. induction l; cbn [sort fold_right]; [constructor|now apply insert_sorted]. Qed.
Lemma sort_In x l : In x (sort l) <-> In x l.
Proof. induction l as [|y l IH]; cbn [sort fold_right]; [reflexivity|]. rewrite insert_In. unfold sort in IH. rewrite IH. simpl. intuition congruence. Qed.
Lemma insert_length x l : length (insert x l) = S (length l).
Proof. induction l as [|y l IH]; cbn [insert length]; [reflexivity|]. destruct Rle_dec; cbn [length]; lia. Qed.
Lemma sort_length l : length (sort l) = length l.
Proof. induction l as [|y l IH]; cbn [sort fold_right]; [reflexivity|]. rewrite insert_length. unfold sort in IH. cbn [length]. lia. Qed.

Lemma loss_grid_spec random_times minval t0 T nsteps draws :
  (1 <= nsteps)%nat -> t0 < T -> t0 <= minval <= T -> (random_times = true -> length draws = (nsteps - 1)%nat) -> Forall in01 draws ->
  let ts := loss_grid random_times minval t0 T nsteps draws in
  length ts = (nsteps + 1)%nat /\ nth 0 ts 0 = t0 /\ (forall k, (1 <= k < length ts)%nat -> (t0 < nth k ts 0 \/ nth k ts 0 = t0 /\ minval = t0) /\ nth k ts 0 <= T).
Proof.
  intros Hn HT Hm Hd Hu ts. unfold ts, loss_grid. destruct random_times.
  - specialize (Hd eq_refl). split; [cbn [length]; rewrite app_length, sort_length, map_length; cbn [length]; lia|]. split; [reflexivity|].
    intros [|k] Hk; [lia|]. cbn [nth]. rewrite <- (Rplus_0_l 0) in *. rewrite Rplus_0_l in *.
    assert (Hin : In (nth k (sort (map (fun u => minval + u * (T - minval)) draws) ++ [T]) 0) (sort (map (fun u => minval + u * (T - minval)) draws) ++ [T])).
    { apply nth_In. cbn [length] in Hk. lia. }
    apply in_app_iff in Hin as [Hin|[<-|[]]]; [|split; [left; lra|lra]].
    rewrite sort_In in Hin. apply in_map_iff in Hin as (u & <- & Hi). rewrite Forall_forall in Hu. specialize (Hu u Hi). unfold in01 in Hu.
    split; [|nra]. destruct (Req_dec minval t0) as [->|Hne].
    + destruct (Req_dec u 0) as [->|]; [right; split; [ring|reflexivity]|left; nra].
    + left. nra.
  - assert (Hlen : length (linspace t0 T (nsteps + 1)) = (nsteps + 1)%nat).
    { unfold linspace. destruct (nsteps + 1)%nat as [|[|m]] eqn:E; [lia|lia|]. now rewrite map_length, seq_length. }
    assert (Hnth : forall k, (k < nsteps + 1)%nat -> nth k (linspace t0 T (nsteps + 1)) 0 = t0 + INR k * ((T - t0) / INR nsteps)).
    { intros k Hk. unfold linspace. destruct (nsteps + 1)%nat as [|[|m]] eqn:E; [lia|lia|].
      set (f := fun i => t0 + INR i * ((T - t0) / INR (S (S m) - 1))). rewrite (nth_indep _ 0 (f 0%nat)) by (rewrite map_length, seq_length; lia).
      rewrite (map_nth f), seq_nth by lia. unfold f. replace (S (S m) - 1)%nat with nsteps by lia. reflexivity. }
    assert (HnR : 0 < INR nsteps) by (apply lt_0_INR; lia).
    assert (Hstep : 0 < (T - t0) / INR nsteps) by (apply Rmult_lt_0_compat; [lra|now apply Rinv_0_lt_compat]).
    split; [assumption|]. split; [rewrite Hnth by lia; simpl; ring|]. intros k Hk. rewrite Hlen in Hk. rewrite Hnth by lia.
    assert (0 < INR k) by (apply lt_0_INR; lia). assert (INR k <= INR nsteps) by (apply le_INR; lia).
    split; [left; nra|]. replace T with (t0 + INR nsteps * ((T - t0) / INR nsteps)) at 2 by (field; lra). nra.
Qed.
