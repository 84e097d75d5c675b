(** Proofs about path simulation, the OU helpers and the losses. *)
From Coquelicot Require Import Coquelicot.
From Verif Require Export SdeProofs.
Open Scope R_scope.

(** transitions that compose *)
Record flow (disc : R -> R -> R * R) : Prop := {
  fl_id : forall t, disc t t = (1, 0);
  fl_F : forall s t u, fst (disc u s) = fst (disc u t) * fst (disc t s);
  fl_Q : forall s t u, snd (disc u s) = fst (disc u t) * fst (disc u t) * snd (disc t s) + snd (disc u t) }.
Lemma FQ_flow sde : sde_defined sde -> flow (FQ sde).
Proof. intros H. split; intros; [now apply FQ_id|now apply FQ_compose|now apply FQ_compose]. Qed.

(** ** shape *)
Lemma length_move p x r : length x = length r -> length (move p x r) = length x.
Proof. intros H. unfold move, vadd. rewrite length_vmap2; rewrite !length_vscale; auto. Qed.
Lemma nth_move p x r i : length x = length r -> (i < length x)%nat -> nth i (move p x r) 0 = fst p * nth i x 0 + sqrt (snd p) * nth i r 0.
Proof. intros H Hi. unfold move, vadd. rewrite nth_vmap2; rewrite ?length_vscale; auto. now rewrite !nth_vscale. Qed.

Lemma length_path_scan disc ts : forall x t rnds, length rnds = length ts -> length (path_scan disc x t ts rnds) = length ts.
Proof. induction ts as [|t' ts IH]; intros x t [|r rnds] H; try discriminate; [reflexivity|]. cbn [path_scan length]. f_equal. apply IH. now injection H. Qed.
Lemma length_exact_path disc x0 ts rnds : ts <> [] -> length rnds = (length ts - 1)%nat -> length (exact_path disc x0 ts rnds) = length ts.
Proof. destruct ts as [|t ts]; [easy|]. intros _ H. cbn [exact_path length] in *. rewrite length_path_scan; lia. Qed.

(** ** explicit form of the path *)
Lemma path_scan_explicit disc : flow disc -> forall ts x t rnds k i,
  length rnds = length ts -> Forall (fun r => length r = length x) rnds -> (i < length x)%nat -> (k < length ts)%nat ->
  let T := fun m => nth m (t :: ts) 0 in
  nth i (nth k (path_scan disc x t ts rnds) []) 0 =
  fst (disc (T (S k)) t) * nth i x 0 +
  Rsum (map (fun m => fst (disc (T (S k)) (T (S m))) * (sqrt (snd (disc (T (S m)) (T m))) * nth i (nth m rnds []) 0)) (seq 0 (S k))).
Proof.
  intros Hf. induction ts as [|t' ts IH]; intros x t [|r rnds] k i Hl HF Hi Hk T; try (simpl in *; lia).
  cbn [path_scan]. apply Forall_cons_iff in HF as [Hr HF]. injection Hl as Hl.
  destruct k as [|k].
  - cbn [nth seq map Rsum]. unfold T. cbn [nth]. rewrite nth_move by auto. rewrite (fl_id _ Hf). cbn [fst]. ring.
  - cbn [nth]. rewrite IH; [|assumption|rewrite length_move by auto; assumption|rewrite length_move by auto; assumption|cbn [length] in Hk; lia].
    rewrite nth_move by auto. change (seq 0 (S (S k))) with (0 :: seq 1 (S k))%nat. rewrite <- (seq_shift (S k) 0).
    rewrite map_cons, map_map. cbn [Rsum]. unfold T. cbn [nth].
    rewrite (fl_F _ Hf t t' (nth k ts 0)). rewrite Rmult_plus_distr_l, <- !Rmult_assoc, Rplus_assoc. reflexivity.
Qed.

(** ** moments *)
(** rows of noise: [d] uncorrelated entries of mean 0 and variance 1 *)
Record white (d : nat) (row : dist (list R)) : Prop := {
  wh_prob : is_prob row;
  wh_len : forall r, In r (map snd row) -> length r = d;
  wh_mean : forall i, (i < d)%nat -> E row (fun r => nth i r 0) = 0;
  wh_cov : forall i j, (i < d)%nat -> (j < d)%nat -> E row (fun r => nth i r 0 * nth j r 0) = if Nat.eqb i j then 1 else 0 }.

Lemma E_dseq_nth_mean (nu : dist R) d i : is_prob nu -> (i < d)%nat -> E (dseq (repeat nu d)) (fun r => nth i r 0) = E nu (fun x => x).
Proof.
  intros Hp. revert i. induction d as [|d IH]; intros i Hi; [lia|]. cbn [repeat]. rewrite E_dseq_cons. destruct i as [|i].
  - cbn [nth]. apply E_ext'. intros x. apply E_const, is_prob_dseq, Forall_forall. intros y Hy. apply repeat_spec in Hy. now subst.
  - cbn [nth]. rewrite IH by lia. now apply E_const.
Qed.

Lemma white_iid (nu : dist R) d : is_prob nu -> E nu (fun x => x) = 0 -> E nu (fun x => x * x) = 1 -> white d (dseq (repeat nu d)).
Proof.
  intros Hp Hm Hv.
  assert (Hrep : forall n, is_prob (dseq (repeat nu n))).
  { intros n. apply is_prob_dseq, Forall_forall. intros y Hy. apply repeat_spec in Hy. now subst. }
  split.
  - apply Hrep.
  - intros r Hr. apply dseq_length in Hr. now rewrite repeat_length in Hr.
  - intros i Hi. now rewrite E_dseq_nth_mean.
  - revert d. induction d as [|d IH]; intros i j Hi Hj; [lia|]. cbn [repeat]. rewrite E_dseq_cons. destruct i as [|i], j as [|j]; cbn [nth Nat.eqb].
    + rewrite <- Hv. apply E_ext'. intros x. apply E_const, Hrep.
    + rewrite (E_ext' nu _ (fun x => x * 0)). { rewrite E_mult_r. ring. }
      intros x. rewrite E_mult_l, E_dseq_nth_mean by (assumption || lia). now rewrite Hm.
    + rewrite (E_ext' nu _ (fun x => 0 * x)). { rewrite E_mult_l. ring. }
      intros x. rewrite E_mult_r, E_dseq_nth_mean by (assumption || lia). now rewrite Hm.
    + rewrite IH by lia. now apply E_const.
Qed.

Section moments.
Variable disc : R -> R -> R * R.
Hypothesis Hflow : flow disc.
Variable d : nat.
Variable row : dist (list R).
Hypothesis Hw : white d row.

Definition noise (m : nat) := dseq (repeat row m).
Lemma noise_prob m : is_prob (noise m).
Proof. apply is_prob_dseq, Forall_forall. intros y Hy. apply repeat_spec in Hy. subst. apply Hw. Qed.

Lemma E_move_mean p x i : length x = d -> (i < d)%nat -> E row (fun r => nth i (move p x r) 0) = fst p * nth i x 0.
Proof.
  intros Hx Hi. rewrite (E_ext row _ (fun r => fst p * nth i x 0 + sqrt (snd p) * nth i r 0)).
  - rewrite E_plus, !E_mult_l, E_const by apply Hw. rewrite (wh_mean _ _ Hw) by assumption. ring.
  - intros r Hr. apply (wh_len _ _ Hw) in Hr. apply nth_move; [congruence|lia].
Qed.
Lemma E_move_cov p x i j : length x = d -> (i < d)%nat -> (j < d)%nat -> 0 <= snd p ->
  E row (fun r => nth i (move p x r) 0 * nth j (move p x r) 0) =
  fst p * fst p * (nth i x 0 * nth j x 0) + (if Nat.eqb i j then snd p else 0).
Proof.
  intros Hx Hi Hj Hp.
  rewrite (E_ext row _ (fun r => fst p * fst p * (nth i x 0 * nth j x 0) + (fst p * sqrt (snd p) * nth i x 0 * nth j r 0
     + (fst p * sqrt (snd p) * nth j x 0 * nth i r 0 + snd p * (nth i r 0 * nth j r 0))))).
  - rewrite !E_plus, !E_mult_l, E_const by apply Hw. rewrite !(wh_mean _ _ Hw), (wh_cov _ _ Hw) by assumption.
    destruct (Nat.eqb i j); ring.
  - intros r Hr. apply (wh_len _ _ Hw) in Hr. rewrite !nth_move by (congruence || lia).
    transitivity (fst p * fst p * (nth i x 0 * nth j x 0) + (fst p * sqrt (snd p) * nth i x 0 * nth j r 0
     + (fst p * sqrt (snd p) * nth j x 0 * nth i r 0 + (sqrt (snd p) * sqrt (snd p)) * (nth i r 0 * nth j r 0)))); [ring|].
    now rewrite sqrt_sqrt.
Qed.

Lemma scan_mean ts : forall x t k i, length x = d -> (i < d)%nat -> (k < length ts)%nat ->
  E (noise (length ts)) (fun rnds => nth i (nth k (path_scan disc x t ts rnds) []) 0) = fst (disc (nth k ts 0) t) * nth i x 0.
Proof.
  induction ts as [|t' ts IH]; intros x t k i Hx Hi Hk; [simpl in Hk; lia|].
  unfold noise. cbn [length repeat]. rewrite E_dseq_cons. cbn [path_scan]. destruct k as [|k]; cbn [nth].
  - rewrite (E_ext' row _ (fun r => nth i (move (disc t' t) x r) 0)); [now apply E_move_mean|].
    intros r. apply E_const, noise_prob.
  - rewrite (E_ext row _ (fun r => fst (disc (nth k ts 0) t') * nth i (move (disc t' t) x r) 0)).
    + rewrite E_mult_l, E_move_mean by assumption. rewrite (fl_F _ Hflow t t' (nth k ts 0)). ring.
    + intros r Hr. apply (wh_len _ _ Hw) in Hr. apply IH; [rewrite length_move; congruence|assumption|cbn [length] in Hk; lia].
Qed.

Definition Q_ok (ts : list R) : Prop := forall k, (S k < length ts)%nat -> 0 <= snd (disc (nth (S k) ts 0) (nth k ts 0)).

Lemma scan_second ts : forall x t j k a b, length x = d -> (a < d)%nat -> (b < d)%nat -> (j <= k)%nat -> (k < length ts)%nat ->
  Q_ok (t :: ts) ->
  E (noise (length ts)) (fun rnds => let p := path_scan disc x t ts rnds in nth a (nth j p []) 0 * nth b (nth k p []) 0) =
  fst (disc (nth j ts 0) t) * fst (disc (nth k ts 0) t) * (nth a x 0 * nth b x 0)
  + (if Nat.eqb a b then fst (disc (nth k ts 0) (nth j ts 0)) * snd (disc (nth j ts 0) t) else 0).
Proof.
  induction ts as [|t' ts IH]; intros x t j k a b Hx Ha Hb Hjk Hk HQ; [simpl in Hk; lia|].
  unfold noise. cbn [length repeat]. rewrite E_dseq_cons. cbv zeta. cbn [path_scan].
  pose proof (HQ 0%nat ltac:(simpl; lia)) as HQ0. cbn [nth] in HQ0.
  assert (HQ' : Q_ok (t' :: ts)) by (intros m Hm; apply (HQ (S m)); cbn [length] in *; lia).
  destruct j as [|j].
  - destruct k as [|k]; cbn [nth].
    + rewrite (E_ext' row _ (fun r => nth a (move (disc t' t) x r) 0 * nth b (move (disc t' t) x r) 0)) by (intros r; apply E_const, noise_prob).
      rewrite E_move_cov by assumption. rewrite (fl_id _ Hflow). cbn [fst]. destruct (Nat.eqb a b); ring.
    + rewrite (E_ext row _ (fun r => fst (disc (nth k ts 0) t') * (nth a (move (disc t' t) x r) 0 * nth b (move (disc t' t) x r) 0))).
      * rewrite E_mult_l, E_move_cov by assumption. rewrite (fl_F _ Hflow t t' (nth k ts 0)). destruct (Nat.eqb a b); ring.
      * intros r Hr. apply (wh_len _ _ Hw) in Hr. rewrite E_mult_l.
        fold (noise (length ts)). rewrite (scan_mean ts (move (disc t' t) x r) t' k b); [ring|rewrite length_move; congruence|assumption|cbn [length] in Hk; lia].
  - destruct k as [|k]; [lia|]. cbn [nth].
    rewrite (E_ext row _ (fun r => fst (disc (nth j ts 0) t') * fst (disc (nth k ts 0) t') * (nth a (move (disc t' t) x r) 0 * nth b (move (disc t' t) x r) 0)
      + (if Nat.eqb a b then fst (disc (nth k ts 0) (nth j ts 0)) * snd (disc (nth j ts 0) t') else 0))).
    + rewrite E_plus, E_mult_l, E_move_cov, E_const by (assumption || apply Hw).
      rewrite (fl_F _ Hflow t t' (nth j ts 0)), (fl_F _ Hflow t t' (nth k ts 0)), (fl_Q _ Hflow t t' (nth j ts 0)).
      rewrite (fl_F _ Hflow t' (nth j ts 0) (nth k ts 0)). destruct (Nat.eqb a b); ring.
    + intros r Hr. apply (wh_len _ _ Hw) in Hr.
      apply (IH (move (disc t' t) x r) t' j k a b); try assumption; [rewrite length_move; congruence|lia|cbn [length] in Hk; lia].
Qed.

(** mean and covariance of the path returned by simulate_cond_forward *)
Theorem path_mean ts x0 k i : length x0 = d -> (i < d)%nat -> (k < length ts)%nat ->
  E (noise (length ts - 1)) (fun rnds => nth i (nth k (exact_path disc x0 ts rnds) []) 0) = fst (disc (nth k ts 0) (nth 0 ts 0)) * nth i x0 0.
Proof.
  intros Hx Hi Hk. destruct ts as [|t ts]; [simpl in Hk; lia|]. cbn [exact_path length]. replace (S (length ts) - 1)%nat with (length ts) by lia.
  destruct k as [|k]; cbn [nth].
  - rewrite E_const by apply noise_prob. rewrite (fl_id _ Hflow). cbn [fst]. ring.
  - apply scan_mean; try assumption. cbn [length] in Hk. lia.
Qed.
Theorem path_cov ts x0 j k a b : length x0 = d -> (a < d)%nat -> (b < d)%nat -> (j <= k)%nat -> (k < length ts)%nat -> Q_ok ts ->
  let mean m c := fst (disc (nth m ts 0) (nth 0 ts 0)) * nth c x0 0 in
  E (noise (length ts - 1)) (fun rnds => let p := exact_path disc x0 ts rnds in
    (nth a (nth j p []) 0 - mean j a) * (nth b (nth k p []) 0 - mean k b)) =
  if Nat.eqb a b then fst (disc (nth k ts 0) (nth j ts 0)) * snd (disc (nth j ts 0) (nth 0 ts 0)) else 0.
Proof.
  intros Hx Ha Hb Hjk Hk HQ mean.
  assert (H2 : E (noise (length ts - 1)) (fun rnds => nth a (nth j (exact_path disc x0 ts rnds) []) 0 * nth b (nth k (exact_path disc x0 ts rnds) []) 0) =
    mean j a * mean k b + if Nat.eqb a b then fst (disc (nth k ts 0) (nth j ts 0)) * snd (disc (nth j ts 0) (nth 0 ts 0)) else 0).
  { destruct ts as [|t ts]; [simpl in Hk; lia|]. cbn [exact_path length]. replace (S (length ts) - 1)%nat with (length ts) by lia.
    unfold mean. destruct j as [|j]; cbn [nth].
    - rewrite E_mult_l. rewrite (fl_id _ Hflow). cbn [fst snd]. destruct k as [|k]; cbn [nth].
      + rewrite E_const by apply noise_prob. rewrite (fl_id _ Hflow). cbn [fst snd]. destruct (Nat.eqb a b); ring.
      + rewrite scan_mean by (assumption || (cbn [length] in Hk; lia)). destruct (Nat.eqb a b); ring.
    - destruct k as [|k]; [lia|]. cbn [nth].
      pose proof (scan_second ts x0 t j k a b Hx Ha Hb ltac:(lia) ltac:(cbn [length] in Hk; lia) HQ) as H2. cbv zeta in H2. rewrite H2. destruct (Nat.eqb a b); ring. }
  rewrite (E_ext' _ _ (fun rnds => nth a (nth j (exact_path disc x0 ts rnds) []) 0 * nth b (nth k (exact_path disc x0 ts rnds) []) 0
     + (- mean k b * nth a (nth j (exact_path disc x0 ts rnds) []) 0 + (- mean j a * nth b (nth k (exact_path disc x0 ts rnds) []) 0 + mean j a * mean k b)))) by (intros; cbv zeta; ring).
  rewrite !E_plus, !E_mult_l, E_const by apply noise_prob. rewrite H2, !path_mean by (assumption || lia). fold (mean j a) (mean k b).
  destruct (Nat.eqb a b); ring.
Qed.
End moments.

Lemma Q_ok_sde sde ts : sde_defined sde ->
  (forall k, (S k < length ts)%nat -> nth k ts 0 <= nth (S k) ts 0 /\ noise_on sde (nth k ts 0) (nth (S k) ts 0)) -> Q_ok (FQ sde) ts.
Proof. intros H Hts k Hk. destruct (Hts k Hk). now apply Q_nonneg. Qed.

(** ** OU helpers *)
Lemma ou_FQ a b t s : discretise_ou a b (t - s) = FQ (ConstSDE a b) t s.
Proof. reflexivity. Qed.
Lemma ou_path_eq a b x0 ts rnds : ou_path a b x0 ts rnds = exact_path (FQ (ConstSDE a b)) x0 ts rnds.
Proof. reflexivity. Qed.
Lemma lin_const_FQ bt t0 T t s : T <> t0 -> 0 <= bt -> bt <> 0 -> FQ (LinSDE bt bt t0 T) t s = FQ (ConstSDE (Ropp (1/2) * bt) (sqrt bt)) t s.
Proof.
  intros HT Hb Hb0. cbn [FQ]. assert (Hr : beta_integral bt bt t0 T t s = bt * (t - s)) by (unfold beta_integral; field; lra).
  rewrite Hr, sqrt_sqrt by assumption. f_equal; [f_equal; field|].
  replace (bt / (2 * (Ropp (1/2) * bt))) with (Ropp 1) by (field; assumption).
  replace (2 * (Ropp (1/2) * bt) * (t - s)) with (- (bt * (t - s))) by field. ring.
Qed.

Lemma loss_value_ext disc1 disc2 sc1 sc2 nn lt ts paths :
  (forall t s, disc1 t s = disc2 t s) -> (forall x t x0 s, sc1 x t x0 s = sc2 x t x0 s) ->
  loss_value disc1 sc1 nn lt ts paths = loss_value disc2 sc2 nn lt ts paths.
Proof.
  intros Hd Hs. unfold loss_value. destruct lt; try reflexivity; do 3 f_equal; apply map_ext; intros k.
  - unfold score_terms. apply map_ext. intros [out [x x0]]. now rewrite Hs, Hd.
  - unfold ipf_terms, ipf_target. f_equal. apply map_ext. intros [out [x x0]]. now rewrite Hd.
  - unfold ipfscore_terms. f_equal. apply map_ext. intros [out [x x0]]. now rewrite Hs.
Qed.

(** with ts[0] = 0 the two score-matching losses agree *)
Lemma ou_loss_eq a b nn ts x0s rndss : nth 0 ts 0 = 0 -> ou_loss a b nn ts x0s rndss = linear_loss (ConstSDE a b) nn Lscore ts x0s rndss.
Proof.
  intros H0. unfold ou_loss, linear_loss, loss_value. do 3 f_equal. apply map_ext. intros k. unfold score_terms. rewrite H0.
  apply map_ext. intros [out [x x0]]. unfold cond_score, cond_score_ou. rewrite <- (ou_FQ a b (nth k ts 0) 0), Rminus_0_r. reflexivity.
Qed.
