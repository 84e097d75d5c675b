(** Proofs about fbs/samplers/resampling.py. *)
From Coq Require Import Sorted.
From Coquelicot Require Import Coquelicot.
From Verif Require Import Resampling.
Open Scope R_scope.

(** ** Range and order (C01) *)

Lemma length_strat_points us : length (strat_points us) = length us.
Proof. unfold strat_points. rewrite map_length, combine_length, seq_length. lia. Qed.

Lemma inverse_cdf_length w pts : length (inverse_cdf_indices w pts) = length pts.
Proof. apply map_length. Qed.

Lemma inverse_cdf_range w pts : w <> [] -> Forall (fun i => (i < length w)%nat) (inverse_cdf_indices w pts).
Proof.
  intros Hne. apply Forall_forall. intros i Hi. apply in_map_iff in Hi.
  destruct Hi as [v [<- _]]. unfold clip_index. destruct w; [easy|]. simpl length. lia.
Qed.

Lemma inverse_cdf_sorted w pts :
  StronglySorted Rle pts -> StronglySorted le (inverse_cdf_indices w pts).
Proof.
  induction 1 as [|v pts Hs IH Hf]; simpl; constructor; [assumption|].
  apply Forall_map. eapply Forall_impl; [|exact Hf]. intros v' Hv. simpl.
  unfold clip_index. pose proof (searchsorted_mono (cumsum w) v v' Hv). lia.
Qed.

Lemma strat_points_sorted_aux us n k :
  (0 < n)%nat -> Forall in01 us ->
  StronglySorted Rle (map (fun ku => (INR (fst ku) + snd ku) / INR n) (combine (seq k (length us)) us)).
Proof.
  intros Hn Hu. assert (Hn' : 0 < / INR n) by (apply Rinv_0_lt_compat, lt_0_INR; lia).
  revert k; induction Hu as [|u us Hu0 Hu IH]; intros k; simpl; constructor; [apply IH|].
  apply Forall_map. apply Forall_forall. intros [k' u'] Hin. simpl.
  assert (Hk : (S k <= k')%nat). { apply in_combine_l in Hin. apply in_seq in Hin. lia. }
  apply in_combine_r in Hin. rewrite Forall_forall in Hu. specialize (Hu _ Hin).
  apply le_INR in Hk. rewrite S_INR in Hk. unfold in01 in *. unfold Rdiv.
  apply Rmult_le_compat_r; lra.
Qed.

Lemma strat_points_sorted us : us <> [] -> Forall in01 us -> StronglySorted Rle (strat_points us).
Proof. intros Hne Hu. apply strat_points_sorted_aux; [|assumption]. destruct us; [easy|simpl; lia]. Qed.

Lemma cumsum_from_sorted c p : Forall (fun x => 0 <= x) p ->
  StronglySorted Rle (cumsum_from c p) /\ Forall (fun x => c <= x) (cumsum_from c p).
Proof.
  intros H; revert c; induction H as [|x p Hx H IH]; intros c; simpl; [split; constructor|].
  destruct (IH (c + x)) as [H1 H2]. split; constructor; try assumption; try lra.
  eapply Forall_impl; [|exact H2]. simpl; intros; lra.
Qed.

Lemma StronglySorted_removelast {A} (P : A -> A -> Prop) l : StronglySorted P l -> StronglySorted P (removelast l).
Proof.
  induction 1 as [|x l Hs IH Hf]; simpl; [constructor|]. destruct l as [|y l]; [constructor|].
  constructor; [exact IH|]. apply Forall_forall. intros z Hz.
  rewrite Forall_forall in Hf. apply Hf.
  clear -Hz. remember (y :: l) as l'. clear Heql'. induction l' as [|a l' IH]; simpl in *; [easy|].
  destruct l' as [|b l']; [easy|]. destruct Hz as [->|Hz]; [now left|right; now apply IH].
Qed.

Lemma neg_ln_nonneg us : Forall in01 us -> Forall (fun x => 0 <= x) (map (fun u => - ln u) us).
Proof.
  intros Hu. apply Forall_map. eapply Forall_impl; [|exact Hu]. intros u [H0 H1]. simpl.
  destruct H0 as [H0|<-].
  - assert (ln u <= 0); [|lra]. rewrite <- ln_1. destruct (Rle_lt_dec u 1); [|lra].
    left. now apply ln_increasing.
  - unfold ln. destruct (Rlt_dec 0 0) as [H|H]; [exfalso; revert H; apply Rlt_irrefl|lra].
Qed.

Lemma sorted_uniforms_length us : us <> [] -> length (sorted_uniforms_of us) = (length us - 1)%nat.
Proof.
  intros Hne. unfold sorted_uniforms_of. rewrite map_length.
  set (z := cumsum _).
  assert (Hz : length z = length us) by (unfold z, cumsum; now rewrite length_cumsum_from, map_length).
  rewrite <- Hz. clearbody z. clear -Hz Hne.
  assert (z <> []) by (destruct z, us; simpl in *; easy || lia).
  pose proof (app_removelast_last 0 H) as Hr. rewrite Hr at 2. rewrite app_length. simpl. lia.
Qed.

Lemma sorted_uniforms_sorted us : Forall in01 us -> StronglySorted Rle (sorted_uniforms_of us).
Proof.
  intros Hu. unfold sorted_uniforms_of. set (p := map _ us).
  assert (Hp : Forall (fun x => 0 <= x) p) by now apply neg_ln_nonneg.
  destruct (cumsum_from_sorted 0 p Hp) as [Hs Hf].
  assert (Hr := StronglySorted_removelast _ _ Hs). unfold cumsum.
  destruct (Req_dec (last (cumsum_from 0 p) 0) 0) as [H0|H0].
  - rewrite H0. clear -Hr. induction Hr as [|x l Hs IH Hf]; simpl; constructor; [assumption|].
    apply Forall_map. apply Forall_forall. intros y _. unfold Rdiv. rewrite Rinv_0. lra.
  - assert (Hpos : 0 < / last (cumsum_from 0 p) 0).
    { apply Rinv_0_lt_compat. assert (0 <= last (cumsum_from 0 p) 0); [|lra].
      destruct p as [|x p]; [simpl; lra|]. rewrite last_cumsum_from by easy.
      pose proof (Rsum_nonneg _ Hp). lra. }
    revert Hpos Hr. generalize (last (cumsum_from 0 p) 0). intros c Hpos Hr.
    induction Hr as [|x l Hs' IH Hf']; simpl; constructor; [assumption|].
    apply Forall_map. eapply Forall_impl; [|exact Hf']. intros y Hy. simpl in Hy.
    unfold Rdiv. apply Rmult_le_compat_r; lra.
Qed.

(** the sorted uniforms lie in [0,1] *)
Lemma cumsum_from_le_last c p : Forall (fun x => 0 <= x) p ->
  Forall (fun x => x <= last (cumsum_from c p) 0) (cumsum_from c p).
Proof.
  intros H; revert c; induction H as [|x p Hx H IH]; intros c; [constructor|].
  rewrite last_cumsum_from by easy. simpl. constructor.
  - pose proof (Rsum_nonneg _ H). lra.
  - destruct p as [|y p]; [constructor|]. specialize (IH (c + x)).
    rewrite last_cumsum_from in IH by easy. eapply Forall_impl; [|exact IH]. simpl; intros; lra.
Qed.

(** ** Offspring counts (C02, C03) *)

Lemma searchsorted_le_iff c w v i :
  Forall (fun x => 0 <= x) w -> (i < length w)%nat ->
  ((searchsorted (cumsum_from c w) v <= i)%nat <-> v <= c + Rsum (firstn (S i) w)).
Proof.
  intros Hw; revert c i; induction Hw as [|x w Hx Hw IH]; intros c i Hi; [simpl in Hi; lia|].
  simpl. destruct (Rlt_dec (c + x) v) as [Hlt|Hge].
  - destruct i as [|i].
    + simpl. split; [lia|lra].
    + rewrite <- Nat.succ_le_mono. simpl in Hi. rewrite IH by lia. simpl. lra.
  - split; [intros _|lia].
    assert (0 <= Rsum (firstn i w)). { apply Rsum_nonneg. clear -Hw. revert i; induction Hw; destruct i; simpl; constructor; auto. }
    lra.
Qed.

(** number of k < n with [P k] *)
Definition cnt (P : nat -> bool) (n : nat) : nat := length (filter P (seq 0 n)).

Lemma cnt_S P n : cnt P (S n) = (cnt P n + if P n then 1 else 0)%nat.
Proof.
  unfold cnt. rewrite seq_S, filter_app, app_length. simpl. destruct (P n); reflexivity.
Qed.

Definition rleb (x y : R) : bool := if Rle_dec x y then true else false.

Lemma count_map {A} (f : A -> nat) i l :
  count i (map f l) = length (filter (fun a => Nat.eqb (f a) i) l).
Proof.
  unfold count. induction l as [|a l IH]; simpl; [reflexivity|].
  destruct (Nat.eq_dec (f a) i) as [->|Hne].
  - rewrite Nat.eqb_refl. simpl. now rewrite IH.
  - destruct (Nat.eqb_spec (f a) i); [contradiction|]. exact IH.
Qed.

Lemma count_as_difference {A} (f : A -> nat) i l :
  (length (filter (fun a => Nat.leb (f a) i) l) =
   count i (map f l) + match i with O => 0 | S i' => length (filter (fun a => Nat.leb (f a) i') l) end)%nat.
Proof.
  rewrite count_map. induction l as [|a l IH]; simpl; [now destruct i|].
  destruct i as [|i'].
  - destruct (f a); simpl; rewrite IH; lia.
  - destruct (Nat.eqb_spec (f a) (S i')) as [He|He].
    + rewrite He. destruct (Nat.leb_spec (S i') (S i')), (Nat.leb_spec (S i') i'); simpl; lia.
    + destruct (Nat.leb_spec (f a) (S i')), (Nat.leb_spec (f a) i'); simpl; try lia.
Qed.

Lemma combine_seq_map (us : list R) k :
  combine (seq k (length us)) us = map (fun i => (i, nth (i - k) us 0)) (seq k (length us)).
Proof.
  revert k; induction us as [|u us IH]; intros k; [reflexivity|].
  cbn [length seq combine map]. rewrite Nat.sub_diag. f_equal. rewrite IH.
  apply map_ext_in. intros i Hi. apply in_seq in Hi. f_equal.
  replace (i - k)%nat with (S (i - S k)) by lia. reflexivity.
Qed.

Lemma strat_points_map us :
  strat_points us = map (fun k => (INR k + nth k us 0) / INR (length us)) (seq 0 (length us)).
Proof.
  unfold strat_points. rewrite combine_seq_map, map_map. apply map_ext. intros k. simpl.
  now rewrite Nat.sub_0_r.
Qed.

Lemma filter_ext_in' {A} (f g : A -> bool) l : (forall a, In a l -> f a = g a) -> filter f l = filter g l.
Proof.
  induction l as [|x l IH]; simpl; intros H; [reflexivity|].
  rewrite (H x) by now left. rewrite IH by (intros; apply H; now right). reflexivity.
Qed.

(** Number of resampled indices not exceeding [i]. *)
Lemma strat_count_le w us i :
  weights_ok w -> length us = length w -> Forall in01 us -> (i < length w)%nat ->
  length (filter (fun k => Nat.leb (clip_index (length w) (searchsorted (cumsum w) ((INR k + nth k us 0) / INR (length us)))) i)
     (seq 0 (length us)))
  = cnt (fun k => rleb (INR k + nth k us 0) (INR (length w) * Rsum (firstn (S i) w))) (length w).
Proof.
  intros Hw Hl Hu Hi. unfold cnt. rewrite <- Hl. f_equal. apply filter_ext_in'. intros k Hk.
  apply in_seq in Hk. assert (Hn : 0 < INR (length us)) by (apply lt_0_INR; lia).
  assert (Hv : (INR k + nth k us 0) / INR (length us) < 1).
  { assert (Huk : in01 (nth k us 0)) by (apply Forall_nth_lt; [assumption|lia]).
    assert (Hk' : (k + 1 <= length us)%nat) by lia. apply le_INR in Hk'. rewrite plus_INR in Hk'. simpl in Hk'.
    unfold in01 in Huk. apply Rmult_lt_reg_r with (INR (length us)); [assumption|].
    unfold Rdiv. rewrite Rmult_assoc, Rinv_l by lra. lra. }
  assert (Hne := weights_ok_nonempty _ Hw). destruct Hw as [Hp Hs].
  pose proof (searchsorted_cumsum_lt 0 w ((INR k + nth k us 0) / INR (length us)) Hne) as Hlt.
  rewrite Hs in Hlt. specialize (Hlt ltac:(lra)).
  pose proof (searchsorted_le_iff 0 w ((INR k + nth k us 0) / INR (length us)) i Hp Hi) as Hiff.
  unfold cumsum, clip_index, rleb.
  set (m := searchsorted _ _) in *.
  replace (Nat.min m (length us - 1)) with m by lia.
  destruct (Rle_dec _ _) as [Hle|Hgt]; destruct (Nat.leb_spec m i) as [H1|H1]; try reflexivity; exfalso.
  - assert (m <= i)%nat; [|lia]. apply Hiff. rewrite Rplus_0_l.
    apply Rmult_le_reg_r with (INR (length us)); [assumption|].
    unfold Rdiv. rewrite Rmult_assoc, Rinv_l by lra. rewrite Rmult_comm in Hle. lra.
  - apply Hgt. apply Hiff in H1. rewrite Rplus_0_l in H1.
    apply Rmult_le_compat_r with (r := INR (length us)) in H1; [|lra].
    unfold Rdiv in H1. rewrite Rmult_assoc, Rinv_l in H1 by lra. lra.
Qed.

Lemma strat_count w us i :
  weights_ok w -> length us = length w -> Forall in01 us -> (i < length w)%nat ->
  INR (count i (stratified_of w us)) =
  INR (cnt (fun k => rleb (INR k + nth k us 0) (INR (length w) * Rsum (firstn (S i) w))) (length w))
  - match i with O => 0 | S i' => INR (cnt (fun k => rleb (INR k + nth k us 0) (INR (length w) * Rsum (firstn i w))) (length w)) end.
Proof.
  intros Hw Hl Hu Hi. unfold stratified_of, inverse_cdf_indices. rewrite strat_points_map, map_map.
  pose proof (count_as_difference (fun k => clip_index (length w) (searchsorted (cumsum w) ((INR k + nth k us 0) / INR (length us)))) i (seq 0 (length us))) as H.
  cbv beta in H. rewrite (strat_count_le w us i Hw Hl Hu Hi) in H. rewrite H.
  destruct i as [|i'].
  - rewrite plus_INR. simpl. ring.
  - rewrite (strat_count_le w us i' Hw Hl Hu) by lia. rewrite plus_INR. ring.
Qed.

Lemma cnt_ext P Q n : (forall k, (k < n)%nat -> P k = Q k) -> cnt P n = cnt Q n.
Proof.
  intros H. unfold cnt. f_equal. apply filter_ext_in'. intros k Hk. apply in_seq in Hk. apply H; lia.
Qed.

Lemma cnt_shift x n : -1 < x ->
  (x < INR n -> x < INR (cnt (fun k => rleb (INR k) x) n) <= x + 1) /\
  (INR n <= x -> cnt (fun k => rleb (INR k) x) n = n).
Proof.
  intros Hx. induction n as [|n [IH1 IH2]].
  - split; [|reflexivity]. simpl. lra.
  - rewrite cnt_S, plus_INR. assert (Hr : rleb (INR n) x = if Rle_dec (INR n) x then true else false) by reflexivity.
    rewrite Hr. rewrite S_INR. destruct (Rle_dec (INR n) x) as [Hle|Hgt]; simpl.
    + rewrite (IH2 Hle). split; [lra|lia].
    + apply Rnot_le_lt in Hgt. specialize (IH1 Hgt). split; [lra|lra].
Qed.

Lemma firstn_sum_split (w : list R) i : (i < length w)%nat ->
  Rsum (firstn (S i) w) = Rsum (firstn i w) + nth i w 0.
Proof.
  revert i; induction w as [|x w IH]; intros i Hi; [simpl in Hi; lia|].
  destruct i as [|i]; simpl; [ring|]. simpl in Hi. specialize (IH i ltac:(lia)).
  simpl in IH. rewrite IH. ring.
Qed.

Lemma firstn_sum_bounds w i : weights_ok w -> 0 <= Rsum (firstn i w) <= 1.
Proof.
  intros [Hp Hs]. assert (H1 : Forall (fun x => 0 <= x) (firstn i w)).
  { apply Forall_forall. intros x Hx. rewrite Forall_forall in Hp. apply Hp.
    rewrite <- (firstn_skipn i w). apply in_or_app. now left. }
  assert (H2 : Forall (fun x => 0 <= x) (skipn i w)).
  { apply Forall_forall. intros x Hx. rewrite Forall_forall in Hp. apply Hp.
    rewrite <- (firstn_skipn i w). apply in_or_app. now right. }
  split; [now apply Rsum_nonneg|]. pose proof (Rsum_nonneg _ H2).
  assert (Hsp : Rsum (firstn i w ++ skipn i w) = 1) by (now rewrite firstn_skipn).
  rewrite Rsum_app in Hsp. lra.
Qed.

Lemma nth_repeat_lt (u : R) n k d : (k < n)%nat -> nth k (repeat u n) d = u.
Proof.
  revert k; induction n as [|n IH]; intros k Hk; [lia|]. destruct k; simpl; [reflexivity|].
  apply IH; lia.
Qed.

Theorem systematic_offspring w u i :
  weights_ok w -> in01 u -> (i < length w)%nat ->
  Rabs (INR (count i (systematic_of w u)) - INR (length w) * nth i w 0) <= 1 /\
  (0 < u -> Rabs (INR (count i (systematic_of w u)) - INR (length w) * nth i w 0) < 1).
Proof.
  intros Hw Hu Hi. change (systematic_of w u) with (stratified_of w (repeat u (length w))).
  set (n := length w) in *. assert (Hn : 0 < INR n) by (apply lt_0_INR; lia).
  assert (Hrep : Forall in01 (repeat u n)).
  { apply Forall_forall. intros x Hx. apply repeat_spec in Hx. now subst. }
  rewrite (strat_count w (repeat u n) i Hw (repeat_length u n) Hrep Hi).
  assert (Hc : forall C, 0 <= C <= 1 ->
    let M := INR (cnt (fun k => rleb (INR k + nth k (repeat u n) 0) (INR n * C)) n) in
    INR n * C - u <= M /\ (0 < u -> INR n * C - u < M) /\ M <= INR n * C - u + 1 /\ (INR n * C < INR n -> INR n * C - u < M)).
  { intros C HC M.
    assert (HM : M = INR (cnt (fun k => rleb (INR k) (INR n * C - u)) n)).
    { unfold M. f_equal. apply cnt_ext. intros k Hk. rewrite nth_repeat_lt by assumption.
      unfold rleb. destruct (Rle_dec _ _), (Rle_dec _ _); try reflexivity; lra. }
    assert (Hx : -1 < INR n * C - u). { unfold in01 in Hu. assert (0 <= INR n * C) by (apply Rmult_le_pos; lra). lra. }
    assert (Hy : INR n * C <= INR n). { rewrite <- (Rmult_1_r (INR n)) at 2. apply Rmult_le_compat_l; lra. }
    destruct (cnt_shift (INR n * C - u) n Hx) as [H1 H2]. unfold in01 in Hu.
    destruct (Rlt_le_dec (INR n * C - u) (INR n)) as [Hlt|Hge].
    - specialize (H1 Hlt). rewrite HM. lra.
    - rewrite HM, (H2 Hge). repeat split; lra. }
  pose proof (Hc (Rsum (firstn (S i) w)) (firstn_sum_bounds w (S i) Hw)) as H1. cbv zeta in H1. fold n.
  destruct H1 as (H1a & H1b & H1c & H1d).
  rewrite (firstn_sum_split w i Hi) in H1a, H1b, H1c, H1d |- *. rewrite Rmult_plus_distr_l in *.
  unfold in01 in Hu.
  destruct i as [|i'].
  - cbn [firstn Rsum] in *. rewrite !Rmult_0_r, !Rplus_0_l in *. rewrite !Rminus_0_r.
    split; [apply Rabs_le|intros Hu0; apply Rabs_def1]; lra.
  - pose proof (Hc (Rsum (firstn (S i') w)) (firstn_sum_bounds w (S i') Hw)) as H2. cbv zeta in H2.
    destruct H2 as (H2a & H2b & H2c & H2d).
    split; [apply Rabs_le|intros Hu0; specialize (H1b Hu0); specialize (H2b Hu0); apply Rabs_def1]; lra.
Qed.

Lemma cnt_strat us y n :
  (forall k, (k < n)%nat -> 0 < nth k us 0 < 1) -> 0 <= y ->
  (y < INR n -> Rabs (INR (cnt (fun k => rleb (INR k + nth k us 0) y) n) - y) < 1) /\
  (INR n <= y -> cnt (fun k => rleb (INR k + nth k us 0) y) n = n).
Proof.
  intros Hu Hy. induction n as [|n IH]; [split; [simpl; lra|reflexivity]|].
  destruct IH as [IH1 IH2]. { intros; apply Hu; lia. }
  rewrite cnt_S, plus_INR, S_INR. specialize (Hu n ltac:(lia)).
  unfold rleb at 2 4. destruct (Rle_dec (INR n + nth n us 0) y) as [Hle|Hgt]; simpl.
  - rewrite IH2 by lra. split; [|lia]. intros H. apply Rabs_def1; lra.
  - split; [|lra]. intros H. rewrite Rplus_0_r.
    destruct (Rlt_le_dec y (INR n)) as [Hlt|Hge]; [now apply IH1|].
    rewrite IH2 by lra. apply Rabs_def1; lra.
Qed.

Theorem stratified_offspring w us i :
  weights_ok w -> length us = length w -> Forall (fun u => 0 < u < 1) us -> (i < length w)%nat ->
  Rabs (INR (count i (stratified_of w us)) - INR (length w) * nth i w 0) < 2.
Proof.
  intros Hw Hl Hu Hi. set (n := length w) in *. assert (Hn : 0 < INR n) by (apply lt_0_INR; lia).
  rewrite (strat_count w us i Hw Hl); [|eapply Forall_impl; [|exact Hu]; unfold in01; simpl; intros; lra|assumption].
  assert (Hk : forall k, (k < n)%nat -> 0 < nth k us 0 < 1).
  { intros k Hk. apply (Forall_nth_lt (fun u => 0 < u < 1)); [assumption|lia]. }
  assert (Hc : forall C, 0 <= C <= 1 ->
     Rabs (INR (cnt (fun k => rleb (INR k + nth k us 0) (INR n * C)) n) - INR n * C) < 1).
  { intros C HC. assert (0 <= INR n * C) by (apply Rmult_le_pos; lra).
    destruct (cnt_strat us (INR n * C) n Hk H) as [H1 H2].
    destruct (Rlt_le_dec (INR n * C) (INR n)) as [Hlt|Hge]; [now apply H1|].
    rewrite (H2 Hge). assert (INR n * C <= INR n). { rewrite <- (Rmult_1_r (INR n)) at 2. apply Rmult_le_compat_l; lra. }
    apply Rabs_def1; lra. }
  pose proof (Hc _ (firstn_sum_bounds w (S i) Hw)) as H1. fold n.
  rewrite (firstn_sum_split w i Hi) in H1 |- *. rewrite Rmult_plus_distr_l in H1 |- *. apply Rabs_def2 in H1.
  destruct i as [|i'].
  - cbn [firstn Rsum] in *. rewrite !Rmult_0_r, !Rplus_0_l in *. rewrite !Rminus_0_r. apply Rabs_def1; lra.
  - pose proof (Hc _ (firstn_sum_bounds w (S i') Hw)) as H2. apply Rabs_def2 in H2.
    apply Rabs_def1; lra.
Qed.

(** ** Unbiasedness of systematic and stratified resampling (C04) *)

Definition inv_cdf_fun (w : list R) (h : nat -> R) (v : R) : R :=
  h (clip_index (length w) (searchsorted (cumsum w) v)).

Lemma is_RInt_inv_cdf w h : weights_ok w -> is_RInt (inv_cdf_fun w h) 0 1 (E (dcat w) h).
Proof.
  intros Hw. assert (Hne := weights_ok_nonempty _ Hw). destruct Hw as [Hp Hs].
  pose proof (is_RInt_searchsorted h 0 w Hp) as H.
  replace (0 + Rsum w) with 1 in H by lra. rewrite E_dcat.
  eapply is_RInt_ext; [|exact H].
  intros v Hv. rewrite Rmin_left, Rmax_right in Hv by lra. unfold inv_cdf_fun.
  pose proof (searchsorted_cumsum_lt 0 w v Hne) as Hlt. rewrite Hs in Hlt. specialize (Hlt ltac:(lra)).
  unfold clip_index, cumsum. f_equal. lia.
Qed.

Lemma ex_RInt_sub (F : R -> R) a b : ex_RInt F 0 1 -> 0 <= a -> a <= b -> b <= 1 -> ex_RInt F a b.
Proof.
  intros H Ha Hab Hb.
  apply (ex_RInt_Chasles_2 F 0 a b); [lra|].
  apply (ex_RInt_Chasles_1 F 0 b 1); [lra|exact H].
Qed.

Lemma is_RInt_stratum (F : R -> R) n k : ex_RInt F 0 1 -> (k < n)%nat ->
  is_RInt (fun u => F ((INR k + u) / INR n)) 0 1 (INR n * RInt F (INR k / INR n) (INR (S k) / INR n)).
Proof.
  intros HF Hk. assert (Hn : 0 < INR n) by (apply lt_0_INR; lia).
  assert (Hn' := Rinv_0_lt_compat _ Hn).
  assert (Hk0 := pos_INR k). assert (Hk1 : INR (S k) <= INR n) by (apply le_INR; lia).
  rewrite S_INR in *.
  assert (He : ex_RInt F (INR k / INR n) ((INR k + 1) / INR n)).
  { apply ex_RInt_sub; [assumption| | |].
    - apply Rmult_le_pos; lra.
    - apply Rmult_le_compat_r; lra.
    - apply Rmult_le_reg_r with (INR n); [assumption|]. unfold Rdiv. rewrite Rmult_assoc, Rinv_l; lra. }
  apply (RInt_correct (V := R_CompleteNormedModule)) in He.
  assert (Hc : is_RInt (fun y => scal (/ INR n) (F (/ INR n * y + INR k / INR n))) 0 1
                 (RInt F (INR k / INR n) ((INR k + 1) / INR n))).
  { apply (is_RInt_comp_lin (V := R_NormedModule) F (/ INR n) (INR k / INR n) 0 1).
    replace (/ INR n * 0 + INR k / INR n) with (INR k / INR n) by (field; lra).
    replace (/ INR n * 1 + INR k / INR n) with ((INR k + 1) / INR n) by (field; lra). exact He. }
  apply (is_RInt_scal (V := R_NormedModule) _ _ _ (INR n)) in Hc.
  eapply is_RInt_ext; [|exact Hc]. intros u _. simpl. unfold scal; simpl; unfold mult; simpl.
  replace (/ INR n * u + INR k / INR n) with ((INR k + u) / INR n) by (field; lra). field. lra.
Qed.

Lemma RInt_strata_sum (F : R -> R) n m : ex_RInt F 0 1 -> (m <= n)%nat -> (0 < n)%nat ->
  Rsum (map (fun k => INR n * RInt F (INR k / INR n) (INR (S k) / INR n)) (seq 0 m))
  = INR n * RInt F 0 (INR m / INR n).
Proof.
  intros HF Hm Hn0. assert (Hn : 0 < INR n) by (apply lt_0_INR; lia).
  assert (Hn' := Rinv_0_lt_compat _ Hn).
  induction m as [|m IH].
  - simpl. replace (0 / INR n) with 0 by (field; lra). rewrite RInt_point. unfold zero; simpl. ring.
  - rewrite seq_S, map_app, Rsum_app, IH by lia. cbn [map Rsum Nat.add].
    assert (Hk0 := pos_INR m). assert (Hk1 : INR (S m) <= INR n) by (apply le_INR; lia).
    rewrite S_INR in *.
    assert (H1 : INR m / INR n <= (INR m + 1) / INR n) by (apply Rmult_le_compat_r; lra).
    assert (H2 : 0 <= INR m / INR n) by (apply Rmult_le_pos; lra).
    assert (H3 : (INR m + 1) / INR n <= 1).
    { apply Rmult_le_reg_r with (INR n); [assumption|]. unfold Rdiv. rewrite Rmult_assoc, Rinv_l; lra. }
    assert (Hch : RInt F 0 (INR m / INR n) + RInt F (INR m / INR n) ((INR m + 1) / INR n) = RInt F 0 ((INR m + 1) / INR n)).
    { apply (RInt_Chasles F 0 (INR m / INR n) ((INR m + 1) / INR n)); [apply ex_RInt_sub; assumption || lra|].
      apply ex_RInt_sub; assumption. }
    rewrite <- Hch. ring.
Qed.

Lemma is_RInt_Rsum {A} (f : A -> R -> R) (v : A -> R) l a b :
  (forall x, In x l -> is_RInt (f x) a b (v x)) ->
  is_RInt (fun u => Rsum (map (fun x => f x u) l)) a b (Rsum (map v l)).
Proof.
  induction l as [|x l IH]; intros H; simpl.
  - pose proof (is_RInt_const_R a b 0) as H0. now rewrite Rmult_0_r in H0.
  - apply (is_RInt_plus (V := R_NormedModule)); [apply H; now left|]. apply IH. intros; apply H; now right.
Qed.

Lemma uint_additive n (g : nat -> R -> R) v k0 c :
  (forall k, (k0 <= k < k0 + n)%nat -> is_RInt (g k) 0 1 (v k)) ->
  uint n (fun us => c + Rsum (map (fun ku => g (fst ku) (snd ku)) (combine (seq k0 n) us)))
  = c + Rsum (map v (seq k0 n)).
Proof.
  revert k0 c; induction n as [|n IH]; intros k0 c H; [reflexivity|].
  cbn [uint seq map Rsum].
  rewrite (RInt_ext _ (fun u => (c + Rsum (map v (seq (S k0) n))) + g k0 u)).
  - apply is_RInt_unique.
    replace (c + (v k0 + Rsum (map v (seq (S k0) n)))) with ((1 - 0) * (c + Rsum (map v (seq (S k0) n))) + v k0) by ring.
    apply (is_RInt_plus (V := R_NormedModule)); [apply is_RInt_const_R|]. apply H. lia.
  - intros u _. cbn [combine map fst snd].
    rewrite (uint_ext _ _ (fun us => (c + g k0 u) + Rsum (map (fun ku => g (fst ku) (snd ku)) (combine (seq (S k0) n) us)))).
    + rewrite IH; [match goal with |- @eq _ ?a ?b => change (@eq R a b) end; ring|]. intros; apply H; lia.
    + intros us _. cbn [Rsum map fst snd]. ring.
Qed.

Definition unbiased_res (res : list R -> key -> prog (list nat)) : Prop :=
  forall w k h, weights_ok w ->
  law (res w k) (fun A => Rsum (map h A)) = INR (length w) * E (dcat w) h.

Theorem systematic_unbiased : unbiased_res systematic.
Proof.
  intros w k h Hw. unfold systematic. cbn [law]. rewrite uint1.
  assert (Hne := weights_ok_nonempty _ Hw).
  assert (Hl : (0 < length w)%nat) by (destruct w; [easy|simpl; lia]).
  assert (Hn : 0 < INR (length w)) by (apply lt_0_INR; lia).
  assert (HF := is_RInt_inv_cdf w h Hw).
  assert (HFe : ex_RInt (inv_cdf_fun w h) 0 1) by (eexists; exact HF).
  apply is_RInt_unique. rewrite <- (is_RInt_unique _ _ _ _ HF).
  pose proof (RInt_strata_sum (inv_cdf_fun w h) (length w) (length w) HFe (le_n _) Hl) as Hs.
  replace (INR (length w) / INR (length w)) with 1 in Hs by (field; lra).
  rewrite <- Hs.
  eapply is_RInt_ext; [|apply (is_RInt_Rsum (fun k u => inv_cdf_fun w h ((INR k + u) / INR (length w))))].
  - intros u _. cbn [nth]. unfold systematic_of, inverse_cdf_indices. rewrite strat_points_map, !map_map.
    rewrite repeat_length. apply Rsum_map_ext. intros i Hi. apply in_seq in Hi.
    rewrite nth_repeat_lt by lia. reflexivity.
  - intros i Hi. apply in_seq in Hi. apply is_RInt_stratum; [assumption|lia].
Qed.

Theorem stratified_unbiased : unbiased_res stratified.
Proof.
  intros w k h Hw. unfold stratified. cbn [law].
  assert (Hne := weights_ok_nonempty _ Hw).
  assert (Hl : (0 < length w)%nat) by (destruct w; [easy|simpl; lia]).
  assert (Hn : 0 < INR (length w)) by (apply lt_0_INR; lia).
  assert (HF := is_RInt_inv_cdf w h Hw).
  assert (HFe : ex_RInt (inv_cdf_fun w h) 0 1) by (eexists; exact HF).
  rewrite <- (is_RInt_unique _ _ _ _ HF).
  pose proof (RInt_strata_sum (inv_cdf_fun w h) (length w) (length w) HFe (le_n _) Hl) as Hs.
  replace (INR (length w) / INR (length w)) with 1 in Hs by (field; lra).
  rewrite <- Hs.
  rewrite (uint_ext _ _ (fun us => 0 + Rsum (map (fun ku => inv_cdf_fun w h ((INR (fst ku) + snd ku) / INR (length w)))
     (combine (seq 0 (length w)) us)))).
  - rewrite (uint_additive _ (fun k u => inv_cdf_fun w h ((INR k + u) / INR (length w)))
      (fun k => INR (length w) * RInt (inv_cdf_fun w h) (INR k / INR (length w)) (INR (S k) / INR (length w)))).
    + apply Rplus_0_l.
    + intros i Hi. apply is_RInt_stratum; [assumption|lia].
  - intros us Hus. rewrite Rplus_0_l. unfold stratified_of, inverse_cdf_indices, strat_points.
    rewrite !map_map, Hus. reflexivity.
Qed.

(** ** Killing: the exact joint law (C05) *)

(** slot i keeps i with probability w_i / max w, else redraws from w *)
Definition killing_slot (w : list R) (i : nat) : dist nat :=
  dbind [(nth i w 0 / Rmax_list w, true); (1 - nth i w 0 / Rmax_list w, false)]
        (fun b => if b then dret i else dcat w).

Definition killing_dist (w : list R) : dist (list nat) :=
  dseq (map (killing_slot w) (seq 0 (length w))).

Lemma E_dseq_zip {A B C} (g : A * B -> C) (ds1 : list (dist A)) (ds2 : list (dist B)) F :
  length ds1 = length ds2 ->
  E (dseq ds1) (fun l1 => E (dseq ds2) (fun l2 => F (map g (combine l1 l2)))) =
  E (dseq (map (fun dd => dbind (fst dd) (fun a => dmap (fun b => g (a, b)) (snd dd))) (combine ds1 ds2))) F.
Proof.
  revert ds2 F; induction ds1 as [|d1 ds1 IH]; intros [|d2 ds2] F Hl; try discriminate.
  - simpl. now rewrite !E_dret.
  - cbn [combine map]. rewrite !E_dseq_cons, E_dbind. apply E_ext'. intros a.
    rewrite E_dmap. cbn [fst snd].
    rewrite (E_ext' (dseq ds1) _ (fun l => E d2 (fun b => E (dseq ds2) (fun l2 => F (g (a, b) :: map g (combine l l2)))))).
    + rewrite E_exchange. apply E_ext'. intros b.
      apply (IH ds2 (fun l => F (g (a, b) :: l))). simpl in Hl. lia.
    + intros l. now rewrite E_dseq_cons.
Qed.

Lemma is_RInt_survives (h : option nat -> R) m i x : 0 < m -> 0 <= x <= m ->
  is_RInt (fun u => h (survives m i x u)) 0 1 (E [(x / m, Some i); (1 - x / m, None)] h).
Proof.
  intros Hm Hx. assert (Hm' := Rinv_0_lt_compat _ Hm).
  assert (Hc : 0 <= x / m <= 1).
  { split; [apply Rmult_le_pos; lra|]. apply Rmult_le_reg_r with m; [assumption|].
    unfold Rdiv. rewrite Rmult_assoc, Rinv_l; lra. }
  pose proof (is_RInt_below (fun b : bool => h (if b then Some i else None)) (x / m) Hc) as H.
  unfold E in *. simpl in *. eapply is_RInt_ext; [|exact H].
  intros u _. unfold survives. f_equal.
  destruct (Rlt_dec u (x / m)) as [H1|H1], (Rle_dec x (u * m)) as [H2|H2]; try reflexivity; exfalso.
  - apply Rmult_lt_compat_r with (r := m) in H1; [|assumption].
    unfold Rdiv in H1. rewrite Rmult_assoc, Rinv_l in H1; lra.
  - apply H1. apply Rmult_lt_reg_r with m; [assumption|].
    unfold Rdiv. rewrite Rmult_assoc, Rinv_l; lra.
Qed.

Lemma nth_In_bounds w i : weights_ok w -> 0 <= nth i w 0 <= Rmax_list w.
Proof.
  intros Hw. assert (H0 := weights_ok_Rmax_pos w Hw).
  destruct (Nat.lt_ge_cases i (length w)) as [Hlt|Hge].
  - assert (Hin := nth_In w 0 Hlt). split; [|now apply Rmax_list_ge].
    destruct Hw as [Hp _]. rewrite Forall_forall in Hp. now apply Hp.
  - rewrite nth_overflow by assumption. lra.
Qed.

Theorem killing_denotes w k : weights_ok w -> denotes (killing w k) (killing_dist w).
Proof.
  intros Hw F. unfold killing. rewrite law_bind. cbn [law].
  assert (H0 := weights_ok_Rmax_pos w Hw).
  set (n := length w).
  set (gs := map (fun i => survives (Rmax_list w) i (nth i w 0)) (seq 0 n)).
  set (sel := fun oc : option nat * nat => match fst oc with Some i => i | None => snd oc end).
  assert (Hg : map (fun iw => survives (Rmax_list w) (fst iw) (snd iw)) (combine (seq 0 n) w) = gs).
  { unfold n. rewrite (combine_seq_map w 0), map_map. apply map_ext. intros i. cbn [fst snd]. now rewrite Nat.sub_0_r. }
  set (ds := map (fun i => [(nth i w 0 / Rmax_list w, Some i); (1 - nth i w 0 / Rmax_list w, None)]) (seq 0 n)).
  assert (Hz := uint_zipapp gs ds (fun l => E (dseq (repeat (dcat w) n)) (fun cs => F (map sel (combine l cs))))).
  replace (length gs) with n in Hz by (unfold gs; now rewrite map_length, seq_length).
  rewrite (uint_ext _ _ (fun us => E (dseq (repeat (dcat w) n)) (fun cs => F (map sel (combine (zipapp gs us) cs))))).
  2:{ intros us Hus. cbv beta. rewrite law_bind. rewrite (choices_denotes _ w n Hw).
      apply E_ext'. intros cs. cbn [law]. unfold killing_select. fold n. rewrite Hg. reflexivity. }
  rewrite Hz; clear Hz.
  2:{ unfold gs, ds. generalize (seq 0 n). intros l. induction l as [|i l IH]; constructor; [|exact IH].
      intros h. apply is_RInt_survives; [assumption|now apply nth_In_bounds]. }
  rewrite (E_dseq_zip sel).
  2:{ unfold ds. now rewrite map_length, seq_length, repeat_length. }
  unfold killing_dist. fold n.
  enough (Heq : forall l F, E (dseq (map (fun dd => dbind (fst dd) (fun a => dmap (fun b => sel (a, b)) (snd dd)))
     (combine (map (fun i => [(nth i w 0 / Rmax_list w, Some i); (1 - nth i w 0 / Rmax_list w, None)]) l) (repeat (dcat w) (length l))))) F
     = E (dseq (map (killing_slot w) l)) F).
  { specialize (Heq (seq 0 n)). rewrite seq_length in Heq. apply Heq. }
  clear -Hw. induction l as [|i l IH]; intros F; [reflexivity|].
  cbn [length repeat map combine]. rewrite !E_dseq_cons.
  revert IH. generalize (dseq (map (fun dd : dist (option nat) * dist nat => dbind (fst dd) (fun a => dmap (fun b => sel (a, b)) (snd dd)))
     (combine (map (fun i => [(nth i w 0 / Rmax_list w, Some i); (1 - nth i w 0 / Rmax_list w, None)]) l) (repeat (dcat w) (length l))))).
  generalize (dseq (map (killing_slot w) l)). intros D2 D1 IH.
  unfold killing_slot. rewrite !E_dbind. cbn [fst snd].
  rewrite !E_cons. rewrite !E_dmap, E_dret.
  unfold sel; cbn [fst snd]. rewrite E_const by now apply is_prob_dcat.
  rewrite IH. f_equal. f_equal. f_equal. apply E_ext'. intros a. apply IH.
Qed.

Theorem killing_marginal_unbiased : unbiased_res killing.
Proof.
  intros w k h Hw. rewrite (killing_denotes w k Hw).
  assert (H0 := weights_ok_Rmax_pos w Hw).
  assert (Hslots : forall l F0, Forall (fun i => True) l ->
    E (dseq (map (killing_slot w) l)) (fun A => F0 + Rsum (map h A)) =
    F0 + Rsum (map (fun i => E (killing_slot w i) h) l)).
  { assert (Hpr : forall i, is_prob (killing_slot w i)).
    { intros i. pose proof (nth_In_bounds w i Hw) as Hb.
      assert (Hc : 0 <= nth i w 0 / Rmax_list w <= 1).
      { assert (Hm' := Rinv_0_lt_compat _ H0). split; [apply Rmult_le_pos; lra|].
        apply Rmult_le_reg_r with (Rmax_list w); [assumption|].
        unfold Rdiv. rewrite Rmult_assoc, Rinv_l; lra. }
      apply is_prob_dbind.
      - split; [|unfold E; simpl; lra].
        apply Forall_cons; [simpl; lra|apply Forall_cons; [simpl; lra|apply Forall_nil]].
      - intros [|] _; [apply is_prob_dret|now apply is_prob_dcat]. }
    induction l as [|i l IH]; intros F0 _.
    - cbn [map dseq]. rewrite E_dret. reflexivity.
    - cbn [map]. rewrite E_dseq_cons. cbn [map Rsum].
      rewrite (E_ext' _ _ (fun a => (F0 + Rsum (map (fun i => E (killing_slot w i) h) l)) + h a)).
      + rewrite E_plus, E_const by apply Hpr. ring.
      + intros a. cbn [map Rsum].
        rewrite (E_ext' _ _ (fun A => (F0 + h a) + Rsum (map h A))) by (intros; ring).
        rewrite IH by (apply Forall_forall; auto). ring. }
  specialize (Hslots (seq 0 (length w)) 0 ltac:(apply Forall_forall; auto)).
  unfold killing_dist. rewrite (E_ext' _ _ (fun A => 0 + Rsum (map h A))) by (intros; ring).
  rewrite Hslots, Rplus_0_l.
  rewrite (Rsum_map_ext _ (fun i => / Rmax_list w * (nth i w 0 * h i) + (E (dcat w) h + - / Rmax_list w * E (dcat w) h * nth i w 0))).
  2:{ intros i _. unfold killing_slot. rewrite E_dbind. unfold E at 1; simpl. rewrite E_dret. field. lra. }
  rewrite Rsum_map_plus, Rsum_map_plus, !Rsum_map_mult_l, Rsum_map_const, <- E_dcat, map_nth_seq, seq_length.
  destruct Hw as [_ Hs]. rewrite Hs. field. lra.
Qed.

(** ** All-outcome statements *)

Definition valid_indices (n : nat) (A : list nat) : Prop :=
  length A = n /\ Forall (fun i => (i < n)%nat) A.

Lemma weights_ok_length_pos w : weights_ok w -> (0 < length w)%nat.
Proof. intros Hw. apply weights_ok_nonempty in Hw. destruct w; [easy|simpl; lia]. Qed.

Lemma systematic_safe w k : w <> [] ->
  safe (systematic w k) (fun A => valid_indices (length w) A /\ StronglySorted le A).
Proof.
  intros Hne. apply safe_unif. intros us Hl Hu. apply safe_ret.
  assert (Hlen : (0 < length w)%nat) by (destruct w; [easy|simpl; lia]).
  unfold systematic_of. split; [split|].
  - now rewrite inverse_cdf_length, length_strat_points, repeat_length.
  - now apply inverse_cdf_range.
  - apply inverse_cdf_sorted, strat_points_sorted.
    + destruct w; [easy|discriminate].
    + apply Forall_forall. intros x Hx. apply repeat_spec in Hx. subst.
      apply Forall_nth_lt; [assumption|lia].
Qed.

Lemma stratified_safe w k : w <> [] ->
  safe (stratified w k) (fun A => valid_indices (length w) A /\ StronglySorted le A).
Proof.
  intros Hne. apply safe_unif. intros us Hl Hu. apply safe_ret.
  assert (Hlen : (0 < length w)%nat) by (destruct w; [easy|simpl; lia]).
  unfold stratified_of. split; [split|].
  - now rewrite inverse_cdf_length, length_strat_points.
  - now apply inverse_cdf_range.
  - apply inverse_cdf_sorted, strat_points_sorted; [|assumption]. destruct us; simpl in *; [lia|discriminate].
Qed.

Lemma multinomial_safe w k : w <> [] ->
  safe (multinomial w k) (fun A => valid_indices (length w) A /\ StronglySorted le A).
Proof.
  intros Hne. apply safe_unif. intros us Hl Hu. apply safe_ret.
  assert (Hlen : (0 < length w)%nat) by (destruct w; [easy|simpl; lia]).
  unfold multinomial_of. split; [split|].
  - rewrite inverse_cdf_length, sorted_uniforms_length; [lia|]. destruct us; simpl in *; [lia|discriminate].
  - now apply inverse_cdf_range.
  - apply inverse_cdf_sorted. now apply sorted_uniforms_sorted.
Qed.

Lemma killing_select_nth w us cs i : length us = length w -> length cs = length w -> (i < length w)%nat ->
  nth i (killing_select w us cs) 0%nat =
  if Rle_dec (nth i w 0) (nth i us 0 * Rmax_list w) then nth i cs 0%nat else i.
Proof.
  intros Hu Hc Hi. unfold killing_select, zipapp.
  rewrite (combine_seq_map w 0), map_map. cbn [fst snd].
  set (G := fun x : nat => survives (Rmax_list w) x (nth (x - 0) w 0)).
  assert (Hlen : forall gs (us0 : list R) (cs0 : list nat) j, (j < length gs)%nat -> length us0 = length gs -> length cs0 = length gs ->
    nth j (map (fun oc : option nat * nat => match fst oc with Some i0 => i0 | None => snd oc end)
       (combine (map (fun gu => fst gu (snd gu)) (combine (gs : list (R -> option nat)) us0)) cs0)) 0%nat
    = match nth j gs (fun _ => None) (nth j us0 0) with Some i0 => i0 | None => nth j cs0 0%nat end).
  { clear. induction gs as [|g gs IH]; intros us0 cs0 j Hj H1 H2; [simpl in Hj; lia|].
    destruct us0 as [|u us0], cs0 as [|c cs0]; simpl in *; try lia. destruct j as [|j]; [reflexivity|].
    apply IH; lia. }
  rewrite Hlen.
  - rewrite (nth_map_seq G) by assumption. unfold G, survives. rewrite Nat.sub_0_r.
    destruct (Rle_dec _ _); reflexivity.
  - now rewrite map_length, seq_length.
  - now rewrite map_length, seq_length.
  - now rewrite map_length, seq_length.
Qed.

Lemma killing_select_length w us cs : length us = length w -> length cs = length w ->
  length (killing_select w us cs) = length w.
Proof.
  intros Hu Hc. unfold killing_select, zipapp.
  rewrite !map_length, !combine_length, !map_length, !combine_length, !map_length, !combine_length, seq_length. lia.
Qed.

Lemma killing_safe w k : weights_ok w ->
  safe (killing w k) (fun A => valid_indices (length w) A).
Proof.
  intros Hw. unfold killing.
  apply safe_bind with (P := fun us => length us = length w).
  { apply safe_unif. intros us Hl _. now apply safe_ret. }
  intros us Hus.
  eapply safe_bind; [now apply choices_safe|]. intros cs [Hcl Hcs]. apply safe_ret.
  split; [now apply killing_select_length|].
  apply Forall_forall. intros a Ha. apply (In_nth _ _ 0%nat) in Ha. destruct Ha as (i & Hi & <-).
  rewrite killing_select_length in Hi by assumption.
  rewrite killing_select_nth by assumption.
  destruct (Rle_dec _ _); [|assumption]. apply Forall_nth_lt; [assumption|lia].
Qed.

Lemma Rmax_list_repeat c n : (0 < n)%nat -> Rmax_list (repeat c n) = c.
Proof.
  destruct n as [|n]; [lia|]. intros _. simpl. induction n as [|n IH]; simpl; [reflexivity|].
  rewrite IH. apply Rmax_left. lra.
Qed.

(** Equal weights: killing returns the identity, whatever the draws. *)
Lemma killing_equal_weights n k : (0 < n)%nat ->
  safe (killing (repeat (/ INR n) n) k) (fun A => A = seq 0 n).
Proof.
  intros Hn. assert (Hi : 0 < / INR n) by (apply Rinv_0_lt_compat, lt_0_INR; lia). unfold killing. rewrite repeat_length.
  apply safe_bind with (P := fun us => length us = n /\ Forall in01 us).
  { apply safe_unif. intros us Hl Hu. now apply safe_ret. }
  intros us [Hus Hu].
  eapply safe_bind; [apply choices_safe; now apply weights_ok_unif|]. intros cs [Hcl _]. apply safe_ret.
  apply nth_ext with (d := 0%nat) (d' := 0%nat).
  - rewrite killing_select_length; rewrite ?repeat_length, ?seq_length; auto.
  - intros i Hlt. rewrite killing_select_length in Hlt by (rewrite repeat_length; auto). rewrite repeat_length in Hlt.
    rewrite killing_select_nth by (rewrite repeat_length; auto).
    rewrite nth_repeat_lt, Rmax_list_repeat, seq_nth by assumption.
    destruct (Rle_dec _ _) as [Hle|]; [|reflexivity]. exfalso.
    assert (H01 : in01 (nth i us 0)) by (apply Forall_nth_lt; [assumption|lia]). unfold in01 in H01.
    assert (nth i us 0 * / INR n < 1 * / INR n) by (apply Rmult_lt_compat_r; lra). lra.
Qed.


Lemma avg_n_nplusone_spec x i : (i <= length x)%nat ->
  length (avg_n_nplusone x) = S (length x) /\
  nth i (avg_n_nplusone x) 0 = / 2 * nth i x 0 + match i with O => 0 | S j => / 2 * nth j x 0 end.
Proof.
  intros Hi. unfold avg_n_nplusone. set (hx := map _ x).
  assert (Hl : length hx = length x) by (unfold hx; now rewrite map_length).
  split; [rewrite map_length, combine_length, app_length; simpl; lia|].
  replace (nth i (map (fun ab : R * R => fst ab + snd ab) (combine (hx ++ [0]) (0 :: hx))) 0)
    with (nth i (hx ++ [0]) 0 + nth i (0 :: hx) 0).
  2:{ rewrite (nth_indep (map _ _) 0 ((fun ab : R * R => fst ab + snd ab) (0, 0))).
      - rewrite (map_nth (fun ab : R * R => fst ab + snd ab)), combine_nth; [reflexivity|]. rewrite app_length; simpl; lia.
      - rewrite map_length, combine_length, app_length; simpl; lia. }
  assert (Hh : forall j, nth j hx 0 = / 2 * nth j x 0).
  { intros j. unfold hx. replace 0 with (/ 2 * 0) at 1 by ring.
    apply (map_nth (fun a => / 2 * a)). }
  f_equal.
  - destruct (Nat.lt_ge_cases i (length x)) as [Hlt|Hge].
    + rewrite app_nth1 by lia. apply Hh.
    + assert (i = length x) by lia. subst i. rewrite app_nth2 by lia. rewrite Hl, Nat.sub_diag.
      rewrite (nth_overflow x) by apply le_n. simpl. ring.
  - destruct i as [|j]; [reflexivity|]. simpl. apply Hh.
Qed.

Lemma Rsum_combine_plus (a b : list R) : length a = length b ->
  Rsum (map (fun ab => fst ab + snd ab) (combine a b)) = Rsum a + Rsum b.
Proof.
  revert b; induction a as [|x a IH]; intros [|y b] H; simpl in *; try lia; [lra|].
  rewrite IH by lia. lra.
Qed.

Lemma avg_n_nplusone_sum x : Rsum (avg_n_nplusone x) = Rsum x.
Proof.
  unfold avg_n_nplusone. rewrite Rsum_combine_plus.
  - rewrite Rsum_app. simpl. rewrite (Rsum_map_mult_l (/ 2) (fun a => a)), map_id. field.
  - rewrite app_length. simpl. lia.
Qed.

(** ** Key discipline of the resamplers *)

Lemma systematic_good w k : good [k] (systematic w k).
Proof. apply good_unif. Qed.
Lemma stratified_good w k : good [k] (stratified w k).
Proof. apply good_unif. Qed.
Lemma multinomial_good w k : good [k] (multinomial w k).
Proof. apply good_unif. Qed.

Lemma killing_good w k : good [k] (killing w k).
Proof.
  apply (good_under k [0; 1]%nat). unfold killing.
  apply good_bind_under with (is := [0%nat]) (js := [1%nat]); [key_disjoint|apply good_unif|].
  intros us. apply good_bind_under_ret. apply good_choices.
Qed.

(** Systematic resampling with the draw u = 0 can select a particle of weight zero. *)
Lemma systematic_zero_weight_selected :
  exists w u, weights_ok w /\ in01 u /\ nth 0 w 0 = 0 /\ count 0 (systematic_of w u) = 1%nat.
Proof.
  exists [0; 1], 0. split; [split; [repeat constructor; lra|simpl; lra]|].
  split; [unfold in01; lra|]. split; [reflexivity|].
  assert (Hc : systematic_of [0; 1] 0 = [0; 1]%nat).
  { unfold systematic_of, inverse_cdf_indices, strat_points, cumsum, clip_index. simpl.
    repeat match goal with |- context [Rlt_dec ?a ?b] => destruct (Rlt_dec a b); try lra end. reflexivity. }
  rewrite Hc. reflexivity.
Qed.

Lemma systematic_zero_weight w u i :
  weights_ok w -> in01 u -> 0 < u -> (i < length w)%nat -> nth i w 0 = 0 -> count i (systematic_of w u) = 0%nat.
Proof.
  intros Hw Hu Hu0 Hi H0. destruct (systematic_offspring w u i Hw Hu Hi) as [_ H]. specialize (H Hu0).
  rewrite H0, Rmult_0_r, Rminus_0_r in H. apply Rabs_def2 in H. destruct H as [H _].
  change 1 with (INR 1) in H. apply INR_lt in H. lia.
Qed.

(** every particle of weight at least 2/n survives stratified resampling *)
Lemma stratified_survives w us i :
  weights_ok w -> length us = length w -> Forall (fun u => 0 < u < 1) us -> (i < length w)%nat ->
  2 <= INR (length w) * nth i w 0 -> (0 < count i (stratified_of w us))%nat.
Proof.
  intros Hw Hl Hu Hi H2. pose proof (stratified_offspring w us i Hw Hl Hu Hi) as H. apply Rabs_def2 in H.
  apply INR_lt. simpl. lra.
Qed.

Lemma avg_n_nplusone_nonneg x : Forall (fun a => 0 <= a) x -> Forall (fun a => 0 <= a) (avg_n_nplusone x).
Proof.
  intros H. apply Forall_forall. intros a Ha. apply (In_nth _ _ 0) in Ha. destruct Ha as (i & Hi & <-).
  destruct (avg_n_nplusone_spec x 0 ltac:(lia)) as [Hl _]. rewrite Hl in Hi.
  destruct (avg_n_nplusone_spec x i ltac:(lia)) as [_ ->].
  assert (Hn : forall j, 0 <= nth j x 0).
  { intros j. destruct (Nat.lt_ge_cases j (length x)); [now apply Forall_nth_lt|]. rewrite nth_overflow by assumption. lra. }
  pose proof (Hn i). destruct i as [|j]; [lra|]. pose proof (Hn j). lra.
Qed.

(** number of copies as an additive functional *)
Lemma count_Rsum i A : INR (count i A) = Rsum (map (fun a => if Nat.eqb a i then 1 else 0) A).
Proof.
  induction A as [|a A IH]; [reflexivity|]. cbn [map Rsum]. rewrite <- IH. unfold count. simpl count_occ.
  destruct (Nat.eq_dec a i) as [->|Hne].
  - rewrite Nat.eqb_refl, S_INR. ring.
  - destruct (Nat.eqb_spec a i); [contradiction|]. ring.
Qed.

Lemma unbiased_res_copies res w k i : unbiased_res res -> weights_ok w -> (i < length w)%nat ->
  law (res w k) (fun A => INR (count i A)) = INR (length w) * nth i w 0.
Proof.
  intros H Hw Hi. rewrite (law_ext _ _ (fun A => Rsum (map (fun a => if Nat.eqb a i then 1 else 0) A))) by (intros; apply count_Rsum).
  rewrite H by assumption. f_equal. rewrite E_dcat.
  rewrite (Rsum_map_ext _ (fun a => (if Nat.eqb a i then 1 else 0) * nth a w 0)) by (intros; ring).
  now apply (Rsum_indicator (length w) i (fun a => nth a w 0)).
Qed.
