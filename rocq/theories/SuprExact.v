(** For which sizes the super-resolution masks work: exactly the rates that divide both sides, or that are at least as
    large as both sides (nothing is observed then). *)
From Coq Require Import Permutation Ascii String.
From Verif Require Import Base Prog Images ImagesProofs ImagesMore.
Open Scope nat_scope.

Lemma setdiff1d_length a b size : length (setdiff1d a b size) = size.
Proof. unfold setdiff1d. rewrite app_length, firstn_length, repeat_length. lia. Qed.

Lemma ravel_lt w h p : 1 <= w -> 1 <= h -> ravel w h p < w * h.
Proof. intros Hw Hh. unfold ravel, clip_index. assert (Nat.min (fst p) (w - 1) <= w - 1) by lia. assert (Nat.min (snd p) (h - 1) < h) by lia. nia. Qed.

Lemma supr_indices w h rate shifts m : 1 <= w -> 1 <= h -> supr_mask w h rate shifts = Some m ->
  Forall (fun i => i < w * h) (unobs_inds m ++ obs_inds m) /\ length (unobs_inds m) = w * h - w * h / (rate * rate).
Proof.
  intros Hw Hh. unfold supr_mask. destruct (broadcast2 _ _) as [bs|]; [|discriminate]. intros H. injection H as <-. cbn [unobs_inds obs_inds].
  split; [|apply setdiff1d_length]. apply Forall_app. split.
  - rewrite all_pixels. unfold setdiff1d. apply Forall_app. split.
    + apply Forall_forall. intros i Hi.
      assert (G : forall n (l : list nat) x, In x (firstn n l) -> In x l) by (intros n l x Hx; rewrite <- (firstn_skipn n l); apply in_or_app; now left).
      apply G in Hi. apply filter_In in Hi. destruct Hi as [Hi _]. apply in_seq in Hi. lia.
    + apply Forall_forall. intros i Hi. apply repeat_spec in Hi. subst i. nia.
  - apply Forall_forall. intros i Hi. apply in_map_iff in Hi. destruct Hi as (p & <- & _). now apply ravel_lt.
Qed.

Lemma supr_too_many w h rate shifts : 1 <= rate -> 1 <= w -> 1 <= h ->
  ~ (w mod rate = 0 /\ h mod rate = 0) -> ~ (w <= rate /\ h <= rate) -> length shifts = w * h / (rate * rate) ->
  match supr_mask w h rate shifts with None => True | Some m => w * h < length (unobs_inds m) + length (obs_inds m) end.
Proof.
  intros Hr Hw Hh Hmod Hbig Hlen. destruct (supr_mask w h rate shifts) as [m|] eqn:E; [|exact I].
  destruct (supr_indices w h rate shifts m Hw Hh E) as [_ ->]. revert E. unfold supr_mask.
  assert (HL : length (list_prod (range_step w rate) (range_step h rate))
               = (w + rate - 1) / rate * ((h + rate - 1) / rate)) by now rewrite prod_length, !range_step_length.
  destruct (ceil_ge w rate Hr) as [A1 A2]. destruct (ceil_ge h rate Hr) as [B1 B2].
  set (a := (w + rate - 1) / rate) in *. set (b := (h + rate - 1) / rate) in *.
  assert (Hlt : length shifts < a * b).
  { rewrite Hlen. apply Nat.div_lt_upper_bound; [nia|].
    assert (w * h < a * rate * (b * rate)).
    { apply Nat.lt_nge. intros Hge. apply Hmod.
      assert (a * rate * (b * rate) = w * h) by (apply Nat.le_antisymm; [exact Hge|now apply Nat.mul_le_mono]).
      split; [apply A2|apply B2]; nia. }
    nia. }
  assert (Hge : 2 <= a * b).
  { assert (1 <= a /\ 1 <= b) by (clearbody a b; split; [destruct a|destruct b]; lia).
    destruct (Nat.le_gt_cases w rate); [assert (1 < b) by (clearbody a b; destruct b as [|[|b]]; lia)|assert (1 < a) by (clearbody a b; destruct a as [|[|a]]; lia)]; nia. }
  assert (Hd : length shifts <= w * h) by (rewrite Hlen; assert (1 <= rate * rate) by nia; apply Nat.div_le_upper_bound; [lia|rewrite <- (Nat.mul_1_l (w * h)) at 1; now apply Nat.mul_le_mono_r]).
  unfold broadcast2. rewrite HL. destruct (Nat.eqb_spec (a * b) (length shifts)) as [E|_]; [lia|].
  destruct (list_prod _ _) as [|x [|x' l]]; cbn [length] in HL; try lia.
  destruct shifts as [|s [|s' l']]; cbn [length] in *; try discriminate.
  intros H. injection H as <-. cbn [obs_inds length]. rewrite <- Hlen. lia.
Qed.

Lemma repeated (l : list nat) N : Forall (fun i => i < N) l -> N < length l ->
  exists p q, p < q < length l /\ nth p l 0 = nth q l 0.
Proof.
  intros HF HN. assert (HD : ~ NoDup l).
  { intros HD. assert (length l <= length (seq 0 N)); [|rewrite seq_length in *; lia].
    apply NoDup_incl_length; [exact HD|]. intros i Hi. rewrite Forall_forall in HF. apply in_seq. specialize (HF i Hi). lia. }
  clear HF HN N. induction l as [|a l IH]; [exfalso; apply HD; constructor|].
  destruct (in_dec Nat.eq_dec a l) as [Hin|Hin].
  - apply (In_nth _ _ 0) in Hin. destruct Hin as (q & Hq & E). exists 0, (S q). cbn [length nth]. split; [lia|now symmetry].
  - destruct IH as (p & q & Hpq & E); [intros HD'; apply HD; now constructor|]. exists (S p), (S q). cbn [length nth]. split; [lia|exact E].
Qed.

(** with more indices than pixels [unpack] cannot recover what [concat] was given *)
Lemma overfull_fails {A} (zero a b : A) w h m : a <> b -> Forall (fun i => i < w * h) (unobs_inds m ++ obs_inds m) ->
  w * h < length (unobs_inds m) + length (obs_inds m) ->
  exists x y, length x = length (unobs_inds m) /\ length y = length (obs_inds m) /\ unpack zero (concat_parts zero w h x y m) m <> (x, y).
Proof.
  intros Hab HF HL. rewrite <- app_length in HL. destruct (repeated _ _ HF HL) as (p & q & [Hpq Hq] & E).
  set (v := map (fun i => if i =? p then a else b) (seq 0 (length (unobs_inds m ++ obs_inds m)))).
  assert (Hv : length v = length (unobs_inds m) + length (obs_inds m)) by (unfold v; now rewrite map_length, seq_length, app_length).
  exists (firstn (length (unobs_inds m)) v), (skipn (length (unobs_inds m)) v).
  split; [rewrite firstn_length; lia|]. split; [rewrite skipn_length; lia|]. intros HU.
  set (img := concat_parts zero w h (firstn (length (unobs_inds m)) v) (skipn (length (unobs_inds m)) v) m) in HU.
  assert (G : gather zero (ravel_image img) (unobs_inds m ++ obs_inds m) = v).
  { unfold gather. rewrite map_app. unfold unpack in HU. injection HU as H1 H2. unfold gather in H1, H2. rewrite H1, H2. apply firstn_skipn. }
  assert (Gp : forall j, j < length (unobs_inds m ++ obs_inds m) -> nth j v zero = if j =? p then a else b).
  { intros j Hj. unfold v. rewrite (nth_indep _ _ ((fun i => if i =? p then a else b) 0)) by (rewrite map_length, seq_length; lia).
    rewrite (map_nth (fun i => if i =? p then a else b)), seq_nth by lia. reflexivity. }
  pose proof (gather_nth zero (ravel_image img) (unobs_inds m ++ obs_inds m) p ltac:(lia)) as Ep.
  pose proof (gather_nth zero (ravel_image img) (unobs_inds m ++ obs_inds m) q ltac:(lia)) as Eq.
  rewrite G in Ep, Eq. rewrite Gp in Ep, Eq by lia. rewrite E, <- Eq in Ep. rewrite Nat.eqb_refl in Ep.
  destruct (Nat.eqb_spec q p); [lia|]. exact (Hab Ep).
Qed.

Lemma safe_supr k task w h s random (Q : option mask -> Prop) : supr_task task s -> 1 <= w -> 1 <= h -> 1 <= s ->
  (forall shifts, length shifts = w * h / (s * s) -> Forall (fun p => fst p < s /\ snd p < s) shifts -> Q (supr_mask w h s shifts)) ->
  safe (gen_mask k task w h random) Q.
Proof.
  intros (H0 & H1 & H2) Hw Hh Hs HQ. unfold gen_mask. rewrite H0, H1, H2. unfold gen_supr_mask.
  destruct (Nat.eqb_spec s 0) as [E|_]; [lia|]. destruct (Nat.eqb_spec (w * h) 0) as [E|_]; [nia|]. cbn [orb]. cbv zeta.
  destruct random.
  - apply safe_rint. intros l Hl HF. apply safe_ret. apply HQ; [now apply pairs_length|]. exact (pairs_Forall (fun i => i < s) (w * h / (s * s)) l Hl ltac:(replace s with (rint_hi s) by (unfold rint_hi; lia); exact HF)).
  - apply safe_ret. apply HQ; [apply repeat_length|]. apply Forall_forall. intros p Hp. apply repeat_spec in Hp. subst p. cbn [fst snd].
    assert (s / 2 < s) by (apply Nat.div_lt; lia). lia.
Qed.

Theorem supr_fails {A} (zero a b : A) k task w h s random : a <> b -> supr_task task s -> 1 <= w -> 1 <= h -> 1 <= s ->
  ~ (w mod s = 0 /\ h mod s = 0) -> ~ (w <= s /\ h <= s) ->
  safe (gen_mask k task w h random) (fun om => match om with None => True | Some m => exists x y,
    length x = length (unobs_inds m) /\ length y = length (obs_inds m) /\ unpack zero (concat_parts zero w h x y m) m <> (x, y) end).
Proof.
  intros Hab Ht Hw Hh Hs H1 H2. apply (safe_supr k task w h s random); auto. intros shifts Hl _.
  pose proof (supr_too_many w h s shifts Hs Hw Hh H1 H2 Hl) as H. destruct (supr_mask w h s shifts) as [m|] eqn:E; [|exact I].
  apply (overfull_fails zero a b); [exact Hab|now apply (supr_indices w h s shifts)|exact H].
Qed.

Lemma supr_empty w h s : 1 <= w -> 1 <= h -> w <= s -> h <= s -> w * h < s * s ->
  exists m, supr_mask w h s [] = Some m /\ splits_image (w * h) m /\ obs_inds m = [] /\ length (unobs_inds m) = w * h.
Proof.
  intros Hw Hh Hws Hhs Hlt. unfold supr_mask.
  assert (Hone : forall n, 1 <= n -> n <= s -> range_step n s = [0]).
  { intros n H1 H2. unfold range_step. replace ((n + s - 1) / s) with 1; [reflexivity|]. apply Nat.div_unique with (n - 1); lia. }
  rewrite !Hone by lia. cbn [list_prod map app broadcast2 length Nat.eqb]. eexists. split; [reflexivity|].
  rewrite all_pixels, (Nat.div_small (w * h)) by lia. rewrite Nat.sub_0_r. unfold splits_image. cbn [unobs_inds obs_inds]. rewrite app_nil_r.
  split; [|split; [reflexivity|apply setdiff1d_length]].
  pose proof (setdiff1d_split (w * h) [] (NoDup_nil _) ltac:(intros i [])) as H. cbn [length app] in H. rewrite Nat.sub_0_r in H. exact H.
Qed.

Theorem supr_works {A} (zero : A) k task w h s random : supr_task task s -> 1 <= w -> 1 <= h -> 1 <= s ->
  (w mod s = 0 /\ h mod s = 0) \/ (w <= s /\ h <= s) ->
  safe (gen_mask k task w h random) (fun om => exists m, om = Some m /\
    (forall img, image_shape w h img -> concat_parts zero w h (fst (unpack zero img m)) (snd (unpack zero img m)) m = img) /\
    (forall x y, length x = length (unobs_inds m) -> length y = length (obs_inds m) ->
       unpack zero (concat_parts zero w h x y m) m = (x, y) /\ image_shape w h (concat_parts zero w h x y m))).
Proof.
  intros Ht Hw Hh Hs Hor. destruct (Nat.eq_dec (w * h) (s * s)) as [E|E].
  - apply (round_trip zero k task w h s random Hw Hh Hs). right. split; [exact Ht|]. destruct Hor as [H|[H1 H2]]; [exact H|].
    assert (w = s /\ h = s) as [-> ->] by (split; nia). split; apply Nat.mod_same; lia.
  - destruct Hor as [H|[H1 H2]]; [apply (round_trip zero k task w h s random Hw Hh Hs); right; tauto|].
    assert (Hlt : w * h < s * s) by nia.
    apply (safe_supr k task w h s random _ Ht Hw Hh Hs). intros shifts Hl _. rewrite Nat.div_small in Hl by lia. destruct shifts; [|discriminate].
    destruct (supr_empty w h s Hw Hh H1 H2 Hlt) as (m & -> & Hm & _). exists m. split; [reflexivity|]. split.
    + intros img Hi. now apply concat_unpack.
    + intros x y Hx Hy. now apply unpack_concat.
Qed.

(** the announced shape: right exactly for the rates that divide both sides *)
Theorem supr_shape_wrong k task w h s random : supr_task task s -> 1 <= w -> 1 <= h -> 1 <= s -> ~ (w mod s = 0 /\ h mod s = 0) ->
  safe (gen_mask k task w h random) (fun om => match om with None => True | Some m => unobs_shape task w h <> Some (length (unobs_inds m)) \/
     w * h < length (unobs_inds m) + length (obs_inds m) end).
Proof.
  intros Ht Hw Hh Hs Hmod. apply (safe_supr k task w h s random _ Ht Hw Hh Hs). intros shifts Hl _.
  destruct (supr_mask w h s shifts) as [m|] eqn:E; [|exact I].
  destruct (le_dec w s) as [H1|H1], (le_dec h s) as [H2|H2].
  2-4: right; pose proof (supr_too_many w h s shifts Hs Hw Hh Hmod ltac:(lia) Hl) as H; rewrite E in H; exact H.
  assert (Hlt : w * h < s * s).
  { destruct (Nat.eq_dec (w * h) (s * s)) as [G|G]; [|nia]. exfalso. apply Hmod.
    assert (w = s /\ h = s) as [-> ->] by (split; nia). split; apply Nat.mod_same; lia. }
  left. destruct (supr_indices w h s shifts m Hw Hh E) as [_ ->]. destruct Ht as (T0 & T1 & T2). unfold unobs_shape. rewrite T0, T1, T2.
  destruct (Nat.eqb_spec s 0) as [G|_]; [lia|]. rewrite (Nat.div_small (w * h)) by lia. intros G. injection G as G.
  assert (w * h * (s * s - 1) / (s * s) < w * h); [|lia]. apply Nat.div_lt_upper_bound; nia.
Qed.
