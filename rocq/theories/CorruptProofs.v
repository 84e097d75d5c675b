(** Properties of the image corruptions. *)
From Coq Require Import ZArith String.
From Verif Require Import Base Prog Hygiene Images ImagesProofs Corrupt.
Open Scope nat_scope.

(** ** Nearest neighbour degradation *)

Lemma nearest_lt m n i : 1 <= m -> i < n -> nearest m n i < m.
Proof. intros Hm Hi. unfold nearest. apply Nat.div_lt_upper_bound; nia. Qed.

Lemma nearest_section m n j : 1 <= n -> n <= m -> j < n -> nearest n m (nearest m n j) = j.
Proof.
  intros Hn Hm Hj. destruct (Nat.eq_dec n m) as [->|Hne].
  { assert (E : nearest m m j = j); [|now rewrite E]. unfold nearest.
    symmetry. apply Nat.div_unique with m; lia. }
  unfold nearest. set (s := (2 * j + 1) * m / (2 * n)).
  pose proof (Nat.div_mod ((2 * j + 1) * m) (2 * n) ltac:(lia)) as E. fold s in E.
  pose proof (Nat.mod_upper_bound ((2 * j + 1) * m) (2 * n) ltac:(lia)) as B.
  set (rem := ((2 * j + 1) * m) mod (2 * n)) in *.
  assert (E1 : (2 * j + 1) * m = 2 * (j * m) + m) by ring.
  assert (E2 : (2 * s + 1) * n = 2 * (n * s) + n) by ring.
  symmetry. apply Nat.div_unique with ((2 * s + 1) * n - 2 * m * j); lia.
Qed.

Lemma down_index_lt w r i : 1 <= w / r -> i < w -> down_index w r i < w.
Proof.
  intros H Hi. unfold down_index. apply nearest_lt; [lia|]. apply nearest_lt; lia.
Qed.

Lemma down_index_idem w r i : 1 <= r -> 1 <= w / r -> i < w -> down_index w r (down_index w r i) = down_index w r i.
Proof.
  intros Hr H Hi. unfold down_index.
  rewrite (nearest_section w (w / r)); [reflexivity|exact H| |apply nearest_lt; lia].
  apply Nat.div_le_upper_bound; nia.
Qed.

Lemma nearest_up q r i : 1 <= q -> 1 <= r -> nearest q (q * r) i = i / r.
Proof.
  intros Hq Hr. unfold nearest.
  replace ((2 * i + 1) * q) with (q * (2 * i + 1)) by lia. replace (2 * (q * r)) with (q * (2 * r)) by lia.
  rewrite Nat.div_mul_cancel_l by lia.
  pose proof (Nat.div_mod i r ltac:(lia)) as E. pose proof (Nat.mod_upper_bound i r ltac:(lia)) as B.
  symmetry. apply Nat.div_unique with (2 * (i mod r) + 1); lia.
Qed.

Lemma nearest_down q r j : 1 <= q -> 1 <= r -> nearest (q * r) q j = j * r + r / 2.
Proof.
  intros Hq Hr. unfold nearest.
  replace ((2 * j + 1) * (q * r)) with (q * ((2 * j + 1) * r)) by lia. replace (2 * q) with (q * 2) by lia.
  rewrite Nat.div_mul_cancel_l by lia.
  pose proof (Nat.div_mod r 2 ltac:(lia)) as E. pose proof (Nat.mod_upper_bound r 2 ltac:(lia)) as B.
  symmetry. apply Nat.div_unique with (r mod 2); lia.
Qed.

(** The block's value is the one at offset [r / 2]. *)
Lemma down_index_block q r i : 1 <= q -> 1 <= r -> down_index (q * r) r i = i / r * r + r / 2.
Proof.
  intros Hq Hr. unfold down_index. rewrite Nat.div_mul by lia. rewrite nearest_up, nearest_down by assumption. reflexivity.
Qed.

Lemma downsample_spec k w h img : 8 <= w -> 8 <= h ->
  safe (downsample k w h img) (fun y => exists y' r, y = Some y' /\ (r = 4 \/ r = 8) /\
    (forall i j c, i < w -> j < h -> exists i' j', i' < w /\ j' < h /\ y' i j c = img i' j' c) /\
    (forall i j c, i < w -> j < h -> down w h r y' i j c = y' i j c) /\
    (w mod r = 0 -> h mod r = 0 -> forall a b i j i' j' c, i < r -> j < r -> i' < r -> j' < r ->
        a * r + i < w -> b * r + j < h -> y' (a * r + i) (b * r + j) c = y' (a * r + i') (b * r + j') c)).
Proof.
  intros Hw Hh. unfold downsample.
  assert (D : forall n r, 8 <= n -> r = 4 \/ r = 8 -> 1 <= n / r).
  { intros n r Hn Hr. apply Nat.div_le_lower_bound; lia. }
  assert (E : existsb (fun r => (w / r =? 0) || (h / r =? 0)) ratios = false).
  { cbn. pose proof (D w 4 Hw ltac:(lia)). pose proof (D h 4 Hh ltac:(lia)).
    pose proof (D w 8 Hw ltac:(lia)). pose proof (D h 8 Hh ltac:(lia)).
    cbn in *. repeat match goal with |- context [?a =? 0] => destruct (Nat.eqb_spec a 0); [lia|] end. reflexivity. }
  rewrite E. apply (safe_bind _ _ (fun i => i < 2)).
  - unfold choice_unif. apply safe_rint. intros l Hl HF. apply safe_ret.
    destruct l as [|a [|? ?]]; try discriminate Hl. apply Forall_inv in HF. cbn in *. lia.
  - intros i Hi. apply safe_ret. set (r := nth i ratios 1).
    assert (Hr : r = 4 \/ r = 8) by (unfold r; destruct i as [|[|i]]; cbn; lia).
    exists (down w h r img), r. split; [reflexivity|]. split; [exact Hr|].
    pose proof (D w r Hw Hr) as D1. pose proof (D h r Hh Hr) as D2. split; [|split].
    + intros a b c Ha Hb. exists (down_index w r a), (down_index h r b). repeat split; now apply down_index_lt.
    + intros a b c Ha Hb. unfold down. rewrite !down_index_idem by lia. reflexivity.
    + intros Mw Mh a b x y x' y' c Hx Hy Hx' Hy' Ha Hb. unfold down.
      apply Nat.mod_divides in Mw; [|lia]. apply Nat.mod_divides in Mh; [|lia]. destruct Mw as [q ->], Mh as [q' ->].
      rewrite (Nat.mul_comm r q), (Nat.mul_comm r q') in *.
      rewrite !down_index_block by nia. rewrite !Nat.div_add_l by lia.
      rewrite (Nat.div_small x), (Nat.div_small y), (Nat.div_small x'), (Nat.div_small y') by lia. reflexivity.
Qed.

(** ** Random rectangle *)

Lemma in_slice_plain n rs (s i : nat) : s + rs <= n -> in_slice n rs (Z.of_nat s) i = ((s <=? i) && (i <? s + rs)).
Proof.
  intros H. unfold in_slice, slice_bound.
  destruct (Z.ltb_spec (Z.of_nat s) 0); [lia|]. destruct (Z.ltb_spec (Z.of_nat s + Z.of_nat rs) 0); [lia|].
  rewrite !Z.min_l by lia.
  destruct (Nat.leb_spec s i), (Nat.ltb_spec i (s + rs)), (Z.leb_spec (Z.of_nat s) (Z.of_nat i)),
    (Z.ltb_spec (Z.of_nat i) (Z.of_nat s + Z.of_nat rs)); try lia; reflexivity.
Qed.

Lemma starts_fit n rs z : rs <= n -> In z (starts n rs) -> exists s, z = Z.of_nat s /\ s + rs <= n.
Proof.
  intros H Hz. unfold starts in Hz. apply in_map_iff in Hz. destruct Hz as (i & <- & Hi). apply in_seq in Hi.
  rewrite <- Nat2Z.inj_sub by lia. rewrite <- Nat2Z.inj_mul. change 3%Z with (Z.of_nat 3).
  rewrite Z.quot_div_nonneg; [|apply Nat2Z.is_nonneg|reflexivity]. rewrite <- Nat2Z.inj_div.
  exists ((n - rs) * i / 3). split; [reflexivity|].
  assert ((n - rs) * i / 3 <= n - rs) by (apply Nat.div_le_upper_bound; nia). lia.
Qed.

(** [y] is [x] with a [rs] x [rs] rectangle at (a, b) set to zero. *)
Definition blanked (rs a b : nat) (x y : image) : Prop := forall i j c,
  y i j c = if (a <=? i) && (i <? a + rs) && (b <=? j) && (j <? b + rs) then 0%R else x i j c.

Lemma paint_spec k h w img rs : rs <= h -> rs <= w ->
  safe (paint k h w img rs) (fun y => exists a b, a + rs <= h /\ b + rs <= w /\ blanked rs a b img y).
Proof.
  intros Hh Hw. unfold paint. cbv zeta.
  apply (safe_bind _ _ (fun i => i < 16)).
  - unfold choice_unif. apply safe_rint. intros l Hl HF. apply safe_ret.
    destruct l as [|a [|? ?]]; try discriminate Hl. apply Forall_inv in HF. cbn in *. lia.
  - intros i Hi. apply safe_ret.
    set (P := list_prod (starts h rs) (starts w rs)).
    assert (HL : i < length P) by exact Hi.
    rewrite nth_indep with (d' := rect_mask h w rs (0, 0)%Z) by (now rewrite map_length).
    rewrite map_nth. pose proof (nth_In P (0, 0)%Z HL) as HIn.
    destruct (nth i P (0, 0)%Z) as [za zb]. unfold P in HIn. apply in_prod_iff in HIn. destruct HIn as [Ha Hb].
    apply starts_fit in Ha; [|exact Hh]. apply starts_fit in Hb; [|exact Hw].
    destruct Ha as (a & -> & Ha), Hb as (b & -> & Hb). exists a, b. split; [exact Ha|]. split; [exact Hb|].
    intros x y c. unfold rect_mask. cbn [fst snd]. rewrite !in_slice_plain by assumption. rewrite !andb_assoc.
    destruct (_ && _); lra.
Qed.

(** A rectangle larger than the image: only one pixel of a 4 x 4 image may be blanked. *)
Lemma paint_oversized : exists k img y, runs (paint k 4 4 img 5) [k] y /\
  (forall i j c, i < 4 -> j < 4 -> img i j c = 1%R) /\
  (forall i j c, i < 4 -> j < 4 -> y i j c = if (i =? 3) && (j =? 3) then 0%R else 1%R).
Proof.
  exists [], (fun _ _ _ => 1%R).
  eexists. split; [|split].
  - unfold paint. cbv zeta. apply runs_bind. exists [[]], 15, []. split; [reflexivity|]. split.
    + exists [15], []. split; [reflexivity|]. split; [reflexivity|]. split; [repeat constructor|]. now split.
    + split; reflexivity.
  - reflexivity.
  - intros i j c Hi Hj.
    destruct i as [|[|[|[|i]]]]; try lia; destruct j as [|[|[|[|j]]]]; try lia; cbn; lra.
Qed.

(** ** Normalisation *)
Open Scope R_scope.

Lemma clip01_spec x : 0 <= clip01 x <= 1 /\ (0 <= x <= 1 -> clip01 x = x) /\ clip01 (clip01 x) = clip01 x /\
  (forall y, x <= y -> clip01 x <= clip01 y).
Proof.
  assert (M : forall x y, x <= y -> clip01 x <= clip01 y).
  { intros a b H. unfold clip01. cbv zeta. destruct (Rlt_dec a 0), (Rlt_dec b 0); repeat destruct (Rlt_dec _ _); lra. }
  repeat split; try (intros y; apply M).
  - unfold clip01. cbv zeta. destruct (Rlt_dec x 0); destruct (Rlt_dec 1 _); lra.
  - unfold clip01. cbv zeta. destruct (Rlt_dec x 0); destruct (Rlt_dec 1 _); lra.
  - intros H. unfold clip01. cbv zeta. destruct (Rlt_dec x 0); destruct (Rlt_dec 1 _); lra.
  - unfold clip01. cbv zeta. destruct (Rlt_dec x 0); repeat destruct (Rlt_dec _ _); try lra.
Qed.

Lemma fold_Rmin_le l b : fold_right Rmin b l <= b /\ forall y, In y l -> fold_right Rmin b l <= y.
Proof.
  induction l as [|c l [I1 I2]]; cbn; [split; [lra|easy]|]. split.
  - eapply Rle_trans; [apply Rmin_r|exact I1].
  - intros y [<-|Hy]; [apply Rmin_l|]. eapply Rle_trans; [apply Rmin_r|now apply I2].
Qed.
Lemma Rmin_list_le l x : In x l -> Rmin_list l <= x.
Proof.
  destruct l as [|a l]; [easy|]. cbn. destruct (fold_Rmin_le l a) as [I1 I2]. intros [<-|H]; [exact I1|now apply I2].
Qed.
Lemma Rmin_list_In l : l <> [] -> In (Rmin_list l) l.
Proof.
  destruct l as [|a l]; [easy|]. intros _. cbn.
  assert (G : In (fold_right Rmin a l) (a :: l)).
  { induction l as [|c l IH]; cbn; [now left|].
    apply (Rmin_case c (fold_right Rmin a l) (fun z => a = z \/ c = z \/ In z l)); [right; now left|].
    destruct IH as [IH|IH]; [left; exact IH|right; now right]. }
  exact G.
Qed.

Lemma channel_In n1 n2 img c i j : (i < n1)%nat -> (j < n2)%nat -> In (img i j c) (channel n1 n2 img c).
Proof.
  intros Hi Hj. unfold channel. apply in_map_iff. exists (i, j). split; [reflexivity|]. apply in_prod_iff. rewrite !in_seq. lia.
Qed.
Lemma channel_inv n1 n2 img c x : In x (channel n1 n2 img c) -> exists i j, (i < n1)%nat /\ (j < n2)%nat /\ x = img i j c.
Proof.
  unfold channel. intros H. apply in_map_iff in H. destruct H as ([i j] & <- & H). apply in_prod_iff in H. rewrite !in_seq in H.
  exists i, j. cbn. repeat split; lia.
Qed.

Lemma norm_spec n1 n2 img c i0 j0 i1 j1 : (i0 < n1)%nat -> (j0 < n2)%nat -> (i1 < n1)%nat -> (j1 < n2)%nat ->
  img i0 j0 c <> img i1 j1 c ->
  (forall i j, (i < n1)%nat -> (j < n2)%nat -> exists v, normalise_norm n1 n2 img i j c = Some v /\ 0 <= v <= 1) /\
  (exists i j, (i < n1)%nat /\ (j < n2)%nat /\ normalise_norm n1 n2 img i j c = Some 0) /\
  (exists i j, (i < n1)%nat /\ (j < n2)%nat /\ normalise_norm n1 n2 img i j c = Some 1) /\
  (forall i j i' j', (i < n1)%nat -> (j < n2)%nat -> (i' < n1)%nat -> (j' < n2)%nat -> img i j c <= img i' j' c ->
     forall v v', normalise_norm n1 n2 img i j c = Some v -> normalise_norm n1 n2 img i' j' c = Some v' -> v <= v').
Proof.
  intros Hi0 Hj0 Hi1 Hj1 Hne. set (l := channel n1 n2 img c).
  assert (Hl : l <> []). { intros E. pose proof (channel_In n1 n2 img c i0 j0 Hi0 Hj0) as H. fold l in H. now rewrite E in H. }
  set (mn := Rmin_list l). set (mx := Rmax_list l).
  assert (B : forall i j, (i < n1)%nat -> (j < n2)%nat -> mn <= img i j c <= mx).
  { intros i j Hi Hj. split; [apply Rmin_list_le|apply Rmax_list_ge]; now apply channel_In. }
  assert (Hlt : mn < mx).
  { pose proof (B i0 j0 Hi0 Hj0). pose proof (B i1 j1 Hi1 Hj1). destruct (Rtotal_order mn mx) as [H'|[H'|H']]; [exact H'| |lra].
    exfalso. apply Hne. lra. }
  assert (F : forall i j, normalise_norm n1 n2 img i j c = Some ((img i j c - mn) / (mx - mn))).
  { intros i j. unfold normalise_norm. fold l. fold mn. fold mx. destruct (Req_EM_T mx mn); [lra|reflexivity]. }
  split; [|split; [|split]].
  - intros i j Hi Hj. rewrite F. eexists. split; [reflexivity|]. pose proof (B i j Hi Hj). split.
    + apply Rmult_le_pos; [lra|]. left. apply Rinv_0_lt_compat. lra.
    + apply (Rmult_le_reg_r (mx - mn)); [lra|]. unfold Rdiv. rewrite Rmult_assoc, Rinv_l by lra. lra.
  - destruct (channel_inv n1 n2 img c mn) as (i & j & Hi & Hj & E); [now apply Rmin_list_In|].
    exists i, j. split; [exact Hi|]. split; [exact Hj|]. rewrite F, <- E. f_equal. field. lra.
  - destruct (channel_inv n1 n2 img c mx) as (i & j & Hi & Hj & E); [now apply Rmax_list_In|].
    exists i, j. split; [exact Hi|]. split; [exact Hj|]. rewrite F, <- E. f_equal. field. lra.
  - intros i j i' j' _ _ _ _ H v v' E E'. rewrite F in E, E'.
    apply (f_equal (fun o => match o with Some a => a | None => 0 end)) in E, E'. subst v v'.
    unfold Rdiv. apply Rmult_le_compat_r; [|lra]. left. apply Rinv_0_lt_compat. lra.
Qed.

Lemma norm_constant n1 n2 img c v i j : (1 <= n1)%nat -> (1 <= n2)%nat ->
  (forall i j, (i < n1)%nat -> (j < n2)%nat -> img i j c = v) -> normalise_norm n1 n2 img i j c = None.
Proof.
  intros H1 H2 Hc. set (l := channel n1 n2 img c).
  assert (Hl : l <> []). { intros E. pose proof (channel_In n1 n2 img c 0 0 ltac:(lia) ltac:(lia)) as H. fold l in H. now rewrite E in H. }
  assert (A : forall x, In x l -> x = v). { intros x Hx. apply channel_inv in Hx. destruct Hx as (a & b & Ha & Hb & ->). now apply Hc. }
  unfold normalise_norm. fold l. rewrite (A (Rmin_list l)) by now apply Rmin_list_In.
  rewrite (A (Rmax_list l)) by now apply Rmax_list_In. destruct (Req_EM_T v v); [reflexivity|easy].
Qed.

(** ** The blur mixes the channels *)

Lemma channel_ext n1 n2 (f g : image) c c' : (forall i j, f i j c = g i j c') -> channel n1 n2 f c = channel n1 n2 g c'.
Proof. intros H. unfold channel. apply map_ext. intros p. apply H. Qed.

Lemma conv_channels_equal k n1 n2 nc img n :
  safe (conv k n1 n2 nc img n) (fun y => forall i j o o', y i j o = y i j o').
Proof.
  unfold conv. apply safe_unif. intros us _ _. apply safe_ret. intros i j o o'. cbv zeta.
  unfold normalise_norm. set (f := conv_image _ _ _ _ _ _).
  assert (E : forall i j, f i j o = f i j o') by reflexivity.
  rewrite (channel_ext n1 n2 f f o o' E). rewrite E. reflexivity.
Qed.

Lemma conv_range k n1 n2 nc img n :
  safe (conv k n1 n2 nc img n) (fun y => forall i j o, (i < n1)%nat -> (j < n2)%nat ->
    match y i j o with Some v => 0 <= v <= 1 | None => forall i' j', (i' < n1)%nat -> (j' < n2)%nat -> y i' j' o = None end).
Proof.
  unfold conv. apply safe_unif. intros us _ _. apply safe_ret. intros i j o Hi Hj. cbv zeta.
  set (f := conv_image _ _ _ _ _ _). unfold normalise_norm.
  set (l := channel n1 n2 f o). destruct (Req_EM_T (Rmax_list l) (Rmin_list l)) as [E|E].
  - intros i' j' _ _. destruct (Req_EM_T (Rmax_list l) (Rmin_list l)); [reflexivity|easy].
  - pose proof (Rmin_list_le l _ (channel_In n1 n2 f o i j Hi Hj)).
    pose proof (Rmax_list_ge l _ (channel_In n1 n2 f o i j Hi Hj)).
    assert (Rmin_list l < Rmax_list l) by lra. split.
    + apply Rmult_le_pos; [lra|]. left. apply Rinv_0_lt_compat. lra.
    + apply (Rmult_le_reg_r (Rmax_list l - Rmin_list l)); [lra|]. unfold Rdiv. rewrite Rmult_assoc, Rinv_l by lra. lra.
Qed.

(** ** Dispatch and keys *)

Lemma corrupt_unknown k task n1 n2 nc img : in_task "inpaint" task = false -> in_task "deconv" task = false ->
  in_task "supr" task = false -> corrupt k task n1 n2 nc img = Ret None.
Proof. intros H1 H2 H3. unfold corrupt. now rewrite H1, H2, H3. Qed.

Lemma good_corrupt k task n1 n2 nc img : good [k] (corrupt k task n1 n2 nc img).
Proof.
  unfold corrupt. destruct (in_task "inpaint" task).
  { destruct (parse_int _); [|apply good_ret]. apply good_bind_ret. unfold paint. apply good_bind_ret. apply good_choice_unif. }
  destruct (in_task "deconv" task).
  { destruct (parse_int _); [|apply good_ret]. apply good_bind_ret. unfold conv. apply good_unif. }
  destruct (in_task "supr" task); [|apply good_ret].
  apply good_bind_ret. unfold downsample. destruct (existsb _ _); [apply good_ret|].
  apply good_bind_ret. apply good_choice_unif.
Qed.

Lemma good_image_sampler k xs task n1 n2 nc : good [k] (image_sampler k xs task n1 n2 nc).
Proof.
  apply (good_under k [0; 1]%nat). unfold image_sampler.
  apply (good_seq k [0%nat] [1%nat]); [key_disjoint|keys_in|apply good_choice_unif|].
  intros i. cbv zeta. apply good_bind_ret. apply good_corrupt.
Qed.

Lemma good_enumerate k task n1 n2 nc xs : good [k] (enumerate_images k task n1 n2 nc xs).
Proof.
  unfold enumerate_images. destruct (String.eqb task "none"); [apply good_ret|]. apply good_bind_ret.
  apply (good_under k (seq 0 (length xs))). generalize 0%nat as i.
  induction xs as [|x xs IH]; intros i; cbn [corrupt_batch length]; [apply good_ret|].
  apply good_step; [apply good_corrupt|]. intros y. apply good_bind_ret. apply IH.
Qed.

Lemma good_gen_mask k task w h random : good [k] (gen_mask k task w h random).
Proof.
  unfold gen_mask. destruct (in_task "inpaint" task).
  - destruct (parse_int _); [|apply good_ret]. unfold gen_inpaint_mask. destruct (_ || _); [apply good_ret|]. apply good_rint.
  - destruct (in_task "supr" task); [|apply good_ret]. destruct (parse_int _); [|apply good_ret].
    unfold gen_supr_mask. destruct (_ || _); [apply good_ret|]. destruct random; [apply good_rint|apply good_ret].
Qed.

Lemma good_restore_sampler {A} (zero : A) xs n task w h random k : good [k] (restore_sampler zero xs n task w h random k).
Proof.
  apply (good_under k [0; 1]%nat). unfold restore_sampler.
  apply (good_seq k [0%nat] [1%nat]); [key_disjoint|keys_in|apply good_choice_unif|].
  intros i. apply good_bind_ret. apply good_gen_mask.
Qed.

(** Each image of a batch is corrupted by its own call, in order. *)
Lemma corrupt_batch_spec (Q : image -> option (nat -> nat -> nat -> option R) -> Prop) task n1 n2 nc k i xs :
  (forall k x, safe (corrupt k task n1 n2 nc x) (Q x)) ->
  safe (corrupt_batch k i task n1 n2 nc xs) (fun ys => Forall2 Q xs ys).
Proof.
  intros HQ. revert i. induction xs as [|x xs IH]; intros i; cbn [corrupt_batch]; [apply safe_ret; constructor|].
  eapply safe_bind; [apply HQ|]. intros y Hy. eapply safe_bind; [apply IH|]. intros ys Hys. apply safe_ret. now constructor.
Qed.
