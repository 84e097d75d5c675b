(** Masks partition the image; [unpack] and [concat] are inverse to each other. *)
From Coq Require Import Permutation.
From Verif Require Import Base Prog Images.
Open Scope nat_scope.

(** ** Specification *)

(** The two index sets are duplicate free, disjoint and cover all pixels. *)
Definition splits_image (n : nat) (m : mask) : Prop := Permutation (unobs_inds m ++ obs_inds m) (seq 0 n).

(** Row-major index of pixel (i, j) in an image with [h] pixels per row. *)
Definition pixel (h i j : nat) : nat := i * h + j.

(** ** Lists *)

Lemma list_prod_app {A B} (l1 l2 : list A) (l : list B) : list_prod (l1 ++ l2) l = list_prod l1 l ++ list_prod l2 l.
Proof. induction l1 as [|a l1 IH]; cbn; [reflexivity|]. now rewrite IH, app_assoc. Qed.

Lemma NoDup_app {A} (l1 l2 : list A) : NoDup l1 -> NoDup l2 -> (forall x, In x l1 -> ~ In x l2) -> NoDup (l1 ++ l2).
Proof.
  induction 1 as [|a l1 Ha H IH]; cbn; intros H2 Hd; [exact H2|].
  constructor.
  - rewrite in_app_iff. intros [H'|H']; [contradiction|]. apply (Hd a); [now left|exact H'].
  - apply IH; [exact H2|]. intros x Hx. apply Hd. now right.
Qed.

Lemma NoDup_list_prod {A B} (l : list A) (l' : list B) : NoDup l -> NoDup l' -> NoDup (list_prod l l').
Proof.
  induction 1 as [|a l Ha H IH]; cbn; intros H'; [constructor|].
  apply NoDup_app; [|now apply IH|].
  - apply FinFun.Injective_map_NoDup; [|exact H']. intros x y E. now injection E.
  - intros [x y] Hx Hy. apply in_map_iff in Hx. destruct Hx as (z & E & _). injection E as <- <-.
    apply in_prod_iff in Hy. now apply Ha.
Qed.

Lemma NoDup_map_in {A B} (f : A -> B) l :
  (forall x y, In x l -> In y l -> f x = f y -> x = y) -> NoDup l -> NoDup (map f l).
Proof.
  intros Hf H. induction H as [|a l Ha H IH]; cbn; constructor.
  - intros Hin. apply in_map_iff in Hin. destruct Hin as (b & E & Hb).
    apply Ha. rewrite <- (Hf b a); [exact Hb|now right|now left|exact E].
  - apply IH. intros x y Hx Hy. apply Hf; now right.
Qed.

Lemma map_seq_shift (f : nat -> nat) a n : map f (seq a n) = map (fun i => f (a + i)) (seq 0 n).
Proof.
  revert a f. induction n as [|n IH]; intros a f; cbn; [reflexivity|].
  rewrite Nat.add_0_r. f_equal. rewrite IH, (IH 1). apply map_ext. intros i. f_equal. lia.
Qed.

Lemma mem_In i l : mem i l = true <-> In i l.
Proof.
  unfold mem. rewrite existsb_exists. split.
  - intros (x & Hx & E). apply Nat.eqb_eq in E. now subst.
  - intros H. exists i. split; [exact H|apply Nat.eqb_refl].
Qed.

(** ** All pixels, raveled *)

Lemma all_pixels w h : map (ravel w h) (list_prod (seq 0 w) (seq 0 h)) = seq 0 (w * h).
Proof.
  assert (G : forall m, m <= w -> map (ravel w h) (list_prod (seq 0 m) (seq 0 h)) = seq 0 (m * h)).
  { induction m as [|m IH]; intros Hm; [reflexivity|].
    rewrite seq_S, list_prod_app, map_app, IH by lia. cbn [list_prod plus]. rewrite app_nil_r.
    replace (S m * h) with (m * h + h) by lia. rewrite seq_app. f_equal.
    rewrite map_map, plus_O_n. transitivity (map (fun j => m * h + j) (seq 0 h)).
    - apply map_ext_in. intros j Hj. apply in_seq in Hj. unfold ravel, clip_index; cbn [fst snd].
      rewrite !Nat.min_l by lia. reflexivity.
    - symmetry. rewrite <- (map_id (seq (m * h) h)). now rewrite map_seq_shift. }
  apply G. lia.
Qed.

Lemma setdiff1d_split n b : NoDup b -> (forall i, In i b -> i < n) ->
  Permutation (b ++ setdiff1d (seq 0 n) b (n - length b)) (seq 0 n).
Proof.
  intros Hnd Hlt. unfold setdiff1d. set (l := filter _ (seq 0 n)).
  assert (HP : Permutation (b ++ l) (seq 0 n)).
  { apply NoDup_Permutation.
    - apply NoDup_app; [exact Hnd|apply NoDup_filter, seq_NoDup|].
      intros x Hx Hl. apply filter_In in Hl. destruct Hl as [_ E].
      apply mem_In in Hx. now rewrite Hx in E.
    - apply seq_NoDup.
    - intros x. rewrite in_app_iff. unfold l. rewrite filter_In, in_seq. split.
      + intros [H|[H _]]; [apply Hlt in H; lia|lia].
      + intros H. destruct (mem x b) eqn:E; [left; now apply mem_In|right]. split; [lia|reflexivity]. }
  assert (HL : length l = n - length b).
  { apply Permutation_length in HP. rewrite app_length, seq_length in HP. lia. }
  rewrite <- HL, firstn_all, Nat.sub_diag. cbn. now rewrite app_nil_r.
Qed.

(** ** Inpainting *)

Lemma ravel_pixel w h i j : i < w -> j < h -> ravel w h (i, j) = pixel h i j.
Proof. intros Hi Hj. unfold ravel, clip_index, pixel; cbn [fst snd]. now rewrite !Nat.min_l by lia. Qed.

Lemma pixel_inj h i j i' j' : j < h -> j' < h -> pixel h i j = pixel h i' j' -> i = i' /\ j = j'.
Proof.
  unfold pixel. intros Hj Hj' E.
  assert (Hi : i = i').
  { assert (E1 : (i * h + j) / h = i) by (rewrite Nat.div_add_l by lia; rewrite Nat.div_small by lia; lia).
    assert (E2 : (i' * h + j') / h = i') by (rewrite Nat.div_add_l by lia; rewrite Nat.div_small by lia; lia).
    rewrite <- E1, <- E2. now rewrite E. }
  subst. split; [reflexivity|lia].
Qed.

Lemma pixel_lt w h i j : i < w -> j < h -> pixel h i j < w * h.
Proof. unfold pixel. intros Hi Hj. assert (S i * h <= w * h) by (apply Nat.mul_le_mono_r; lia). lia. Qed.

Section Rect.
  Variables w h width height shift : nat.
  Hypothesis Hw : width + shift <= w.
  Hypothesis Hh : height + shift <= h.
  Let m := inpaint_mask w h width height shift.

  Lemma rect_form : unobs_inds m = map (fun p => pixel h (fst p + shift) (snd p + shift)) (list_prod (seq 0 width) (seq 0 height)).
  Proof.
    unfold m, inpaint_mask; cbn. apply map_ext_in. intros [i j] Hp. apply in_prod_iff in Hp.
    rewrite !in_seq in Hp. cbn [fst snd]. apply ravel_pixel; lia.
  Qed.

  Lemma rect_NoDup : NoDup (unobs_inds m).
  Proof.
    rewrite rect_form. apply NoDup_map_in.
    - intros [i j] [i' j'] Hp Hp' E. apply in_prod_iff in Hp, Hp'. rewrite !in_seq in Hp, Hp'. cbn [fst snd] in E.
      apply pixel_inj in E; [|lia|lia]. f_equal; lia.
    - apply NoDup_list_prod; apply seq_NoDup.
  Qed.

  Lemma rect_In p : In p (unobs_inds m) <-> exists i j, i < width /\ j < height /\ p = pixel h (shift + i) (shift + j).
  Proof.
    rewrite rect_form, in_map_iff. split.
    - intros ([i j] & <- & Hp). apply in_prod_iff in Hp. rewrite !in_seq in Hp. cbn [fst snd].
      exists i, j. repeat split; try lia. unfold pixel. f_equal; [f_equal|]; lia.
    - intros (i & j & Hi & Hj & ->). exists (i, j). split.
      + cbn [fst snd]. unfold pixel. f_equal; [f_equal|]; lia.
      + apply in_prod_iff. rewrite !in_seq. lia.
  Qed.

  Lemma rect_length : length (unobs_inds m) = width * height.
  Proof. rewrite rect_form, map_length, prod_length, !seq_length. reflexivity. Qed.

  Lemma inpaint_splits : splits_image (w * h) m.
  Proof.
    unfold splits_image. assert (E : obs_inds m = setdiff1d (seq 0 (w * h)) (unobs_inds m) (w * h - length (unobs_inds m))).
    { rewrite rect_length. unfold m, inpaint_mask; cbn [obs_inds unobs_inds]. now rewrite all_pixels. }
    rewrite E. apply setdiff1d_split; [apply rect_NoDup|].
    intros p Hp. apply rect_In in Hp. destruct Hp as (i & j & Hi & Hj & ->). apply pixel_lt; lia.
  Qed.
End Rect.

(** [unobs] is a [width] x [height] rectangle inside the image. *)
Definition is_rectangle (w h width height : nat) (l : list nat) : Prop :=
  exists i0 j0, i0 + width <= w /\ j0 + height <= h /\
    forall p, In p l <-> exists i j, i < width /\ j < height /\ p = pixel h (i0 + i) (j0 + j).

Lemma inpaint_mask_ok k w h width height :
  1 <= w -> 1 <= h -> 1 <= width -> 1 <= height ->
  safe (gen_inpaint_mask k w h width height) (fun om => exists m, om = Some m /\
    splits_image (w * h) m /\ is_rectangle w h (Nat.min width w) (Nat.min height h) (unobs_inds m) /\
    length (unobs_inds m) = Nat.min width w * Nat.min height h).
Proof.
  intros Hw Hh Hwd Hht. unfold gen_inpaint_mask.
  destruct (Nat.eqb_spec (Nat.min width w * Nat.min height h) 0) as [E|_].
  { apply Nat.eq_mul_0 in E. lia. }
  destruct (Nat.eqb_spec (w * h) 0) as [E|_].
  { apply Nat.eq_mul_0 in E. lia. }
  cbn [orb]. apply safe_rint. intros l Hl Hlt. apply safe_ret.
  destruct l as [|s [|? ?]]; try discriminate Hl. cbn [nth].
  apply Forall_inv in Hlt. unfold rint_hi in Hlt.
  set (wd := Nat.min width w) in *. set (ht := Nat.min height h) in *.
  assert (H1 : wd + s <= w) by lia. assert (H2 : ht + s <= h) by lia.
  exists (inpaint_mask w h wd ht s). split; [reflexivity|]. split; [now apply inpaint_splits|].
  split; [|now apply rect_length].
  exists s, s. split; [lia|]. split; [lia|]. intros p. now apply rect_In.
Qed.

(** ** Super-resolution *)

Lemma range_step_exact q rate : 1 <= rate -> range_step (q * rate) rate = map (fun k => k * rate) (seq 0 q).
Proof.
  intros Hr. unfold range_step. do 2 f_equal.
  replace (q * rate + rate - 1) with (q * rate + (rate - 1)) by lia.
  rewrite Nat.div_add_l by lia. rewrite Nat.div_small by lia. lia.
Qed.

Lemma pairs_length m l : length l = 2 * m -> length (pairs l) = m.
Proof.
  revert l. induction m as [|m IH]; intros l H.
  - destruct l; [reflexivity|discriminate].
  - destruct l as [|a [|b l]]; cbn [length] in H; try lia. cbn. f_equal. apply IH. lia.
Qed.
Lemma pairs_Forall (P : nat -> Prop) m l : length l = 2 * m -> Forall P l -> Forall (fun p => P (fst p) /\ P (snd p)) (pairs l).
Proof.
  revert l. induction m as [|m IH]; intros l H HF.
  - destruct l; [constructor|discriminate].
  - destruct l as [|a [|b l]]; cbn [length] in H; try lia. inversion HF as [|? ? Ha HF']; subst.
    inversion HF' as [|? ? Hb HF'']; subst. cbn. constructor; [split; assumption|]. apply IH; [lia|assumption].
Qed.

(** Block of a pixel. *)
Definition block_of (h rate p : nat) : nat * nat := (p / h / rate, (p mod h) / rate).

Lemma block_of_pixel h rate a b i j : 1 <= rate -> i < rate -> j < rate -> b * rate + j < h ->
  block_of h rate (pixel h (a * rate + i) (b * rate + j)) = (a, b).
Proof.
  intros Hr Hi Hj Hb. unfold block_of, pixel.
  rewrite Nat.div_add_l by lia. rewrite (Nat.div_small (b * rate + j)) by lia. rewrite Nat.add_0_r.
  rewrite Nat.div_add_l by lia. rewrite (Nat.div_small i) by lia.
  replace ((a * rate + i) * h + (b * rate + j)) with ((b * rate + j) + (a * rate + i) * h) by lia.
  rewrite Nat.mod_add by lia. rewrite Nat.mod_small by lia.
  rewrite Nat.div_add_l by lia. rewrite (Nat.div_small j) by lia. f_equal; lia.
Qed.

(** One pixel of every block is observed. *)
Definition one_per_block (qw qh h rate : nat) (obs : list nat) : Prop :=
  forall a b, a < qw -> b < qh -> exists! p, In p obs /\ block_of h rate p = (a, b).

Section Supr.
  Variables qw qh rate : nat.
  Hypothesis Hr : 1 <= rate.
  Hypothesis Hqw : 1 <= qw.
  Hypothesis Hqh : 1 <= qh.
  Let w := qw * rate.
  Let h := qh * rate.
  Variable shifts : list (nat * nat).
  Hypothesis Hlen : length shifts = qw * qh.
  Hypothesis Hsh : Forall (fun p => fst p < rate /\ snd p < rate) shifts.

  Let blocks := list_prod (seq 0 qw) (seq 0 qh).

  Lemma supr_block_inds : list_prod (range_step w rate) (range_step h rate)
    = map (fun p => (fst p * rate, snd p * rate)) blocks.
  Proof.
    unfold w, h. rewrite !range_step_exact by lia. unfold blocks.
    generalize (seq 0 qw) as l. intros l. induction l as [|a l IH]; cbn; [reflexivity|].
    rewrite map_app, IH, !map_map. reflexivity.
  Qed.

  Definition supr_obs : list nat :=
    map (fun p => pixel h (fst (fst p) * rate + fst (snd p)) (snd (fst p) * rate + snd (snd p))) (combine blocks shifts).

  Lemma blocks_length : length blocks = qw * qh.
  Proof. unfold blocks. now rewrite prod_length, !seq_length. Qed.

  Lemma supr_combine_In p : In p (combine blocks shifts) ->
    fst (fst p) < qw /\ snd (fst p) < qh /\ fst (snd p) < rate /\ snd (snd p) < rate.
  Proof.
    destruct p as [[a b] [i j]]. intros H. pose proof (in_combine_l _ _ _ _ H) as H1.
    apply in_combine_r in H. rewrite Forall_forall in Hsh. apply Hsh in H.
    unfold blocks in H1. apply in_prod_iff in H1. rewrite !in_seq in H1. cbn [fst snd] in *. lia.
  Qed.

  Lemma block_bound a q i : a < q -> i < rate -> a * rate + i < q * rate.
  Proof. intros Ha Hi. assert (S a * rate <= q * rate) by (apply Nat.mul_le_mono_r; lia). lia. Qed.

  Lemma combine_map_l {A A' B} (f : A -> A') (l : list A) (l' : list B) :
    combine (map f l) l' = map (fun p => (f (fst p), snd p)) (combine l l').
  Proof. revert l'. induction l as [|a l IH]; intros [|b l']; cbn; try reflexivity. now rewrite IH. Qed.

  Lemma supr_mask_form : supr_mask w h rate shifts =
    Some (mk_mask rate rate (setdiff1d (seq 0 (w * h)) supr_obs (w * h - length supr_obs)) supr_obs).
  Proof.
    unfold supr_mask. rewrite supr_block_inds. unfold broadcast2.
    rewrite map_length, blocks_length, Hlen, Nat.eqb_refl. cbv zeta. rewrite all_pixels.
    assert (E : map (fun p => ravel w h (fst (fst p) + fst (snd p), snd (fst p) + snd (snd p)))
                  (combine (map (fun p => (fst p * rate, snd p * rate)) blocks) shifts) = supr_obs).
    { rewrite combine_map_l, map_map. unfold supr_obs. apply map_ext_in. intros p Hp. cbn [fst snd].
      apply supr_combine_In in Hp. destruct Hp as (H1 & H2 & H3 & H4). apply ravel_pixel; now apply block_bound. }
    rewrite E. do 2 f_equal. f_equal.
    assert (L : length supr_obs = qw * qh).
    { unfold supr_obs. rewrite map_length, combine_length, blocks_length, Hlen. lia. }
    rewrite L. f_equal. unfold w, h.
    replace (qw * rate * (qh * rate)) with (qw * qh * (rate * rate)) by lia.
    rewrite Nat.div_mul by nia. lia.
  Qed.

  Lemma supr_obs_block p : In p (combine blocks shifts) ->
    block_of h rate (pixel h (fst (fst p) * rate + fst (snd p)) (snd (fst p) * rate + snd (snd p))) = fst p.
  Proof.
    intros Hp. apply supr_combine_In in Hp. destruct Hp as (H1 & H2 & H3 & H4).
    destruct p as [[a b] s]. cbn [fst snd] in *. apply block_of_pixel; try assumption. now apply block_bound.
  Qed.

  Lemma supr_obs_blocks : map (block_of h rate) supr_obs = blocks.
  Proof.
    unfold supr_obs. rewrite map_map. transitivity (map fst (combine blocks shifts)).
    - apply map_ext_in. intros p Hp. now apply supr_obs_block.
    - assert (L : length blocks = length shifts) by now rewrite blocks_length, Hlen.
      clear - L. revert L. generalize blocks, shifts. induction blocks0 as [|a l IH]; intros [|b l'] L; cbn; try reflexivity; try discriminate L.
      f_equal. apply IH. now injection L.
  Qed.

  Lemma supr_ok : exists m, supr_mask w h rate shifts = Some m /\ splits_image (w * h) m /\
    one_per_block qw qh h rate (obs_inds m) /\ length (obs_inds m) = qw * qh /\
    length (unobs_inds m) = w * h - qw * qh.
  Proof.
    rewrite supr_mask_form. eexists. split; [reflexivity|].
    assert (Hnd : NoDup supr_obs).
    { apply (NoDup_map_inv (block_of h rate)). rewrite supr_obs_blocks. unfold blocks. apply NoDup_list_prod; apply seq_NoDup. }
    assert (L : length supr_obs = qw * qh).
    { rewrite <- (map_length (block_of h rate)), supr_obs_blocks. apply blocks_length. }
    assert (HP : Permutation (supr_obs ++ setdiff1d (seq 0 (w * h)) supr_obs (w * h - length supr_obs)) (seq 0 (w * h))).
    { apply setdiff1d_split; [exact Hnd|]. intros p Hp. unfold supr_obs in Hp. apply in_map_iff in Hp.
      destruct Hp as (x & <- & Hx). apply supr_combine_In in Hx. destruct Hx as (H1 & H2 & H3 & H4).
      apply pixel_lt; now apply block_bound. }
    split; [|split; [|split]].
    - unfold splits_image; cbn [unobs_inds obs_inds]. eapply Permutation_trans; [apply Permutation_app_comm|exact HP].
    - cbn [obs_inds]. intros a b Ha Hb.
      assert (Hin : In (a, b) (map (block_of h rate) supr_obs)).
      { rewrite supr_obs_blocks. unfold blocks. apply in_prod_iff. rewrite !in_seq. lia. }
      apply in_map_iff in Hin. destruct Hin as (p & E & Hp). exists p. split; [split; assumption|].
      intros p' [Hp' E'].
      assert (Hb2 : NoDup (map (block_of h rate) supr_obs)) by (rewrite supr_obs_blocks; unfold blocks; apply NoDup_list_prod; apply seq_NoDup).
      revert Hp Hp' Hb2 E E'. generalize supr_obs. clear. intros l. induction l as [|x l IH]; cbn; intros Hp Hp' Hnd E E'; [easy|].
      inversion Hnd as [|? ? Hx Hl]; subst.
      destruct Hp as [->|Hp], Hp' as [->|Hp']; [reflexivity| | |now apply IH].
      + exfalso. apply Hx. rewrite E, <- E'. now apply in_map.
      + exfalso. apply Hx. rewrite E', <- E. now apply in_map.
    - exact L.
    - cbn [unobs_inds]. apply Permutation_length in HP. rewrite app_length, seq_length, L in HP. cbn [unobs_inds].
      rewrite L in *. lia.
  Qed.
End Supr.

Lemma supr_gen_ok k qw qh rate random : 1 <= rate -> 1 <= qw -> 1 <= qh ->
  safe (gen_supr_mask k (qw * rate) (qh * rate) rate random) (fun om => exists m, om = Some m /\
    splits_image (qw * rate * (qh * rate)) m /\ one_per_block qw qh (qh * rate) rate (obs_inds m) /\
    length (obs_inds m) = qw * qh /\ length (unobs_inds m) = qw * rate * (qh * rate) - qw * qh).
Proof.
  intros Hr Hw Hh. unfold gen_supr_mask.
  destruct (Nat.eqb_spec rate 0) as [E|_]; [lia|].
  destruct (Nat.eqb_spec (qw * rate * (qh * rate)) 0) as [E|_]; [nia|]. cbn [orb]. cbv zeta.
  assert (EN : qw * rate * (qh * rate) / (rate * rate) = qw * qh).
  { replace (qw * rate * (qh * rate)) with (qw * qh * (rate * rate)) by lia. apply Nat.div_mul. nia. }
  rewrite EN. destruct random.
  - apply safe_rint. intros l Hl HF. apply safe_ret. apply supr_ok; try assumption.
    + now apply pairs_length.
    + apply (pairs_Forall (fun i => i < rate) (qw * qh)); [exact Hl|].
      revert HF. apply Forall_impl. unfold rint_hi. intros; lia.
  - apply safe_ret. apply supr_ok; try assumption.
    + apply repeat_length.
    + apply Forall_forall. intros p Hp. apply repeat_spec in Hp. subst p. cbn [fst snd].
      assert (rate / 2 < rate) by (apply Nat.div_lt; lia). lia.
Qed.

(** ** unpack and concat *)

Section Parts.
  Context {A : Type} (zero : A).

  Lemma set_nth_length i (a : A) l : length (set_nth i a l) = length l.
  Proof. revert i. induction l as [|x l IH]; intros [|i]; cbn; auto. Qed.
  Lemma nth_set_nth_same i (a : A) l d : i < length l -> nth i (set_nth i a l) d = a.
  Proof. revert i. induction l as [|x l IH]; intros [|i] H; cbn in *; try lia; [reflexivity|apply IH; lia]. Qed.
  Lemma nth_set_nth_other i j (a : A) l d : i <> j -> nth j (set_nth i a l) d = nth j l d.
  Proof.
    revert i j. induction l as [|x l IH]; intros [|i] [|j] H; cbn; try reflexivity; try lia.
    apply IH. lia.
  Qed.

  Lemma scatter_length (img : list A) inds x : length (scatter img inds x) = length img.
  Proof.
    unfold scatter. revert img. generalize (combine inds x). intros l. induction l as [|p l IH]; intros img; cbn; [reflexivity|].
    now rewrite IH, set_nth_length.
  Qed.

  Lemma scatter_out (img : list A) inds x j d : ~ In j inds -> nth j (scatter img inds x) d = nth j img d.
  Proof.
    revert img x. induction inds as [|i inds IH]; intros img x H; [reflexivity|]. destruct x as [|a x]; [reflexivity|].
    unfold scatter. cbn. fold (scatter (set_nth i a img) inds x). rewrite IH by (intros H'; apply H; now right).
    apply nth_set_nth_other. intros ->. apply H. now left.
  Qed.

  Lemma scatter_in (img : list A) inds x q d : NoDup inds -> length x = length inds -> q < length inds ->
    (forall i, In i inds -> i < length img) -> nth (nth q inds 0) (scatter img inds x) d = nth q x d.
  Proof.
    intros Hnd. revert img x q. induction Hnd as [|i inds Hi Hnd IH]; intros img x q Hl Hq Hlt; cbn in Hq; [lia|].
    destruct x as [|a x]; [discriminate|]. unfold scatter. cbn. fold (scatter (set_nth i a img) inds x).
    destruct q as [|q].
    - rewrite scatter_out by exact Hi. apply nth_set_nth_same. apply Hlt. now left.
    - apply IH; [now injection Hl|lia|]. intros k Hk. rewrite set_nth_length. apply Hlt. now right.
  Qed.

  Lemma gather_scatter_same (img : list A) inds x : NoDup inds -> length x = length inds ->
    (forall i, In i inds -> i < length img) -> gather zero (scatter img inds x) inds = x.
  Proof.
    intros Hnd Hl Hlt. apply nth_ext with (d := zero) (d' := zero).
    - unfold gather. now rewrite map_length.
    - intros q Hq. unfold gather in *. rewrite map_length in Hq.
      rewrite nth_indep with (d' := nth 0 (scatter img inds x) zero) by now rewrite map_length.
      rewrite map_nth with (f := fun i => nth i (scatter img inds x) zero). now apply scatter_in.
  Qed.

  Lemma gather_scatter_other (img : list A) inds inds' x : (forall i, In i inds' -> ~ In i inds) ->
    gather zero (scatter img inds x) inds' = gather zero img inds'.
  Proof.
    intros H. unfold gather. apply map_ext_in. intros i Hi. apply scatter_out. now apply H.
  Qed.

  (** An image of the right shape: [w] rows of [h] pixels. *)
  Definition image_shape (w h : nat) (img : list (list A)) : Prop := length img = w /\ Forall (fun r => length r = h) img.

  Lemma ravel_length w h img : image_shape w h img -> length (ravel_image img) = w * h.
  Proof.
    intros [<- H]. unfold ravel_image. induction H as [|r img Hr H IH]; cbn; [reflexivity|]. rewrite app_length, IH, Hr. lia.
  Qed.

  Lemma unravel_ravel w h img : image_shape w h img -> unravel_image w h (ravel_image img) = img.
  Proof.
    intros [<- H]. unfold unravel_image, ravel_image. induction H as [|r img Hr H IH]; [reflexivity|].
    cbn [length seq map concat]. f_equal.
    - cbn [Nat.mul skipn]. subst h. rewrite firstn_app, Nat.sub_diag, firstn_O, app_nil_r. apply firstn_all.
    - rewrite <- IH at 2. rewrite <- seq_shift, map_map. apply map_ext. intros i. f_equal.
      cbn [Nat.mul]. subst h. rewrite skipn_app.
      rewrite skipn_all2 by lia. cbn [app]. f_equal. lia.
  Qed.

  Lemma ravel_unravel w h (l : list A) : length l = w * h -> ravel_image (unravel_image w h l) = l.
  Proof.
    unfold ravel_image, unravel_image. revert l. induction w as [|w IH]; intros l Hl.
    - destruct l; [reflexivity|discriminate].
    - cbn [seq map concat Nat.mul skipn]. rewrite <- seq_shift, map_map.
      transitivity (firstn h l ++ skipn h l); [|apply firstn_skipn]. f_equal.
      transitivity (concat (map (fun i => firstn h (skipn (i * h) (skipn h l))) (seq 0 w))).
      + f_equal. apply map_ext. intros i. f_equal. cbn [Nat.mul].
        clear. revert l. induction h as [|h' IHh]; intros l; [reflexivity|].
        generalize (i * S h') as a. intros a. cbn [plus]. destruct l as [|x l]; [now rewrite !skipn_nil|].
        cbn [skipn]. clear. revert l. induction h' as [|h' IH]; intros l; [reflexivity|].
        destruct l as [|x l]; [now rewrite !skipn_nil|]. cbn [plus skipn]. apply IH.
      + apply IH. rewrite skipn_length. lia.
  Qed.

  Lemma unravel_shape w h (l : list A) : length l = w * h -> image_shape w h (unravel_image w h l).
  Proof.
    intros Hl. split.
    - unfold unravel_image. now rewrite map_length, seq_length.
    - unfold unravel_image. apply Forall_forall. intros r Hr. apply in_map_iff in Hr. destruct Hr as (i & <- & Hi).
      apply in_seq in Hi. rewrite firstn_length, skipn_length, Hl.
      assert (S i * h <= w * h) by (apply Nat.mul_le_mono_r; lia). lia.
  Qed.

  Section Split.
    Variables (w h : nat) (m : mask).
    Hypothesis Hm : splits_image (w * h) m.

    Lemma split_NoDup : NoDup (unobs_inds m ++ obs_inds m).
    Proof. apply (Permutation_NoDup (Permutation_sym Hm)). apply seq_NoDup. Qed.
    Lemma split_lt i : In i (unobs_inds m ++ obs_inds m) <-> i < w * h.
    Proof.
      split.
      - intros H. apply (Permutation_in _ Hm) in H. apply in_seq in H. lia.
      - intros H. apply (Permutation_in _ (Permutation_sym Hm)). apply in_seq. lia.
    Qed.
    Lemma split_disjoint i : In i (unobs_inds m) -> In i (obs_inds m) -> False.
    Proof.
      pose proof split_NoDup as H. revert H. generalize (unobs_inds m). intros l. induction l as [|x l IH]; cbn; intros H Hu Ho; [easy|].
      inversion H as [|? ? Hx Hnd]; subst. destruct Hu as [->|Hu].
      - apply Hx. apply in_app_iff. now right.
      - now apply IH.
    Qed.
    Lemma NoDup_app_inv {B} (l l' : list B) : NoDup (l ++ l') -> NoDup l /\ NoDup l'.
    Proof.
      induction l as [|x l IH]; cbn; intros H; [split; [constructor|exact H]|].
      inversion H as [|? ? Hx Hnd]; subst. destruct (IH Hnd) as [H1 H2]. split; [|exact H2].
      constructor; [|exact H1]. intros Hin. apply Hx. apply in_app_iff. now left.
    Qed.

    Lemma concat_unpack img : image_shape w h img ->
      concat_parts zero w h (fst (unpack zero img m)) (snd (unpack zero img m)) m = img.
    Proof.
      intros Hs. rewrite <- (unravel_ravel w h img Hs) at 3. unfold concat_parts, unpack. cbn [fst snd]. f_equal.
      pose proof (ravel_length w h img Hs) as HL. destruct (NoDup_app_inv _ _ split_NoDup) as [HU HO].
      apply nth_ext with (d := zero) (d' := zero).
      - now rewrite !scatter_length, repeat_length.
      - intros p Hp. rewrite !scatter_length, repeat_length in Hp.
        apply split_lt in Hp. apply in_app_iff in Hp.
        assert (HG : forall inds q, q < length inds -> nth q (gather zero (ravel_image img) inds) zero = nth (nth q inds 0) (ravel_image img) zero).
        { intros inds q Hq. unfold gather.
          rewrite nth_indep with (d' := nth 0 (ravel_image img) zero) by now rewrite map_length.
          now rewrite map_nth with (f := fun i => nth i (ravel_image img) zero). }
        destruct Hp as [Hp|Hp].
        + rewrite scatter_out by (intros H; eapply split_disjoint; eauto).
          apply In_nth with (d := 0) in Hp. destruct Hp as (q & Hq & <-).
          rewrite scatter_in; [now apply HG|exact HU|unfold gather; apply map_length|exact Hq|].
          intros i Hi. rewrite repeat_length. apply split_lt. apply in_app_iff. now left.
        + apply In_nth with (d := 0) in Hp. destruct Hp as (q & Hq & <-).
          rewrite scatter_in; [now apply HG|exact HO|unfold gather; apply map_length|exact Hq|].
          intros i Hi. rewrite scatter_length, repeat_length. apply split_lt. apply in_app_iff. now right.
    Qed.

    Lemma unpack_concat x y : length x = length (unobs_inds m) -> length y = length (obs_inds m) ->
      unpack zero (concat_parts zero w h x y m) m = (x, y) /\ image_shape w h (concat_parts zero w h x y m).
    Proof.
      intros Hx Hy. destruct (NoDup_app_inv _ _ split_NoDup) as [HU HO]. split.
      - unfold unpack, concat_parts. rewrite ravel_unravel by now rewrite !scatter_length, repeat_length. f_equal.
        + rewrite gather_scatter_other by (intros i Hi Hi'; eapply split_disjoint; eauto).
          apply gather_scatter_same; [exact HU|exact Hx|].
          intros i Hi. rewrite repeat_length. apply split_lt. apply in_app_iff. now left.
        + apply gather_scatter_same; [exact HO|exact Hy|].
          intros i Hi. rewrite scatter_length, repeat_length. apply split_lt. apply in_app_iff. now right.
      - unfold concat_parts. apply unravel_shape. now rewrite !scatter_length, repeat_length.
    Qed.
  End Split.
End Parts.
