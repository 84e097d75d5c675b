(** Consequences for [gen_mask], [unobs_shape], and what goes wrong outside the intended sizes. *)
From Coq Require Import Permutation Ascii String.
From Verif Require Import Base Prog Images ImagesProofs.
Open Scope nat_scope.

Definition inpaint_task (task : string) (s : nat) : Prop :=
  in_task "inpaint" task = true /\ parse_int (last_field task) = Some s.
Definition supr_task (task : string) (s : nat) : Prop :=
  in_task "inpaint" task = false /\ in_task "supr" task = true /\ parse_int (last_field task) = Some s.

Lemma gen_inpaint_ok k task w h s random : inpaint_task task s -> 1 <= w -> 1 <= h -> 1 <= s ->
  safe (gen_mask k task w h random) (fun om => exists m, om = Some m /\
    splits_image (w * h) m /\ is_rectangle w h (Nat.min s w) (Nat.min s h) (unobs_inds m) /\
    length (unobs_inds m) = Nat.min s w * Nat.min s h).
Proof.
  intros [H1 H2] Hw Hh Hs. unfold gen_mask. rewrite H1, H2. now apply inpaint_mask_ok.
Qed.

Lemma gen_supr_ok k task qw qh rate random : supr_task task rate -> 1 <= rate -> 1 <= qw -> 1 <= qh ->
  safe (gen_mask k task (qw * rate) (qh * rate) random) (fun om => exists m, om = Some m /\
    splits_image (qw * rate * (qh * rate)) m /\ one_per_block qw qh (qh * rate) rate (obs_inds m) /\
    length (obs_inds m) = qw * qh /\ length (unobs_inds m) = qw * rate * (qh * rate) - qw * qh).
Proof.
  intros (H0 & H1 & H2) Hr Hw Hh. unfold gen_mask. rewrite H0, H1, H2. now apply supr_gen_ok.
Qed.

Lemma gen_unknown k task w h random : in_task "inpaint" task = false -> in_task "supr" task = false ->
  safe (gen_mask k task w h random) (fun om => om = None) /\ unobs_shape task w h = None.
Proof.
  intros H1 H2. unfold gen_mask, unobs_shape. rewrite H1, H2. split; [now apply safe_ret|].
  now destruct (parse_int _).
Qed.

(** ** Super-resolution needs a rate dividing both sides *)

Lemma ceil_ge n r : 1 <= r -> n <= (n + r - 1) / r * r /\ ((n + r - 1) / r * r = n -> n mod r = 0).
Proof.
  intros Hr. pose proof (Nat.div_mod (n + r - 1) r ltac:(lia)) as E.
  pose proof (Nat.mod_upper_bound (n + r - 1) r ltac:(lia)) as B.
  rewrite (Nat.mul_comm r) in E. split; [lia|].
  intros E'. rewrite <- E'. apply Nat.mod_mul. lia.
Qed.

Lemma range_step_length n r : length (range_step n r) = (n + r - 1) / r.
Proof. unfold range_step. now rewrite map_length, seq_length. Qed.

Lemma supr_needs_division w h rate shifts : 1 <= rate -> 1 <= w -> 1 <= h ->
  (w mod rate <> 0 \/ h mod rate <> 0) -> length shifts = w * h / (rate * rate) -> 2 <= length shifts ->
  supr_mask w h rate shifts = None.
Proof.
  intros Hr Hw Hh Hmod Hlen H2. unfold supr_mask, broadcast2.
  assert (HL : length (list_prod (range_step w rate) (range_step h rate))
               = (w + rate - 1) / rate * ((h + rate - 1) / rate)) by now rewrite prod_length, !range_step_length.
  destruct (ceil_ge w rate Hr) as [A1 A2]. destruct (ceil_ge h rate Hr) as [B1 B2].
  set (a := (w + rate - 1) / rate) in *. set (b := (h + rate - 1) / rate) in *.
  assert (Hlt : length shifts < a * b).
  { rewrite Hlen. apply Nat.div_lt_upper_bound; [nia|].
    assert (w * h < a * rate * (b * rate)) by (destruct Hmod; nia). nia. }
  rewrite HL. destruct (Nat.eqb_spec (a * b) (length shifts)) as [E|_]; [lia|].
  destruct (list_prod _ _) as [|x [|x' l]]; cbn [length] in HL; try lia.
  destruct shifts as [|s [|s' l']]; cbn [length] in H2; try lia. reflexivity.
Qed.

Lemma gen_supr_needs_division k task w h rate random : supr_task task rate -> 1 <= rate -> 1 <= w -> 1 <= h ->
  (w mod rate <> 0 \/ h mod rate <> 0) -> 2 * (rate * rate) <= w * h ->
  safe (gen_mask k task w h random) (fun om => om = None).
Proof.
  intros (H0 & H1 & H2) Hr Hw Hh Hmod Hbig. unfold gen_mask. rewrite H0, H1, H2. unfold gen_supr_mask.
  destruct (Nat.eqb_spec rate 0) as [E|_]; [lia|]. destruct (Nat.eqb_spec (w * h) 0) as [E|_]; [nia|]. cbn [orb]. cbv zeta.
  assert (Hn : 2 <= w * h / (rate * rate)) by (apply Nat.div_le_lower_bound; nia).
  destruct random.
  - apply safe_rint. intros l Hl _. apply safe_ret. apply pairs_length in Hl. apply supr_needs_division; try assumption; lia.
  - apply safe_ret. apply supr_needs_division; try assumption; rewrite repeat_length; lia.
Qed.

(** ** unobs_shape *)

Lemma shape_inpaint k task w h s random : inpaint_task task s -> 1 <= s -> s <= w -> s <= h ->
  safe (gen_mask k task w h random) (fun om => exists m, om = Some m /\ unobs_shape task w h = Some (length (unobs_inds m))).
Proof.
  intros Ht Hs Hw Hh. eapply safe_weaken; [|apply (gen_inpaint_ok k task w h s random Ht); lia].
  intros om (m & -> & _ & _ & HL). exists m. split; [reflexivity|].
  destruct Ht as [H1 H2]. unfold unobs_shape. rewrite H1, H2, HL, !Nat.min_l by lia. reflexivity.
Qed.

Lemma shape_inpaint_wrong k task w h s random : inpaint_task task s -> 1 <= w -> 1 <= h -> (w < s \/ h < s) ->
  safe (gen_mask k task w h random) (fun om => exists m, om = Some m /\ unobs_shape task w h <> Some (length (unobs_inds m))).
Proof.
  intros Ht Hw Hh Hs. eapply safe_weaken; [|apply (gen_inpaint_ok k task w h s random Ht); lia].
  intros om (m & -> & _ & _ & HL). exists m. split; [reflexivity|].
  destruct Ht as [H1 H2]. unfold unobs_shape. rewrite H1, H2, HL. intros E. injection E as E. 
  assert (Nat.min s w * Nat.min s h < s * s) by (apply Nat.le_lt_trans with (Nat.min s w * s); [apply Nat.mul_le_mono_l; lia|]; destruct Hs; nia).
  lia.
Qed.

Lemma shape_supr k task qw qh rate random : supr_task task rate -> 1 <= rate -> 1 <= qw -> 1 <= qh ->
  safe (gen_mask k task (qw * rate) (qh * rate) random)
    (fun om => exists m, om = Some m /\ unobs_shape task (qw * rate) (qh * rate) = Some (length (unobs_inds m))).
Proof.
  intros Ht Hr Hw Hh. eapply safe_weaken; [|apply (gen_supr_ok k task qw qh rate random Ht); lia].
  intros om (m & -> & _ & _ & _ & HL). exists m. split; [reflexivity|].
  destruct Ht as (H0 & H1 & H2). unfold unobs_shape. rewrite H0, H1, H2, HL.
  destruct (Nat.eqb_spec rate 0) as [E|_]; [lia|]. f_equal.
  replace (qw * rate * (qh * rate)) with (qw * qh * (rate * rate)) by lia.
  replace (qw * qh * (rate * rate) * (rate * rate - 1)) with (qw * qh * (rate * rate - 1) * (rate * rate)) by lia.
  rewrite Nat.div_mul by nia. nia.
Qed.

(** ** Round trips for the masks that [gen_mask] produces *)

Lemma gen_mask_splits k task w h s random : 1 <= w -> 1 <= h -> 1 <= s ->
  inpaint_task task s \/ (supr_task task s /\ w mod s = 0 /\ h mod s = 0) ->
  safe (gen_mask k task w h random) (fun om => exists m, om = Some m /\ splits_image (w * h) m).
Proof.
  intros Hw Hh Hs [Ht|(Ht & Hmw & Hmh)].
  - eapply safe_weaken; [|apply (gen_inpaint_ok k task w h s random Ht); lia].
    intros om (m & -> & H & _). now exists m.
  - apply Nat.mod_divides in Hmw; [|lia]. apply Nat.mod_divides in Hmh; [|lia].
    destruct Hmw as [qw ->], Hmh as [qh ->]. rewrite (Nat.mul_comm s qw), (Nat.mul_comm s qh) in *.
    eapply safe_weaken; [|apply (gen_supr_ok k task qw qh s random Ht); nia].
    intros om (m & -> & H & _). now exists m.
Qed.

Lemma round_trip {A} (zero : A) k task w h s random : 1 <= w -> 1 <= h -> 1 <= s ->
  inpaint_task task s \/ (supr_task task s /\ w mod s = 0 /\ h mod s = 0) ->
  safe (gen_mask k task w h random) (fun om => exists m, om = Some m /\
    (forall img, image_shape w h img -> concat_parts zero w h (fst (unpack zero img m)) (snd (unpack zero img m)) m = img) /\
    (forall x y, length x = length (unobs_inds m) -> length y = length (obs_inds m) ->
       unpack zero (concat_parts zero w h x y m) m = (x, y) /\ image_shape w h (concat_parts zero w h x y m))).
Proof.
  intros Hw Hh Hs Ht. eapply safe_weaken; [|apply (gen_mask_splits k task w h s random Hw Hh Hs Ht)].
  intros om (m & -> & H). exists m. split; [reflexivity|]. split.
  - intros img Hi. now apply concat_unpack.
  - intros x y Hx Hy. now apply unpack_concat.
Qed.

(** A 3 x 2 image at rate 2: the mask is produced (by broadcasting one shift to two blocks) but
    an index appears twice, and [unpack] does not give back what [concat] was given. *)
Lemma round_trip_fails : exists k task w h s m (x y : list nat), supr_task task s /\
  runs (gen_mask k task w h true) [k] (Some m) /\ ~ splits_image (w * h) m /\
  length x = length (unobs_inds m) /\ length y = length (obs_inds m) /\
  unpack 0 (concat_parts 0 w h x y m) m <> (x, y) /\ unobs_shape task w h <> Some (length (unobs_inds m)).
Proof.
  exists [], "supr-2"%string, 3, 2, 2.
  set (m0 := mk_mask 2 2 [1; 2; 3; 5; 0] [0; 4]).
  exists m0, [1; 2; 3; 5; 7], [8; 9]. repeat split.
  - cbn. exists [0; 0], []. repeat split. repeat constructor.
  - intros H. apply Permutation_length in H. cbn in H. lia.
  - cbn. intros H. discriminate H.
  - cbn. discriminate.
Qed.

(** ** Where the inpainting window can be *)

Lemma inpaint_corners k task w s random : inpaint_task task s -> 1 <= s -> s < w ->
  safe (gen_mask k task w w random) (fun om => exists m, om = Some m /\
    ~ In (pixel w (w - 1) (w - 1)) (unobs_inds m) /\ ~ In (pixel w 0 (w - 1)) (unobs_inds m) /\ ~ In (pixel w (w - 1) 0) (unobs_inds m)).
Proof.
  intros [H1 H2] Hs Hw. unfold gen_mask. rewrite H1, H2. unfold gen_inpaint_mask. rewrite !Nat.min_l by lia.
  destruct (Nat.eqb_spec (s * s) 0) as [E|_]; [nia|]. destruct (Nat.eqb_spec (w * w) 0) as [E|_]; [nia|]. cbn [orb]. cbv zeta.
  apply safe_rint. intros l Hl Hlt. apply safe_ret.
  destruct l as [|sh [|? ?]]; try discriminate Hl. cbn [nth]. apply Forall_inv in Hlt. unfold rint_hi in Hlt.
  rewrite ?Nat.min_id, ?Nat.max_id in Hlt.
  exists (inpaint_mask w w s s sh). split; [reflexivity|].
  assert (B1 : s + sh <= w) by lia.
  repeat split; intros H; apply rect_In in H; try lia; destruct H as (i & j & Hi & Hj & E); apply pixel_inj in E; lia.
Qed.

(** The window is uniform among the w - s squares on the diagonal whose corner is at (j, j). *)
Lemma inpaint_window_law k task w s random : inpaint_task task s -> 1 <= s -> s < w ->
  exists m : nat -> mask,
    (forall f, law (gen_mask k task w w random) f = (/ INR (w - s) * Rsum (map (fun j => f (Some (m j))) (seq 0 (w - s))))%R) /\
    (forall j r c, j < w - s -> r < w -> c < w -> In (pixel w r c) (unobs_inds (m j)) <-> j <= r < j + s /\ j <= c < j + s).
Proof.
  intros [H1 H2] Hs Hw. exists (inpaint_mask w w s s). split.
  - intros f. unfold gen_mask. rewrite H1, H2. unfold gen_inpaint_mask. rewrite !Nat.min_l by lia.
    destruct (Nat.eqb_spec (s * s) 0) as [E|_]; [nia|]. destruct (Nat.eqb_spec (w * w) 0) as [E|_]; [nia|]. cbn [orb]. cbv zeta.
    rewrite ?Nat.min_id, ?Nat.max_id. cbn [law repeat]. rewrite E_dseq_cons, E_dunif.
    replace (rint_hi (w - s)) with (w - s) by (unfold rint_hi; lia). f_equal. apply Rsum_map_ext. intros j _. cbn [dseq]. rewrite E_dret. reflexivity.
  - intros j r c Hj Hr Hc. rewrite rect_In by lia. split.
    + intros (a & b & Ha & Hb & E). apply pixel_inj in E; lia.
    + intros [Hr' Hc']. exists (r - j), (c - j). repeat split; try lia. f_equal; lia.
Qed.

(** The sampler and the channel concatenation. *)

Lemma channel_round_trip {A} c (x y : list (list (list A))) :
  length x = length y -> Forall (Forall (fun p => length p = c)) x ->
  Forall2 (fun r r' => length r = length r') x y -> channel_unpack c (channel_concat x y) = (x, y).
Proof.
  intros _ Hc H. unfold channel_unpack, channel_concat. revert Hc. induction H as [|r r' x y Hr H IH]; intros Hc; [reflexivity|].
  inversion Hc as [|? ? Hr0 Hc']; subst. specialize (IH Hc'). injection IH as I1 I2.
  cbn [combine map]. rewrite I1, I2. clear I1 I2 H Hc Hc'. cbn [fst snd].
  assert (G : map (firstn c) (map (fun p => fst p ++ snd p) (combine r r')) = r /\
              map (skipn c) (map (fun p => fst p ++ snd p) (combine r r')) = r').
  { revert r' Hr. induction Hr0 as [|p r Hp Hr0 IH]; intros [|p' r'] Hr; cbn in *; try discriminate; [split; reflexivity|].
    injection Hr as Hr. destruct (IH _ Hr) as [-> ->]. subst c.
    rewrite firstn_app, Nat.sub_diag, firstn_O, app_nil_r, firstn_all, skipn_app, Nat.sub_diag, skipn_all. split; reflexivity. }
  destruct G as [-> ->]. reflexivity.
Qed.
