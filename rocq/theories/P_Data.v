(** Properties of the datasets. *)
From Coq Require Import Permutation String ZArith.
From Verif Require Import CrescentScore Base Prog Images ImagesProofs ImagesMore Corrupt CorruptProofs Dataset Crescent DataKeys.
Open Scope nat_scope.

(** ** C44 *)
Theorem C44_inpaint_mask : forall k task w h s random, inpaint_task task s -> 1 <= w -> 1 <= h -> 1 <= s ->
  safe (gen_mask k task w h random) (fun om => exists m, om = Some m /\
    splits_image (w * h) m /\ is_rectangle w h (Nat.min s w) (Nat.min s h) (unobs_inds m) /\
    length (unobs_inds m) = Nat.min s w * Nat.min s h).
Proof. exact gen_inpaint_ok. Qed.
Print Assumptions C44_inpaint_mask.

Example C44_instance : inpaint_task "inpaint-15" 15 /\
  exists m, runs (gen_mask [] "inpaint-15" 28 28 true) [[]] (Some m) /\ In (pixel 28 12 12) (unobs_inds m) /\ ~ In (pixel 28 0 0) (unobs_inds m).
Proof.
  split; [split; reflexivity|]. eexists. split; [|split].
  - cbn [gen_mask]. exists [5], []. split; [reflexivity|]. split; [reflexivity|]. split; [|split; reflexivity].
    repeat constructor.
  - apply mem_In. vm_compute. reflexivity.
  - intros H. apply mem_In in H. vm_compute in H. discriminate.
Qed.

(** ** C45 *)
Theorem C45_supr_mask : forall k task qw qh rate random, supr_task task rate -> 1 <= rate -> 1 <= qw -> 1 <= qh ->
  safe (gen_mask k task (qw * rate) (qh * rate) random) (fun om => exists m, om = Some m /\
    splits_image (qw * rate * (qh * rate)) m /\ one_per_block qw qh (qh * rate) rate (obs_inds m) /\
    length (obs_inds m) = qw * qh /\ length (unobs_inds m) = qw * rate * (qh * rate) - qw * qh).
Proof. exact gen_supr_ok. Qed.
Print Assumptions C45_supr_mask.

(** Any other rate is rejected (shapes do not broadcast), as soon as there are two blocks. *)
Theorem C45_other_rates_rejected : forall k task w h rate random, supr_task task rate -> 1 <= rate -> 1 <= w -> 1 <= h ->
  (w mod rate <> 0 \/ h mod rate <> 0) -> 2 * (rate * rate) <= w * h ->
  safe (gen_mask k task w h random) (fun om => om = None).
Proof. exact gen_supr_needs_division. Qed.
Print Assumptions C45_other_rates_rejected.

Theorem C45_unknown_task_rejected : forall k task w h random, in_task "inpaint" task = false -> in_task "supr" task = false ->
  safe (gen_mask k task w h random) (fun om => om = None) /\ unobs_shape task w h = None.
Proof. exact gen_unknown. Qed.
Print Assumptions C45_unknown_task_rejected.

Example C45_instance : supr_task "supr-4" 4 /\ supr_task "supr-3" 3 /\ (28 mod 3 <> 0) /\ 2 * (3 * 3) <= 28 * 28 /\
  in_task "inpaint" "deconv-15" = false /\ in_task "supr" "deconv-15" = false.
Proof. repeat split; try reflexivity; try (vm_compute; lia); discriminate. Qed.

(** ** C46 *)
Theorem C46_round_trip : forall (A : Type) (zero : A) k task w h s random, 1 <= w -> 1 <= h -> 1 <= s ->
  inpaint_task task s \/ (supr_task task s /\ w mod s = 0 /\ h mod s = 0) ->
  safe (gen_mask k task w h random) (fun om => exists m, om = Some m /\
    (forall img, image_shape w h img -> concat_parts zero w h (fst (unpack zero img m)) (snd (unpack zero img m)) m = img) /\
    (forall x y, length x = length (unobs_inds m) -> length y = length (obs_inds m) ->
       unpack zero (concat_parts zero w h x y m) m = (x, y) /\ image_shape w h (concat_parts zero w h x y m))).
Proof. exact @round_trip. Qed.
Print Assumptions C46_round_trip.

Theorem C46_channels : forall (A : Type) c (x y : list (list (list A))),
  length x = length y -> Forall (Forall (fun p => length p = c)) x ->
  Forall2 (fun r r' => length r = length r') x y -> channel_unpack c (channel_concat x y) = (x, y).
Proof. exact @channel_round_trip. Qed.
Print Assumptions C46_channels.

(** The claim for every mask that [gen_mask] produces is false: degenerate super-resolution masks. *)
Theorem C46_every_mask_refuted : exists k task w h s m (x y : list nat), supr_task task s /\
  runs (gen_mask k task w h true) [k] (Some m) /\ ~ splits_image (w * h) m /\
  length x = length (unobs_inds m) /\ length y = length (obs_inds m) /\
  unpack 0 (concat_parts 0 w h x y m) m <> (x, y) /\ unobs_shape task w h <> Some (length (unobs_inds m)).
Proof. exact round_trip_fails. Qed.
Print Assumptions C46_every_mask_refuted.

Example C46_instance : exists m, runs (gen_mask [] "supr-2" 2 4 false) [] (Some m) /\
  unpack 0 [[1; 2; 3; 4]; [5; 6; 7; 8]] m = ([1; 2; 3; 4; 5; 7], [6; 8]) /\
  concat_parts 0 2 4 [1; 2; 3; 4; 5; 7] [6; 8] m = [[1; 2; 3; 4]; [5; 6; 7; 8]].
Proof. eexists. split; [split; [reflexivity|vm_compute; reflexivity]|]. split; vm_compute; reflexivity. Qed.

(** ** C47 *)
Theorem C47_inpaint_shape : forall k task w h s random, inpaint_task task s -> 1 <= s -> s <= w -> s <= h ->
  safe (gen_mask k task w h random) (fun om => exists m, om = Some m /\ unobs_shape task w h = Some (length (unobs_inds m))).
Proof. exact shape_inpaint. Qed.
Print Assumptions C47_inpaint_shape.

Theorem C47_supr_shape : forall k task qw qh rate random, supr_task task rate -> 1 <= rate -> 1 <= qw -> 1 <= qh ->
  safe (gen_mask k task (qw * rate) (qh * rate) random)
    (fun om => exists m, om = Some m /\ unobs_shape task (qw * rate) (qh * rate) = Some (length (unobs_inds m))).
Proof. exact shape_supr. Qed.
Print Assumptions C47_supr_shape.

(** For a window larger than the image the attribute is wrong, for every draw. *)
Theorem C47_large_window_refuted : forall k task w h s random, inpaint_task task s -> 1 <= w -> 1 <= h -> (w < s \/ h < s) ->
  safe (gen_mask k task w h random) (fun om => exists m, om = Some m /\ unobs_shape task w h <> Some (length (unobs_inds m))).
Proof. exact shape_inpaint_wrong. Qed.
Print Assumptions C47_large_window_refuted.

Example C47_instance : unobs_shape "inpaint-15" 28 28 = Some 225 /\ unobs_shape "supr-4" 64 64 = Some 3840 /\
  inpaint_task "inpaint-30" 30 /\ 28 < 30.
Proof. repeat split; try (vm_compute; reflexivity). lia. Qed.

(** ** C48 *)
Theorem C48_paint : forall k h w img rs, rs <= h -> rs <= w ->
  safe (paint k h w img rs) (fun y => exists a b, a + rs <= h /\ b + rs <= w /\ blanked rs a b img y).
Proof. exact paint_spec. Qed.
Print Assumptions C48_paint.

Theorem C48_unknown_task_rejected : forall k task n1 n2 nc img, in_task "inpaint" task = false -> in_task "deconv" task = false ->
  in_task "supr" task = false -> corrupt k task n1 n2 nc img = Ret None.
Proof. exact corrupt_unknown. Qed.
Print Assumptions C48_unknown_task_rejected.

(** Larger rectangles are not cut to the image but shrink to a corner. *)
Theorem C48_oversized_refuted : exists k img y, runs (paint k 4 4 img 5) [k] y /\
  (forall i j c, i < 4 -> j < 4 -> img i j c = 1%R) /\
  (forall i j c, i < 4 -> j < 4 -> y i j c = if (i =? 3) && (j =? 3) then 0%R else 1%R).
Proof. exact paint_oversized. Qed.
Print Assumptions C48_oversized_refuted.

Example C48_instance : starts 28 15 = [0; 4; 8; 13]%Z.
Proof. reflexivity. Qed.

(** ** C49 *)
Theorem C49_downsample : forall k w h img, 8 <= w -> 8 <= h ->
  safe (downsample k w h img) (fun y => exists y' r, y = Some y' /\ (r = 4 \/ r = 8) /\
    (forall i j c, i < w -> j < h -> exists i' j', i' < w /\ j' < h /\ y' i j c = img i' j' c) /\
    (forall i j c, i < w -> j < h -> down w h r y' i j c = y' i j c) /\
    (w mod r = 0 -> h mod r = 0 -> forall a b i j i' j' c, i < r -> j < r -> i' < r -> j' < r ->
        a * r + i < w -> b * r + j < h -> y' (a * r + i) (b * r + j) c = y' (a * r + i') (b * r + j') c)).
Proof. exact downsample_spec. Qed.
Print Assumptions C49_downsample.

Example C49_instance : map (down_index 8 4) (seq 0 8) = [2; 2; 2; 2; 6; 6; 6; 6] /\ 28 mod 8 <> 0 /\
  map (down_index 28 8) (seq 0 28) = repeat 4 9 ++ repeat 14 10 ++ repeat 23 9.
Proof. repeat split; try reflexivity. discriminate. Qed.

(** ** C50 *)
Theorem C50_clip : forall x : R, (0 <= clip01 x <= 1)%R /\ ((0 <= x <= 1)%R -> clip01 x = x) /\ clip01 (clip01 x) = clip01 x /\
  (forall y, (x <= y)%R -> (clip01 x <= clip01 y)%R).
Proof. exact clip01_spec. Qed.
Print Assumptions C50_clip.

Theorem C50_norm : forall n1 n2 img c i0 j0 i1 j1, i0 < n1 -> j0 < n2 -> i1 < n1 -> j1 < n2 ->
  img i0 j0 c <> img i1 j1 c ->
  (forall i j, i < n1 -> j < n2 -> exists v, normalise_norm n1 n2 img i j c = Some v /\ (0 <= v <= 1)%R) /\
  (exists i j, i < n1 /\ j < n2 /\ normalise_norm n1 n2 img i j c = Some 0%R) /\
  (exists i j, i < n1 /\ j < n2 /\ normalise_norm n1 n2 img i j c = Some 1%R) /\
  (forall i j i' j', i < n1 -> j < n2 -> i' < n1 -> j' < n2 -> (img i j c <= img i' j' c)%R ->
     forall v v', normalise_norm n1 n2 img i j c = Some v -> normalise_norm n1 n2 img i' j' c = Some v' -> (v <= v')%R).
Proof. exact norm_spec. Qed.
Print Assumptions C50_norm.

(** A constant channel becomes NaN everywhere. *)
Theorem C50_constant_channel_refuted : forall n1 n2 img c v i j, 1 <= n1 -> 1 <= n2 ->
  (forall i j, i < n1 -> j < n2 -> img i j c = v) -> normalise_norm n1 n2 img i j c = None.
Proof. exact norm_constant. Qed.
Print Assumptions C50_constant_channel_refuted.

Example C50_instance : exists img : image, img 0 0 0 <> img 0 1 0 /\ clip01 (-3) = 0%R /\ clip01 7 = 1%R.
Proof.
  exists (fun _ j _ => INR j). split; [cbn; lra|].
  unfold clip01. cbv zeta. split; repeat (destruct (Rlt_dec _ _)); lra.
Qed.

(** ** C51 *)
Theorem C51_batches : forall n b perm, 1 <= b -> b <= n -> Permutation perm (seq 0 (enumeration_size n b)) ->
  exists ps, init_enumeration n b perm = Some ps /\ length ps = n / b /\ Forall (fun p => length p = b) ps /\
    Permutation (concat ps) (seq 0 (enumeration_size n b)).
Proof. exact init_enumeration_spec. Qed.
Print Assumptions C51_batches.

Theorem C51_epoch : forall (A : Type) (d : A) xs n b perm, length xs = n -> 1 <= b -> b <= n ->
  Permutation perm (seq 0 (enumeration_size n b)) ->
  exists ps, init_enumeration n b perm = Some ps /\
    Permutation (concat (map (enumerate_subset d xs ps) (seq 0 (n / b)))) (firstn (enumeration_size n b) xs).
Proof. exact @epoch_data. Qed.
Print Assumptions C51_epoch.

(** The same tail of the data is left out in every epoch, whatever is drawn. *)
Theorem C51_tail_never_used : forall n b perm ps p i, 1 <= b -> Permutation perm (seq 0 (enumeration_size n b)) ->
  init_enumeration n b perm = Some ps -> In p ps -> In i p -> i < n - n mod b.
Proof. exact tail_never_used. Qed.
Print Assumptions C51_tail_never_used.

Theorem C51_small_data_error : forall n b perm, n < b -> init_enumeration n b perm = None.
Proof. exact small_data_error. Qed.
Print Assumptions C51_small_data_error.

Example C51_instance : init_enumeration 7 3 [4; 0; 2; 5; 1; 3] = Some [[4; 0; 2]; [5; 1; 3]] /\
  Permutation [4; 0; 2; 5; 1; 3] (seq 0 (enumeration_size 7 3)).
Proof.
  split; [reflexivity|]. apply NoDup_Permutation.
  - repeat constructor; cbn; intuition lia.
  - apply seq_NoDup.
  - intros x. cbn. intuition lia.
Qed.

(** ** C52 *)
Theorem C52_standardise : forall l x y, In x l -> In y l -> x <> y ->
  exists l', standardise l = Some l' /\ length l' = length l /\ Rmean l' = 0%R /\ variance l' = 1%R.
Proof. exact standardise_spec. Qed.
Print Assumptions C52_standardise.

Theorem C52_constant_column : forall l, (forall x y, In x l -> In y l -> x = y) -> standardise l = None.
Proof. exact standardise_constant. Qed.
Print Assumptions C52_constant_column.

Theorem C52_reshape : forall a, ndim (reshape a) = 2 /\ elements (reshape a) = elements a /\ reshape (reshape a) = reshape a.
Proof. exact reshape_spec. Qed.
Print Assumptions C52_reshape.

Theorem C52_draw_subset : forall xs inds, (forall i, In i inds -> i < length xs) ->
  exists rows, draw_subset xs inds = Arr2 rows /\ length rows = length inds /\ Forall (fun r => In r xs) rows.
Proof. exact draw_subset_rows. Qed.
Print Assumptions C52_draw_subset.

Example C52_instance : In 1%R [1%R; 3%R] /\ In 3%R [1%R; 3%R] /\ 1%R <> 3%R /\ reshape (Arr1 [1%R; 3%R]) = Arr2 [[1%R]; [3%R]].
Proof. cbn. repeat split; try tauto. lra. Qed.

(** ** C53 *)
Open Scope R_scope.
(** The likelihood is the density of the draws; the prior is not. *)
Theorem C53_likelihood : forall psi xi y phi, 0 < xi ->
  log_cond_pdf psi xi y phi = scaled_logpdf (emission phi psi) (sqrt xi) y.
Proof. exact likelihood_matches. Qed.
Print Assumptions C53_likelihood.

Theorem C53_prior_refuted : forall phi, log_prior_pdf phi - drawn_logpdf phi = (fst phi) ^ 2 / 8 - ln (sqrt 2).
Proof. exact prior_gap. Qed.
Print Assumptions C53_prior_refuted.

(** the same against the draws themselves: [std_logpdf z0 + std_logpdf z1 - ln |j0 j1|] is the log density of [draw_phi z] *)
Theorem C53_prior_of_draws_refuted : forall z j0 j1,
  derivable_pt_lim (fun a => fst (draw_phi (a, snd z))) (fst z) j0 -> derivable_pt_lim (fun b => snd (draw_phi (fst z, b))) (snd z) j1 ->
  log_prior_pdf (draw_phi z) - (std_logpdf (fst z) + std_logpdf (snd z) - ln (Rabs (j0 * j1))) = fst z ^ 2 / 4 - ln (sqrt 2).
Proof. exact prior_gap_draws. Qed.
Print Assumptions C53_prior_of_draws_refuted.

(** the score: the gradient of the code's own log joint density ... *)
Theorem C53_score : forall psi xi a b y, psi <> 0 -> 0 < xi ->
  let '(s0, s1, sy) := score psi xi (a, b) y in
  let joint a b y := log_prior_pdf (a, b) + log_cond_pdf psi xi y (a, b) in
  derivable_pt_lim (fun a => joint a b y) a s0 /\ derivable_pt_lim (fun b => joint a b y) b s1 /\ derivable_pt_lim (fun y => joint a b y) y sy.
Proof. exact score_gradient. Qed.
Print Assumptions C53_score.

(** ... which is not the score of the law that the sampler draws from (the test in tests/test_datasets.py assumes it is) *)
Theorem C53_score_refuted : forall psi xi a b y g0 g1 gy, psi <> 0 -> 0 < xi ->
  let joint a b y := drawn_logpdf (a, b) + scaled_logpdf (emission (a, b) psi) (sqrt xi) y in
  derivable_pt_lim (fun a => joint a b y) a g0 -> derivable_pt_lim (fun b => joint a b y) b g1 -> derivable_pt_lim (fun y => joint a b y) y gy ->
  score psi xi (a, b) y = (g0 + a / 4, g1, gy).
Proof. exact score_gap_all. Qed.
Print Assumptions C53_score_refuted.
Example C53_score_instance : score 1 1 (2, 0) 0 = (-1/2 + -5, -5/2, 5/2) /\
  score 1 1 (2, 0) 0 <> (-1 + -5, -5/2, 5/2).
Proof. exact score_example. Qed.

Theorem C53_posterior_positive : forall psi xi y n X Y a b, (2 <= n)%nat -> (forall k, (S k < n)%nat -> X k < X (S k)) ->
  (forall k, (S k < n)%nat -> Y k < Y (S k)) -> 0 < posterior psi xi y n (xy_mesh X Y) a b.
Proof. exact posterior_pos. Qed.
Print Assumptions C53_posterior_positive.

Theorem C53_posterior_mass : forall psi xi y n x0 dx y0 dy, (2 <= n)%nat -> 0 < dx -> 0 < dy ->
  let X := fun k => x0 + INR k * dx in let Y := fun k => y0 + INR k * dy in
  mass n X Y (posterior psi xi y n (xy_mesh X Y)) = 1.
Proof. exact posterior_mass_uniform. Qed.
Print Assumptions C53_posterior_mass.

(** The two axes are integrated against each other's grid, so that unequal spacing gives a wrong mass. *)
Theorem C53_posterior_mass_refuted : exists n X Y psi xi y, (2 <= n)%nat /\ 0 < xi /\ psi <> 0 /\
  (forall k, (S k < n)%nat -> X k < X (S k)) /\ (forall k, (S k < n)%nat -> Y k < Y (S k)) /\
  mass n X Y (posterior psi xi y n (xy_mesh X Y)) <> 1.
Proof. exact posterior_mass_refuted. Qed.
Print Assumptions C53_posterior_mass_refuted.

Example C53_instance : log_prior_pdf (4, 0) - drawn_logpdf (4, 0) <> log_prior_pdf (0, 0) - drawn_logpdf (0, 0).
Proof. rewrite !prior_gap. cbn [fst]. lra. Qed.

(** ** C73: where the inpainting window may lie *)
Open Scope nat_scope.
Theorem C73_corners_never_hidden_refuted : forall k task w s random, inpaint_task task s -> 1 <= s -> s < w ->
  safe (gen_mask k task w w random) (fun om => exists m, om = Some m /\
    ~ In (pixel w (w - 1) (w - 1)) (unobs_inds m) /\ ~ In (pixel w 0 (w - 1)) (unobs_inds m) /\ ~ In (pixel w (w - 1) 0) (unobs_inds m)).
Proof. exact inpaint_corners. Qed.
Print Assumptions C73_corners_never_hidden_refuted.

(** exactly: the window is uniform among the w - s squares on the diagonal, the last one not included *)
Theorem C73_window_law : forall k task w s random, inpaint_task task s -> 1 <= s -> s < w ->
  exists m : nat -> mask,
    (forall f, law (gen_mask k task w w random) f = (/ INR (w - s) * Rsum (map (fun j => f (Some (m j))) (seq 0 (w - s))))%R) /\
    (forall j r c, j < w - s -> r < w -> c < w -> In (pixel w r c) (unobs_inds (m j)) <-> j <= r < j + s /\ j <= c < j + s).
Proof. exact inpaint_window_law. Qed.
Print Assumptions C73_window_law.

Example C73_instance : inpaint_task "inpaint-15" 15 /\ 15 < 28.
Proof. repeat split; lia. Qed.

(** ** C74: keys *)
Theorem C74_keys : forall k,
  (forall xs task n1 n2 nc, good [k] (image_sampler k xs task n1 n2 nc)) /\
  (forall task n1 n2 nc xs, good [k] (enumerate_images k task n1 n2 nc xs)) /\
  (forall (A : Type) (zero : A) xs n task w h random, good [k] (restore_sampler zero xs n task w h random k)) /\
  (forall normal psi xi batch, (forall k m d, good [k] (normal k m d)) -> good [k] (crescent_sampler normal psi xi batch k)).
Proof. exact dataset_keys. Qed.
Print Assumptions C74_keys.

(** ** C75: the blur *)
Theorem C75_range : forall k n1 n2 nc img n,
  safe (conv k n1 n2 nc img n) (fun y => forall i j o, i < n1 -> j < n2 ->
    match y i j o with Some v => (0 <= v <= 1)%R | None => forall i' j', i' < n1 -> j' < n2 -> y i' j' o = None end).
Proof. exact conv_range. Qed.
Print Assumptions C75_range.

(** All output channels are equal: colours are lost. *)
Theorem C75_channelwise_refuted : forall k n1 n2 nc img n,
  safe (conv k n1 n2 nc img n) (fun y => forall i j o o', y i j o = y i j o').
Proof. exact conv_channels_equal. Qed.
Print Assumptions C75_channelwise_refuted.

(** ** C76: a restoration sample *)
Theorem C76_restore_sample : forall (A : Type) (zero : A) xs n task w h s random k, length xs = n -> 1 <= n -> 1 <= w -> 1 <= h -> 1 <= s ->
  inpaint_task task s \/ (supr_task task s /\ w mod s = 0 /\ h mod s = 0) -> Forall (image_shape w h) xs ->
  safe (restore_sampler zero xs n task w h random k) (fun r => In (fst r) xs /\ exists y m, snd r = Some (y, m) /\
    splits_image (w * h) m /\ y = snd (unpack zero (fst r) m) /\
    concat_parts zero w h (fst (unpack zero (fst r) m)) y m = fst r).
Proof. exact @restore_sample_spec. Qed.
Print Assumptions C76_restore_sample.

Example C76_instance : inpaint_task "inpaint-2" 2 /\ supr_task "supr-2" 2 /\ 4 mod 2 = 0 /\
  Forall (image_shape 2 4) [[[1; 2; 3; 4]; [5; 6; 7; 8]]; [[0; 0; 0; 1]; [1; 0; 0; 0]]].
Proof. repeat split; repeat constructor. Qed.
