(** Property C135: the observation of the super-resolution scripts as a small image, and the start interpolated from it. *)
From Coquelicot Require Import Coquelicot.
From Coq Require Import Reals List Lia Lra String.
From Verif Require Import Base Dist Prog Images ImagesProofs ImagesMore LowRes.
Import ListNotations.
Open Scope R_scope.

(** [reshape(y0, (low_res, low_res))] shows, at (i, j), the observed pixel of block (i, j); with the fixed mask that is the pixel at offset rate // 2. *)
Theorem C135_low_res_image : forall k task q rate random, supr_task task rate -> (1 <= rate)%nat -> (1 <= q)%nat ->
  safe (gen_mask k task (q * rate) (q * rate) random) (fun om => exists m, om = Some m /\ exists shift : nat -> nat -> nat * nat,
    (forall i j, (i < q)%nat -> (j < q)%nat -> (fst (shift i j) < rate)%nat /\ (snd (shift i j) < rate)%nat /\ (random = false -> shift i j = (rate / 2, rate / 2)%nat)) /\
    forall (A : Type) (zero : A) (img : list (list A)), image_shape (q * rate) (q * rate) img -> forall i j, (i < q)%nat -> (j < q)%nat ->
      nth j (nth i (low_res_image (q * rate) rate (snd (unpack zero img m))) []) zero =
      nth (j * rate + snd (shift i j)) (nth (i * rate + fst (shift i j)) img []) zero).
Proof. exact low_res_blocks. Qed.

(** The interpolated start has one value per hidden pixel, and stays within the range of the observed values. *)
Theorem C135_interp_range : forall k task q rate random, supr_task task rate -> (1 <= rate)%nat -> (1 <= q)%nat ->
  safe (gen_mask k task (q * rate) (q * rate) random) (fun om => exists m, om = Some m /\ forall y a b, List.length y = (q * q)%nat -> Forall (fun v => a <= v <= b) y ->
    List.length (interp_x0_sampler (q * rate) rate y m) = List.length (unobs_inds m) /\ Forall (fun v => a <= v <= b) (interp_x0_sampler (q * rate) rate y m)).
Proof. exact interp_range_safe. Qed.

(** Fixed mask, odd rate: the interpolated image keeps the observed pixels. *)
Theorem C135_odd_rate_keeps_observed : forall k task q h, supr_task task (2 * h + 1) -> (1 <= q)%nat -> let rate := (2 * h + 1)%nat in
  safe (gen_mask k task (q * rate) (q * rate) false) (fun om => exists m, om = Some m /\ forall img, image_shape (q * rate) (q * rate) img ->
    forall i j, (i < q)%nat -> (j < q)%nat ->
    nth (j * rate + h) (nth (i * rate + h) (upsample rate q (low_res_image (q * rate) rate (snd (unpack 0 img m)))) []) 0 = nth (j * rate + h) (nth (i * rate + h) img []) 0).
Proof. exact interp_keeps_safe. Qed.

(** Fixed mask: on an image that varies linearly, the start has the true value for odd rates, and the value half a pixel down and right for even ones. *)
Theorem C135_interp_linear_image : forall k task q rate, supr_task task rate -> (1 <= rate)%nat -> (1 <= q)%nat ->
  safe (gen_mask k task (q * rate) (q * rate) false) (fun om => exists m, om = Some m /\ forall al be ga t, (t < List.length (unobs_inds m))%nat ->
    forall o1 o2, (o2 < q * rate)%nat -> nth t (unobs_inds m) 0%nat = (o1 * (q * rate) + o2)%nat -> in_hull q rate o1 -> in_hull q rate o2 ->
    nth t (interp_x0_sampler (q * rate) rate (snd (unpack 0 (ramp (q * rate) al be ga) m)) m) 0 =
    al + be * (INR o1 + if Nat.even rate then / 2 else 0) + ga * (INR o2 + if Nat.even rate then / 2 else 0)).
Proof. exact interp_ramp_safe. Qed.

(** So at the default rate 4 the start of a linear ramp is not the ramp: the hidden pixel (14, 15) of value 15 is given 15.5. *)
Theorem C135_default_rate_reproduces_linear_image_refuted : forall k, exists m, runs (gen_mask k "supr-4" 28 28 false) [] (Some m) /\
  (382 < List.length (unobs_inds m))%nat /\ nth 382 (unobs_inds m) 0%nat = (14 * 28 + 15)%nat /\
  let img := ramp 28 0 0 1 in nth 15 (nth 14 img []) 0 = 15 /\ nth 382 (fst (unpack 0 img m)) 0 = 15 /\
  nth 382 (interp_x0_sampler 28 4 (snd (unpack 0 img m)) m) 0 = 15 + / 2.
Proof. exact default_off_by_half. Qed.

Example C135_example : supr_task "supr-4" 4 /\ supr_task "supr-7" (2 * 3 + 1) /\ (7 * 4 = 28)%nat /\ (4 * 7 = 28)%nat /\ in_hull 7 4 14 /\ ~ in_hull 7 4 1 /\
  upsample 2 2 [[0; 8]; [0; 8]] = [[0; 2; 6; 8]; [0; 2; 6; 8]; [0; 2; 6; 8]; [0; 2; 6; 8]].
Proof.
  split; [repeat split|]. split; [repeat split|]. split; [reflexivity|]. split; [reflexivity|]. split; [unfold in_hull; lia|]. split; [unfold in_hull; lia|].
  assert (W : forall o, lin_weight 2 2 o 0 = tri_weight 2 o 0 / (tri_weight 2 o 0 + tri_weight 2 o 1) /\ lin_weight 2 2 o 1 = tri_weight 2 o 1 / (tri_weight 2 o 0 + tri_weight 2 o 1))
    by (intros o; unfold lin_weight; cbn [seq map Rsum]; rewrite Rplus_0_r; split; reflexivity).
  assert (T : forall o k v, 0 <= v -> 1 - Rabs ((INR o + / 2) / INR 2 - / 2 - INR k) = v -> tri_weight 2 o k = v) by (intros o k v Hv E; unfold tri_weight; rewrite E; now apply Rmax_right).
  assert (Z : forall o k, 1 - Rabs ((INR o + / 2) / INR 2 - / 2 - INR k) <= 0 -> tri_weight 2 o k = 0) by (intros o k E; unfold tri_weight; now apply Rmax_left).
  assert (T00 : tri_weight 2 0 0 = 3 / 4) by (apply T; [lra|cbn [INR]; unfold Rabs; destruct Rcase_abs; lra]).
  assert (T01 : tri_weight 2 0 1 = 0) by (apply Z; cbn [INR]; unfold Rabs; destruct Rcase_abs; lra).
  assert (T10 : tri_weight 2 1 0 = 3 / 4) by (apply T; [lra|cbn [INR]; unfold Rabs; destruct Rcase_abs; lra]).
  assert (T11 : tri_weight 2 1 1 = / 4) by (apply T; [lra|cbn [INR]; unfold Rabs; destruct Rcase_abs; lra]).
  assert (T20 : tri_weight 2 2 0 = / 4) by (apply T; [lra|cbn [INR]; unfold Rabs; destruct Rcase_abs; lra]).
  assert (T21 : tri_weight 2 2 1 = 3 / 4) by (apply T; [lra|cbn [INR]; unfold Rabs; destruct Rcase_abs; lra]).
  assert (T30 : tri_weight 2 3 0 = 0) by (apply Z; cbn [INR]; unfold Rabs; destruct Rcase_abs; lra).
  assert (T31 : tri_weight 2 3 1 = 3 / 4) by (apply T; [lra|cbn [INR]; unfold Rabs; destruct Rcase_abs; lra]).
  destruct (W 0%nat) as [W00 W01], (W 1%nat) as [W10 W11], (W 2%nat) as [W20 W21], (W 3%nat) as [W30 W31]. rewrite T00, T01 in W00, W01. rewrite T10, T11 in W10, W11. rewrite T20, T21 in W20, W21. rewrite T30, T31 in W30, W31.
  unfold upsample. cbn [Nat.mul Nat.add seq map Rsum nth]. rewrite W00, W01, W10, W11, W20, W21, W30, W31. repeat (f_equal; try lra).
Qed.

Print Assumptions C135_low_res_image.
Print Assumptions C135_interp_range.
Print Assumptions C135_odd_rate_keeps_observed.
Print Assumptions C135_interp_linear_image.
Print Assumptions C135_default_rate_reproduces_linear_image_refuted.
Print Assumptions C135_example.
