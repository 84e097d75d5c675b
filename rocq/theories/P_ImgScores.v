(** C118: the scores of the image table. *)
From Coquelicot Require Import Coquelicot.
From Coq Require Import Permutation.
From Verif Require Import Base Dist Corrupt CorruptProofs Mat ImgScores.
Open Scope R_scope.

(** the score falls as the error grows, is not negative, and clipping the restoration never lowers it *)
Theorem C118_psnr : forall n t r t' r', (0 < n)%nat -> 0 < mse n (to_img t) (to_img r) -> 0 < mse n (to_img t') (to_img r') ->
  0 <= table_psnr n t r /\ (table_psnr n t r <= table_psnr n t' r' <-> mse n (to_img t') (to_img r') <= mse n (to_img t) (to_img r)) /\ (unit_img n t -> psnr n 1 t r <= table_psnr n t r).
Proof. intros n t r t' r' Hn H H'. split; [now apply table_psnr_nonneg|]. split; [apply psnr_order; auto; lra|]. intros Ht. now apply clip_helps. Qed.
Print Assumptions C118_psnr.
Theorem C118_psnr_infinite : forall n a b, (0 < n)%nat -> (mse n a b = 0 <-> forall i, (i < n)%nat -> a i = b i).
Proof. exact mse_zero. Qed.
Print Assumptions C118_psnr_infinite.

(** when the restoration copies the observed entries (C93) the score is that of the hidden entries plus a constant of the task *)
Theorem C118_hidden : forall n hidden obs t r, Permutation (hidden ++ obs) (seq 0 n) -> hidden <> [] -> (forall i, In i obs -> r i = t i) -> 0 < mse_on hidden (to_img t) (to_img r) ->
  table_psnr n t r = psnr_of_mse (mse_on hidden (to_img t) (to_img r)) + 10 * (ln (INR n / INR (length hidden)) / ln 10).
Proof. intros n hidden obs t r HP Hh Ho Hp. apply (psnr_hidden n hidden obs); auto. intros i Hi. unfold to_img. now rewrite (Ho i Hi). Qed.
Print Assumptions C118_hidden.

Theorem C118_mean_psnr : forall n pairs, pairs <> [] -> Forall (fun p => 0 < mse n (to_img (fst p)) (to_img (snd p))) pairs ->
  psnr_of_mse (Rmean (map (fun p => mse n (to_img (fst p)) (to_img (snd p))) pairs)) <= mean_psnr n pairs.
Proof. exact mean_psnr_jensen. Qed.
Print Assumptions C118_mean_psnr.

(** for truths with law [D] (the posterior given the observation) and restorations drawn from [G]: the expected error splits into
    the spread of the posterior, the squared bias of the restoration and its own spread *)
Theorem C118_error_split : forall n (D G : dist flat), is_prob D -> is_prob G -> cross_mse n D G = spread n D + mse n (mean_img D) (mean_img G) + spread n G.
Proof. exact cross_mse_split. Qed.
Print Assumptions C118_error_split.

(** so the score does not rank samplers by how well they sample: among all samplers the constant at the posterior mean has the
    least error, and the exact posterior has twice that error, a loss of 10 log10(2) in the table *)
Theorem C118_exact_sampler_best_refuted : forall n (D : dist flat), is_prob D -> Forall (unit_img n) (map snd D) ->
  (forall G, is_prob G -> cross_mse n D (dret (mean_img D)) <= cross_mse n D G) /\
  E D (fun t => E D (fun r => mse n (to_img t) (to_img r))) = 2 * E D (fun t => mse n (to_img t) (to_img (mean_img D))) /\
  (forall e, 0 < e -> psnr_of_mse (2 * e) = psnr_of_mse e - 10 * (ln 2 / ln 10)).
Proof.
  intros n D HD HF. split; [intros G HG; now apply mean_best|]. split; [now apply table_mse_exact|].
  intros e He. unfold psnr_of_mse. assert (L := ln10_pos). rewrite !ln_div, ln_mult by lra. field. lra.
Qed.
Print Assumptions C118_exact_sampler_best_refuted.

Theorem C118_ssim : forall windows t r, windows <> [] -> Forall (fun w => (2 <= length w)%nat) windows ->
  -1 <= ssim windows (to_img t) (to_img r) <= 1 /\ forall w, In w windows -> (ssim_at (to_img t) (to_img r) w = 1 <-> forall i, In i w -> to_img t i = to_img r i).
Proof.
  intros windows t r Hn HF. assert (P : forall x i, 0 <= to_img x i) by (intros x i; apply clip01_spec). split; [now apply ssim_range|].
  intros w Hw. rewrite Forall_forall in HF. apply ssim_at_one; auto.
Qed.
Print Assumptions C118_ssim.

(** the tensor given to LPIPS is that of the transposed image, not the documented one, and has its values in [-1, 1] *)
Theorem C118_lpips_layout_refuted : (forall img b c i j, to_torch img b c i j = torch_doc (fun h w ch => img w h ch) b c i j) /\
  (forall h w c img, (forall b k i j, (b < 1)%nat -> (k < c)%nat -> (i < h)%nat -> (j < w)%nat -> to_torch img b k i j = torch_doc img b k i j) <->
     (forall i j k, (i < h)%nat -> (j < w)%nat -> (k < c)%nat -> img i j k = img j i k)) /\
  (forall img, (forall i j k, 0 <= img i j k <= 1) -> forall b c i j, -1 <= to_torch img b c i j <= 1).
Proof.
  split; [exact to_torch_transposed|]. split; [exact to_torch_doc|]. intros img H b c i j. unfold to_torch. specialize (H j i c). cbn beta. lra.
Qed.
Print Assumptions C118_lpips_layout_refuted.

(** one pixel, truth 0 or 1 with equal probability *)
Example C118_example : let D := [(/ 2, (fun _ => 0) : flat); (/ 2, (fun _ => 1) : flat)] in
  is_prob D /\ Forall (unit_img 4) (map snd D) /\ cross_mse 4 D D = / 2 /\ cross_mse 4 D (dret (mean_img D)) = / 4.
Proof.
  cbn zeta. split; [split; [repeat apply Forall_cons; cbn; try lra; constructor|unfold E; cbn; lra]|].
  split; [apply Forall_cons; [intros i _; cbn; lra|apply Forall_cons; [intros i _; cbn; lra|constructor]]|]. unfold cross_mse, mean_img, dret, E, mse, Rmean. cbn. split; field.
Qed.
Example C118_example_hidden : let t := (fun i => if Nat.eqb i 3 then 1 else / 2) : flat in let r := (fun i => if Nat.eqb i 3 then 0 else / 2) : flat in
  table_psnr 4 t r = 10 * (ln 4 / ln 10) /\ to_torch (fun i j _ => if Nat.ltb i j then 1 else 0) 0 0 0 1 <> torch_doc (fun i j _ => if Nat.ltb i j then 1 else 0) 0 0 0 1.
Proof.
  cbn zeta. split; [|unfold to_torch, torch_doc; cbn; intros H; lra]. assert (H0 : clip01 0 = 0) by (apply clip01_spec; lra). assert (H1 : clip01 1 = 1) by (apply clip01_spec; lra). assert (H2 : clip01 (/ 2) = / 2) by (apply clip01_spec; lra).
  unfold table_psnr, psnr, mse, Rmean, to_img. cbn [map seq Nat.eqb length Rsum fold_right]. rewrite H0, H1, H2. f_equal. f_equal. f_equal. cbn [INR]. cbn. field.
Qed.
