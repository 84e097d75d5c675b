(** C122, C123, C124: the values computed by the U-Net. *)
From Coq Require Import Reals List Lia Lra Bool PeanoNat Psatz.
From Verif Require Import Base Nets UNet UNetVal UNetShape UNetSep UNetGrow WsConv.
Import ListNotations.
Open Scope R_scope.

(** ** C122: the weight standardized convolution *)
(** the kernel it convolves with: mean zero and mean square v/(v + eps), v the variance of the parameters *)
Theorem C122_kernel : forall k cin (K : nat -> nat -> nat -> nat -> R) o, (0 < k)%nat -> (0 < cin)%nat ->
  ksum k cin (fun di dj c => standardized k cin K di dj c o) = 0 /\
  ksum k cin (fun di dj c => standardized k cin K di dj c o * standardized k cin K di dj c o) / nk k cin = kernel_var k cin K o / (kernel_var k cin K o + ws_eps).
Proof. intros k cin K o Hk Hc. split; [now apply standardized_mean|]. rewrite standardized_var by assumption. pose proof (nk_pos k cin Hk Hc). pose proof (kernel_var_nonneg k cin K o Hk Hc). pose proof ws_eps_pos. field. split; lra. Qed.
Print Assumptions C122_kernel.
(** so its variance is below one always *)
Theorem C122_unit_variance_refuted : forall k cin (K : nat -> nat -> nat -> nat -> R) o, (0 < k)%nat -> (0 < cin)%nat ->
  ksum k cin (fun di dj c => standardized k cin K di dj c o * standardized k cin K di dj c o) / nk k cin < 1.
Proof.
  intros k cin K o Hk Hc. rewrite (proj2 (C122_kernel k cin K o Hk Hc)). pose proof (kernel_var_nonneg k cin K o Hk Hc). pose proof ws_eps_pos.
  apply Rmult_lt_reg_r with (kernel_var k cin K o + ws_eps); [lra|]. unfold Rdiv. rewrite Rmult_assoc, Rinv_l; lra.
Qed.
Print Assumptions C122_unit_variance_refuted.
(** a constant in the parameters of an output channel does not matter ... *)
Theorem C122_constant : forall k cin (K : nat -> nat -> nat -> nat -> R) (c : nat -> R) o di dj ch, (0 < k)%nat -> (0 < cin)%nat ->
  standardized k cin (fun di dj ch o => K di dj ch o + c o) di dj ch o = standardized k cin K di dj ch o.
Proof.
  intros k cin K c o di dj ch Hk Hc. pose proof (standardized_affine k cin K (fun _ => 1) c o di dj ch Hk Hc Rlt_0_1) as H. cbv beta in H.
  replace (ws_eps / (1 * 1)) with ws_eps in H by field. fold (standardized k cin K di dj ch o) in H. rewrite <- H. apply standardized_ext. intros. ring.
Qed.
Print Assumptions C122_constant.
(** ... but a factor does, because of the added epsilon *)
Theorem C122_factor_refuted : forall k cin (K : nat -> nat -> nat -> nat -> R) a o, (0 < k)%nat -> (0 < cin)%nat -> 0 < a -> a <> 1 -> kernel_var k cin K o <> 0 ->
  ksum k cin (fun di dj c => standardized k cin (fun di dj c o => a * K di dj c o) di dj c o * standardized k cin (fun di dj c o => a * K di dj c o) di dj c o) <>
  ksum k cin (fun di dj c => standardized k cin K di dj c o * standardized k cin K di dj c o).
Proof.
  intros k cin K a o Hk Hc Ha H1 Hv. rewrite !standardized_var by assumption. pose proof (nk_pos k cin Hk Hc) as Hn. pose proof (kernel_var_nonneg k cin K o Hk Hc) as H0. pose proof ws_eps_pos as He.
  assert (V : kernel_var k cin (fun di dj c o => a * K di dj c o) o = a * a * kernel_var k cin K o).
  { assert (M : kernel_mean k cin (fun di dj c o => a * K di dj c o) o = a * kernel_mean k cin K o) by (rewrite !kernel_mean_eq, ksum_scale; field; lra).
    rewrite !kernel_var_eq, M. rewrite (ksum_ext k cin _ (fun di dj ch => (a * a) * ((K di dj ch o - kernel_mean k cin K o) * (K di dj ch o - kernel_mean k cin K o)))) by (intros; ring). rewrite ksum_scale. field. lra. }
  rewrite V. set (v := kernel_var k cin K o) in *. intros E. apply Rmult_eq_reg_l in E; [|lra].
  assert (E2 : a * a * v * (v + ws_eps) = v * (a * a * v + ws_eps)).
  { apply Rmult_eq_reg_r with (/ (a * a * v + ws_eps) * / (v + ws_eps)); [|apply Rmult_integral_contrapositive; split; apply Rinv_neq_0_compat; nra].
    transitivity (a * a * v / (a * a * v + ws_eps)); [field; split; nra|]. rewrite E. field. split; nra. }
  assert (E3 : v * ws_eps * ((a - 1) * (a + 1)) = 0) by nra. assert (v * ws_eps <> 0) by (apply Rmult_integral_contrapositive; lra).
  apply Rmult_integral in E3 as [E3|E3]; [contradiction|]. apply Rmult_integral in E3 as [E3|E3]; lra.
Qed.
Print Assumptions C122_factor_refuted.
(** a constant kernel is divided by sqrt(eps), not by zero: the layer then returns its bias *)
Theorem C122_constant_kernel : forall K bias f k s p x b i j o, (0 < k)%nat -> (0 < sc x)%nat ->
  (forall di dj c, (di < k)%nat -> (dj < k)%nat -> (c < sc x)%nat -> K di dj c o = K 0%nat 0%nat 0%nat o) -> dat (ws_conv K bias f k s p x) b i j o = bias o.
Proof.
  intros K bias f k s p x b i j o Hk Hc H. assert (Z := proj2 (kernel_var_zero k (sc x) K o Hk Hc) H).
  rewrite ws_value. rewrite (ksum_ext k (sc x) _ (fun _ _ _ => 0)); [rewrite ksum_const; ring|]. intros di dj c H1 H2 H3.
  assert (S := standardized_var k (sc x) K o Hk Hc). rewrite Z in S. replace (nk k (sc x) * (0 / (0 + ws_eps))) with 0 in S by (pose proof ws_eps_pos; field; lra).
  pose proof (ksum_zero k (sc x) _ (fun a b c => Rle_0_sqr (standardized k (sc x) K a b c o)) S di dj c H1 H2 H3) as G. apply Rsqr_0_uniq in G. rewrite G. ring.
Qed.
Print Assumptions C122_constant_kernel.
(** the output is within sqrt(entries of the kernel) times the norm of the window *)
Theorem C122_bound : forall K bias f k s p x b i j o, (0 < k)%nat -> (0 < sc x)%nat ->
  (dat (ws_conv K bias f k s p x) b i j o - bias o) ^ 2 <= nk k (sc x) * ksum k (sc x) (fun di dj c => window k s p x b i j di dj c * window k s p x b i j di dj c).
Proof. exact ws_bound. Qed.
Print Assumptions C122_bound.
(** the same constant added to every entry of the image changes nothing where the window is inside the image ... *)
Theorem C122_brighter_partial : forall K bias f k s p r x b i j o, (0 < k)%nat -> (0 < sc x)%nat -> inside k s p (sh x) i -> inside k s p (sw x) j ->
  dat (ws_conv K bias f k s p (brighter r x)) b i j o = dat (ws_conv K bias f k s p x) b i j o.
Proof. exact ws_brighter. Qed.
Print Assumptions C122_brighter_partial.
(** ... but does at the border, which is padded with zeros: one pixel, the kernel that looks at it *)
Definition centre : nat -> nat -> nat -> nat -> R := fun di dj c o => if ((di =? 1) && (dj =? 1))%nat then 1 else 0.
Lemma centre_positive : 0 < standardized 3 1 centre 1 1 0 0.
Proof.
  unfold standardized. apply Rdiv_lt_0_compat; [|apply sd_pos; lia]. rewrite kernel_mean_eq. unfold ksum, nk, taps, centre. cbn [seq list_prod map app Rsum Nat.eqb andb Nat.mul Nat.add INR]. lra.
Qed.
Theorem C122_brighter_border_refuted : forall bias r, r <> 0 -> let x := Arr4 1 1 1 1 (fun _ _ _ _ => 0) in
  dat (ws_conv centre bias 1 3 1 1 (brighter r x)) 0 0 0 0 <> dat (ws_conv centre bias 1 3 1 1 x) 0 0 0 0.
Proof.
  intros bias r Hr x. rewrite !ws_value. pose proof centre_positive as P. set (S := standardized 3 1 centre) in *. change (sc (brighter r x)) with 1%nat. change (sc x) with 1%nat. fold S.
  unfold ksum, taps. cbn [seq list_prod map app Rsum]. unfold window, pad. cbn [brighter tmap x sh sw dat Nat.leb Nat.sub Nat.ltb andb Nat.mul Nat.add]. intros E. assert (S 1%nat 1%nat 0%nat 0%nat * r = 0) by lra. apply Rmult_integral in H as [H|H]; lra.
Qed.
Print Assumptions C122_brighter_border_refuted.
Example C122_example : kernel_mean 1 2 (fun _ _ c _ => nth c [1; -1] 0) 0 = 0 /\ kernel_var 1 2 (fun _ _ c _ => nth c [1; -1] 0) 0 = 1 /\
  standardized 1 2 (fun _ _ c _ => nth c [1; -1] 0) 0 0 1 0 = -1 / sqrt (1 + ws_eps) /\ inside 3 1 1 28 1 /\ ~ inside 3 1 1 28 0.
Proof.
  assert (M : kernel_mean 1 2 (fun _ _ c _ => nth c [1; -1] 0) 0 = 0) by (rewrite kernel_mean_eq; unfold ksum, taps, nk; cbn [seq list_prod map app Rsum nth Nat.mul Nat.add INR]; field).
  assert (V : kernel_var 1 2 (fun _ _ c _ => nth c [1; -1] 0) 0 = 1) by (rewrite kernel_var_eq, M; unfold ksum, taps, nk; cbn [seq list_prod map app Rsum nth Nat.mul Nat.add INR]; field).
  split; [exact M|]. split; [exact V|]. split; [unfold standardized; rewrite M, V; cbn [nth]; f_equal; ring|]. unfold inside. lia.
Qed.

(** ** C123: the elements of a batch are treated separately *)
(** The result for an image and its time does not depend on the other images and times, on the place in the batch,
    on the size of the batch, nor on whether the time is given once or for each image. *)
Theorem C123_separate : forall P dt dim init_dim out_dim groups mults mth x x' t t' b b',
  (b < batch x)%nat -> (b' < batch x')%nat -> time_fits (batch x) t -> time_fits (batch x') t' -> same_picture x x' b b' -> time_of t b = time_of t' b' ->
  match unet_val P dt dim init_dim out_dim groups mults mth x t, unet_val P dt dim init_dim out_dim groups mults mth x' t' with
  | Some o, Some o' => same_picture o o' b b'
  | None, None => True
  | _, _ => False
  end.
Proof. exact unet_separate. Qed.
Print Assumptions C123_separate.
(** the values have the shapes of C56, and the call fails exactly when C56 says so *)
Theorem C123_shapes : forall P dt dim init_dim out_dim groups mults mth x t, dim <> 2%nat ->
  option_map imgs_shape (unet_val P dt dim init_dim out_dim groups mults mth x t) = unet dim init_dim out_dim groups mults mth (imgs_shape x) (times_shape t).
Proof. exact unet_shp. Qed.
Print Assumptions C123_shapes.
(** A batch of three images at one time, and its second image alone with a vector of one time: the network runs on both. *)
Example C123_example : forall P (d : nat -> nat -> nat -> nat -> R), let x := Imgs (Arr4 3 2 2 1 d) in let x' := Img (Arr4 1 2 2 1 (fun _ => d 1%nat)) in
  same_picture x x' 1 0 /\ time_of (At (1/2)) 1 = time_of (Each [1/2]) 0 /\ time_fits (batch x') (Each [1/2]) /\
  exists o o', unet_val P 1 4 4 1 2 [1; 2]%nat Pixel_shuffle x (At (1/2)) = Some o /\ unet_val P 1 4 4 1 2 [1; 2]%nat Pixel_shuffle x' (Each [1/2]) = Some o' /\
    imgs_shape o = Batch 3 2 2 1 /\ imgs_shape o' = One 2 2 1 /\ same_picture o o' 1 0.
Proof.
  intros P d x x'. assert (Hs : same_picture x x' 1 0) by (split; [reflexivity|cbn; intros; reflexivity]). split; [exact Hs|]. split; [reflexivity|]. split; [reflexivity|].
  pose proof (C123_separate P 1 4 4 1 2 [1; 2]%nat Pixel_shuffle x x' (At (1/2)) (Each [1/2]) 1 0 ltac:(cbn; lia) ltac:(cbn; lia) I eq_refl Hs eq_refl) as S.
  pose proof (C123_shapes P 1 4 4 1 2 [1; 2]%nat Pixel_shuffle x (At (1/2)) ltac:(lia)) as A. pose proof (C123_shapes P 1 4 4 1 2 [1; 2]%nat Pixel_shuffle x' (Each [1/2]) ltac:(lia)) as A'.
  assert (U : unet 4 4 1 2 [1; 2]%nat Pixel_shuffle (imgs_shape x) (times_shape (At (1/2))) = Some (Batch 3 2 2 1)) by (vm_compute; reflexivity).
  assert (U' : unet 4 4 1 2 [1; 2]%nat Pixel_shuffle (imgs_shape x') (times_shape (Each [1/2])) = Some (One 2 2 1)) by (vm_compute; reflexivity).
  rewrite U in A. rewrite U' in A'. clear U U'. revert S A A'.
  generalize (unet_val P 1 4 4 1 2 [1; 2]%nat Pixel_shuffle x (At (1/2))), (unet_val P 1 4 4 1 2 [1; 2]%nat Pixel_shuffle x' (Each [1/2])).
  intros [o|] u' S A A'; [|discriminate A]. destruct u' as [o'|]; [|discriminate A'].
  exists o, o'. cbn [option_map] in A, A'. injection A as A. injection A' as A'. auto.
Qed.

(** ** C124: linear growth *)
(** For given parameters and image size there are two constants that bound the output by [a + g * max |image|],
    whatever the image, the time, the batch and the place in it. *)
Theorem C124_linear_growth : forall P dt dim init_dim out_dim groups mults mth s, exists a g, 0 <= a /\ 0 <= g /\
  forall x t b M o, size x = s -> unet_val P dt dim init_dim out_dim groups mults mth x t = Some o -> (b < batch x)%nat -> 0 <= M -> picture_bound M x b -> picture_bound (a + g * M) o b.
Proof. exact unet_growth. Qed.
Print Assumptions C124_linear_growth.
(** the change made by a ResnetBlock without channel change is bounded, whatever comes in *)
Theorem C124_resnet_change : forall P path groups h w c, exists a, 0 <= a /\
  forall te x y b, s3 x = (h, w, c) -> resnet_val P path c groups te x = Some y ->
  forall i j k, (i < h)%nat -> (j < w)%nat -> (k < c)%nat -> Rabs (dat y b i j k - dat x b i j k) <= a.
Proof.
  intros P path groups h w c. exists (sqrt (INR (h * w * (c / groups))) * total (nscale P (path ++ [4%nat])) c + total (nbias P (path ++ [4%nat])) c).
  split; [apply Rplus_le_le_0_compat; [apply Rmult_le_pos; [apply sqrt_pos|apply abs_total_nonneg]|apply abs_total_nonneg]|].
  intros te x y b Hs Hy i j k Hi Hj Hk. apply s3_inv in Hs as (H1 & H2 & H3).
  unfold resnet_val in Hy. apply check_Some in Hy as [_ Hy]. cbv zeta in Hy. apply do_Some in Hy as (k1 & K1 & Hy). apply do_Some in Hy as (k2 & K2 & Hy).
  set (r := ws_conv _ _ _ 3 1 1 (tmap swish _)) in K2.
  assert (R3 : s3 r = (h, w, c)).
  { apply (group_norm_bound _ _ _ _ _ b) in K1 as [K1 _]. unfold s3 in K1. cbn [ws_conv conv_val sh sw sc] in K1. rewrite !conv_len_same in K1. injection K1 as E1 E2 E3.
    unfold r, s3. cbn [ws_conv conv_val sh sw sc tmap time_shift]. rewrite !conv_len_same. congruence. }
  apply s3_inv in R3 as (R1 & R2 & R3). clearbody r. apply (group_norm_bound _ _ _ _ _ b) in K2 as [K2 B2]. rewrite R1, R2, R3 in B2.
  rewrite H3, Nat.eqb_refl in Hy. unfold tadd in Hy. apply check_Some in Hy as [_ Hy]. apply Some_eq in Hy. subst y. cbn [dat tmap].
  replace (dat x b i j k + swish (dat k2 b i j k) - dat x b i j k) with (swish (dat k2 b i j k)) by ring. eapply Rle_trans; [apply swish_bound|]. apply s3_inv in K2 as (E1 & E2 & E3). apply B2; lia.
Qed.
Print Assumptions C124_resnet_change.
Example C124_example : forall P, exists a g, 0 <= a /\ 0 <= g /\ forall d t o, (forall b i j c, Rabs (d b i j c) <= 1) ->
  unet_val P 1 4 4 1 2 [1; 2]%nat Resize (Imgs (Arr4 3 2 2 1 d)) (At t) = Some o -> picture_bound (a + g * 1) o 2.
Proof.
  intros P. destruct (C124_linear_growth P 1 4 4 1 2 [1; 2]%nat Resize (2, 2, 1)%nat) as (a & g & Ha & Hg & H). exists a, g. split; [assumption|]. split; [assumption|].
  intros d t o Hd Ho. apply (H (Imgs (Arr4 3 2 2 1 d)) (At t) 2%nat 1 o eq_refl Ho ltac:(cbn; lia) Rle_0_1). cbn. intros. apply Hd.
Qed.
