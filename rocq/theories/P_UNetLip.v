(** C125: the U-Net is Lipschitz in the image and the time. *)
From Coq Require Import Reals List Lia Lra Bool PeanoNat Psatz.
From Verif Require Import Base Nets UNet UNetVal UNetShape UNetSep UNetGrow UNetLip UNetLipNet UNetLipMain.
Import ListNotations.
Open Scope R_scope.

(** For given parameters and image size there is one constant k: if two images differ by at most d in every entry and their times by at most d,
    then either both calls fail or the two outputs differ by at most k d in every entry; whatever the images, the times, the batches and the places in them. *)
Theorem C125_lipschitz : forall P dt dim init_dim out_dim groups mults mth s, exists k, 0 <= k /\ forall x x' t t' b b' d,
  size x = s -> size x' = s -> (b < batch x)%nat -> (b' < batch x')%nat -> time_fits (batch x) t -> time_fits (batch x') t' ->
  0 <= d -> near_pictures d x x' b b' -> Rabs (time_of t b - time_of t' b') <= d ->
  match unet_val P dt dim init_dim out_dim groups mults mth x t, unet_val P dt dim init_dim out_dim groups mults mth x' t' with
  | Some o, Some o' => near_pictures (k * d) o o' b b'
  | None, None => True
  | _, _ => False
  end.
Proof. exact unet_lipschitz. Qed.
Print Assumptions C125_lipschitz.
(** in particular it is uniformly continuous *)
Theorem C125_continuous : forall P dt dim init_dim out_dim groups mults mth s e, 0 < e -> exists d, 0 < d /\ forall x x' t t' b b' o o',
  size x = s -> size x' = s -> (b < batch x)%nat -> (b' < batch x')%nat -> time_fits (batch x) t -> time_fits (batch x') t' ->
  near_pictures d x x' b b' -> Rabs (time_of t b - time_of t' b') <= d ->
  unet_val P dt dim init_dim out_dim groups mults mth x t = Some o -> unet_val P dt dim init_dim out_dim groups mults mth x' t' = Some o' -> near_pictures e o o' b b'.
Proof.
  intros P dt dim init_dim out_dim groups mults mth s e He. destruct (C125_lipschitz P dt dim init_dim out_dim groups mults mth s) as (k & Hk & H).
  exists (e / (k + 1)). assert (Hd : 0 < e / (k + 1)) by (apply Rdiv_lt_0_compat; lra). split; [assumption|]. intros x x' t t' b b' o o' H1 H2 H3 H4 H5 H6 H7 H8 Ho Ho'.
  specialize (H x x' t t' b b' (e / (k + 1)) H1 H2 H3 H4 H5 H6 (Rlt_le _ _ Hd) H7 H8). rewrite Ho, Ho' in H. destruct H as [Hs H]. split; [assumption|]. destruct (size o) as [[h w] c]. intros i j m Hi Hj Hm.
  eapply Rle_trans; [now apply H|]. replace (k * (e / (k + 1))) with (e - e / (k + 1)) by (field; lra). lra.
Qed.
Print Assumptions C125_continuous.
(** The network with pixel shuffling on 2 x 2 images: it runs, and the outputs for the images d and d + r and the times t and t + r differ by at most k |r|. *)
Example C125_example : forall P, exists k, 0 <= k /\ forall (d : nat -> nat -> nat -> R) t r, exists o o',
  unet_val P 1 4 4 1 2 [1; 2]%nat Pixel_shuffle (Img (Arr4 1 2 2 1 (fun _ => d))) (At t) = Some o /\
  unet_val P 1 4 4 1 2 [1; 2]%nat Pixel_shuffle (Img (Arr4 1 2 2 1 (fun _ i j c => d i j c + r))) (At (t + r)) = Some o' /\
  near_pictures (k * Rabs r) o o' 0 0.
Proof.
  intros P. destruct (C125_lipschitz P 1 4 4 1 2 [1; 2]%nat Pixel_shuffle (2, 2, 1)%nat) as (k & Hk & H). exists k. split; [assumption|]. intros d t r.
  set (x := Img (Arr4 1 2 2 1 (fun _ => d))). set (x' := Img (Arr4 1 2 2 1 (fun _ i j c => d i j c + r))).
  assert (N : near_pictures (Rabs r) x x' 0 0).
  { split; [reflexivity|]. cbn. intros i j c _ _ _. replace (d i j c - (d i j c + r)) with (- r) by ring. rewrite Rabs_Ropp. lra. }
  assert (S := H x x' (At t) (At (t + r)) 0%nat 0%nat (Rabs r) eq_refl eq_refl ltac:(cbn; lia) ltac:(cbn; lia) I I (Rabs_pos r) N).
  assert (T : Rabs (time_of (At t) 0 - time_of (At (t + r)) 0) <= Rabs r) by (cbn; replace (t - (t + r)) with (- r) by ring; rewrite Rabs_Ropp; lra). specialize (S T).
  pose proof (unet_shp P 1 4 4 1 2 [1; 2]%nat Pixel_shuffle x (At t) ltac:(lia)) as A.
  assert (U : unet 4 4 1 2 [1; 2]%nat Pixel_shuffle (imgs_shape x) (times_shape (At t)) = Some (One 2 2 1)) by (vm_compute; reflexivity).
  rewrite U in A. clear U. revert S A.
  generalize (unet_val P 1 4 4 1 2 [1; 2]%nat Pixel_shuffle x (At t)), (unet_val P 1 4 4 1 2 [1; 2]%nat Pixel_shuffle x' (At (t + r))).
  intros [o|] u' S A; [|discriminate A]. destruct u' as [o'|]; [|contradiction]. exists o, o'. auto.
Qed.
