(** C126: the reverse sampler with the U-Net as its score. *)
From Coquelicot Require Import Coquelicot.
From Coq Require Import Reals List Lia Lra.
From Verif Require Sde SdeProofs SdePaths Sim Demo.
From Verif Require Import Base Dist Prog Mat Nets UNet UNetVal UNetShape UNetSep EmMoments EmConverge EmStable UNetScore.
Import ListNotations.
Open Scope R_scope.

(** The network runs on images of the given size (hypothesis on shapes, see C56).  Then the sample is a Lipschitz function of
    the initial value, with a constant that depends on the network, the SDE and T only: not on the grid, its number of points or
    sub-steps, nor on the noise. *)
Theorem C126_initial_value : forall P dt dim init_dim out_dim groups mults mth h w c sde T,
  dim <> 2%nat -> unet dim init_dim out_dim groups mults mth (One h w c) Scalar_time = Some (One h w c) -> 0 <= T ->
  exists K, 0 <= K /\ forall n ts rndss u v e, (1 <= n)%nat -> ts <> [] -> 0 <= nth 0 ts 0 -> ascending ts -> last ts 0 = T ->
    Forall (Forall (fun r => length r = (h * w * c)%nat)) rndss -> length u = (h * w * c)%nat -> 0 <= e -> near e u v ->
    exists x y, unet_sampler P dt dim init_dim out_dim groups mults mth h w c sde n u ts rndss = Some x /\
      unet_sampler P dt dim init_dim out_dim groups mults mth h w c sde n v ts rndss = Some y /\
      length x = (h * w * c)%nat /\ near (exp (K * T) * e) x y.
Proof. exact sampler_start. Qed.
Print Assumptions C126_initial_value.
(** The samples do not explode however the grid is chosen: their mean square is bounded by a constant of the network, the SDE and T
    (noise rows: uncorrelated entries of mean zero and variance one, independent between the sub-steps). *)
Theorem C126_second_moment : forall P dt dim init_dim out_dim groups mults mth h w c sde T,
  dim <> 2%nat -> unet dim init_dim out_dim groups mults mth (One h w c) Scalar_time = Some (One h w c) -> 0 <= T ->
  exists C B, 0 <= C /\ 0 <= B /\ forall normal key n N ts D, (1 <= n)%nat -> ts <> [] -> 0 <= nth 0 ts 0 -> ascending ts -> last ts 0 = T ->
    has_moments (h * w * c) N (fun _ => 0) mid -> (forall k, denotes (normal k n (h * w * c)%nat) (dseq (repeat N n))) ->
    is_prob D -> (forall u, In u (map snd D) -> length u = (h * w * c)%nat) ->
    E D (fun u0 => law (unet_sampler_prog normal key P dt dim init_dim out_dim groups mults mth h w c sde n u0 ts) (on_some sq_norm)) <= exp (C * T) * (E D sq_norm + B * T).
Proof. exact sampler_moment. Qed.
Print Assumptions C126_second_moment.
(** An image as the list of its entries and back *)
Theorem C126_entries : forall h w c u, length u = (h * w * c)%nat -> to_entries (of_entries h w c u) = u.
Proof. exact entries_inverse. Qed.
Print Assumptions C126_entries.

Lemma iid_has_moments (nu : dist R) d : is_prob nu -> E nu (fun x => x) = 0 -> E nu (fun x => x * x) = 1 -> has_moments d (dseq (repeat nu d)) (fun _ => 0) mid.
Proof.
  intros Hp Hm Hv. destruct (SdePaths.white_iid nu d Hp Hm Hv) as [W1 W2 W3 W4]. split; [exact W1|]. split; [exact W2|]. split; [exact W3|].
  intros i j Hi Hj. unfold mid. rewrite <- (W4 i j Hi Hj). apply E_ext'. intros x. ring.
Qed.
Example C126_example : forall P, let normal (k : key) (m d : nat) := Demo.fin_draws [] k 0 (repeat (dseq (repeat [(/ 2, 1); (/ 2, -1)] d)) m) in
  let sde := Sde.LinSDE (1/50) 5 0 2 in let u0 := [1; 2; 3; 4] in exists K C B, 0 <= K /\ 0 <= C /\ 0 <= B /\ forall n, (1 <= n)%nat ->
  (forall r rndss, Forall (Forall (fun r => length r = 4%nat)) rndss -> exists x y,
     unet_sampler P (2 / 200) 4 4 1 2 [1; 2]%nat Pixel_shuffle 2 2 1 sde n u0 [0; 1; 2] rndss = Some x /\
     unet_sampler P (2 / 200) 4 4 1 2 [1; 2]%nat Pixel_shuffle 2 2 1 sde n [1; 2; 3; 4 + r] [0; 1; 2] rndss = Some y /\ near (exp (K * 2) * Rabs r) x y) /\
  law (unet_sampler_prog normal [7%nat] P (2 / 200) 4 4 1 2 [1; 2]%nat Pixel_shuffle 2 2 1 sde n u0 [0; 1; 2]) (on_some sq_norm) <= exp (C * 2) * (30 + B * 2).
Proof.
  intros P normal sde u0. assert (U : unet 4 4 1 2 [1; 2]%nat Pixel_shuffle (One 2 2 1) Scalar_time = Some (One 2 2 1)) by (vm_compute; reflexivity).
  destruct (C126_initial_value P (2 / 200) 4 4 1 2 [1; 2]%nat Pixel_shuffle 2 2 1 sde 2 ltac:(lia) U ltac:(lra)) as (K & HK & H1).
  destruct (C126_second_moment P (2 / 200) 4 4 1 2 [1; 2]%nat Pixel_shuffle 2 2 1 sde 2 ltac:(lia) U ltac:(lra)) as (C & B & HC & HB & H2).
  assert (A : ascending [0; 1; 2]) by (intros [|[|k]] Hk; cbn [length nth] in *; [lra|lra|lia]).
  assert (A1 : [0; 1; 2] <> []) by discriminate. assert (A2 : 0 <= nth 0 [0; 1; 2] 0) by (cbn [nth]; apply Rle_refl). assert (A3 : last [0; 1; 2] 0 = 2) by reflexivity. assert (A4 : length u0 = (2 * 2 * 1)%nat) by reflexivity.
  exists K, C, B. split; [assumption|]. split; [assumption|]. split; [assumption|]. intros n Hn. split.
  - intros r rndss Hr. destruct (H1 n [0; 1; 2] rndss u0 [1; 2; 3; 4 + r] (Rabs r) Hn A1 A2 A A3 Hr A4 (Rabs_pos r)) as (x & y & X & Y & _ & N).
    + split; [reflexivity|]. pose proof (Rabs_pos r). intros [|[|[|[|i]]]] Hi; cbn [nth u0 length] in *; [| | | |lia];
        [rewrite Rminus_eq_0, Rabs_R0; lra|rewrite Rminus_eq_0, Rabs_R0; lra|rewrite Rminus_eq_0, Rabs_R0; lra|].
      replace (4 - (4 + r)) with (- r) by ring. rewrite Rabs_Ropp. lra.
    + exists x, y. auto.
  - specialize (H2 normal [7%nat] n (dseq (repeat [(/ 2, 1); (/ 2, -1)] 4)) [0; 1; 2] (dret u0) Hn A1 A2 A A3).
    assert (M : has_moments 4 (dseq (repeat [(/ 2, 1); (/ 2, -1)] 4)) (fun _ => 0) mid).
    { apply iid_has_moments; [split; [repeat constructor; cbn; lra|unfold E; cbn; lra]|unfold E; cbn; lra|unfold E; cbn; lra]. }
    specialize (H2 M ltac:(intros k; apply Demo.fin_draws_denotes) (is_prob_dret _) ltac:(intros u [<-|[]]; reflexivity)). rewrite !E_dret in H2.
    replace (sq_norm u0) with 30 in H2 by (unfold sq_norm, u0; cbn [map Rsum]; ring). exact H2.
Qed.
