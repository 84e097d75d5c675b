(** C127: integration_nsteps sub-steps against one step per interval, for the reverse sampler with the U-Net as its score. *)
From Coquelicot Require Import Coquelicot.
From Coq Require Import Reals List Lia Lra.
From Verif Require Sde SdeProofs SdePaths Sim Demo P_UNetScore.
From Verif Require Import Base Dist Prog Mat Nets UNet UNetVal UNetShape EmMoments EmConverge EmStable UNetScore EmStrong UNetStrong.
Import ListNotations.
Open Scope R_scope.

(** The sampler with [m] sub-steps per interval and the one with a single step, which uses the normalised sum of the same noise:
    their mean-square distance is at most a constant times the largest interval of the grid.  The constant depends on the network,
    the SDE and T only: not on the grid, its number of points, [m], nor the initial value [u]. *)
Theorem C127_substeps : forall P dt dim init_dim out_dim groups mults mth h w c sde T,
  dim <> 2%nat -> unet dim init_dim out_dim groups mults mth (One h w c) Scalar_time = Some (One h w c) -> 0 <= T ->
  exists C, 0 <= C /\ forall m N ts u e, (1 <= m)%nat -> ts <> [] -> 0 <= nth 0 ts 0 -> ascending ts -> last ts 0 = T -> 0 <= e ->
    (forall j, (S j < length ts)%nat -> nth (S j) ts 0 - nth j ts 0 <= e) -> has_moments (h * w * c) N (fun _ => 0) mid -> length u = (h * w * c)%nat ->
    E (dseq (repeat (dseq (repeat N m)) (length ts - 1))) (fun rndss => sq_dist
      (unet_sampler P dt dim init_dim out_dim groups mults mth h w c sde m u ts rndss)
      (unet_sampler P dt dim init_dim out_dim groups mults mth h w c sde 1 u ts (map (fun rnds => [merged (h * w * c) rnds]) rndss))) <= C * e * (1 + sq_norm u).
Proof. exact sampler_substeps. Qed.
Print Assumptions C127_substeps.
(** Both samplers return a sample, whatever the noise. *)
Theorem C127_runs : forall P dt dim init_dim out_dim groups mults mth h w c sde n u ts rndss,
  exists x, unet_sampler P dt dim init_dim out_dim groups mults mth h w c sde n u ts rndss = Some x.
Proof. exact sampler_runs. Qed.
Print Assumptions C127_runs.
(** The merged noise is admissible noise for single steps: the entries are the normalised sums, uncorrelated with mean zero and variance one. *)
Theorem C127_merged : forall d N m, (1 <= m)%nat -> has_moments d N (fun _ => 0) mid ->
  has_moments d (dmap (merged d) (dseq (repeat N m))) (fun _ => 0) mid /\
  forall rnds a, (a < d)%nat -> nth a (merged d rnds) 0 = Rsum (map (fun r => nth a r 0) rnds) / sqrt (INR (length rnds)).
Proof. exact (fun d N m Hm HN => conj (merged_moments d N m Hm HN) (merged_nth d)). Qed.
Print Assumptions C127_merged.
(** So the laws of the samples are close for every Lipschitz statistic [F], whatever keys the two runs use, if the normal generator for
    single steps has the law of the normalised sums of [m] draws (as Gaussian draws have). *)
Theorem C127_laws : forall P dt dim init_dim out_dim groups mults mth h w c sde T,
  dim <> 2%nat -> unet dim init_dim out_dim groups mults mth (One h w c) Scalar_time = Some (One h w c) -> 0 <= T ->
  exists C, 0 <= C /\ forall normal coarse key key' m N ts u e F L, (1 <= m)%nat -> ts <> [] -> 0 <= nth 0 ts 0 -> ascending ts -> last ts 0 = T -> 0 <= e ->
    (forall j, (S j < length ts)%nat -> nth (S j) ts 0 - nth j ts 0 <= e) -> has_moments (h * w * c) N (fun _ => 0) mid -> length u = (h * w * c)%nat ->
    (forall k, denotes (normal k m (h * w * c)%nat) (dseq (repeat N m))) ->
    (forall k, denotes (coarse k 1%nat (h * w * c)%nat) (dseq (repeat (dmap (merged (h * w * c)) (dseq (repeat N m))) 1))) ->
    0 <= L -> (forall x y, length x = (h * w * c)%nat -> length y = (h * w * c)%nat -> Rabs (F x - F y) <= L * sqrt (sq_norm (Sde.vmap2 Rminus x y))) ->
    Rabs (law (unet_sampler_prog normal key P dt dim init_dim out_dim groups mults mth h w c sde m u ts) (on_some F)
        - law (unet_sampler_prog coarse key' P dt dim init_dim out_dim groups mults mth h w c sde 1 u ts) (on_some F)) <= L * sqrt (C * e * (1 + sq_norm u)).
Proof. exact sampler_gap. Qed.
Print Assumptions C127_laws.

Definition even_grid (q : nat) : list R := map (fun j => 2 * INR j / INR (S q)) (seq 0 (S (S q))).
Lemma even_grid_nth q j : (j <= S q)%nat -> nth j (even_grid q) 0 = 2 * INR j / INR (S q).
Proof.
  intros Hj. set (F := fun j => 2 * INR j / INR (S q)). unfold even_grid. fold F. rewrite (nth_indep (map F (seq 0 (S (S q)))) 0 (F 0%nat)) by (rewrite map_length, seq_length; lia). rewrite (map_nth F), seq_nth by lia. reflexivity.
Qed.
(** a 2 x 2 image, two-point noise, even grids of [0, 2] with any number of intervals *)
Example C127_example : forall P, let N := dseq (repeat [(/ 2, 1); (/ 2, -1)] 4) in let sde := Sde.LinSDE (1/50) 5 0 2 in let u0 := [1; 2; 3; 4] in
  exists C, 0 <= C /\ forall m q, (1 <= m)%nat -> E (dseq (repeat (dseq (repeat N m)) (S q))) (fun rndss => sq_dist
    (unet_sampler P (2 / 200) 4 4 1 2 [1; 2]%nat Pixel_shuffle 2 2 1 sde m u0 (even_grid q) rndss)
    (unet_sampler P (2 / 200) 4 4 1 2 [1; 2]%nat Pixel_shuffle 2 2 1 sde 1 u0 (even_grid q) (map (fun rnds => [merged 4 rnds]) rndss))) <= C / INR (S q).
Proof.
  intros P N sde u0. assert (U : unet 4 4 1 2 [1; 2]%nat Pixel_shuffle (One 2 2 1) Scalar_time = Some (One 2 2 1)) by (vm_compute; reflexivity).
  destruct (C127_substeps P (2 / 200) 4 4 1 2 [1; 2]%nat Pixel_shuffle 2 2 1 sde 2 ltac:(lia) U ltac:(lra)) as (C & HC & H).
  exists (C * 2 * 31). split; [lra|]. intros m q Hm. assert (Hq : 0 < INR (S q)) by (apply lt_0_INR; lia).
  assert (M : has_moments 4 N (fun _ => 0) mid) by (apply P_UNetScore.iid_has_moments; [split; [repeat constructor; cbn; lra|unfold E; cbn; lra]|unfold E; cbn; lra|unfold E; cbn; lra]).
  assert (Lg : length (even_grid q) = S (S q)) by (unfold even_grid; now rewrite map_length, seq_length).
  assert (A1 : even_grid q <> []) by (intros E0; rewrite E0 in Lg; discriminate).
  assert (A2 : 0 <= nth 0 (even_grid q) 0) by (rewrite even_grid_nth by lia; cbn [INR]; unfold Rdiv; lra).
  assert (St : forall j, (S j < length (even_grid q))%nat -> nth (S j) (even_grid q) 0 - nth j (even_grid q) 0 = 2 / INR (S q)).
  { intros j Hj. rewrite Lg in Hj. rewrite !even_grid_nth by lia. rewrite (S_INR j). field. lra. }
  assert (Sp : 0 <= 2 / INR (S q)) by (apply Rdiv_le_0_compat; lra).
  assert (A3 : ascending (even_grid q)) by (intros j Hj; specialize (St j Hj); lra).
  assert (A4 : last (even_grid q) 0 = 2).
  { unfold even_grid. rewrite (seq_S (S q) 0), map_app. cbn [map]. rewrite last_last, Nat.add_0_l. field. lra. }
  assert (A5 : length u0 = (2 * 2 * 1)%nat) by reflexivity.
  assert (A6 : forall j, (S j < length (even_grid q))%nat -> nth (S j) (even_grid q) 0 - nth j (even_grid q) 0 <= 2 / INR (S q)) by (intros j Hj; right; now apply St).
  specialize (H m N (even_grid q) u0 (2 / INR (S q)) Hm A1 A2 A3 A4 Sp A6 M A5). rewrite Lg in H.
  replace (1 + sq_norm u0) with 31 in H by (unfold sq_norm, u0; cbn [map Rsum]; ring). replace (C * (2 / INR (S q)) * 31) with (C * 2 * 31 / INR (S q)) in H by (field; lra).
  replace (S (S q) - 1)%nat with (S q) in H by lia. exact H.
Qed.
(** the mean of the first pixel *)
Example C127_laws_example : forall P m, (1 <= m)%nat -> let N := dseq (repeat [(/ 2, 1); (/ 2, -1)] 4) in let sde := Sde.LinSDE (1/50) 5 0 2 in let u0 := [1; 2; 3; 4] in
  let normal (k : key) (n d : nat) := Demo.fin_draws [] k 0 (repeat N n) in let coarse (k : key) (n d : nat) := Demo.fin_draws [] k 0 (repeat (dmap (merged 4) (dseq (repeat N m))) n) in
  exists C, 0 <= C /\ Rabs (law (unet_sampler_prog normal [7%nat] P (2 / 200) 4 4 1 2 [1; 2]%nat Pixel_shuffle 2 2 1 sde m u0 [0; 1; 2]) (on_some (fun x => nth 0 x 0))
    - law (unet_sampler_prog coarse [8%nat] P (2 / 200) 4 4 1 2 [1; 2]%nat Pixel_shuffle 2 2 1 sde 1 u0 [0; 1; 2]) (on_some (fun x => nth 0 x 0))) <= 1 * sqrt (C * 1 * 31).
Proof.
  intros P m Hm N sde u0 normal coarse. assert (U : unet 4 4 1 2 [1; 2]%nat Pixel_shuffle (One 2 2 1) Scalar_time = Some (One 2 2 1)) by (vm_compute; reflexivity).
  destruct (C127_laws P (2 / 200) 4 4 1 2 [1; 2]%nat Pixel_shuffle 2 2 1 sde 2 ltac:(lia) U ltac:(lra)) as (C & HC & H). exists C. split; [assumption|].
  assert (M : has_moments 4 N (fun _ => 0) mid) by (apply P_UNetScore.iid_has_moments; [split; [repeat constructor; cbn; lra|unfold E; cbn; lra]|unfold E; cbn; lra|unfold E; cbn; lra]).
  assert (A : ascending [0; 1; 2]) by (intros [|[|k]] Hk; cbn [length nth] in *; [lra|lra|lia]). assert (A0 : forall j, (S j < length [0; 1; 2])%nat -> nth (S j) [0; 1; 2] 0 - nth j [0; 1; 2] 0 <= 1) by (intros [|[|k]] Hk; cbn [length nth] in *; [lra|lra|lia]).
  assert (A1 : [0; 1; 2] <> []) by discriminate. assert (A2 : 0 <= nth 0 [0; 1; 2] 0) by (cbn [nth]; apply Rle_refl). assert (A3 : last [0; 1; 2] 0 = 2) by reflexivity. assert (A4 : length u0 = (2 * 2 * 1)%nat) by reflexivity.
  assert (D1 : forall k, denotes (normal k m 4%nat) (dseq (repeat N m))) by (intros k; apply Demo.fin_draws_denotes).
  assert (D2 : forall k, denotes (coarse k 1%nat 4%nat) (dseq (repeat (dmap (merged 4) (dseq (repeat N m))) 1))) by (intros k; apply Demo.fin_draws_denotes).
  assert (FL : forall x y, length x = 4%nat -> length y = 4%nat -> Rabs (nth 0 x 0 - nth 0 y 0) <= 1 * sqrt (sq_norm (Sde.vmap2 Rminus x y))).
  { intros x y Hx Hy. rewrite Rmult_1_l, <- (SdeProofs.nth_vmap2 Rminus x y 0) by (congruence || lia). apply (nth_sq_norm (Sde.vmap2 Rminus x y) 0). rewrite SdeProofs.length_vmap2; lia. }
  specialize (H normal coarse [7%nat] [8%nat] m N [0; 1; 2] u0 1 (fun x => nth 0 x 0) 1 Hm A1 A2 A A3 Rle_0_1 A0 M A4 D1 D2 Rle_0_1 FL).
  replace (1 + sq_norm u0) with 31 in H by (unfold sq_norm, u0; cbn [map Rsum]; ring). exact H.
Qed.
