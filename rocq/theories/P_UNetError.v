(** C128: how the error of the network's score enters the samples of the reverse simulator. *)
From Coquelicot Require Import Coquelicot.
From Coq Require Import Reals List Lia Lra.
From Verif Require Sde SdeProofs SdePaths Sim Demo P_UNetScore.
From Verif Require Import Base Dist Prog Mat MatMore Cholesky GaussSBMore Toy ToyCond Nets UNet UNetVal UNetShape EmMoments EmConverge EmStable UNetScore EmStrong EmPerturb UNetStrong UNetError.
Import ListNotations.
Open Scope R_scope.

(** The samplers with the network and with another score, started at the same value and driven by the same noise: the squared distance
    of their samples is at most a constant times the squared distance of the two scores, integrated along the run of the other score.
    The constant depends on the network, the SDE and T only. *)
Theorem C128_pathwise : forall P dt dim init_dim out_dim groups mults mth h w c sde T,
  dim <> 2%nat -> unet dim init_dim out_dim groups mults mth (One h w c) Scalar_time = Some (One h w c) -> 0 <= T ->
  exists C, 0 <= C /\ forall score' n ts rndss u, (1 <= n)%nat -> ts <> [] -> 0 <= nth 0 ts 0 -> ascending ts -> last ts 0 = T ->
    Forall (Forall (fun r => length r = (h * w * c)%nat)) rndss -> length u = (h * w * c)%nat -> (forall x t, length x = (h * w * c)%nat -> length (score' x t) = (h * w * c)%nat) ->
    exists x y, unet_sampler P dt dim init_dim out_dim groups mults mth h w c sde n u ts rndss = Some x /\
      Sim.reverse_simulator score' (Sde.drift sde) (Sde.dispersion sde) n true u ts rndss = Some y /\ length x = (h * w * c)%nat /\ length y = (h * w * c)%nat /\
      0 <= total (score_diff (unet_score P dt dim init_dim out_dim groups mults mth h w c) score' T) (reverse_visits score' sde n u ts rndss) /\
      sq_norm (Sde.vmap2 Rminus x y) <= C * total (score_diff (unet_score P dt dim init_dim out_dim groups mults mth h w c) score' T) (reverse_visits score' sde n u ts rndss).
Proof. exact sampler_error. Qed.
Print Assumptions C128_pathwise.
(** What is integrated: with one step per interval, the states are those of the path and the times and lengths those of the grid. *)
Theorem C128_visits : forall f g ts rndss x, ts <> [] -> ascending ts -> length rndss = (length ts - 1)%nat -> Forall (fun rnds => length rnds = 1%nat) rndss ->
  map snd (visits f g 1 x ts rndss) = removelast (Sim.em_path f g 1 x ts rndss) /\
  map (fun v => snd (fst v)) (visits f g 1 x ts rndss) = removelast ts /\
  forall k, (S k < length ts)%nat -> nth k (map (fun v => fst (fst v)) (visits f g 1 x ts rndss)) 0 = nth (S k) ts 0 - nth k ts 0.
Proof. exact visits_path. Qed.
Print Assumptions C128_visits.
(** Data with mean m0 and positive definite covariance C0: if the network's score has mean-square error [err] along the run of the exact
    score, then the mean and the covariance of its samples are those of the data up to the discretisation error (C112) and terms
    that vanish with [err]. *)
Theorem C128_moments : forall P dt dim init_dim out_dim groups mults mth h w c sde T m0 C0 inv,
  dim <> 2%nat -> unet dim init_dim out_dim groups mults mth (One h w c) Scalar_time = Some (One h w c) ->
  (exists p, Sde.discretise sde T 0 = Some p) -> 0 <= T -> (forall t, 0 <= t <= T -> SdeProofs.nonneg_noise sde t) ->
  symmetric (h * w * c) C0 -> posdef (h * w * c) C0 -> (forall t, 0 <= t <= T -> inverse_at (h * w * c) (fwd_cov sde C0) inv t) ->
  exists K C, 0 <= K /\ 0 <= C /\ forall score N normal k n ts D mh Sh st e,
    (forall t x, length x = (h * w * c)%nat -> length (score x t) = (h * w * c)%nat) ->
    (forall t x i, 0 < t <= T -> length x = (h * w * c)%nat -> (i < h * w * c)%nat -> nth i (score x t) 0 = - mvec (h * w * c) (inv (fwd_cov sde C0 t)) (fun j => nth j x 0 - fwd_mean sde m0 t j) i) ->
    has_moments (h * w * c) N (fun _ => 0) mid -> (forall k, denotes (normal k n (h * w * c)%nat) (dseq (repeat N n))) ->
    (1 <= n)%nat -> hd 1 ts = 0 -> last ts 0 = T -> refined st n ts ->
    0 <= st -> 0 <= e -> has_moments (h * w * c) D mh Sh -> within (h * w * c) e mh (fwd_mean sde m0 T) Sh (fwd_cov sde C0 T) ->
    let L F := E D (fun u0 => law (unet_sampler_prog normal k P dt dim init_dim out_dim groups mults mth h w c sde n u0 ts) (on_some F)) in
    let err := E D (fun u0 => E (dseq (repeat (dseq (repeat N n)) (length ts - 1))) (fun rndss =>
      total (score_diff (unet_score P dt dim init_dim out_dim groups mults mth h w c) score T) (reverse_visits score sde n u0 ts rndss))) in
    (forall i, (i < h * w * c)%nat -> Rabs (mean_of L i - m0 i) <= K * (e + st) + sqrt (C * err)) /\
    (forall i j, (i < h * w * c)%nat -> (j < h * w * c)%nat -> Rabs (cov_of L i j - C0 i j) <= K * (e + st) + C * err + sqrt (C * err) * (sqrt (C0 i i + K * (e + st)) + sqrt (C0 j j + K * (e + st)))).
Proof.
  intros P dt dim init_dim out_dim groups mults mth h w c sde T m0 C0 inv Hd Hrun H. apply SdeProofs.discretise_defined in H.
  exact (sampler_moments P dt dim init_dim out_dim groups mults mth h w c sde T m0 C0 inv Hd Hrun H).
Qed.
Print Assumptions C128_moments.

(** 2 x 2 images with mean 2 and covariance 3 I, two-point noise, started at the constant image of the right mean *)
Definition diag_inv (M : mat) : mat := fun i j => if Nat.eqb i j then / M i i else 0.
Example C128_example : forall P, let sde := Sde.ConstSDE (Ropp (1/2)) 1 in let C0 : mat := fun i j => if Nat.eqb i j then 3 else 0 in
  let v t := 3 * fst (Sde.FQ sde t 0) ^ 2 + snd (Sde.FQ sde t 0) in
  let score (x : list R) (t : R) := map (fun u => - (/ v t * (u - fwd_mean sde (fun _ => 2) t 0%nat))) x in
  let N := dseq (repeat [(/ 2, 1); (/ 2, -1)] 4) in let normal (k : key) (m d : nat) := Demo.fin_draws [] k 0 (repeat N m) in
  let D := dmap (fun r => map (fun z => fwd_mean sde (fun _ => 2) 1 0%nat + sqrt (v 1) * z) r) N in
  exists K C, 0 <= K /\ 0 <= C /\ forall n ts st, (1 <= n)%nat -> hd 1 ts = 0 -> last ts 0 = 1 -> refined st n ts -> 0 <= st ->
    let L F := E D (fun u0 => law (unet_sampler_prog normal [7%nat] P (2 / 200) 4 4 1 2 [1; 2]%nat Pixel_shuffle 2 2 1 sde n u0 ts) (on_some F)) in
    let err := E D (fun u0 => E (dseq (repeat (dseq (repeat N n)) (length ts - 1))) (fun rndss =>
      total (score_diff (unet_score P (2 / 200) 4 4 1 2 [1; 2]%nat Pixel_shuffle 2 2 1) score 1) (reverse_visits score sde n u0 ts rndss))) in
    forall i, (i < 4)%nat -> Rabs (mean_of L i - 2) <= K * st + sqrt (C * err).
Proof.
  intros P sde C0 v score N normal D. assert (U : unet 4 4 1 2 [1; 2]%nat Pixel_shuffle (One 2 2 1) Scalar_time = Some (One 2 2 1)) by (vm_compute; reflexivity).
  assert (Hd : SdeProofs.sde_defined sde) by (cbn; lra).
  assert (Hv : forall t, 0 <= t <= 1 -> 0 < v t).
  { intros t Ht. unfold v. assert (0 <= snd (Sde.FQ sde t 0)) by (apply SdeProofs.Q_nonneg; [exact Hd|lra|exact I]). assert (0 < fst (Sde.FQ sde t 0)) by (cbn; apply exp_pos). assert (0 < fst (Sde.FQ sde t 0) ^ 2) by now apply pow_lt. lra. }
  assert (Fc : forall t i j, fwd_cov sde C0 t i j = if Nat.eqb i j then v t else 0).
  { intros t i j. unfold fwd_cov, madd, mscale, mid, C0, v. destruct (Nat.eqb i j); ring. }
  assert (Hinv : forall t, 0 <= t <= 1 -> inverse_at 4 (fwd_cov sde C0) diag_inv t).
  { intros t Ht. specialize (Hv t Ht). split; intros [|[|[|[|i]]]] [|[|[|[|j]]]] Hi Hj; try lia; unfold mmul, diag_inv, mid; cbn [seq map Rsum Nat.eqb]; rewrite !Fc; cbn [Nat.eqb]; field; lra. }
  assert (HS : symmetric 4 C0) by (intros i j _ _; unfold C0; now rewrite Nat.eqb_sym).
  assert (HP : posdef 4 C0).
  { intros x Hx. unfold quad, mvec, C0. cbn. pose proof (Rle_0_sqr (x 0%nat)) as S0. pose proof (Rle_0_sqr (x 1%nat)) as S1. pose proof (Rle_0_sqr (x 2%nat)) as S2. pose proof (Rle_0_sqr (x 3%nat)) as S3. unfold Rsqr in *.
    apply Rnot_le_lt. intros Hle. apply Hx. intros i Hi. assert (Z : forall r, r * r <= 0 -> r = 0) by (intros r Hr; pose proof (Rle_0_sqr r) as Q; unfold Rsqr in Q; apply Rsqr_0_uniq; unfold Rsqr; lra).
    do 4 (destruct i as [|i]; [apply Z; lra|]); lia. }
  destruct (C128_moments P (2 / 200) 4 4 1 2 [1; 2]%nat Pixel_shuffle 2 2 1 sde 1 (fun _ => 2) C0 diag_inv ltac:(lia) U ltac:(apply SdeProofs.discretise_defined, Hd) ltac:(lra) ltac:(intros; exact I) HS HP Hinv) as (K & C & HK & HC & H).
  exists K, C. split; [assumption|]. split; [assumption|]. intros n ts st Hn Hhd Hlast Href Hst L err.
  assert (M : has_moments 4 N (fun _ => 0) mid) by (apply P_UNetScore.iid_has_moments; [split; [repeat constructor; cbn; lra|unfold E; cbn; lra]|unfold E; cbn; lra|unfold E; cbn; lra]).
  pose proof (Hv 1 ltac:(lra)) as V1. set (mu := fwd_mean sde (fun _ => 2) 1 0%nat) in *.
  assert (Dn : forall r i, length r = 4%nat -> (i < 4)%nat -> nth i (map (fun z => mu + sqrt (v 1) * z) r) 0 = mu + sqrt (v 1) * nth i r 0).
  { intros r i Hr Hi. rewrite (nth_indep _ 0 (mu + sqrt (v 1) * 0)) by (rewrite map_length; lia). now rewrite (map_nth (fun z => mu + sqrt (v 1) * z)). }
  assert (HD : has_moments 4 D (fun _ => mu) (fwd_cov sde C0 1)).
  { destruct M as (Mp & Ml & Mm & Mc). split; [now apply is_prob_dmap|]. split; [|split].
    - intros x Hx. unfold D, dmap in Hx. rewrite map_map in Hx. apply in_map_iff in Hx as (y & <- & Hy). cbn [snd]. rewrite map_length. apply Ml. now apply in_map.
    - intros i Hi. unfold D. rewrite E_dmap. rewrite (E_ext _ _ (fun r => mu + sqrt (v 1) * nth i r 0)) by (intros r Hr; apply Dn; [now apply Ml|assumption]). rewrite E_plus, E_const, E_mult_l, Mm by assumption. ring.
    - intros i j Hi Hj. unfold D. rewrite E_dmap. rewrite (E_ext _ _ (fun r => v 1 * ((nth i r 0 - 0) * (nth j r 0 - 0)))).
      + rewrite E_mult_l, Mc, Fc by assumption. unfold mid. destruct (Nat.eqb i j); ring.
      + intros r Hr. rewrite !Dn by (assumption || now apply Ml). rewrite <- (sqrt_sqrt (v 1)) at 3 by lra. ring. }
  assert (Hsl : forall t (x : list R), length x = (2 * 2 * 1)%nat -> length (score x t) = (2 * 2 * 1)%nat) by (intros t x Hx; unfold score; now rewrite map_length).
  assert (Hsc : forall t x i, 0 < t <= 1 -> length x = (2 * 2 * 1)%nat -> (i < 2 * 2 * 1)%nat -> nth i (score x t) 0 = - mvec (2 * 2 * 1) (diag_inv (fwd_cov sde C0 t)) (fun j => nth j x 0 - fwd_mean sde (fun _ => 2) t j) i).
  { intros t x i Ht Hx Hi. destruct x as [|x0 [|x1 [|x2 [|x3 [|]]]]]; try discriminate Hx. unfold mvec, diag_inv, score. change (2 * 2 * 1)%nat with 4%nat in *. cbn [seq map Rsum]. do 4 (destruct i as [|i]; [cbn [nth Nat.eqb]; rewrite !Fc; cbn [Nat.eqb]; unfold fwd_mean, Mat.vscale; ring|]); clear - Hi; lia. }
  assert (Hnor : forall k, denotes (normal k n (2 * 2 * 1)%nat) (dseq (repeat N n))) by (intros k; apply Demo.fin_draws_denotes).
  assert (HW : within (2 * 2 * 1) 0 (fun _ => mu) (fwd_mean sde (fun _ => 2) 1) (fwd_cov sde C0 1) (fwd_cov sde C0 1)).
  { split; intros; rewrite Rminus_diag_eq by reflexivity; rewrite Rabs_R0; lra. }
  destruct (H score N normal [7%nat] n ts D _ _ st 0 Hsl Hsc M Hnor Hn Hhd Hlast Href Hst (Rle_refl 0) HD HW) as [H1 _]. intros i Hi. specialize (H1 i Hi). rewrite Rplus_0_l in H1. exact H1.
Qed.
