(** C130: the divergence between the samplers with two scores is the weighted score error. *)
From Coquelicot Require Import Coquelicot.
From Coq Require Import Reals List Lia Lra.
From Verif Require Import UNet UNetVal UNetShape UNetScore UNetStrong.
From Verif Require Sde SdeProofs Sim P_UNetScore.
From Verif Require Import Base Dist Prog Mat MatMore GaussDiv GaussCond ToyKf Nets EmMoments EmStable EmStrong EmPerturb UNetError PathKL ReverseKL.
Import ListNotations.
Open Scope R_scope.

(** The moves of a run: their states and times are those at which the drift is evaluated, and the last one ends at the returned value. *)
Theorem C130_moves : forall f g n ts rndss x, map fst (moves f g n x ts rndss) = visits f g n x ts rndss /\
  last (map snd (moves f g n x ts rndss)) x = Sim.em_terminal f g n x ts rndss.
Proof. exact moves_visits. Qed.
Print Assumptions C130_moves.
(** The log-density ratio of one step, for every noise r (discrete Girsanov formula). *)
Theorem C130_step : forall d f f' g t0 T, (forall x t, length x = d -> t0 <= t <= T -> length (f x t) = d) -> (forall x t, length x = d -> t0 <= t <= T -> length (f' x t) = d) ->
  (forall t, t0 <= t <= T -> 0 < g t) -> forall h t x r, 0 < h -> t0 <= t <= T -> length x = d -> length r = d ->
  let m := (h, t, x, Sim.em_move f g h x t r) in
  move_logpdf d f g m - move_logpdf d f' g m =
    sqrt h / g t * Rsum (map (fun i => (nth i (f x t) 0 - nth i (f' x t) 0) * nth i r 0) (seq 0 d)) + h / 2 * (sq_norm (Sde.vmap2 Rminus (f x t) (f' x t)) / g t ^ 2).
Proof. exact move_ratio. Qed.
Print Assumptions C130_step.
(** The reverse simulator with the scores s and s', from the same initial value: the expected log-density ratio of the run with s is
    half the squared distance of the scores, weighted with the squared dispersion and integrated along that run. *)
Theorem C130_divergence : forall d sde T N s s', (forall t, 0 <= t <= T -> 0 < Sde.dispersion sde t) -> has_moments d N (fun _ => 0) mid ->
  (forall x t, length x = d -> length (s x t) = d) -> (forall x t, length x = d -> length (s' x t) = d) ->
  forall n ts u, (1 <= n)%nat -> ts <> [] -> 0 <= nth 0 ts 0 -> strictly_ascending ts -> last ts 0 = T -> length u = d ->
  let W := dseq (repeat (dseq (repeat N n)) (length ts - 1)) in
  E W (fun rndss => score_logpdf d s sde T (reverse_moves s sde n u ts rndss) - score_logpdf d s' sde T (reverse_moves s sde n u ts rndss)) =
  / 2 * E W (fun rndss => total (fun x t => Sde.dispersion sde (T - t) ^ 2 * score_diff s s' T x t) (reverse_visits s sde n u ts rndss)).
Proof. exact reverse_kl. Qed.
Print Assumptions C130_divergence.
(** It is non-negative: no other score gives the runs of s a larger expected log-density. It is of the order of the score error of C128. *)
Theorem C130_bounds : forall d sde T N s s', (forall t, 0 <= t <= T -> 0 < Sde.dispersion sde t) -> has_moments d N (fun _ => 0) mid ->
  (forall x t, length x = d -> length (s x t) = d) -> (forall x t, length x = d -> length (s' x t) = d) ->
  forall n ts u, (1 <= n)%nat -> ts <> [] -> 0 <= nth 0 ts 0 -> strictly_ascending ts -> last ts 0 = T -> length u = d ->
  let W := dseq (repeat (dseq (repeat N n)) (length ts - 1)) in
  let kl := E W (fun rndss => score_logpdf d s sde T (reverse_moves s sde n u ts rndss) - score_logpdf d s' sde T (reverse_moves s sde n u ts rndss)) in
  let err := E W (fun rndss => total (score_diff s s' T) (reverse_visits s sde n u ts rndss)) in
  0 <= kl /\ forall lo hi, (forall t, 0 <= t <= T -> lo <= Sde.dispersion sde t ^ 2 <= hi) -> lo / 2 * err <= kl <= hi / 2 * err.
Proof. exact reverse_kl_bounds. Qed.
Print Assumptions C130_bounds.
(** The scores may be U-Nets. *)
Theorem C130_unet : forall P dt dim init_dim out_dim groups mults mth h w c sde T N s, dim <> 2%nat -> unet dim init_dim out_dim groups mults mth (One h w c) Scalar_time = Some (One h w c) ->
  (forall t, 0 <= t <= T -> 0 < Sde.dispersion sde t) -> has_moments (h * w * c) N (fun _ => 0) mid -> (forall x t, length x = (h * w * c)%nat -> length (s x t) = (h * w * c)%nat) ->
  forall n ts u, (1 <= n)%nat -> ts <> [] -> 0 <= nth 0 ts 0 -> strictly_ascending ts -> last ts 0 = T -> length u = (h * w * c)%nat ->
  let net := unet_score P dt dim init_dim out_dim groups mults mth h w c in let W := dseq (repeat (dseq (repeat N n)) (length ts - 1)) in
  E W (fun rndss => score_logpdf (h * w * c) s sde T (reverse_moves s sde n u ts rndss) - score_logpdf (h * w * c) net sde T (reverse_moves s sde n u ts rndss)) =
  / 2 * E W (fun rndss => total (fun x t => Sde.dispersion sde (T - t) ^ 2 * score_diff s net T x t) (reverse_visits s sde n u ts rndss)).
Proof.
  intros P dt dim init_dim out_dim groups mults mth h w c sde T N s Hd Hrun HT HN Hs.
  exact (reverse_kl (h * w * c) sde T N s _ HT HN Hs (fun x t _ => score_length P dt dim init_dim out_dim groups mults mth h w c Hd Hrun x t)).
Qed.
Print Assumptions C130_unet.
(** The density of a step is the product of the transition and likelihood densities of the filters: the divergence is also the one
    between the joint laws of state and observation paths on which the filters condition. *)
Theorem C130_filter_densities : forall d f b dt t u v u' v', 0 < dt -> 0 < b t ->
  move_logpdf (d + d) f b (dt, t, vlist (d + d) (vcat d u v), vlist (d + d) (vcat d u' v')) =
  transition_logpdf d (on_vec (d + d) f) b dt u' u v t + likelihood_logpdf d (on_vec (d + d) f) b dt v' u v t.
Proof. exact filter_densities. Qed.
Print Assumptions C130_filter_densities.

(** two coordinates, two-point noise, the scores -x and -x + 3 at T = 2: the divergence is 2 * 9 * 2 / 2 for every number of sub-steps *)
Example C130_example : forall n u, (1 <= n)%nat -> length u = 2%nat -> let sde := Sde.ConstSDE (Ropp (1/2)) 1 in let N := dseq (repeat [(/ 2, 1); (/ 2, -1)] 2) in
  let s (x : list R) (t : R) := map (fun a => - a) x in let s' (x : list R) (t : R) := map (fun a => - a + 3) x in
  let W := dseq (repeat (dseq (repeat N n)) 2) in
  E W (fun rndss => score_logpdf 2 s sde 2 (reverse_moves s sde n u [0; 1; 2] rndss) - score_logpdf 2 s' sde 2 (reverse_moves s sde n u [0; 1; 2] rndss)) = 18.
Proof.
  intros n u Hn Hu sde N s s' W.
  assert (M : has_moments 2 N (fun _ => 0) mid) by (apply P_UNetScore.iid_has_moments; [split; [repeat constructor; cbn; lra|unfold E; cbn; lra]|unfold E; cbn; lra|unfold E; cbn; lra]).
  assert (Hs : forall (x : list R) (t : R), length x = 2%nat -> length (s x t) = 2%nat) by (intros x t Hx; unfold s; now rewrite map_length).
  assert (Hs' : forall (x : list R) (t : R), length x = 2%nat -> length (s' x t) = 2%nat) by (intros x t Hx; unfold s'; now rewrite map_length).
  assert (Hg : forall t, 0 <= t <= 2 -> 0 < Sde.dispersion sde t) by (intros t _; cbn; lra).
  assert (Ha : strictly_ascending [0; 1; 2]) by (intros [|[|k]] Hk; cbn in *; try lia; lra).
  pose proof (C130_divergence 2 sde 2 N s s' Hg M Hs Hs' n [0; 1; 2] u Hn ltac:(discriminate) ltac:(cbn; lra) Ha ltac:(reflexivity) Hu) as K. cbv zeta in K. change (length [0; 1; 2]%R - 1)%nat with 2%nat in K. fold W in K. rewrite K. clear K.
  assert (HW : is_prob W) by (apply is_prob_dseq, Forall_forall; intros y Hy; apply repeat_spec in Hy; rewrite Hy; apply (rows_prob 2 N M)).
  rewrite (E_ext W _ (fun _ => 36)); [rewrite E_const by assumption; lra|]. intros rndss Hr.
  assert (Hlen : Forall (fun rnds => length rnds = n) rndss /\ length rndss = 2%nat).
  { unfold W in Hr. cbn [repeat dseq] in Hr. apply in_dbind in Hr as (a & Ha' & Hr). apply in_dmap in Hr as (b & Hb & ->). apply in_dbind in Hb as (a' & Ha'' & Hb). apply in_dmap in Hb as (b' & Hb' & ->). unfold dret in Hb'. cbn in Hb'. destruct Hb' as [<-|[]].
    apply (in_rows 2 N M) in Ha', Ha''. split; [|reflexivity]. constructor; [apply Ha'|]. constructor; [apply Ha''|constructor]. }
  apply in_row_blocks with (d := 2%nat) in Hr; [|assumption]. destruct Hlen as [Hl1 Hl2]. destruct rndss as [|r1 [|r2 [|]]]; try discriminate Hl2. apply Forall_cons_iff in Hl1 as [L1 Hl1]. apply Forall_cons_iff in Hl1 as [L2 _].
  set (f := Sim.reverse_drift s (Sde.drift sde) (Sde.dispersion sde) 2). assert (Hf : forall x t, length x = 2%nat -> 0 <= t <= 2 -> length (f x t) = 2%nat) by (intros x t Hx _; apply reverse_nth; [assumption|now apply Hs]).
  unfold reverse_visits. cbv zeta. change (last [0; 1; 2] 0) with 2. fold f. set (g := Sim.reverse_dispersion (Sde.dispersion sde) 2).
  pose proof (visit_ok_all 2 f g 0 2 Hf n [1; 2] Hn 0 [r1; r2] u ltac:(lra) (strictly_ascending_ascending _ Ha) ltac:(cbn; lra) Hr Hu) as V. rewrite Forall_forall in V.
  rewrite (total_ext_in _ (fun _ _ => 18 * 1)).
  - rewrite total_scale. cbn [visits]. rewrite !total_app. unfold step_visits. cbv zeta. rewrite !sub_visits_length, !Sim.length_linspace, L1, L2, Nat.min_id. unfold total. cbn [map Rsum].
    rewrite !Rabs_pos_eq by lra. assert (0 < INR n) by (apply lt_0_INR; lia). field. lra.
  - intros v Hv. destruct (V v Hv) as (_ & _ & Hx). destruct (snd v) as [|a [|b [|]]]; try discriminate Hx. unfold score_diff, sq_norm, s, s', Sde.vmap2. cbn. ring.
Qed.
