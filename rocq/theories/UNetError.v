(** The U-Net sampler against the sampler with another score. *)
From Coquelicot Require Import Coquelicot.
From Coq Require Import Reals List Lia Lra.
From Verif Require Sde SdeProofs Sim GaussDiv SampleStats ResVariance TwistedLimit.
From Verif Require Import Nets UNet UNetVal UNetShape Base Dist Prog Mat MatMore Cholesky GaussSBMore Toy ToyCond EmMoments EmConverge EmStable UNetScore EmStrong EmPerturb UNetStrong.
Import ListNotations.
Open Scope R_scope.

(** squared distance of two scores, at the state [x] and the time [t] of the reverse run *)
Definition score_diff (s s' : list R -> R -> list R) (T : R) (x : list R) (t : R) : R := sq_norm (Sde.vmap2 Rminus (s x (T - t)) (s' x (T - t))).
(** the drift evaluations of the reverse sampler with the score [s] *)
Definition reverse_visits (s : list R -> R -> list R) (sde : Sde.linear_sde) (n : nat) (u0 ts : list R) (rndss : list (list (list R))) : list (R * R * list R) :=
  let T := last ts 0 in visits (Sim.reverse_drift s (Sde.drift sde) (Sde.dispersion sde) T) (Sim.reverse_dispersion (Sde.dispersion sde) T) n u0 ts rndss.

Lemma total_scale c w vs : total (fun x t => c * w x t) vs = c * total w vs.
Proof. unfold total. rewrite <- Rsum_map_mult_l. apply Rsum_map_ext. intros. ring. Qed.
Lemma total_ext w w' vs : (forall x t, w x t = w' x t) -> total w vs = total w' vs.
Proof. intros H. unfold total. apply Rsum_map_ext. intros v _. now rewrite H. Qed.
Lemma score_diff_nonneg s s' T x t : 0 <= score_diff s s' T x t.
Proof. apply sq_norm_nonneg. Qed.

Lemma reverse_error d score sde T k : 0 <= T -> 0 <= k -> (forall u t, length (score u t) = d) ->
  (forall u v t e, length u = d -> 0 <= e -> near e u v -> near (k * e) (score u t) (score v t)) ->
  exists C, 0 <= C /\ forall score' n ts rndss u, (1 <= n)%nat -> ts <> [] -> 0 <= nth 0 ts 0 -> ascending ts -> last ts 0 = T ->
    Forall (Forall (fun r => length r = d)) rndss -> length u = d -> (forall x t, length x = d -> length (score' x t) = d) ->
    exists x y, Sim.reverse_simulator score (Sde.drift sde) (Sde.dispersion sde) n true u ts rndss = Some x /\
      Sim.reverse_simulator score' (Sde.drift sde) (Sde.dispersion sde) n true u ts rndss = Some y /\ length x = d /\ length y = d /\
      0 <= total (score_diff score score' T) (reverse_visits score' sde n u ts rndss) /\
      sq_norm (Sde.vmap2 Rminus x y) <= C * total (score_diff score score' T) (reverse_visits score' sde n u ts rndss).
Proof.
  intros HT Hk Hl HL. destruct (reverse_lipschitz d score sde T k HT Hk Hl HL) as (K & HK & HLip). destruct (dispersion_bound sde T HT) as (G & HG & BG).
  exists (INR d * (exp (K * T) ^ 2 * (T * G ^ 2))). pose proof (pos_INR d) as Hd. split; [apply Rmult_le_pos; [assumption|apply Rmult_le_pos; [apply pow2_ge_0|apply Rmult_le_pos; [assumption|apply pow2_ge_0]]]|].
  intros score' n ts rndss u Hn Hne H0 Has Hlast Hr Hu Hl'. unfold reverse_visits, Sim.reverse_simulator. rewrite Hlast. cbv zeta. eexists. eexists. split; [reflexivity|]. split; [reflexivity|]. destruct ts as [|t ts]; [easy|]. cbn [nth] in H0. unfold Sim.em_terminal.
  set (f := Sim.reverse_drift score (Sde.drift sde) (Sde.dispersion sde) T) in *. set (f' := Sim.reverse_drift score' (Sde.drift sde) (Sde.dispersion sde) T). set (g := Sim.reverse_dispersion (Sde.dispersion sde) T).
  assert (Hf' : forall y s, length y = d -> 0 <= s <= T -> length (f' y s) = d) by (intros y s Hy _; apply reverse_nth; [assumption|now apply Hl']).
  assert (Hw : forall y s, length y = d -> 0 <= s <= T -> 0 <= G * sqrt (score_diff score score' T y s) /\ near (G * sqrt (score_diff score score' T y s)) (f y s) (f' y s)).
  { intros y s Hy Hs. split; [apply Rmult_le_pos; [assumption|apply sqrt_pos]|]. destruct (reverse_nth d score sde T y s Hy (Hl y _)) as [X1 X2]. destruct (reverse_nth d score' sde T y s Hy (Hl' y _ Hy)) as [Y1 Y2].
    fold f in X1, X2. fold f' in Y1, Y2. split; [congruence|]. rewrite X1. intros i Hi. rewrite X2, Y2 by assumption.
    replace (_ - _) with (Sde.dispersion sde (T - s) ^ 2 * (nth i (score y (T - s)) 0 - nth i (score' y (T - s)) 0)) by ring. rewrite Rabs_mult, (Rabs_pos_eq (_ ^ 2)) by apply pow2_ge_0.
    apply Rmult_le_compat; [apply pow2_ge_0|apply Rabs_pos|apply BG; lra|]. pose proof (Hl' y (T - s) Hy) as Hly. rewrite <- (SdeProofs.nth_vmap2 Rminus (score y (T - s)) (score' y (T - s)) i) by (rewrite Hl; congruence || lia).
    unfold score_diff. apply nth_sq_norm. rewrite SdeProofs.length_vmap2; rewrite Hl; congruence || lia. }
  destruct (carry_gap_sq d f f' g 0 T K _ HK HLip Hf' Hw n t ts rndss u Hn H0 Has ltac:(lra) Hr Hu) as (A1 & A2 & A3). split; [exact A1|]. split; [exact A2|].
  assert (HV : Forall (fun v : R * R * list R => 0 <= fst (fst v) /\ 0 <= score_diff score score' T (snd v) (snd (fst v))) (visits f' g n u (t :: ts) rndss)).
  { assert (N0 : near 0 u u) by (split; [reflexivity|]; intros i Hi; rewrite Rminus_eq_0, Rabs_R0; lra).
    destruct (carry_gap d f f' g 0 T K _ HK HLip Hf' Hw n ts Hn t rndss u u 0 H0 Has ltac:(lra) Hr Hu (Rle_refl 0) N0) as (V & _). eapply Forall_impl; [|exact V]. cbv beta. intros v [[Hv _] _]. split; [assumption|apply score_diff_nonneg]. }
  pose proof (total_nonneg _ _ HV) as HT0. split; [exact HT0|]. set (V := visits f' g n u (t :: ts) rndss) in *. eapply Rle_trans; [exact A3|]. rewrite Hlast.
  rewrite (total_ext _ (fun x s => G ^ 2 * score_diff score score' T x s)) by (intros x s; rewrite Rpow_mult_distr; f_equal; cbn [pow]; rewrite Rmult_1_r; apply sqrt_sqrt, score_diff_nonneg). rewrite total_scale.
  set (q := total (score_diff score score' T) V) in *. assert (Hq : 0 <= G ^ 2 * q) by (apply Rmult_le_pos; [apply pow2_ge_0|assumption]).
  replace (INR d * (exp (K * T) ^ 2 * (T * G ^ 2)) * q) with (INR d * (exp (K * T) ^ 2 * (T * (G ^ 2 * q)))) by ring. apply Rmult_le_compat_l; [assumption|].
  pose proof (ascending_last _ _ Has) as Htl. rewrite Hlast in Htl. apply Rmult_le_compat; [apply pow2_ge_0|apply Rmult_le_pos; [lra|assumption]| |apply Rmult_le_compat_r; [assumption|lra]].
  apply pow_incr. split; [left; apply exp_pos|]. destruct (Req_dec (K * t) 0) as [E|E]; [right; f_equal; lra|]. left. apply exp_increasing. assert (0 <= K * t) by (apply Rmult_le_pos; lra). lra.
Qed.

Lemma sampler_error P dt dim init_dim out_dim groups mults mth h w c sde T : dim <> 2%nat -> unet dim init_dim out_dim groups mults mth (One h w c) Scalar_time = Some (One h w c) -> 0 <= T ->
  exists C, 0 <= C /\ forall score' n ts rndss u, (1 <= n)%nat -> ts <> [] -> 0 <= nth 0 ts 0 -> ascending ts -> last ts 0 = T ->
    Forall (Forall (fun r => length r = (h * w * c)%nat)) rndss -> length u = (h * w * c)%nat -> (forall x t, length x = (h * w * c)%nat -> length (score' x t) = (h * w * c)%nat) ->
    exists x y, unet_sampler P dt dim init_dim out_dim groups mults mth h w c sde n u ts rndss = Some x /\
      Sim.reverse_simulator score' (Sde.drift sde) (Sde.dispersion sde) n true u ts rndss = Some y /\ length x = (h * w * c)%nat /\ length y = (h * w * c)%nat /\
      0 <= total (score_diff (unet_score P dt dim init_dim out_dim groups mults mth h w c) score' T) (reverse_visits score' sde n u ts rndss) /\
      sq_norm (Sde.vmap2 Rminus x y) <= C * total (score_diff (unet_score P dt dim init_dim out_dim groups mults mth h w c) score' T) (reverse_visits score' sde n u ts rndss).
Proof.
  intros Hd Hrun HT. destruct (score_lipschitz P dt dim init_dim out_dim groups mults mth h w c Hd Hrun) as (k & Hk & HL).
  exact (reverse_error (h * w * c) (unet_score P dt dim init_dim out_dim groups mults mth h w c) sde T k HT Hk (score_length P dt dim init_dim out_dim groups mults mth h w c Hd Hrun) HL).
Qed.

(** ** Moments of coupled arrays *)
Section coupled.
  Context {A : Type}.
  Variables (J : dist A) (d : nat) (X Y : A -> list R) (gap : R).
  Hypothesis HJ : is_prob J.
  Hypothesis HX : forall a, In a (map snd J) -> length (X a) = d /\ length (Y a) = d.
  Hypothesis Hgap : E J (fun a => sq_norm (Sde.vmap2 Rminus (X a) (Y a))) <= gap.

  Lemma cs_bound (f g : A -> R) a b : E J (fun x => f x ^ 2) <= a -> E J (fun x => g x ^ 2) <= b -> Rabs (E J (fun x => f x * g x)) <= sqrt a * sqrt b.
  Proof using HJ. clear HX Hgap.
    intros Ha Hb. pose proof (TwistedLimit.E_cauchy_schwarz J f g HJ) as H. assert (P1 : 0 <= E J (fun x => f x ^ 2)) by (apply E_nonneg; [apply HJ|intros; apply pow2_ge_0]). assert (P2 : 0 <= E J (fun x => g x ^ 2)) by (apply E_nonneg; [apply HJ|intros; apply pow2_ge_0]).
    rewrite <- sqrt_mult by lra. rewrite <- sqrt_Rsqr_abs. apply sqrt_le_1_alt. rewrite Rsqr_pow2. eapply Rle_trans; [exact H|]. now apply Rmult_le_compat.
  Qed.
  Lemma entry_gap i : (i < d)%nat -> E J (fun a => (nth i (X a) 0 - nth i (Y a) 0) ^ 2) <= gap.
  Proof using HJ HX Hgap.
    intros Hi. eapply Rle_trans; [|exact Hgap]. apply ResVariance.E_le; [apply HJ|]. intros a Ha. destruct (HX a Ha) as [H1 H2]. rewrite <- (SdeProofs.nth_vmap2 Rminus (X a) (Y a) i) by (congruence || lia).
    pose proof (nth_sq_norm (Sde.vmap2 Rminus (X a) (Y a)) i ltac:(rewrite SdeProofs.length_vmap2; congruence || lia)) as B. rewrite <- pow2_abs. pose proof (sq_norm_nonneg (Sde.vmap2 Rminus (X a) (Y a))) as Hn.
    rewrite <- (pow2_sqrt (sq_norm (Sde.vmap2 Rminus (X a) (Y a))) Hn). apply pow_incr. split; [apply Rabs_pos|assumption].
  Qed.
  Lemma gap_nonneg : 0 <= gap.
  Proof using HJ Hgap. eapply Rle_trans; [|exact Hgap]. apply E_nonneg; [apply HJ|]. intros; apply sq_norm_nonneg. Qed.
  Lemma mean_gap i : (i < d)%nat -> Rabs (E J (fun a => nth i (X a) 0) - E J (fun a => nth i (Y a) 0)) <= sqrt gap.
  Proof using HJ HX Hgap.
    intros Hi. rewrite <- GaussDiv.E_minus. eapply Rle_trans; [apply SampleStats.E_abs_lower; exact HJ|]. apply (SampleStats.E_abs_upper J (fun a => nth i (X a) 0 - nth i (Y a) 0)); [exact HJ|now apply entry_gap].
  Qed.
  Notation mX i := (E J (fun a => nth i (X a) 0)).
  Notation mY i := (E J (fun a => nth i (Y a) 0)).
  Lemma cov_gap i j vi vj : (i < d)%nat -> (j < d)%nat -> E J (fun a => (nth i (Y a) 0 - mY i) * (nth i (Y a) 0 - mY i)) <= vi -> E J (fun a => (nth j (Y a) 0 - mY j) * (nth j (Y a) 0 - mY j)) <= vj ->
    Rabs (E J (fun a => (nth i (X a) 0 - mX i) * (nth j (X a) 0 - mX j)) - E J (fun a => (nth i (Y a) 0 - mY i) * (nth j (Y a) 0 - mY j))) <= gap + sqrt gap * (sqrt vi + sqrt vj).
  Proof using HJ HX Hgap.
    intros Hi Hj Vi Vj. set (b := fun k a => nth k (Y a) 0 - mY k). set (q := fun k a => (nth k (X a) 0 - nth k (Y a) 0) - (mX k - mY k)).
    assert (Bq : forall k, (k < d)%nat -> E J (fun a => q k a ^ 2) <= gap).
    { intros k Hk. pose proof (entry_gap k Hk) as G. set (p := fun a => nth k (X a) 0 - nth k (Y a) 0). change (E J (fun a => p a ^ 2) <= gap) in G. assert (Mp : E J p = mX k - mY k) by (unfold p; apply GaussDiv.E_minus).
      apply Rle_trans with (E J (fun a => p a ^ 2 + (-2 * (mX k - mY k) * p a + (mX k - mY k) ^ 2))); [right; apply E_ext'; intros a; unfold q, p; ring|]. rewrite !E_plus, E_mult_l, E_const, Mp by exact HJ. pose proof (pow2_ge_0 (mX k - mY k)). lra. }
    assert (Vi' : E J (fun a => b i a ^ 2) <= vi) by (eapply Rle_trans; [|exact Vi]; right; apply E_ext'; intros a; unfold b; ring).
    assert (Vj' : E J (fun a => b j a ^ 2) <= vj) by (eapply Rle_trans; [|exact Vj]; right; apply E_ext'; intros a; unfold b; ring).
    rewrite <- GaussDiv.E_minus. rewrite (E_ext' _ _ (fun a => q i a * q j a + (q i a * b j a + q j a * b i a))) by (intros a; unfold q, b; ring). rewrite !E_plus.
    eapply Rle_trans; [apply Rabs_triang|]. eapply Rle_trans; [apply Rplus_le_compat_l, Rabs_triang|].
    pose proof (cs_bound (q i) (q j) gap gap (Bq i Hi) (Bq j Hj)) as B1. pose proof (cs_bound (q i) (b j) gap vj (Bq i Hi) Vj') as B2. pose proof (cs_bound (q j) (b i) gap vi (Bq j Hj) Vi') as B3.
    rewrite sqrt_sqrt in B1 by apply gap_nonneg. lra.
  Qed.
End coupled.

(** ** Against the exact score *)
Lemma first_point (ts : list R) : hd 1 ts = 0 -> ts <> [] /\ nth 0 ts 0 = 0.
Proof. destruct ts as [|t ts]; cbn; [lra|]. intros ->. split; [discriminate|reflexivity]. Qed.

Lemma sampler_moments P dt dim init_dim out_dim groups mults mth h w c sde T m0 C0 inv :
  dim <> 2%nat -> unet dim init_dim out_dim groups mults mth (One h w c) Scalar_time = Some (One h w c) ->
  SdeProofs.sde_defined sde -> 0 <= T -> (forall t, 0 <= t <= T -> SdeProofs.nonneg_noise sde t) ->
  symmetric (h * w * c) C0 -> posdef (h * w * c) C0 -> (forall t, 0 <= t <= T -> inverse_at (h * w * c) (fwd_cov sde C0) inv t) ->
  exists K C, 0 <= K /\ 0 <= C /\ forall score N normal k n ts D mh Sh st e,
    (forall t x, length x = (h * w * c)%nat -> length (score x t) = (h * w * c)%nat) ->
    (forall t x i, 0 < t <= T -> length x = (h * w * c)%nat -> (i < h * w * c)%nat -> nth i (score x t) 0 = - mvec (h * w * c) (inv (fwd_cov sde C0 t)) (fun j => nth j x 0 - fwd_mean sde m0 t j) i) ->
    has_moments (h * w * c) N (fun _ => 0) mid -> (forall k, denotes (normal k n (h * w * c)%nat) (dseq (repeat N n))) ->
    (1 <= n)%nat -> hd 1 ts = 0 -> last ts 0 = T -> refined st n ts ->
    0 <= st -> 0 <= e -> has_moments (h * w * c) D mh Sh -> within (h * w * c) e mh (fwd_mean sde m0 T) Sh (fwd_cov sde C0 T) ->
    let L F := E D (fun u0 => law (unet_sampler_prog normal k P dt dim init_dim out_dim groups mults mth h w c sde n u0 ts) (on_some F)) in
    let err := E D (fun u0 => E (dseq (repeat (dseq (repeat N n)) (length ts - 1))) (fun rndss =>
      total (score_diff (unet_score P dt dim init_dim out_dim groups mults mth h w c) score T) (reverse_visits score sde n u0 ts rndss))) in
    (forall i, (i < h * w * c)%nat -> Rabs (mean_of L i - m0 i) <= K * (e + st) + sqrt (C * err)) /\
    (forall i j, (i < h * w * c)%nat -> (j < h * w * c)%nat -> Rabs (cov_of L i j - C0 i j) <= K * (e + st) + C * err + sqrt (C * err) * (sqrt (C0 i i + K * (e + st)) + sqrt (C0 j j + K * (e + st)))).
Proof.
  intros Hd Hrun Hsd HT Hn HS HP HI. destruct (reverse_converges sde T (h * w * c) m0 C0 inv Hsd HT Hn HS HP HI) as (K & HK & HR). destruct (sampler_error P dt dim init_dim out_dim groups mults mth h w c sde T Hd Hrun HT) as (C & HC & HE).
  exists K, C. split; [assumption|]. split; [assumption|]. intros score N normal k n ts D mh Sh st e Hlen Hsc HN Hnor Hn1 Hhd Hlast Href Hst He HD HW L err.
  set (d := (h * w * c)%nat) in *. set (us := unet_score P dt dim init_dim out_dim groups mults mth h w c) in *.
  assert (Hsi : forall t, 0 < t <= T -> score_is d score (Toy.score d (fwd_mean sde m0) (fwd_cov sde C0) inv) t).
  { intros t Ht x Hx. split; [now apply Hlen|]. intros i Hi. rewrite (Hsc t x i Ht Hx Hi). unfold Toy.score, vscale, vsub, vec_of. ring. }
  specialize (HR score N normal k n ts D mh Sh st e Hsi HN Hnor Hn1 Hhd Hlast Href Hst He HD HW). cbv zeta in HR.
  set (L2 := fun F => E D (fun u0 => law (reverse_prog normal k u0 ts score (Sde.drift sde) (Sde.dispersion sde) n) (on_some F))) in *.
  destruct (first_point ts Hhd) as [Hne H0]. assert (Has : ascending ts) by (intros j Hj; specialize (Href j Hj); lra).
  set (W := dseq (repeat (dseq (repeat N n)) (length ts - 1))) in *. assert (PW : is_prob W) by (apply is_prob_dseq, Forall_forall; intros y Hy; apply repeat_spec in Hy; subst; now apply (rows_prob d)).
  set (J := dbind D (fun u => dmap (pair u) W)). destruct HD as (PD & DL & HD). assert (PJ : is_prob J) by (apply is_prob_dbind; [assumption|intros; now apply is_prob_dmap]).
  assert (EJ : forall F : list R * list (list (list R)) -> R, E J F = E D (fun u => E W (fun r => F (u, r)))) by (intros F; unfold J; rewrite E_dbind; apply E_ext'; intros u; apply E_dmap).
  assert (IJ : forall a, In a (map snd J) -> length (fst a) = d /\ Forall (Forall (fun r => length r = d)) (snd a)).
  { intros [u r] Ha. apply in_map_iff in Ha as ([p q] & E1 & Ha). cbn [snd] in E1. subst q. unfold J, dbind in Ha. apply in_flat_map in Ha as ([p1 u1] & Hu1 & Ha). apply in_map_iff in Ha as ([p2 q2] & E2 & Ha). cbn [fst snd] in *.
    unfold dmap in Ha. apply in_map_iff in Ha as ([p3 q3] & E3 & Ha). cbn [fst snd] in *. inversion E3; subst. inversion E2; subst. split; [apply DL, in_map_iff; exists (p1, u); auto|]. apply (rows_length d N n (length ts - 1) HN). apply in_map_iff. exists (p2, r). auto. }
  set (run1 := fun a : list R * list (list (list R)) => unet_sampler P dt dim init_dim out_dim groups mults mth h w c sde n (fst a) ts (snd a)). set (run2 := fun a : list R * list (list (list R)) => Sim.reverse_simulator score (Sde.drift sde) (Sde.dispersion sde) n true (fst a) ts (snd a)).
  set (get := fun o : option (list R) => match o with Some x => x | None => [] end). set (X := fun a => get (run1 a)). set (Y := fun a => get (run2 a)).
  assert (HXY : forall a, In a (map snd J) -> length (X a) = d /\ length (Y a) = d /\ sq_norm (Sde.vmap2 Rminus (X a) (Y a)) <= C * total (score_diff us score T) (reverse_visits score sde n (fst a) ts (snd a))).
  { intros a Ha. destruct (IJ a Ha) as [A1 A2]. destruct (HE score n ts (snd a) (fst a) Hn1 Hne ltac:(lra) Has Hlast A2 A1 (fun x t Hx => Hlen t x Hx)) as (x & y & Ex & Ey & Lx & Ly & _ & Hsq). unfold X, Y, run1, run2. rewrite Ex, Ey. cbn [get]. auto. }
  assert (Hgap : E J (fun a => sq_norm (Sde.vmap2 Rminus (X a) (Y a))) <= C * err).
  { eapply Rle_trans; [apply (ResVariance.E_le J _ (fun a => C * total (score_diff us score T) (reverse_visits score sde n (fst a) ts (snd a)))); [apply PJ|intros a Ha; now apply HXY]|]. rewrite E_mult_l, EJ. cbn [fst snd]. right. reflexivity. }
  assert (HL : forall F, L F = E J (fun a => F (X a))).
  { intros F. unfold L. rewrite EJ. apply E_ext. intros u Hu. unfold unet_sampler_prog, reverse_prog. rewrite law_bind, (DL u Hu), (em_draws_law normal k n d N Hnor). fold W. apply E_ext'. intros r. reflexivity. }
  assert (HL2 : forall F, L2 F = E J (fun a => F (Y a))).
  { intros F. unfold L2. rewrite EJ. apply E_ext. intros u Hu. unfold reverse_prog. rewrite law_bind, (DL u Hu), (em_draws_law normal k n d N Hnor). fold W. apply E_ext'. intros r. reflexivity. }
  assert (HXL : forall a, In a (map snd J) -> length (X a) = d /\ length (Y a) = d) by (intros a Ha; split; now apply HXY).
  destruct HR as [R1 R2]. split.
  - intros i Hi. specialize (R1 i Hi). pose proof (mean_gap J d X Y (C * err) PJ HXL Hgap i Hi) as M. unfold mean_of in *. rewrite HL. rewrite HL2 in R1. revert M R1. unfold Rabs. repeat destruct Rcase_abs; lra.
  - intros i j Hi Hj. pose proof (R2 i i Hi Hi) as Ri. pose proof (R2 j j Hj Hj) as Rj. specialize (R2 i j Hi Hj). unfold cov_of, mean_of in *. rewrite HL, !HL. rewrite !HL2 in Ri, Rj, R2. rewrite (HL2 (fun x => nth j x 0)) in R2.
    assert (Vi := fun v => cov_gap J d X Y (C * err) PJ HXL Hgap i j (C0 i i + K * (e + st)) v Hi Hj). specialize (Vi (C0 j j + K * (e + st))).
    assert (Bi : E J (fun a => (nth i (Y a) 0 - E J (fun a0 => nth i (Y a0) 0)) * (nth i (Y a) 0 - E J (fun a0 => nth i (Y a0) 0))) <= C0 i i + K * (e + st)) by (revert Ri; unfold Rabs; destruct Rcase_abs; lra).
    assert (Bj : E J (fun a => (nth j (Y a) 0 - E J (fun a0 => nth j (Y a0) 0)) * (nth j (Y a) 0 - E J (fun a0 => nth j (Y a0) 0))) <= C0 j j + K * (e + st)) by (revert Rj; unfold Rabs; destruct Rcase_abs; lra).
    specialize (Vi Bi Bj). revert Vi R2. unfold Rabs. repeat destruct Rcase_abs; lra.
Qed.

(** ** The drift evaluations with one step per interval *)
Lemma step_visits_one f g x t t' r : t <= t' -> step_visits f g 1 x t t' [r] = [(t' - t, t, x)].
Proof.
  intros Ht. unfold step_visits. cbv zeta. rewrite (linspace_left t t' 1 (le_n 1) Ht). cbn [seq map sub_visits INR]. rewrite Rabs_pos_eq by lra. replace ((t' - t) / 1) with (t' - t) by field. replace (t + 0 * (t' - t)) with t by ring. reflexivity.
Qed.
Lemma visits_path f g ts : forall rndss x, ts <> [] -> ascending ts -> length rndss = (length ts - 1)%nat -> Forall (fun rnds => length rnds = 1%nat) rndss ->
  map snd (visits f g 1 x ts rndss) = removelast (Sim.em_path f g 1 x ts rndss) /\
  map (fun v => snd (fst v)) (visits f g 1 x ts rndss) = removelast ts /\
  forall k, (S k < length ts)%nat -> nth k (map (fun v => fst (fst v)) (visits f g 1 x ts rndss)) 0 = nth (S k) ts 0 - nth k ts 0.
Proof.
  induction ts as [|t [|t' ts] IH]; intros rndss x Hne Ha Hl HF; [easy| |].
  - destruct rndss; [|discriminate]. split; [reflexivity|]. split; [reflexivity|]. cbn. intros; lia.
  - destruct rndss as [|[|r [|]] rndss]; [discriminate|apply Forall_cons_iff in HF as [HF _]; discriminate| |apply Forall_cons_iff in HF as [HF _]; discriminate]. apply Forall_cons_iff in HF as [_ HF].
    destruct (IH rndss (Sim.em_step f g 1 x t t' [r]) ltac:(discriminate) (ascending_tail _ _ Ha) ltac:(cbn [length] in *; lia) HF) as (I1 & I2 & I3).
    change (visits f g 1 x (t :: t' :: ts) ([r] :: rndss)) with (step_visits f g 1 x t t' [r] ++ visits f g 1 (Sim.em_step f g 1 x t t' [r]) (t' :: ts) rndss). rewrite (step_visits_one f g x t t' r (ascending_head _ _ _ Ha)).
    cbn [map app fst snd]. rewrite I1, I2. split; [|split; [reflexivity|]].
    + unfold Sim.em_path. rewrite Sim.em_scan_cons. reflexivity.
    + intros [|k] Hk; [reflexivity|]. cbn [nth]. rewrite I3 by (cbn [length] in *; lia). reflexivity.
Qed.
