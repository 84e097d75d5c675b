(** experiments/toy: the Euler transition densities of the filters, and gp_kf.py. *)
From Coquelicot Require Import Coquelicot.
From Coq Require Import Reals List Lia Lra Morphisms Setoid.
From Verif Require Sde SdeProofs SdeMore.
From Verif Require Import Base Dist Mat MatMore Expm Lti Cholesky GaussDiv GaussCond GaussSB GaussSBMore Toy ToyCond ToyMore.
Import ListNotations.
Open Scope R_scope.

(** ** Model *)
(** gp_pmcmc.py 90-97 [reverse_drift_u], [reverse_drift_v], for a drift [rd] on (u, v) *)
Definition rd_u (d : nat) (rd : vec -> R -> vec) (u v : vec) (t : R) : vec := rd (vcat d u v) t.
Definition rd_v (d : nat) (rd : vec -> R -> vec) (v u : vec) (t : R) : vec := vhi d (rd (vcat d u v) t).

(** gp_pmcmc.py 112-114 [transition_sampler], one particle, with the noise [z] *)
Definition transition_draw (d : nat) (rd : vec -> R -> vec) (b : R -> R) (dt : R) (u v : vec) (t : R) (z : vec) : vec :=
  vadd (vadd u (vscale dt (rd_u d rd u v t))) (vscale (sqrt dt * b t) z).
(** gp_pmcmc.py 117-121 [transition_logpdf], 124-127 [likelihood_logpdf], one particle *)
Definition transition_logpdf (d : nat) (rd : vec -> R -> vec) (b : R -> R) (dt : R) (u' u v : vec) (t : R) : R :=
  Rsum (map (fun i => normal_logpdf (u' i) (u i + rd_u d rd u v t i * dt) (sqrt dt * b t)) (seq 0 d)).
Definition likelihood_logpdf (d : nat) (rd : vec -> R -> vec) (b : R -> R) (dt : R) (v' u v : vec) (t : R) : R :=
  Rsum (map (fun i => normal_logpdf (v' i) (v i + rd_v d rd v u t i * dt) (sqrt dt * b t)) (seq 0 d)).

(** gp_kf.py 103-116 *)
Definition cond_state_mean (d : nat) (rd : vec -> R -> vec) (dt : R) (u v : vec) (t : R) : vec := fun i => u i + rd_u d rd u v t i * dt.
Definition cond_obs_mean (d : nat) (rd : vec -> R -> vec) (dt : R) (u v : vec) (t : R) : vec := fun i => v i + rd_v d rd v u t i * dt.
Definition kf_noise (b : R -> R) (dt t : R) : mat := mscale (sqrt dt * b t) mid.   (* cond_state_cov, cond_obs_cov *)

(** [jax.jacfwd] *)
Definition is_jac (d : nat) (f : vec -> vec) (x : vec) (J : mat) : Prop := forall i, (i < d)%nat -> is_grad d (fun x => f x i) x (J i).

(** gp_kf.py 130-144 [scan_body] of [adhoc_kf] *)
Definition kf_step (d : nat) (rd : vec -> R -> vec) (b : R -> R) (dt : R) (v v_prev : vec) (t : R) (mf : vec) (vf : mat) (mf' : vec) (vf' : mat) : Prop :=
  exists F H U X, let mp := cond_state_mean d rd dt mf v_prev t in
  let vp := madd (mmul d (mmul d F vf) (mtr F)) (kf_noise b dt t) in
  let S := madd (mmul d (mmul d H vp) (mtr H)) (kf_noise b dt t) in
  let K := mmul d vp (mtr X) in
  is_jac d (fun u => cond_state_mean d rd dt u v_prev t) mf F /\
  is_jac d (fun w => cond_obs_mean d rd dt mp w t) v_prev H /\            (* argnums=1 *)
  cho_factor d S U /\ cho_solve d U H X /\
  mf' = vadd mp (mvec d K (vsub v (cond_obs_mean d rd dt mp v_prev t))) /\
  vf' = msub vp (mmul d (mmul d K S) (mtr K)).

(** ** Specification *)
(** The Euler step of the reverse process: (u, v) moves to a Gaussian vector with mean
    (u, v) + rd(u, v) dt and covariance dt b^2 I. *)
Definition euler_mean (rd : vec -> R -> vec) (dt : R) (w : vec) (t : R) : vec := vadd w (vscale dt (rd w t)).
Definition euler_cov (b : R -> R) (dt t : R) : mat := mscale (dt * b t ^ 2) mid.

(** One exact filtering step for the Euler chain: u_prev is N(mf, vf) given the past; (u, v) is one
    Euler step from (u_prev, v_prev); condition u on v.  A, H: Jacobians of the step in u_prev. *)
Definition exact_step (d : nat) (rd : vec -> R -> vec) (b : R -> R) (dt : R) (v v_prev : vec) (t : R) (mf : vec) (vf : mat) (m' : vec) (v' : mat) : Prop :=
  exists A H,
  is_jac d (fun u => euler_mean rd dt (vcat d u v_prev) t) mf A /\
  is_jac d (fun u => vhi d (euler_mean rd dt (vcat d u v_prev) t)) mf H /\
  ref_moments d (euler_mean rd dt (vcat d mf v_prev) t)
    (blk d (madd (mmul d (mmul d A vf) (mtr A)) (mscale (dt * b t ^ 2) mid)) (mmul d (mmul d A vf) (mtr H))
           (mmul d (mmul d H vf) (mtr A)) (madd (mmul d (mmul d H vf) (mtr H)) (mscale (dt * b t ^ 2) mid)))
    v m' v'.

(** ** The filters use the densities of the joint Euler step *)
Lemma gauss_logpdf_iso d m s x : 0 < s -> gauss_logpdf d m (mscale (s ^ 2) mid) x (Rsum (map (fun i => normal_logpdf (x i) (m i) s) (seq 0 d))).
Proof.
  intros Hs. exists (mscale s mid), (fun i => (x i - m i) / s).
  assert (Ed : forall i, mscale s mid i i = s) by (intros i; unfold mscale, mid; rewrite Nat.eqb_refl; ring).
  assert (Ec : forall z i, cond_mean m (mscale s mid) z i = m i).
  { intros z i. unfold cond_mean. rewrite (Rsum_map_ext _ (fun _ => 0)); [rewrite Rsum_map_const; ring|]. intros k Hk. apply in_seq in Hk.
    unfold mscale, mid. destruct (Nat.eqb_spec i k); [lia|ring]. }
  split; [|split; [|split; [|split]]].
  - intros i j _ _ H. unfold mscale, mid. destruct (Nat.eqb_spec i j); [lia|ring].
  - intros i _. now rewrite Ed.
  - intros i j Hi Hj. change (mtr (mscale s mid)) with (mscale s (mtr mid)). rewrite mmul_scale_l, mmul_scale_r, mmul_id_l by exact Hi.
    unfold mtr, mscale, mid. rewrite Nat.eqb_sym. ring.
  - intros i Hi. now rewrite Ec, Ed.
  - apply Rsum_map_ext. intros i _. now rewrite Ec, Ed.
Qed.

Theorem euler_density d rd b dt u v t u' v' lp : 0 < dt -> 0 < b t ->
  gauss_logpdf (2 * d) (euler_mean rd dt (vcat d u v) t) (euler_cov b dt t) (vcat d u' v') lp ->
  lp = transition_logpdf d rd b dt u' u v t + likelihood_logpdf d rd b dt v' u v t.
Proof.
  intros Hdt Hb H. assert (Hs : 0 < sqrt dt * b t) by (apply Rmult_lt_0_compat; [now apply sqrt_lt_R0|exact Hb]).
  assert (Hc : meq (2 * d) (euler_cov b dt t) (mscale ((sqrt dt * b t) ^ 2) mid)).
  { intros i j _ _. unfold euler_cov, mscale. rewrite Rpow_mult_distr, pow2_sqrt by lra. reflexivity. }
  rewrite (gauss_logpdf_ext _ _ _ _ _ _ _ _ _ (reflexivity _) Hc (reflexivity _) H (gauss_logpdf_iso (2 * d) (euler_mean rd dt (vcat d u v) t) _ (vcat d u' v') Hs)).
  rewrite Rsum_split2. unfold transition_logpdf, likelihood_logpdf, rd_u, rd_v, euler_mean, vadd, vscale. f_equal; apply Rsum_map_ext; intros i Hi; apply in_seq in Hi.
  - replace (vcat d u' v' i) with (u' i) by (blk_cases; reflexivity). replace (vcat d u v i) with (u i) by (blk_cases; reflexivity). f_equal; ring.
  - change (vcat d u' v' (d + i)%nat) with (vhi d (vcat d u' v') i). rewrite vcat_h by lia.
      change (vcat d u v (d + i)%nat) with (vhi d (vcat d u v) i). rewrite vcat_h by lia. unfold vhi. f_equal; ring.
Qed.

(** [transition_logpdf] is the density of [transition_draw]: same moments, Gaussian by construction. *)
Theorem transition_draw_moments d rd b dt u v t law : 0 <= dt -> standard d law ->
  let m := fun i => u i + rd_u d rd u v t i * dt in
  has_mean d (dmap (transition_draw d rd b dt u v t) law) m /\
  has_cov d (dmap (transition_draw d rd b dt u v t) law) m (mscale ((sqrt dt * b t) ^ 2) mid).
Proof.
  intros Hdt (HP & Hm & Hc) m. split.
  - intros i Hi. rewrite E_dmap. unfold transition_draw, vadd, vscale. rewrite E_plus, E_const, E_mult_l, Hm by (exact HP || exact Hi). unfold m. ring.
  - intros i j Hi Hj. rewrite E_dmap. unfold transition_draw, vadd, vscale, m.
    transitivity (E law (fun z => (sqrt dt * b t) ^ 2 * ((z i - 0) * (z j - 0)))); [apply E_ext'; intros; ring|].
    rewrite E_mult_l. unfold mscale. f_equal. exact (Hc i j Hi Hj).
Qed.
Theorem transition_density d rd b dt u v t u' : 0 < dt -> 0 < b t ->
  gauss_logpdf d (fun i => u i + rd_u d rd u v t i * dt) (mscale ((sqrt dt * b t) ^ 2) mid) u' (transition_logpdf d rd b dt u' u v t).
Proof. intros Hdt Hb. apply gauss_logpdf_iso. apply Rmult_lt_0_compat; [now apply sqrt_lt_R0|exact Hb]. Qed.

(** ** gp_kf.py is not exact

    d = 1, the constant-coefficient SDE and T = 1, two steps, as in the script; unit kernel and
    observation variances.  First step of the filter from the reference law at v_T = 0, next
    observation 1. *)
Definition kf_sde := Sde.ConstSDE (- (1 / 2)) 1.
Definition kf_joint : mat := joint_cov 1 (cov_fn 1 1 (zs_grid 1) (zs_grid 1)) 1.
Definition kf_rd : vec -> R -> vec :=
  reverse_drift 2 (vdrift kf_sde) (Sde.dispersion kf_sde) 1 (fwd_mean kf_sde (fun _ => 0)) (fwd_cov kf_sde kf_joint) inv2.

Section kf.
Let f := exp (- (1)).
Let det := 1 + f - f * f.
Lemma kf_f_bounds : 1 / 3 <= f <= 1 / 2.
Proof.
  unfold f. rewrite exp_Ropp. assert (H := exp_le_3). assert (2 < exp 1) by (pose proof (exp_ineq1 1 ltac:(lra)); lra). split.
  - apply Rmult_le_reg_r with (exp 1); [lra|]. rewrite Rinv_l by lra. lra.
  - apply Rmult_le_reg_r with (exp 1); [lra|]. rewrite Rinv_l by lra. lra.
Qed.
Lemma kf_det : 11 / 9 <= det <= 5 / 4.
Proof. pose proof kf_f_bounds. unfold det. split; nra. Qed.
Lemma kf_cov : fwd_cov kf_sde kf_joint 1 0%nat 0%nat = 1 /\ fwd_cov kf_sde kf_joint 1 0%nat 1%nat = f /\
  fwd_cov kf_sde kf_joint 1 1%nat 0%nat = f /\ fwd_cov kf_sde kf_joint 1 1%nat 1%nat = 1 + f.
Proof.
  unfold fwd_cov, kf_joint, joint_cov, blk, cov_fn, madd, mscale, mid, kf_sde, zs_grid. cbn [Sde.FQ fst snd Sde.linspace nth Nat.ltb Nat.leb Nat.sub Nat.eqb].
  replace (0 - 0) with 0 by ring. rewrite Rabs_R0. replace (- 0 / 1) with 0 by field. rewrite exp_0.
  assert (E1 : exp (- (1 / 2) * (1 - 0)) ^ 2 = f).
  { cbn [pow]. rewrite Rmult_1_r, <- exp_plus. unfold f. f_equal. field. }
  assert (E2 : exp (2 * - (1 / 2) * (1 - 0)) = f) by (unfold f; f_equal; field).
  rewrite E1, E2. repeat split; field.
Qed.
Lemma kf_inv : inv2 (fwd_cov kf_sde kf_joint 1) 0%nat 0%nat = (1 + f) / det /\ inv2 (fwd_cov kf_sde kf_joint 1) 0%nat 1%nat = - f / det /\
  inv2 (fwd_cov kf_sde kf_joint 1) 1%nat 0%nat = - f / det /\ inv2 (fwd_cov kf_sde kf_joint 1) 1%nat 1%nat = 1 / det.
Proof.
  destruct kf_cov as (E1 & E2 & E3 & E4). unfold inv2, mat2. rewrite E1, E2, E3, E4. replace (1 * (1 + f) - f * f) with det by (unfold det; ring).
  repeat split; reflexivity.
Qed.
Lemma kf_inverse : inverse_at 2 (fwd_cov kf_sde kf_joint) inv2 1.
Proof.
  destruct kf_cov as (E1 & E2 & E3 & E4). destruct kf_inv as (I1 & I2 & I3 & I4). pose proof kf_det as HD.
  split; apply meq2; unfold mmul, mid; cbn [map seq Rsum fold_right Nat.eqb]; rewrite ?I1, ?I2, ?I3, ?I4, ?E1, ?E2, ?E3, ?E4; unfold det in *; field; lra.
Qed.
Lemma kf_rd_val w : kf_rd w 0 0%nat = w 0%nat / 2 - ((1 + f) / det * w 0%nat - f / det * w 1%nat) /\
  kf_rd w 0 1%nat = w 1%nat / 2 - (- f / det * w 0%nat + 1 / det * w 1%nat).
Proof.
  destruct kf_inv as (I1 & I2 & I3 & I4). pose proof kf_det as HD.
  unfold kf_rd, reverse_drift, score, vadd, vscale, vdrift, vscale, mvec, vsub, fwd_mean, vscale. replace (1 - 0) with 1 by ring.
  cbn [map seq Rsum fold_right kf_sde Sde.drift_coef Sde.dispersion]. rewrite I1, I2, I3, I4. split; field; lra.
Qed.

Lemma kf_csm u v : cond_state_mean 1 kf_rd (1 / 2) u v 0 0%nat = u 0%nat + (u 0%nat / 2 - ((1 + f) / det * u 0%nat - f / det * v 0%nat)) * (1 / 2).
Proof. unfold cond_state_mean, rd_u. rewrite (proj1 (kf_rd_val _)). unfold vcat. cbn [Nat.ltb Nat.leb Nat.sub]. reflexivity. Qed.
Lemma kf_com u v : cond_obs_mean 1 kf_rd (1 / 2) u v 0 0%nat = v 0%nat + (v 0%nat / 2 - (- f / det * u 0%nat + 1 / det * v 0%nat)) * (1 / 2).
Proof. unfold cond_obs_mean, rd_v, vhi. cbn [Nat.add]. rewrite (proj2 (kf_rd_val _)). unfold vcat. cbn [Nat.ltb Nat.leb Nat.sub]. reflexivity. Qed.
Lemma is_jac1 (g : vec -> vec) (x : vec) (J : mat) (h : R -> R) : (forall y, g (fun k => if Nat.eqb k 0 then y else x k) 0%nat = h y) ->
  is_derive h (x 0%nat) (J 0%nat 0%nat) -> is_jac 1 g x J.
Proof.
  intros H Hd i Hi j Hj. assert (i = 0%nat) as -> by lia. assert (j = 0%nat) as -> by lia. eapply is_derive_ext; [|exact Hd]. intros y. now rewrite H.
Qed.
Definition c1 (c : R) : mat := fun _ _ => c.
Lemma mmul_c1 a b i j : mmul 1 (c1 a) (c1 b) i j = a * b.
Proof. unfold mmul, c1. cbn. ring. Qed.

Let vf := det / (1 + f).
Let FF := 1 + (1 / 2 - (1 + f) / det) * (1 / 2).
Let HH := 1 + (1 / 2 - 1 / det) * (1 / 2).
Let hh := f / det * (1 / 2).
Let s := sqrt (1 / 2).
Let vp := FF * vf * FF + s.
Let SS := HH * vp * HH + s.

Lemma kf_ref : ref_moments 1 (fwd_mean kf_sde (fun _ => 0) 1) (fwd_cov kf_sde kf_joint 1) (fun _ => 0) (fun _ => 0) (c1 vf).
Proof.
  destruct kf_cov as (E1 & E2 & E3 & E4). pose proof kf_f_bounds as HF. pose proof kf_det as HD.
  exists (c1 (sqrt (1 + f))), (fun _ => 0), (c1 (f / (1 + f))). split; [|split; [|split; [|split]]].
  - split; [intros i j Hi Hj H; lia|]. split; [intros i Hi; unfold c1; apply sqrt_lt_R0; lra|].
    intros i j Hi Hj. assert (i = 0%nat) as -> by lia. assert (j = 0%nat) as -> by lia. unfold m_hh. cbn [Nat.add]. rewrite E4. change (mtr (c1 (sqrt (1 + f)))) with (c1 (sqrt (1 + f))).
    rewrite mmul_c1. apply sqrt_sqrt. lra.
  - intros i Hi. unfold mvec, vsub, vhi, fwd_mean, vscale. rewrite (Rsum_map_ext _ (fun _ => 0)) by (intros; ring). rewrite Rsum_map_const. ring.
  - intros i j Hi Hj. assert (i = 0%nat) as -> by lia. assert (j = 0%nat) as -> by lia. unfold m_hl. cbn [Nat.add]. rewrite E3.
    change (mtr (c1 (sqrt (1 + f)))) with (c1 (sqrt (1 + f))). unfold mmul. cbn [map seq Rsum fold_right]. unfold c1. rewrite Rplus_0_r, Rplus_0_r, sqrt_sqrt by lra. field. lra.
  - intros i Hi. unfold vadd, fwd_mean, vscale, mvec. rewrite (Rsum_map_ext _ (fun _ => 0)) by (intros; ring). rewrite Rsum_map_const. ring.
  - intros i j Hi Hj. assert (i = 0%nat) as -> by lia. assert (j = 0%nat) as -> by lia. unfold msub, mmul, m_lh. cbn [map seq Rsum fold_right Nat.add]. rewrite E1, E2. unfold c1, vf, det. field. lra.
Qed.

Lemma kf_s : 7 / 10 <= s <= 72 / 100.
Proof.
  unfold s. split.
  - rewrite <- (sqrt_square (7 / 10)) by lra. apply sqrt_le_1; lra.
  - rewrite <- (sqrt_square (72 / 100)) by lra. apply sqrt_le_1; lra.
Qed.
Lemma kf_bounds : 8 / 10 <= / det <= 9 / 11 /\ 65 / 100 <= FF <= 71 / 100 /\ 84 / 100 <= HH <= 85 / 100 /\ 0 <= hh <= 21 / 100 /\ 8 / 10 <= vf <= 92 / 100.
Proof.
  pose proof kf_f_bounds as HF. pose proof kf_det as HD.
  assert (A : 8 / 10 <= / det <= 9 / 11).
  { split; [replace (8 / 10) with (/ (5 / 4)) by field|replace (9 / 11) with (/ (11 / 9)) by field]; apply Rinv_le_contravar; lra. }
  split; [exact A|].
  assert (Id : / det * det = 1) by (apply Rinv_l; lra). unfold det in Id. fold det in Id.
  unfold FF, HH, hh, vf, Rdiv. set (q := / det) in *. rewrite ?Rmult_1_l.
  assert (V : det * / (1 + f) = 1 - f * f * / (1 + f)) by (unfold det; field; lra).
  assert (W : 2 / 3 <= / (1 + f) <= 3 / 4).
  { split; [replace (2 / 3) with (/ (3 / 2)) by field|replace (3 / 4) with (/ (4 / 3)) by field]; apply Rinv_le_contravar; lra. }
  rewrite V. set (p := / (1 + f)) in *.
  assert (M1 : 1.09 <= (1 + f) * q <= 1.2).
  { unfold det in HD, Id. split; nra. }
  repeat split; nra.
Qed.


Let vpm : mat := madd (mmul 1 (mmul 1 (c1 FF) (c1 vf)) (mtr (c1 FF))) (kf_noise (fun t => Sde.dispersion kf_sde (1 - t)) (1 / 2) 0).
Lemma kf_vp_val : vpm 0%nat 0%nat = vp.
Proof. unfold vpm, madd, mmul, mtr, kf_noise, mscale, mid, c1, vp, s. cbn. ring. Qed.
Lemma kf_S_val : madd (mmul 1 (mmul 1 (c1 HH) vpm) (mtr (c1 HH))) (kf_noise (fun t => Sde.dispersion kf_sde (1 - t)) (1 / 2) 0) 0%nat 0%nat = SS.
Proof. unfold madd at 1. unfold mmul. cbn [map seq Rsum fold_right]. rewrite kf_vp_val. unfold mtr, kf_noise, mscale, mid, c1, SS, s. cbn. ring. Qed.
Lemma kf_K_val : mmul 1 vpm (mtr (c1 (HH / SS))) 0%nat 0%nat = vp * (HH / SS).
Proof. unfold mmul. cbn [map seq Rsum fold_right]. rewrite kf_vp_val. unfold mtr, c1. ring. Qed.

Theorem gp_kf_not_exact : exists mf' vf' m' v',
  ref_moments 1 (fwd_mean kf_sde (fun _ => 0) 1) (fwd_cov kf_sde kf_joint 1) (fun _ => 0) (fun _ => 0) (c1 vf) /\
  kf_step 1 kf_rd (fun t => Sde.dispersion kf_sde (1 - t)) (1 / 2) (fun _ => 1) (fun _ => 0) 0 (fun _ => 0) (c1 vf) mf' vf' /\
  exact_step 1 kf_rd (fun t => Sde.dispersion kf_sde (1 - t)) (1 / 2) (fun _ => 1) (fun _ => 0) 0 (fun _ => 0) (c1 vf) m' v' /\
  m' 0%nat < 3 / 10 /\ 1 / 2 < mf' 0%nat.
Proof.
  destruct kf_bounds as (_ & BF & BH & Bh & Bv). pose proof kf_s as Bs. pose proof kf_det as HD.
  assert (Pvp : 0 < vp) by (unfold vp; nra). assert (PS : 0 < SS) by (unfold SS; nra).
  assert (Pe : 0 < hh * vf * hh + 1 / 2) by nra.
  do 4 eexists. split; [exact kf_ref|]. split; [|split].
  - exists (c1 FF), (c1 HH), (c1 (sqrt SS)), (c1 (HH / SS)). cbv zeta. split; [|split; [|split; [|split; [|split; reflexivity]]]].
    + apply (is_jac1 _ _ _ (fun y => y + (y / 2 - ((1 + f) / det * y - f / det * 0)) * (1 / 2))).
      * intros y. rewrite kf_csm. cbn [Nat.eqb]. reflexivity.
      * unfold c1, FF. auto_derive; [trivial|]. field. lra.
    + match goal with |- is_jac 1 (fun w => cond_obs_mean 1 kf_rd (1/2) ?mp w 0) _ _ => apply (is_jac1 _ _ _ (fun y => y + (y / 2 - (- f / det * mp 0%nat + 1 / det * y)) * (1 / 2))) end.
      * intros y. rewrite kf_com. cbn [Nat.eqb]. reflexivity.
      * unfold c1, HH. auto_derive; [trivial|]. field. lra.
    + split; [intros i j Hi Hj H; lia|]. split; [intros i Hi; apply sqrt_lt_R0, PS|].
      intros i j Hi Hj. assert (i = 0%nat) as -> by lia. assert (j = 0%nat) as -> by lia. change (mtr (c1 (sqrt SS))) with (c1 (sqrt SS)). rewrite mmul_c1, sqrt_sqrt by lra.
      symmetry; exact kf_S_val.
    + intros i j Hi Hj. change (mtr (c1 (sqrt SS))) with (c1 (sqrt SS)). unfold mmul. cbn [map seq Rsum fold_right]. unfold c1. rewrite !Rplus_0_r, sqrt_sqrt by lra. field. lra.
  - exists (c1 FF), (c1 hh). split; [|split].
    + apply (is_jac1 _ _ _ (fun y => y + 1 / 2 * (y / 2 - ((1 + f) / det * y - f / det * 0)))).
      * intros y. unfold euler_mean, vadd, vscale. rewrite (proj1 (kf_rd_val _)). reflexivity.
      * unfold c1, FF. auto_derive; [trivial|]. field. lra.
    + apply (is_jac1 _ _ _ (fun y => 0 + 1 / 2 * (0 / 2 - (- f / det * y + 1 / det * 0)))).
      * intros y. unfold vhi, euler_mean, vadd, vscale. cbn [Nat.add]. rewrite (proj2 (kf_rd_val _)). reflexivity.
      * unfold c1, hh. auto_derive; [trivial|]. field. lra.
    + exists (c1 (sqrt (hh * vf * hh + 1 / 2))), (fun _ => / (hh * vf * hh + 1 / 2)), (c1 (hh * vf * FF / (hh * vf * hh + 1 / 2))).
      split; [|split; [|split; [|split; reflexivity]]].
      * split; [intros i j Hi Hj H; lia|]. split; [intros i Hi; apply sqrt_lt_R0; lra|].
        intros i j Hi Hj. assert (i = 0%nat) as -> by lia. assert (j = 0%nat) as -> by lia. change (mtr (c1 (sqrt (hh * vf * hh + 1 / 2)))) with (c1 (sqrt (hh * vf * hh + 1 / 2))).
        rewrite mmul_c1, sqrt_sqrt by lra. unfold m_hh, blk, madd, mscale, mid, mmul, mtr, c1, kf_sde. cbn. field.
      * intros i Hi. assert (i = 0%nat) as -> by lia. unfold mvec. cbn [map seq Rsum fold_right]. unfold mmul, mtr, c1. cbn [map seq Rsum fold_right].
        rewrite !Rplus_0_r, sqrt_sqrt by lra. unfold vsub, vhi, euler_mean, vadd, vscale. cbn [Nat.add]. rewrite (proj2 (kf_rd_val _)). unfold vcat. cbn [Nat.ltb Nat.leb Nat.sub].
        field. lra.
      * intros i j Hi Hj. assert (i = 0%nat) as -> by lia. assert (j = 0%nat) as -> by lia. unfold mmul, mtr, c1. cbn [map seq Rsum fold_right]. rewrite !Rplus_0_r, sqrt_sqrt by lra.
        unfold m_hl, blk, mmul. cbn. field. lra.
  - split.
    + unfold vadd, mvec, euler_mean, vadd, vscale. cbn [map seq Rsum fold_right]. rewrite (proj1 (kf_rd_val _)). unfold vcat, m_lh, blk, mmul, mtr, c1. cbn [Nat.ltb Nat.leb Nat.sub Nat.add map seq Rsum fold_right].
      match goal with |- ?x < _ => replace x with (FF * vf * hh / (hh * vf * hh + 1 / 2)) by (field; lra) end.
      apply Rmult_lt_reg_r with (hh * vf * hh + 1 / 2); [exact Pe|]. replace (FF * vf * hh / (hh * vf * hh + 1 / 2) * (hh * vf * hh + 1 / 2)) with (FF * vf * hh) by (field; lra).
      assert (FF * vf <= 71 / 100 * (92 / 100)) by nra. assert (FF * vf * hh <= 71 / 100 * (92 / 100) * (21 / 100)) by nra. nra.
    + change (vadd ?x ?y 0%nat) with (x 0%nat + y 0%nat). unfold mvec. cbn [map seq Rsum fold_right]. unfold vsub. rewrite kf_com, kf_csm.
      match goal with |- context [mmul 1 ?a (mtr (c1 (HH / SS))) 0%nat 0%nat] => change (mmul 1 a (mtr (c1 (HH / SS))) 0%nat 0%nat) with (mmul 1 vpm (mtr (c1 (HH / SS))) 0%nat 0%nat) end.
      rewrite kf_K_val. match goal with |- _ < ?x => replace x with (vp * HH / SS) by (field; lra) end.
      apply Rmult_lt_reg_r with SS; [exact PS|]. replace (vp * HH / SS * SS) with (vp * HH) by (field; lra).
      assert (103 / 100 <= vp) by (unfold vp; assert (422 / 1000 <= FF * FF) by nra; nra).
      assert (97 / 100 <= HH * (2 - HH)) by nra. unfold SS. nra.
Qed.
End kf.
