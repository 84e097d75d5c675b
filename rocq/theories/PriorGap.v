(** What the reverse simulators return when they are not started from the marginal at the end of the forward process:
    reverse_simulator (fbs/sdes/simulators.py) from a reference law, and the sampler of experiments/toy/gp_csgm.py. *)
From Coq Require Import FunctionalExtensionality.
From Coquelicot Require Import Coquelicot.
From Coq Require Import Reals List Lia Lra Setoid Morphisms.
From Verif Require Sde SdeProofs Sim Expm.
From Verif Require Import Base Dist Prog Mat MatMore Cholesky GaussDiv GaussSBMore Toy ToyMore ToyCond EmMoments EmConverge.
Import ListNotations.
Open Scope R_scope.

Lemma mvec_ext_l d A B x i : meq d A B -> (i < d)%nat -> mvec d A x i = mvec d B x i.
Proof. intros H Hi. unfold mvec. apply Rsum_map_ext. intros k Hk. apply in_seq in Hk. rewrite H by lia. reflexivity. Qed.
Lemma mvec_ext_r d A x y i : veq d x y -> mvec d A x i = mvec d A y i.
Proof. intros H. unfold mvec. apply Rsum_map_ext. intros k Hk. apply in_seq in Hk. rewrite H by lia. reflexivity. Qed.
Lemma mvec_madd_l d A B x i : mvec d (madd A B) x i = mvec d A x i + mvec d B x i.
Proof. unfold mvec, madd. rewrite <- Rsum_map_plus. apply Rsum_map_ext. intros; ring. Qed.
Lemma mvec_vscale d A c x i : mvec d A (vscale c x) i = c * mvec d A x i.
Proof. unfold mvec, vscale. rewrite <- Rsum_map_mult_l. apply Rsum_map_ext. intros; ring. Qed.
Lemma mmul_col d A B i j : mmul d A B i j = mvec d A (fun k => B k j) i.
Proof. reflexivity. Qed.
Lemma mmul_row d A B i j : mmul d A (mtr B) i j = mvec d B (fun k => A i k) j.
Proof. unfold mmul, mvec, mtr. apply Rsum_map_ext. intros; ring. Qed.

(** ** The flow of the reverse process through an arbitrary start *)
Section gap.
Variables (sde : Sde.linear_sde) (T : R) (d : nat) (m0 : vec) (C0 : mat) (inv : mat -> mat).
Hypothesis Hd : SdeProofs.sde_defined sde.
Hypothesis HT : 0 <= T.
Hypothesis Hn : forall t, 0 <= t <= T -> SdeProofs.nonneg_noise sde t.
Hypothesis HCs : symmetric d C0.
Hypothesis HCp : posdef d C0.
Hypothesis Hinv : forall t, 0 <= t <= T -> inverse_at d (fwd_cov sde C0) inv t.
Variables (w : vec) (B : mat).
Let F (t : R) := fst (Sde.FQ sde t 0).
Let m := fwd_mean sde m0.
Let P := fwd_cov sde C0.
Let b := reverse_drift d (vdrift sde) (Sde.dispersion sde) T m P inv.
Let g (t : R) := Sde.dispersion sde (T - t).
Definition extra_mean (t : R) : vec := fun i => F T / F (T - t) * mvec d (P (T - t)) w i.
Definition extra_cov (t : R) : mat := fun i j => (F T / F (T - t)) ^ 2 * mmul d (P (T - t)) (mmul d B (P (T - t))) i j.

(** the linear part of the reverse drift *)
Lemma slope_apply t A v i : affine_at d b t A -> (i < d)%nat ->
  mvec d A v i = - Sde.drift_coef sde (T - t) * v i - g t ^ 2 * mvec d (inv (P (T - t))) v i.
Proof using.
  intros HA Hi. specialize (HA v (fun _ => 0) i Hi). unfold vsub at 1 in HA.
  rewrite (mvec_ext_r d A (vsub v (fun _ => 0)) v) in HA by (intros k _; unfold vsub; ring). rewrite <- HA.
  unfold b, reverse_drift, score, vadd, vscale, vdrift, vscale, g. fold P m.
  rewrite !mvec_sub_r by exact Hi. unfold vsub. rewrite (mvec_zero d _ (fun _ => 0)) by (try assumption; intros k _; reflexivity). ring.
Qed.

Lemma inverse_ops t : 0 <= t <= T -> symmetric d (inv (P t)) /\
  (forall i, (i < d)%nat -> mvec d (inv (P t)) (mvec d (P t) w) i = w i) /\
  (forall i j, (i < d)%nat -> (j < d)%nat -> mvec d (inv (P t)) (fun k => mmul d (P t) (mmul d B (P t)) k j) i = mmul d B (P t) i j) /\
  (forall i j, (i < d)%nat -> (j < d)%nat -> mvec d (inv (P t)) (fun k => mmul d (P t) (mmul d B (P t)) i k) j = mmul d (P t) B i j).
Proof using HCs Hinv.
  intros Ht. destruct (Hinv t Ht) as [W1 W2]. fold P in W1, W2. assert (HPs : symmetric d (P t)) by now apply fwd_cov_symmetric.
  assert (HW : symmetric d (inv (P t))) by now apply (inverse_symmetric d (P t)). split; [exact HW|]. split; [|split].
  - intros i Hi. rewrite (mvec_mul d (inv (P t)) (P t) w i Hi), (mvec_ext_l d _ mid w i W1 Hi). rewrite (mvec_id d w i Hi). reflexivity.
  - intros i j Hi Hj. rewrite <- mmul_col. rewrite (mmul_assoc d (inv (P t)) (P t) (mmul d B (P t)) i j Hi Hj).
    rewrite (mmul_proper d _ mid W1 (mmul d B (P t)) _ (reflexivity _) i j Hi Hj). now apply mmul_id_l.
  - intros i j Hi Hj. rewrite <- mmul_row. rewrite (mmul_proper d _ _ (reflexivity _) (mtr (inv (P t))) (inv (P t)) HW i j Hi Hj).
    rewrite (mmul_proper d _ _ (mmul_assoc d (P t) B (P t)) (inv (P t)) _ (reflexivity _) i j Hi Hj).
    rewrite <- (mmul_assoc d (mmul d (P t) B) (P t) (inv (P t)) i j Hi Hj).
    rewrite (mmul_proper d _ _ (reflexivity _) (mmul d (P t) (inv (P t))) mid W2 i j Hi Hj). now apply mmul_id_r.
Qed.

Lemma extra_taylor : exists C V, 0 <= C /\ 0 <= V /\
  (forall t i j, 0 <= t <= T -> (i < d)%nat -> (j < d)%nat -> Rabs (extra_cov t i j) <= V) /\
  (forall s t i, 0 <= s <= T -> 0 <= t <= T -> (i < d)%nat ->
     Rabs (extra_mean s i - extra_mean t i - (s - t) * (- Sde.drift_coef sde (T - t) * extra_mean t i - g t ^ 2 * (F T / F (T - t) * w i))) <= C * (s - t) ^ 2) /\
  (forall s t i j, 0 <= s <= T -> 0 <= t <= T -> (i < d)%nat -> (j < d)%nat ->
     Rabs (extra_cov s i j - extra_cov t i j - (s - t) * (- 2 * Sde.drift_coef sde (T - t) * extra_cov t i j
        - g t ^ 2 * ((F T / F (T - t)) ^ 2 * (mmul d B (P (T - t)) i j + mmul d (P (T - t)) B i j)))) <= C * (s - t) ^ 2).
Proof using Hd HT Hn.
  destruct (sde_exponents sde Hd) as (rho & a' & kap & H1 & H2 & H3 & HF & HQ & Hg). set (a := Sde.drift_coef sde) in *.
  assert (Er : forall t, ex_derive rho t) by (intros t; exists (a t); apply H1). assert (Ea : forall t, ex_derive a t) by (intros t; exists (a' t); apply H2).
  assert (Dr : forall t, Derive (fun x => rho x) t = a t) by (intros t; apply is_derive_unique, H1). assert (Da : forall t, Derive (fun x => a x) t = a' t) by (intros t; apply is_derive_unique, H2).
  assert (Hexp : forall c t, is_derive (fun t => exp (c * rho t)) t (c * a t * exp (c * rho t))).
  { intros c t. auto_derive; [repeat split; auto|]. rewrite Dr. ring. }
  assert (Hexp2 : forall c t, is_derive (fun t => c * a t * exp (c * rho t)) t ((c * a' t + c * c * (a t * a t)) * exp (c * rho t))).
  { intros c t. auto_derive; [repeat split; auto|]. rewrite Dr, Da. ring. }
  assert (Hexp3 : forall c t, ex_derive (fun t => (c * a' t + c * c * (a t * a t)) * exp (c * rho t)) t).
  { intros c t. auto_derive. repeat split; auto. }
  destruct (compact_bound (fun t => exp (2 * rho t)) T HT ltac:(intros t; eexists; apply Hexp)) as (N1 & HN1 & B1).
  destruct (compact_bound (fun t => exp (-2 * rho t)) T HT ltac:(intros t; eexists; apply Hexp)) as (N2 & HN2 & B2).
  destruct (taylor2 _ _ _ T HT (Hexp 1) (Hexp2 1) (Hexp3 1)) as (M1 & HM1 & T1). destruct (taylor2 _ _ _ T HT (Hexp (-1)) (Hexp2 (-1)) (Hexp3 (-1))) as (M2 & HM2 & T2).
  destruct (taylor2 _ _ _ T HT (Hexp 2) (Hexp2 2) (Hexp3 2)) as (M3 & HM3 & T3). destruct (taylor2 _ _ _ T HT (Hexp (-2)) (Hexp2 (-2)) (Hexp3 (-2))) as (M4 & HM4 & T4).
  set (X := msub C0 (mscale kap mid)). set (f := exp (rho T)).
  assert (HP : forall t, meq d (P t) (madd (mscale (exp (2 * rho t)) X) (mscale kap mid))).
  { intros t i j _ _. unfold P, fwd_cov, X, madd, msub, mscale. rewrite HF, HQ. replace (exp (rho t) ^ 2) with (exp (2 * rho t)); [ring|]. replace (2 * rho t) with (rho t + rho t) by ring. rewrite exp_plus. ring. }
  assert (Eneg : forall s, exp (-1 * rho s) * exp (1 * rho s) = 1) by (intros s; rewrite <- exp_plus; replace (-1 * rho s + 1 * rho s) with 0 by ring; apply exp_0).
  assert (E2 : forall s, exp (2 * rho s) = exp (1 * rho s) ^ 2) by (intros s; replace (2 * rho s) with (1 * rho s + 1 * rho s) by ring; rewrite exp_plus; ring).
  assert (Em2 : forall s, exp (-2 * rho s) = exp (-1 * rho s) ^ 2) by (intros s; replace (-2 * rho s) with (-1 * rho s + -1 * rho s) by ring; rewrite exp_plus; ring).
  assert (HR : forall s, F T / F s = f * exp (-1 * rho s)).
  { intros s. unfold F. rewrite !HF. fold f. unfold Rdiv. rewrite <- exp_Ropp. do 2 f_equal. ring. }
  assert (Hm : forall t i, (i < d)%nat -> extra_mean t i = f * mvec d X w i * exp (1 * rho (T - t)) + f * kap * w i * exp (-1 * rho (T - t))).
  { intros t i Hi. unfold extra_mean. rewrite HR. rewrite (mvec_ext_l d _ _ w i (HP (T - t)) Hi), mvec_madd_l, !mvec_scale_l, (mvec_id d w i Hi), E2.
    set (p := exp (1 * rho (T - t))). set (q := exp (-1 * rho (T - t))). assert (Hpq : q * p = 1) by apply Eneg.
    transitivity (f * (q * p) * p * mvec d X w i + f * kap * w i * q); [ring|]. rewrite Hpq. ring. }
  set (Y1 := mmul d X (mmul d B X)). set (Y2 := madd (mmul d X B) (mmul d B X)).
  assert (Hc : forall t i j, (i < d)%nat -> (j < d)%nat -> extra_cov t i j = f ^ 2 * Y1 i j * exp (2 * rho (T - t)) + f ^ 2 * kap * Y2 i j + f ^ 2 * kap ^ 2 * B i j * exp (-2 * rho (T - t))).
  { intros t i j Hi Hj. unfold extra_cov. rewrite HR. set (e := exp (2 * rho (T - t))).
    assert (K : meq d (mmul d (P (T - t)) (mmul d B (P (T - t)))) (mmul d (madd (mscale e X) (mscale kap mid)) (madd (mscale e (mmul d B X)) (mscale kap B)))).
    { unfold e. rewrite (HP (T - t)). intros k l Hk Hl. apply mmul_proper; [reflexivity| |exact Hk|exact Hl]. intros k' l' Hk' Hl'. mexpand. unfold madd, mscale. reflexivity. }
    rewrite (K i j Hi Hj). mexpand. unfold madd, mscale, Y2, Y1. rewrite Em2. unfold e. rewrite E2. set (p := exp (1 * rho (T - t))). set (q := exp (-1 * rho (T - t))). assert (Hpq : q * p = 1) by apply Eneg.
    unfold madd. fold Y1. transitivity (f ^ 2 * ((q * p) ^ 2 * p ^ 2 * Y1 i j + (q * p) ^ 2 * kap * (mmul d X B i j + mmul d B X i j) + q ^ 2 * kap ^ 2 * B i j)); [ring|]. rewrite Hpq. ring. }
  assert (Hr : forall t i j, (i < d)%nat -> (j < d)%nat -> mmul d B (P (T - t)) i j + mmul d (P (T - t)) B i j = exp (2 * rho (T - t)) * Y2 i j + 2 * kap * B i j).
  { intros t i j Hi Hj. rewrite (mmul_proper d B B (reflexivity _) _ _ (HP (T - t)) i j Hi Hj), (mmul_proper d _ _ (HP (T - t)) B B (reflexivity _) i j Hi Hj). mexpand. unfold Y2, madd. ring. }
  destruct (vector_bound d (fun i => f * mvec d X w i)) as (V1 & HV1 & BV1). destruct (vector_bound d (fun i => f * kap * w i)) as (V2 & HV2 & BV2).
  destruct (matrix_bound d (fun i j => f ^ 2 * Y1 i j)) as (V3 & HV3 & BV3). destruct (matrix_bound d (fun i j => f ^ 2 * kap ^ 2 * B i j)) as (V4 & HV4 & BV4).
  destruct (matrix_bound d (fun i j => f ^ 2 * kap * Y2 i j)) as (V5 & HV5 & BV5).
  assert (Q1 : 0 <= V1 * M1) by now apply Rmult_le_pos. assert (Q2 : 0 <= V2 * M2) by now apply Rmult_le_pos. assert (Q3 : 0 <= V3 * M3) by now apply Rmult_le_pos. assert (Q4 : 0 <= V4 * M4) by now apply Rmult_le_pos.
  assert (Q5 : 0 <= V3 * N1) by now apply Rmult_le_pos. assert (Q6 : 0 <= V4 * N2) by now apply Rmult_le_pos.
  exists (V1 * M1 + V2 * M2 + V3 * M3 + V4 * M4), (V3 * N1 + V5 + V4 * N2). split; [lra|]. split; [lra|].
  assert (two : forall x y z v M M', Rabs x <= z -> Rabs y <= v -> forall X' Y', Rabs X' <= M -> Rabs Y' <= M' -> Rabs (x * X' + y * Y') <= z * M + v * M').
  { intros x y z v M M' Hx Hy X' Y' HX HY. eapply Rle_trans; [apply Rabs_triang|]. rewrite !Rabs_mult. apply Rplus_le_compat; apply Rmult_le_compat; try apply Rabs_pos; assumption. }
  assert (Hg' : forall t, 0 <= t <= T -> g t ^ 2 = -2 * a (T - t) * kap) by (intros t Ht; unfold g; apply Hg, Hn; lra).
  split; [|split].
  - intros t i j Ht Hi Hj. rewrite Hc by assumption. set (e := exp (2 * rho (T - t))). set (e' := exp (-2 * rho (T - t))).
    assert (He : Rabs e <= N1) by (apply (B1 (T - t)); lra). assert (He' : Rabs e' <= N2) by (apply (B2 (T - t)); lra).
    pose proof (two _ _ V3 V4 N1 N2 (BV3 i j Hi Hj) (BV4 i j Hi Hj) e e' He He') as K. cbv beta in K. pose proof (BV5 i j Hi Hj) as K5. cbv beta in K5.
    replace (f ^ 2 * Y1 i j * e + f ^ 2 * kap * Y2 i j + f ^ 2 * kap ^ 2 * B i j * e') with (f ^ 2 * kap * Y2 i j + (f ^ 2 * Y1 i j * e + f ^ 2 * kap ^ 2 * B i j * e')) by ring.
    eapply Rle_trans; [apply Rabs_triang|]. lra.
  - intros s t i Hs Ht Hi. rewrite (Hg' t Ht), HR, !Hm by exact Hi. specialize (T1 (T - s) (T - t) ltac:(lra) ltac:(lra)). specialize (T2 (T - s) (T - t) ltac:(lra) ltac:(lra)).
    replace ((T - s - (T - t)) ^ 2) with ((s - t) ^ 2) in T1, T2 by ring. pose proof (two _ _ V1 V2 _ _ (BV1 i Hi) (BV2 i Hi) _ _ T1 T2) as K. cbv beta in K.
    match goal with |- Rabs ?x <= _ => match type of K with Rabs ?y <= _ => replace x with y by ring end end.
    eapply Rle_trans; [exact K|]. pose proof (pow2_ge_0 (s - t)). apply Rle_trans with ((V1 * M1 + V2 * M2) * (s - t) ^ 2); [right; ring|]. apply Rmult_le_compat_r; lra.
  - intros s t i j Hs Ht Hi Hj. rewrite (Hg' t Ht), HR, Hr, !Hc by assumption. specialize (T3 (T - s) (T - t) ltac:(lra) ltac:(lra)). specialize (T4 (T - s) (T - t) ltac:(lra) ltac:(lra)).
    replace ((T - s - (T - t)) ^ 2) with ((s - t) ^ 2) in T3, T4 by ring. pose proof (two _ _ V3 V4 _ _ (BV3 i j Hi Hj) (BV4 i j Hi Hj) _ _ T3 T4) as K. cbv beta in K.
    assert (Hpq : exp (-2 * rho (T - t)) * exp (2 * rho (T - t)) = 1) by (rewrite <- exp_plus; replace (-2 * rho (T - t) + 2 * rho (T - t)) with 0 by ring; apply exp_0).
    assert (Hq2 : (f * exp (-1 * rho (T - t))) ^ 2 * (exp (2 * rho (T - t)) * Y2 i j + 2 * kap * B i j) = f ^ 2 * Y2 i j + f ^ 2 * (2 * kap * B i j) * exp (-2 * rho (T - t))).
    { rewrite Rpow_mult_distr, <- Em2. transitivity (f ^ 2 * (exp (-2 * rho (T - t)) * exp (2 * rho (T - t)) * Y2 i j) + f ^ 2 * (2 * kap * B i j) * exp (-2 * rho (T - t))); [ring|]. rewrite Hpq. ring. }
    rewrite Hq2.
    match goal with |- Rabs ?x <= _ => match type of K with Rabs ?y <= _ => replace x with y by ring end end.
    eapply Rle_trans; [exact K|]. pose proof (pow2_ge_0 (s - t)). apply Rle_trans with ((V3 * M3 + V4 * M4) * (s - t) ^ 2); [right; ring|]. apply Rmult_le_compat_r; lra.
Qed.

Lemma gap_flow : exists Lam C V, 0 <= Lam /\ 0 <= C /\ 0 <= V /\
  forall t, 0 <= t < T -> flow_at d b g (fun t => vadd (m (T - t)) (extra_mean t)) (fun t => madd (P (T - t)) (extra_cov t)) Lam C V T t.
Proof using Hd HT Hn HCs HCp Hinv.
  destruct (reverse_flow sde T d m0 C0 Hd HT Hn inv HCs HCp Hinv) as (Lam & C1 & V1 & HL & HC1 & HV1 & Hfl). fold m P in Hfl.
  destruct extra_taylor as (C2 & V2 & HC2 & HV2 & BV & BM & BC). exists Lam, (C1 + C2), (V1 + V2). split; [exact HL|]. split; [lra|]. split; [lra|].
  intros t Ht. destruct (Hfl t Ht) as (A & HA & HR & HV & HS). exists A. fold b in HA, HS. split; [exact HA|]. split; [exact HR|].
  destruct (inverse_ops (T - t) ltac:(lra)) as (_ & I1 & I2 & I3). split.
  - intros i j Hi Hj. unfold madd. eapply Rle_trans; [apply Rabs_triang|]. apply Rplus_le_compat; [now apply HV|]. apply BV; lra || assumption.
  - intros s Hs. destruct (HS s Hs) as [S1 S2]. split.
    + intros i Hi. specialize (S1 i Hi). specialize (BM s t i ltac:(lra) ltac:(lra) Hi).
      assert (K : b (vadd (m (T - t)) (extra_mean t)) t i = b (m (T - t)) t i + (- Sde.drift_coef sde (T - t) * extra_mean t i - g t ^ 2 * (F T / F (T - t) * w i))).
      { pose proof (HA (vadd (m (T - t)) (extra_mean t)) (m (T - t)) i Hi) as K. unfold vsub at 1 in K.
        rewrite (mvec_ext_r d A _ (extra_mean t)) in K by (intros k _; unfold vsub, vadd; ring). rewrite (slope_apply t A (extra_mean t) i HA Hi) in K.
        assert (K2 : mvec d (inv (P (T - t))) (extra_mean t) i = F T / F (T - t) * w i).
        { change (extra_mean t) with (vscale (F T / F (T - t)) (mvec d (P (T - t)) w)). rewrite mvec_vscale, I1 by exact Hi. reflexivity. }
        rewrite K2 in K. lra. }
      rewrite K. unfold vadd.
      match goal with |- Rabs ?x <= _ => match type of S1 with Rabs ?y <= _ => match type of BM with Rabs ?z <= _ => replace x with (y + z) by ring end end end.
      eapply Rle_trans; [apply Rabs_triang|]. lra.
    + intros i j Hi Hj. specialize (S2 i j Hi Hj). specialize (BC s t i j ltac:(lra) ltac:(lra) Hi Hj).
      assert (K1 : mmul d A (extra_cov t) i j = - Sde.drift_coef sde (T - t) * extra_cov t i j - g t ^ 2 * ((F T / F (T - t)) ^ 2 * mmul d B (P (T - t)) i j)).
      { rewrite mmul_col, (slope_apply t A _ i HA Hi). rewrite <- (I2 i j Hi Hj). do 2 f_equal. exact (mvec_vscale d (inv (P (T - t))) ((F T / F (T - t)) ^ 2) (fun k => mmul d (P (T - t)) (mmul d B (P (T - t))) k j) i). }
      assert (K2 : mmul d (extra_cov t) (mtr A) i j = - Sde.drift_coef sde (T - t) * extra_cov t i j - g t ^ 2 * ((F T / F (T - t)) ^ 2 * mmul d (P (T - t)) B i j)).
      { rewrite mmul_row, (slope_apply t A _ j HA Hj). rewrite <- (I3 i j Hi Hj). do 2 f_equal. exact (mvec_vscale d (inv (P (T - t))) ((F T / F (T - t)) ^ 2) (fun k => mmul d (P (T - t)) (mmul d B (P (T - t))) i k) j). }
      rewrite mmul_add_r, mmul_add_l, K1, K2. unfold madd. fold (g t) in S2.
      match goal with |- Rabs ?x <= _ => match type of S2 with Rabs ?y <= _ => match type of BC with Rabs ?z <= _ => replace x with (y + z) by ring end end end.
      eapply Rle_trans; [apply Rabs_triang|]. lra.
Qed.
End gap.

(** ** Where the reverse simulators end *)
Section ends.
Variables (sde : Sde.linear_sde) (T : R) (d : nat) (m0 : vec) (C0 : mat) (inv : mat -> mat).
Hypothesis Hd : SdeProofs.sde_defined sde.
Hypothesis HT : 0 <= T.
Hypothesis Hn : forall t, 0 <= t <= T -> SdeProofs.nonneg_noise sde t.
Hypothesis HCs : symmetric d C0.
Hypothesis HCp : posdef d C0.
Hypothesis Hinv : forall t, 0 <= t <= T -> inverse_at d (fwd_cov sde C0) inv t.
Let F (t : R) := fst (Sde.FQ sde t 0).
Let W := inv (fwd_cov sde C0 T).

Lemma F_pos t : 0 < F t.
Proof using Hd. destruct (sde_exponents sde Hd) as (rho & a' & kap & _ & _ & _ & HF & _). unfold F. rewrite HF. apply exp_pos. Qed.

(** started with mean [ma] and covariance [Sa] *)
Definition end_mean (ma : vec) : vec := fun i => m0 i + F T * mvec d C0 (mvec d W (vsub ma (fwd_mean sde m0 T))) i.
Definition end_cov (Sa : mat) : mat := fun i j => C0 i j + F T ^ 2 * mmul d C0 (mmul d (mmul d W (mmul d (msub Sa (fwd_cov sde C0 T)) W)) C0) i j.

Lemma FQ_zero : F 0 = 1 /\ snd (Sde.FQ sde 0 0) = 0.
Proof using Hd. unfold F. rewrite (SdeProofs.FQ_id sde 0 Hd). split; reflexivity. Qed.
Lemma fwd_cov_zero : fwd_cov sde C0 0 = C0.
Proof using Hd. apply functional_extensionality; intros i. apply functional_extensionality; intros j. destruct FQ_zero as [E1 E2]. unfold F in E1. unfold fwd_cov, madd, mscale. rewrite E1, E2. ring. Qed.
Lemma fwd_mean_zero : fwd_mean sde m0 0 = m0.
Proof using Hd. apply functional_extensionality; intros i. destruct FQ_zero as [E1 _]. unfold F in E1. unfold fwd_mean, vscale. rewrite E1. ring. Qed.

Theorem gap_converges ma Sa : exists K, 0 <= K /\ forall f N normal k n ts D mh Sh h e,
    (forall t, 0 <= t < T -> drift_is d f (reverse_drift d (vdrift sde) (Sde.dispersion sde) T (fwd_mean sde m0) (fwd_cov sde C0) inv) t) ->
    has_moments d N (fun _ => 0) mid -> (forall k, denotes (normal k n d) (dseq (repeat N n))) ->
    (1 <= n)%nat -> hd 1 ts = 0 -> last ts 0 = T -> refined h n ts ->
    0 <= h -> 0 <= e -> has_moments d D mh Sh -> within d e mh ma Sh Sa ->
    let L F := E D (fun x0 => law (Sim.euler_maruyama_terminal normal k x0 ts f (fun t => Sde.dispersion sde (T - t)) n) F) in
    within d (K * (e + h)) (mean_of L) (end_mean ma) (cov_of L) (end_cov Sa).
Proof using Hd HT Hn HCs HCp Hinv.
  set (w := mvec d W (vsub ma (fwd_mean sde m0 T))). set (B := mmul d W (mmul d (msub Sa (fwd_cov sde C0 T)) W)).
  destruct (gap_flow sde T d m0 C0 inv Hd HT Hn HCs HCp Hinv w B) as (Lam & C & V & HL & HC & HV & Hfl).
  destruct (flow_converges d _ _ _ _ Lam C V T HT HL HC HV Hfl) as (K & HK & H). exists K. split; [exact HK|].
  intros f N normal k n ts D mh Sh h e Hf HN Hnorm Hn1 Hhd Hlast Href Hh He HD [A1 A2] L.
  specialize (H f N normal k n ts D mh Sh h e Hf HN Hnorm Hn1 Hhd Hlast Href Hh He HD). cbv zeta in H.
  destruct (Hinv T ltac:(lra)) as [W1 W2]. fold W in W1, W2. pose proof (F_pos T) as HF.
  assert (H0 : within d e mh (vadd (fwd_mean sde m0 (T - 0)) (extra_mean sde T d C0 w 0)) Sh (madd (fwd_cov sde C0 (T - 0)) (extra_cov sde T d C0 B 0))).
  { rewrite Rminus_0_r. split.
    - intros i Hi. unfold vadd, extra_mean. rewrite Rminus_0_r. fold (F T). replace (F T / F T) with 1 by (field; lra). unfold w.
      rewrite (mvec_mul d (fwd_cov sde C0 T) W _ i Hi), (mvec_ext_l d _ mid _ i W2 Hi), (mvec_id d _ i Hi). unfold vsub.
      replace (mh i - (fwd_mean sde m0 T i + 1 * (ma i - fwd_mean sde m0 T i))) with (mh i - ma i) by ring. now apply A1.
    - intros i j Hi Hj. unfold madd, extra_cov. rewrite Rminus_0_r. fold (F T). replace (F T / F T) with 1 by (field; lra).
      assert (K2 : meq d (mmul d (fwd_cov sde C0 T) (mmul d B (fwd_cov sde C0 T))) (msub Sa (fwd_cov sde C0 T))).
      { unfold B. rewrite !mmul_assoc, W2, mmul_1_l, <- mmul_assoc, W1, mmul_1_r. reflexivity. }
      rewrite (K2 i j Hi Hj). unfold msub. replace (Sh i j - (fwd_cov sde C0 T i j + 1 ^ 2 * (Sa i j - fwd_cov sde C0 T i j))) with (Sh i j - Sa i j) by ring. now apply A2. }
  specialize (H H0). destruct H as [E1 E2]. replace (T - T) with 0 in E1, E2 by ring. split.
  - intros i Hi. specialize (E1 i Hi). unfold vadd, extra_mean in E1. replace (T - T) with 0 in E1 by ring. rewrite fwd_mean_zero, fwd_cov_zero in E1. fold (F T) in E1. fold (F 0) in E1. rewrite (proj1 FQ_zero) in E1.
    unfold Rdiv in E1. rewrite Rinv_1, Rmult_1_r in E1. exact E1.
  - intros i j Hi Hj. specialize (E2 i j Hi Hj). unfold madd, extra_cov in E2. replace (T - T) with 0 in E2 by ring. rewrite fwd_cov_zero in E2. fold (F T) in E2. fold (F 0) in E2. rewrite (proj1 FQ_zero) in E2.
    unfold Rdiv in E2. rewrite Rinv_1, Rmult_1_r in E2. exact E2.
Qed.

(** through [reverse_simulator] with the exact score *)
Theorem simulator_converges ma Sa : exists K, 0 <= K /\ forall score N normal k n ts D mh Sh h e,
    (forall t, 0 < t <= T -> score_is d score (Toy.score d (fwd_mean sde m0) (fwd_cov sde C0) inv) t) ->
    has_moments d N (fun _ => 0) mid -> (forall k, denotes (normal k n d) (dseq (repeat N n))) ->
    (1 <= n)%nat -> hd 1 ts = 0 -> last ts 0 = T -> refined h n ts ->
    0 <= h -> 0 <= e -> has_moments d D mh Sh -> within d e mh ma Sh Sa ->
    let L F := E D (fun u0 => law (reverse_prog normal k u0 ts score (Sde.drift sde) (Sde.dispersion sde) n) (on_some F)) in
    within d (K * (e + h)) (mean_of L) (end_mean ma) (cov_of L) (end_cov Sa).
Proof using Hd HT Hn HCs HCp Hinv.
  destruct (gap_converges ma Sa) as (K & HK & H). exists K. split; [exact HK|]. intros score N normal k n ts D mh Sh h e Hsc HN Hnorm Hn1 Hhd Hlast Href Hh He HD HW L.
  specialize (H (Sim.reverse_drift score (Sde.drift sde) (Sde.dispersion sde) T) N normal k n ts D mh Sh h e ltac:(intros t Ht; apply drift_is_reverse, Hsc; lra) HN Hnorm Hn1 Hhd Hlast Href Hh He HD HW).
  cbv zeta in H. replace L with (fun G => E D (fun x0 => law (Sim.euler_maruyama_terminal normal k x0 ts (Sim.reverse_drift score (Sde.drift sde) (Sde.dispersion sde) T) (fun t => Sde.dispersion sde (T - t)) n) G)); [exact H|].
  apply functional_extensionality. intros G. unfold L. apply E_ext'. intros u0. unfold reverse_prog, Sim.euler_maruyama_terminal. rewrite !law_bind. apply law_ext. intros rndss.
  cbn [law]. unfold Sim.reverse_simulator. rewrite Hlast. reflexivity.
Qed.

(** ** The gap of a start with mean zero and the stationary variance *)
Lemma pmul_inv : meq d (mmul d W (fwd_cov sde C0 T)) mid /\ meq d (mmul d (fwd_cov sde C0 T) W) mid /\ symmetric d W.
Proof using HT HCs Hinv. destruct (Hinv T ltac:(lra)) as [W1 W2]. fold W in W1, W2. split; [exact W1|]. split; [exact W2|]. apply (inverse_symmetric d (fwd_cov sde C0 T)); try assumption. now apply fwd_cov_symmetric. Qed.

Lemma end_mean_zero i : (i < d)%nat -> end_mean (fun _ => 0) i - m0 i = - (F T ^ 2 * mvec d (mmul d C0 W) m0 i).
Proof using.
  intros Hi. unfold end_mean. rewrite (mvec_mul d C0 W _ i Hi).
  rewrite (mvec_ext_r d _ (vsub (fun _ => 0) (fwd_mean sde m0 T)) (vscale (- F T) m0)) by (intros k _; unfold vsub, fwd_mean, vscale; fold (F T); ring).
  rewrite mvec_vscale. ring.
Qed.
Lemma end_cov_stationary v i j : F T ^ 2 * v + snd (Sde.FQ sde T 0) = v -> (i < d)%nat -> (j < d)%nat ->
  end_cov (mscale v mid) i j - C0 i j = F T ^ 4 * mmul d (mmul d C0 W) (mmul d (msub (mscale v mid) C0) (mmul d W C0)) i j.
Proof using.
  intros Hv Hi Hj. unfold end_cov.
  assert (K : meq d (msub (mscale v mid) (fwd_cov sde C0 T)) (mscale (F T ^ 2) (msub (mscale v mid) C0))).
  { intros k l _ _. unfold msub, mscale, fwd_cov, madd, mscale. fold (F T). replace (snd (Sde.FQ sde T 0)) with (v - F T ^ 2 * v) by lra. ring. }
  assert (K2 : meq d (mmul d C0 (mmul d (mmul d W (mmul d (msub (mscale v mid) (fwd_cov sde C0 T)) W)) C0)) (mscale (F T ^ 2) (mmul d (mmul d C0 W) (mmul d (msub (mscale v mid) C0) (mmul d W C0))))).
  { assert (L1 : forall c A B, meq d (mmul d (mscale c A) B) (mscale c (mmul d A B))) by (intros c A B p q _ _; apply mmul_scale_l).
    assert (L2 : forall c A B, meq d (mmul d A (mscale c B)) (mscale c (mmul d A B))) by (intros c A B p q _ _; apply mmul_scale_r).
    rewrite K, <- !mmul_assoc, L1, L2, L2. reflexivity. }
  rewrite (K2 i j Hi Hj). unfold mscale at 1. ring.
Qed.

Lemma slope_inverse : exists G, meq d (mmul d G (mmul d C0 W)) mid /\ meq d (mmul d (mmul d W C0) (mtr G)) mid.
Proof using HT HCs HCp Hinv.
  destruct pmul_inv as (W1 & W2 & WS). destruct (posdef_inverse d C0 HCs HCp) as (Ci & I1 & I2 & IS). exists (mmul d (fwd_cov sde C0 T) Ci). split.
  - rewrite <- mmul_assoc, (mmul_assoc d Ci C0 W), I1, mmul_1_l. exact W2.
  - rewrite mtr_mul. assert (HPs : symmetric d (fwd_cov sde C0 T)) by now apply fwd_cov_symmetric. unfold symmetric in *. rewrite IS, HPs, <- mmul_assoc, (mmul_assoc d C0 Ci), I2, mmul_1_l. exact W1.
Qed.
Lemma end_mean_iff : veq d (end_mean (fun _ => 0)) m0 <-> veq d m0 (fun _ => 0).
Proof using Hd HT HCs HCp Hinv.
  pose proof (F_pos T) as HF. assert (HF2 : 0 < F T ^ 2) by now apply pow_lt. split.
  - intros H. destruct slope_inverse as (G & G1 & _). intros i Hi. rewrite <- (mvec_id d m0 i Hi), <- (mvec_ext_l d _ _ m0 i G1 Hi), <- (mvec_mul d G _ m0 i Hi).
    apply mvec_zero; [|exact Hi]. intros k Hk. pose proof (end_mean_zero k Hk) as K. rewrite (H k Hk) in K. apply Rmult_eq_reg_l with (F T ^ 2); lra.
  - intros H i Hi. pose proof (end_mean_zero i Hi) as K. rewrite (mvec_zero d (mmul d C0 W) m0 H i Hi) in K. lra.
Qed.
Lemma end_cov_iff v : F T ^ 2 * v + snd (Sde.FQ sde T 0) = v -> meq d (end_cov (mscale v mid)) C0 <-> meq d C0 (mscale v mid).
Proof using Hd HT HCs HCp Hinv.
  intros Hv. pose proof (F_pos T) as HF. assert (HF2 : 0 < F T ^ 4) by now apply pow_lt. split.
  - intros H. destruct slope_inverse as (G & G1 & G2). set (X := msub (mscale v mid) C0).
    assert (Z : meq d (mmul d (mmul d C0 W) (mmul d X (mmul d W C0))) (fun _ _ => 0)).
    { intros i j Hi Hj. pose proof (end_cov_stationary v i j Hv Hi Hj) as K. rewrite (H i j Hi Hj) in K. fold X in K. apply Rmult_eq_reg_l with (F T ^ 4); lra. }
    assert (ZX : meq d X (mmul d G (mmul d (mmul d (mmul d C0 W) (mmul d X (mmul d W C0))) (mtr G)))).
    { rewrite <- (mmul_1_r d X) at 1. rewrite <- G2. rewrite <- (mmul_1_l d (mmul d X _)), <- G1. rewrite <- !mmul_assoc. reflexivity. }
    assert (X0 : forall i j, (i < d)%nat -> (j < d)%nat -> X i j = 0).
    { intros i j Hi Hj. rewrite (ZX i j Hi Hj). rewrite (mmul_proper d G G (reflexivity _) _ _ (mmul_proper d _ _ Z (mtr G) _ (reflexivity _)) i j Hi Hj).
      rewrite mmul_col. apply mvec_zero; [|exact Hi]. intros k _. unfold mmul. rewrite (Rsum_map_ext _ (fun _ => 0)) by (intros; ring). rewrite Rsum_map_const. ring. }
    intros i j Hi Hj. specialize (X0 i j Hi Hj). unfold X, msub in X0. lra.
  - intros H i j Hi Hj. pose proof (end_cov_stationary v i j Hv Hi Hj) as K.
    assert (Z : meq d (msub (mscale v mid) C0) (fun _ _ => 0)) by (intros k l Hk Hl; unfold msub; rewrite (H k l Hk Hl); ring).
    rewrite (mmul_proper d _ _ (reflexivity _) _ _ (mmul_proper d _ _ Z (mmul d W C0) _ (reflexivity _)) i j Hi Hj) in K.
    rewrite mmul_col, (mvec_zero d (mmul d C0 W) (fun k => mmul d (fun _ _ => 0) (mmul d W C0) k j)) in K; [lra| |exact Hi].
    intros k _. unfold mmul at 1. rewrite (Rsum_map_ext _ (fun _ => 0)) by (intros; ring). rewrite Rsum_map_const. ring.
Qed.
(** nothing is forgotten: the end law is right only for the right start *)
Lemma end_mean_only ma : veq d (end_mean ma) m0 <-> veq d ma (fwd_mean sde m0 T).
Proof using Hd HT HCs HCp Hinv.
  pose proof (F_pos T) as HF. split.
  - intros H. destruct slope_inverse as (G & G1 & _). set (z := vsub ma (fwd_mean sde m0 T)).
    assert (Z : veq d z (fun _ => 0)).
    { intros i Hi. rewrite <- (mvec_id d z i Hi), <- (mvec_ext_l d _ _ z i G1 Hi), <- (mvec_mul d G _ z i Hi). apply mvec_zero; [|exact Hi]. intros k Hk.
      pose proof (H k Hk) as K. unfold end_mean in K. fold z in K. rewrite (mvec_mul d C0 W z k Hk) in K. apply Rmult_eq_reg_l with (F T); lra. }
    intros i Hi. specialize (Z i Hi). unfold z, vsub in Z. lra.
  - intros H i Hi. unfold end_mean. rewrite (mvec_mul d C0 W _ i Hi), (mvec_zero d (mmul d C0 W)); [ring| |exact Hi]. intros k Hk. unfold vsub. rewrite (H k Hk). ring.
Qed.
Lemma end_cov_only Sa : meq d (end_cov Sa) C0 <-> meq d Sa (fwd_cov sde C0 T).
Proof using Hd HT HCs HCp Hinv.
  pose proof (F_pos T) as HF. assert (HF2 : 0 < F T ^ 2) by now apply pow_lt. set (X := msub Sa (fwd_cov sde C0 T)).
  assert (EX : meq d (mmul d C0 (mmul d (mmul d W (mmul d X W)) C0)) (mmul d (mmul d C0 W) (mmul d X (mmul d W C0)))) by (rewrite <- !mmul_assoc; reflexivity).
  assert (zl : forall A B i j, meq d A (fun _ _ => 0) -> (i < d)%nat -> (j < d)%nat -> mmul d A B i j = 0).
  { intros A B i j H Hi Hj. rewrite (mmul_proper d _ _ H B _ (reflexivity _) i j Hi Hj). unfold mmul. rewrite (Rsum_map_ext _ (fun _ => 0)) by (intros; ring). rewrite Rsum_map_const. ring. }
  assert (zr : forall A B i j, meq d B (fun _ _ => 0) -> (i < d)%nat -> (j < d)%nat -> mmul d A B i j = 0).
  { intros A B i j H Hi Hj. rewrite (mmul_proper d A _ (reflexivity _) B _ H i j Hi Hj). unfold mmul. rewrite (Rsum_map_ext _ (fun _ => 0)) by (intros; ring). rewrite Rsum_map_const. ring. }
  split.
  - intros H. destruct slope_inverse as (G & G1 & G2).
    assert (Z : meq d (mmul d (mmul d C0 W) (mmul d X (mmul d W C0))) (fun _ _ => 0)).
    { intros i j Hi Hj. pose proof (H i j Hi Hj) as K. unfold end_cov in K. fold X in K. rewrite (EX i j Hi Hj) in K. apply Rmult_eq_reg_l with (F T ^ 2); lra. }
    assert (ZX : meq d X (mmul d G (mmul d (mmul d (mmul d C0 W) (mmul d X (mmul d W C0))) (mtr G)))).
    { rewrite <- (mmul_1_r d X) at 1. rewrite <- G2. rewrite <- (mmul_1_l d (mmul d X _)), <- G1. rewrite <- !mmul_assoc. reflexivity. }
    intros i j Hi Hj. assert (X0 : X i j = 0). { rewrite (ZX i j Hi Hj). apply zr; try assumption. intros k l Hk Hl. now apply zl. } unfold X, msub in X0. lra.
  - intros H i j Hi Hj. unfold end_cov. fold X. rewrite (EX i j Hi Hj), zr; [ring| |exact Hi|exact Hj]. intros k l Hk Hl. apply zl; try assumption. intros p q Hp Hq. unfold X, msub. rewrite (H p q Hp Hq). ring.
Qed.
End ends.

(** ** How the gap decays with the horizon *)
Lemma mmul_entries d A B a b : 0 <= a -> 0 <= b -> (forall i j, (i < d)%nat -> (j < d)%nat -> Rabs (A i j) <= a) -> (forall i j, (i < d)%nat -> (j < d)%nat -> Rabs (B i j) <= b) ->
  forall i j, (i < d)%nat -> (j < d)%nat -> Rabs (mmul d A B i j) <= INR d * (a * b).
Proof.
  intros Ha Hb HA HB i j Hi Hj. unfold mmul. eapply Rle_trans; [apply Expm.Rabs_Rsum|]. rewrite map_map.
  eapply Rle_trans; [apply (Rsum_map_le _ (fun _ => a * b))|rewrite Rsum_map_const, seq_length; right; ring].
  intros k Hk. apply in_seq in Hk. rewrite Rabs_mult. apply Rmult_le_compat; try apply Rabs_pos; [apply HA|apply HB]; lia.
Qed.

Lemma inverse_small d C c q W : psd d C -> 0 <= c -> 0 < q -> meq d (mmul d (madd (mscale c C) (mscale q mid)) W) mid ->
  forall i j, (i < d)%nat -> (j < d)%nat -> Rabs (W i j) <= / q.
Proof.
  intros HP Hc Hq HW i j Hi Hj. set (P := madd (mscale c C) (mscale q mid)) in *. set (w := fun k => W k j).
  assert (HPw : veq d (mvec d P w) (fun k => mid k j)) by (intros k Hk; exact (HW k j Hk Hj)).
  assert (Hsel : dot d w (fun k => mid k j) = w j).
  { rewrite dot_comm. unfold dot. rewrite <- (mvec_id d w j Hj). unfold mvec. apply Rsum_map_ext. intros k _. unfold mid. now rewrite Nat.eqb_sym. }
  assert (H1 : q * dot d w w <= w j).
  { assert (E1 : quad d P w = w j) by (rewrite quad_dot, (dot_ext d w _ w _ (fun _ _ => eq_refl) HPw); exact Hsel).
    rewrite <- E1. unfold P. rewrite quad_add, !quad_scale, quad_mid. assert (0 <= c * quad d C w) by (apply Rmult_le_pos; [exact Hc|apply HP]). lra. }
  assert (Hent : forall k, (k < d)%nat -> w k ^ 2 <= dot d w w).
  { intros k Hk. rewrite dot_self. apply Rsum_In_le; [apply Forall_forall; intros x Hx; apply in_map_iff in Hx as (l & <- & _); apply pow2_ge_0|]. apply in_map_iff. exists k. split; [reflexivity|]. apply in_seq. lia. }
  assert (Hwj : w j <= / q).
  { apply Rnot_lt_le. intros Hlt. assert (Hiq : 0 < / q) by now apply Rinv_0_lt_compat. assert (q * w j ^ 2 <= w j) by (eapply Rle_trans; [apply Rmult_le_compat_l; [lra|apply (Hent j Hj)]|exact H1]).
    assert (1 < q * w j). { replace 1 with (q * / q) by (field; lra). now apply Rmult_lt_compat_l. }
    assert (w j < q * w j * w j). { rewrite <- (Rmult_1_l (w j)) at 1. apply Rmult_lt_compat_r; lra. }
    replace (q * w j ^ 2) with (q * w j * w j) in H by ring. lra. }
  change (W i j) with (w i). assert (Hiq : 0 < / q) by now apply Rinv_0_lt_compat. apply Rsqr_incr_0_var; [|lra]. rewrite <- Rsqr_abs. unfold Rsqr. replace (w i * w i) with (w i ^ 2) by ring.
  eapply Rle_trans; [apply (Hent i Hi)|]. apply Rmult_le_reg_l with q; [exact Hq|]. replace (q * (/ q * / q)) with (/ q) by (field; lra). lra.
Qed.

Theorem gap_decays d m0 C0 v : symmetric d C0 -> posdef d C0 -> exists K, 0 <= K /\ forall sde T inv,
  SdeProofs.sde_defined sde -> 0 <= T -> (forall t, 0 <= t <= T -> inverse_at d (fwd_cov sde C0) inv t) ->
  0 < snd (Sde.FQ sde T 0) -> fst (Sde.FQ sde T 0) ^ 2 * v + snd (Sde.FQ sde T 0) = v ->
  (forall i, (i < d)%nat -> Rabs (end_mean sde T d m0 C0 inv (fun _ => 0) i - m0 i) <= K * (fst (Sde.FQ sde T 0) ^ 2 / snd (Sde.FQ sde T 0))) /\
  (forall i j, (i < d)%nat -> (j < d)%nat -> Rabs (end_cov sde T d C0 inv (mscale v mid) i j - C0 i j) <= K * (fst (Sde.FQ sde T 0) ^ 2 / snd (Sde.FQ sde T 0)) ^ 2).
Proof.
  intros HS HP. destruct (matrix_bound d C0) as (c & Hc & Bc). destruct (matrix_bound d (msub (mscale v mid) C0)) as (x & Hx & Bx). destruct (vector_bound d m0) as (y & Hy & By).
  set (D := INR d). assert (HD : 0 <= D) by apply pos_INR.
  assert (K1 : 0 <= D * D * c * y) by (repeat apply Rmult_le_pos; assumption). assert (K2 : 0 <= D * (D * c) * (D * x * (D * c))) by (repeat apply Rmult_le_pos; assumption).
  exists (D * D * c * y + D * (D * c) * (D * x * (D * c))). split; [lra|]. intros sde T inv Hd HT Hinv HQ Hv. set (q := snd (Sde.FQ sde T 0)) in *. set (f := fst (Sde.FQ sde T 0)) in *.
  destruct (Hinv T ltac:(lra)) as [W1 W2]. set (W := inv (fwd_cov sde C0 T)) in *. assert (Hiq : 0 < / q) by now apply Rinv_0_lt_compat. assert (Hf2 : 0 <= f ^ 2) by apply pow2_ge_0.
  pose proof (inverse_small d C0 (f ^ 2) q W (posdef_psd d C0 HP) Hf2 HQ W2) as BW.
  pose proof (mmul_entries d C0 W c (/ q) Hc ltac:(lra) Bc BW) as B1. pose proof (mmul_entries d W C0 (/ q) c ltac:(lra) Hc BW Bc) as B2. fold D in B1, B2.
  assert (P1 : 0 <= D * (c * / q)) by (repeat apply Rmult_le_pos; lra). assert (P2 : 0 <= D * (/ q * c)) by (repeat apply Rmult_le_pos; lra).
  pose proof (mmul_entries d _ _ x _ Hx P2 Bx B2) as B3. fold D in B3. assert (P3 : 0 <= D * (x * (D * (/ q * c)))) by (repeat apply Rmult_le_pos; lra).
  pose proof (mmul_entries d _ _ _ _ P1 P3 B1 B3) as B4. fold D in B4. set (r := f ^ 2 / q). assert (Hr : 0 <= r) by (apply Rmult_le_pos; lra). split.
  - intros i Hi. rewrite end_mean_zero by exact Hi. fold f W. rewrite Rabs_Ropp, Rabs_mult, (Rabs_pos_eq (f ^ 2)) by exact Hf2.
    pose proof (mmul_entries d (mmul d C0 W) (fun k _ => m0 k) _ y P1 Hy B1 ltac:(intros k l Hk _; now apply By) i i Hi Hi) as B5. change (mmul d (mmul d C0 W) (fun k _ => m0 k) i i) with (mvec d (mmul d C0 W) m0 i) in B5. fold D in B5.
    apply Rle_trans with (f ^ 2 * (D * (D * (c * / q) * y))); [apply Rmult_le_compat_l; assumption|]. apply Rle_trans with (D * D * c * y * r); [unfold r, Rdiv; right; ring|]. apply Rmult_le_compat_r; lra.
  - intros i j Hi Hj. rewrite end_cov_stationary by assumption. fold f W. rewrite Rabs_mult, (Rabs_pos_eq (f ^ 4)) by (replace (f ^ 4) with (f ^ 2 * f ^ 2) by ring; now apply Rmult_le_pos).
    apply Rle_trans with (f ^ 4 * (D * (D * (c * / q) * (D * (x * (D * (/ q * c))))))); [apply Rmult_le_compat_l; [replace (f ^ 4) with (f ^ 2 * f ^ 2) by ring; now apply Rmult_le_pos|now apply B4]|].
    apply Rle_trans with (D * (D * c) * (D * x * (D * c)) * r ^ 2); [unfold r, Rdiv; right; ring|]. apply Rmult_le_compat_r; [apply pow2_ge_0|lra].
Qed.
