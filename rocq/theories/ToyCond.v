(** Proofs about Toy.v: conditioning, positive definiteness, time reversal. *)
From Coquelicot Require Import Coquelicot.
From Coq Require Import Reals List Lia Lra Morphisms Setoid.
From Verif Require Sde SdeProofs SdeMore.
From Verif Require Import Base Dist Mat MatMore Expm Lti Cholesky GaussDiv GaussCond GaussSB GaussSBMore Toy.
Import ListNotations.
Open Scope R_scope.

(** ** Conditional moments *)
Lemma mswap_ll d C : meq d (mswap d C) (m_hh d C).
Proof. intros i j Hi Hj. blk_cases. reflexivity. Qed.
Lemma mswap_hl d C : meq d (m_hl d (mswap d C)) (m_lh d C).
Proof. intros i j Hi Hj. blk_cases. f_equal; lia. Qed.
Lemma mswap_lh d C : meq d (m_lh d (mswap d C)) (m_hl d C).
Proof. intros i j Hi Hj. blk_cases. f_equal; lia. Qed.
Lemma mswap_hh d C : meq d (m_hh d (mswap d C)) C.
Proof. intros i j Hi Hj. blk_cases. f_equal; lia. Qed.
Lemma vswap_l d x : veq d (vswap d x) (vhi d x).
Proof. intros i Hi. blk_cases. reflexivity. Qed.
Lemma vswap_h d x : veq d (vhi d (vswap d x)) x.
Proof. intros i Hi. blk_cases. f_equal; lia. Qed.
Lemma vcat_l d a b : veq d (vcat d a b) a.
Proof. intros i Hi. blk_cases. reflexivity. Qed.
Lemma vcat_h d a b : veq d (vhi d (vcat d a b)) b.
Proof. intros i Hi. blk_cases. f_equal; lia. Qed.

#[local] Instance vadd_proper d : Proper (veq d ==> veq d ==> veq d) vadd.
Proof. intros a b H a' b' H' i Hi. unfold vadd. now rewrite H, H'. Qed.
#[local] Instance vsub_proper d : Proper (veq d ==> veq d ==> veq d) vsub.
Proof. intros a b H a' b' H' i Hi. unfold vsub. now rewrite H, H'. Qed.
#[local] Instance vscale_proper d c : Proper (veq d ==> veq d) (vscale c).
Proof. intros a b H i Hi. unfold vscale. now rewrite H. Qed.

Lemma cho_solve_proper d U B B' X : meq d B B' -> cho_solve d U B X -> cho_solve d U B' X.
Proof. unfold cho_solve. intros H H'. now rewrite H'. Qed.
Lemma cho_solve_v_proper d U b b' x : veq d b b' -> cho_solve_v d U b x -> cho_solve_v d U b' x.
Proof. unfold cho_solve_v. intros H H'. now rewrite H'. Qed.
Lemma cho_factor_proper d S S' U : meq d S S' -> cho_factor d S U -> cho_factor d S' U.
Proof. intros H (A & B & C). split; [exact A|]. split; [exact B|]. now rewrite C. Qed.

Theorem ref_moments_exact d m C v u m_ cov_ lp lv lu : ref_moments d m C v m_ cov_ ->
  gauss_logpdf (2 * d) (vswap d m) (mswap d C) (vcat d v u) lp ->
  gauss_logpdf d (vhi d m) (m_hh d C) v lv -> gauss_logpdf d m_ cov_ u lu -> lp = lv + lu.
Proof.
  intros (U & sol & X & HU & Hs & HX & Hm & Hc) Hlp Hlv Hlu.
  destruct (gauss_chain d _ _ _ _ Hlp) as (L1 & M & L2 & lp1 & lp2 & A1 & A2 & A3 & A4 & E11 & E21 & E12 & E22 & G1 & G2 & ->).
  assert (HU' : cho_factor d (mswap d C) U) by (exact (cho_factor_proper _ _ _ _ (symmetry (mswap_ll d C)) HU)).
  assert (Hs' : cho_solve_v d U (vsub (vcat d v u) (vswap d m)) sol).
  { eapply cho_solve_v_proper; [|exact Hs]. rewrite vcat_l, vswap_l. reflexivity. }
  assert (HX' : cho_solve d U (m_lh d (mswap d C)) X) by (exact (cho_solve_proper _ _ _ _ _ (symmetry (mswap_lh d C)) HX)).
  destruct (cond_blocks d (mswap d C) L1 M L2 (vswap d m) (vcat d v u) U sol X A1 A2 E11 E21 E12 E22 HU' Hs' HX') as [K1 K2].
  f_equal.
  - eapply gauss_logpdf_ext; [| | |exact G1|exact Hlv]; [apply vswap_l|apply mswap_ll|apply vcat_l].
  - eapply gauss_logpdf_ext; [| | |exact G2|exact Hlu]; [| |apply vcat_h].
    + rewrite Hm, vswap_h, <- K1, mswap_hl. reflexivity.
    + rewrite Hc, <- K2. rewrite mswap_hh, mswap_hl. reflexivity.
Qed.

Lemma quad_mswap d C x : quad (2 * d) (mswap d C) x = quad (2 * d) C (vswap d x).
Proof.
  assert (H : forall f : nat -> R, Rsum (map f (seq 0 (2 * d))) = Rsum (map (fun i => f (swp d i)) (seq 0 (2 * d)))).
  { intros f. rewrite !Rsum_split2. rewrite Rplus_comm. f_equal; apply Rsum_map_ext; intros k Hk; apply in_seq in Hk; unfold swp; blk_cases; f_equal; lia. }
  assert (I : forall i, (i < 2 * d)%nat -> swp d (swp d i) = i) by (intros i Hi; unfold swp; blk_cases; lia).
  unfold quad. rewrite (H (fun i => vswap d x i * mvec (2 * d) C (vswap d x) i)). apply Rsum_map_ext. intros i Hi. apply in_seq in Hi.
  unfold vswap at 1. rewrite I by lia. f_equal. unfold mvec. rewrite (H (fun k => C (swp d i) k * vswap d x k)). apply Rsum_map_ext. intros k Hk. apply in_seq in Hk.
  unfold mswap, vswap. now rewrite I by lia.
Qed.
Lemma posdef_mswap d C : posdef (2 * d) C -> posdef (2 * d) (mswap d C).
Proof.
  intros H x Hx. rewrite quad_mswap. apply H. intros Hz. apply Hx. intros i Hi.
  assert (Hsi : (swp d i < 2 * d)%nat) by (unfold swp; blk_cases; lia).
  specialize (Hz (swp d i) Hsi). unfold vswap in Hz. replace (swp d (swp d i)) with i in Hz by (unfold swp; blk_cases; lia). exact Hz.
Qed.
Lemma symmetric_mswap d C : symmetric (2 * d) C -> symmetric (2 * d) (mswap d C).
Proof. intros H i j Hi Hj. unfold mtr, mswap. apply (H (swp d i) (swp d j)); unfold swp; blk_cases; lia. Qed.

Theorem ref_moments_total d m C v : symmetric (2 * d) C -> posdef (2 * d) C ->
  exists m_ cov_, ref_moments d m C v m_ cov_ /\ symmetric d cov_ /\ posdef d cov_ /\
  forall u, exists lp lv lu, gauss_logpdf (2 * d) (vswap d m) (mswap d C) (vcat d v u) lp /\
     gauss_logpdf d (vhi d m) (m_hh d C) v lv /\ gauss_logpdf d m_ cov_ u lu.
Proof.
  intros HS HP. destruct (cholesky_exists _ _ (symmetric_mswap d C HS) (posdef_mswap d C HP)) as (L & B1 & B2 & B3).
  pose proof (fun u => gauss_lp_ok (2 * d) (vswap d m) (mswap d C) L (vcat d v u) B1 B2 B3) as G.
  destruct (gauss_chain d _ _ _ _ (G v)) as (L1 & M & L2 & lp1 & lp2 & A1 & A2 & A3 & A4 & E11 & E21 & E12 & E22 & _ & _ & _).
  set (U := mtr L1).
  assert (HU : cho_factor d (m_hh d C) U).
  { split; [exact A1|]. split; [intros i Hi; exact (A2 i Hi)|]. change (meq d (mmul d L1 (mtr L1)) (m_hh d C)). rewrite <- E11. apply mswap_ll. }
  assert (S1 : forall b, cho_solve_v d U b (mvec d (mtr (tri_inv L1)) (mvec d (tri_inv L1) b))).
  { intros b. unfold cho_solve_v. change (mtr U) with L1. unfold U. rewrite <- (mvec_mul d L1 (mtr L1)). rewrite (mvec_mul d (mtr L1) (mtr (tri_inv L1))).
    rewrite <- mtr_mul, tri_inv_left, mtr_mid, mvec_id by assumption. rewrite mvec_mul, tri_inv_right, mvec_id by assumption. reflexivity. }
  assert (S2 : forall B, cho_solve d U B (mmul d (mtr (tri_inv L1)) (mmul d (tri_inv L1) B))).
  { intros B. unfold cho_solve. change (mtr U) with L1. unfold U. rewrite <- (mmul_assoc d L1 (mtr L1)). rewrite (mmul_assoc d (mtr L1) (mtr (tri_inv L1))).
    rewrite <- mtr_mul, tri_inv_left, mtr_mid, mmul_1_l by assumption. rewrite mmul_assoc, tri_inv_right, mmul_1_l by assumption. reflexivity. }
  set (sol := mvec d (mtr (tri_inv L1)) (mvec d (tri_inv L1) (vsub v (vhi d m)))).
  set (X := mmul d (mtr (tri_inv L1)) (mmul d (tri_inv L1) (m_hl d C))).
  exists (vadd m (mvec d (m_lh d C) sol)), (msub C (mmul d (m_lh d C) X)).
  assert (HR : ref_moments d m C v (vadd m (mvec d (m_lh d C) sol)) (msub C (mmul d (m_lh d C) X))).
  { exists U, sol, X. split; [exact HU|]. split; [apply S1|]. split; [apply S2|]. split; reflexivity. }
  assert (HE : meq d (msub C (mmul d (m_lh d C) X)) (mmul d L2 (mtr L2))).
  { destruct (cond_blocks d (mswap d C) L1 M L2 (vswap d m) (vswap d m) U (mvec d (mtr (tri_inv L1)) (mvec d (tri_inv L1) (vsub (vswap d m) (vswap d m)))) X A1 A2 E11 E21 E12 E22) as [_ K].
    - exact (cho_factor_proper _ _ _ _ (symmetry (mswap_ll d C)) HU).
    - apply S1.
    - eapply cho_solve_proper; [symmetry; apply mswap_lh|apply S2].
    - rewrite <- K, mswap_hh, mswap_hl. reflexivity. }
  split; [exact HR|]. split; [|split].
  - unfold symmetric. rewrite HE, mtr_mul. reflexivity.
  - intros x Hx. rewrite HE. now apply gram_posdef.
  - intros u. exists (gauss_lp (2 * d) (vswap d m) L (vcat d v u)), (gauss_lp d (vhi d m) L1 v), (gauss_lp d (vadd m (mvec d (m_lh d C) sol)) L2 u).
    split; [apply G|]. split; apply gauss_lp_ok; try assumption.
    + rewrite <- E11. apply mswap_ll.
    + now symmetry.
Qed.

(** ** Inverses *)
Lemma posdef_inverse d P : symmetric d P -> posdef d P -> exists Pi, meq d (mmul d Pi P) mid /\ meq d (mmul d P Pi) mid /\ symmetric d Pi.
Proof.
  intros HS HP. destruct (cholesky_exists d P HS HP) as (L & A1 & A2 & A3). exists (mmul d (mtr (tri_inv L)) (tri_inv L)).
  split; [|split].
  - rewrite <- A3. rewrite <- (mmul_assoc d (mtr (tri_inv L)) (tri_inv L)), (mmul_assoc d (tri_inv L) L), tri_inv_left, mmul_1_l by assumption.
    rewrite <- mtr_mul, tri_inv_right, mtr_mid by assumption. reflexivity.
  - rewrite <- A3. rewrite <- (mmul_assoc d L), (mmul_assoc d (mtr L)), <- mtr_mul, tri_inv_left, mtr_mid, mmul_1_l by assumption.
    now apply tri_inv_right.
  - unfold symmetric. rewrite mtr_mul. reflexivity.
Qed.
Lemma inverse_unique d P A B : meq d (mmul d A P) mid -> meq d (mmul d P B) mid -> meq d A B.
Proof. intros H1 H2. transitivity (mmul d A (mmul d P B)); [now rewrite H2, mmul_1_r|]. now rewrite mmul_assoc, H1, mmul_1_l. Qed.
Lemma inverse_symmetric d P A : symmetric d P -> meq d (mmul d A P) mid -> meq d (mmul d P A) mid -> symmetric d A.
Proof.
  intros HS H1 H2. unfold symmetric in *. apply (inverse_unique d P); [|exact H2].
  rewrite <- HS, <- mtr_mul, H2, mtr_mid. reflexivity.
Qed.

Lemma quad_add d A B x : quad d (madd A B) x = quad d A x + quad d B x.
Proof.
  unfold quad. rewrite <- Rsum_map_plus. apply Rsum_map_ext. intros i _. unfold mvec, madd.
  rewrite <- Rmult_plus_distr_l, <- Rsum_map_plus. f_equal. apply Rsum_map_ext. intros; ring.
Qed.
Lemma quad_scale d c A x : quad d (mscale c A) x = c * quad d A x.
Proof.
  unfold quad. rewrite <- Rsum_map_mult_l. apply Rsum_map_ext. intros i _. unfold mvec, mscale.
  rewrite (Rsum_map_ext _ (fun k => c * (A i k * x k))) by (intros; ring). rewrite Rsum_map_mult_l. ring.
Qed.
Lemma quad_mid d x : quad d mid x = dot d x x.
Proof. rewrite quad_dot, mvec_id. reflexivity. Qed.
Lemma symmetric_add d A B : symmetric d A -> symmetric d B -> symmetric d (madd A B).
Proof. intros HA HB i j Hi Hj. unfold mtr, madd. now rewrite <- (HA i j), <- (HB i j). Qed.
Lemma symmetric_scale d c A : symmetric d A -> symmetric d (mscale c A).
Proof. intros HA i j Hi Hj. unfold mtr, mscale. now rewrite <- (HA i j). Qed.
Lemma symmetric_mid d : symmetric d mid.
Proof. apply mtr_mid. Qed.

Lemma posdef_shift d C c s : 0 <= c -> 0 < s -> psd d C -> posdef d (madd (mscale c C) (mscale s mid)).
Proof.
  intros Hc Hs HP x Hx. rewrite quad_add, !quad_scale, quad_mid. specialize (HP x).
  assert (0 < dot d x x). { destruct (dot_self_nonneg d x) as [H|H]; [exact H|]. exfalso. apply Hx. now apply dot_self_zero. }
  nra.
Qed.

(** GP regression is conditioning of the joint law. *)
Lemma gp_is_conditional d C inv s2 y0 : symmetric d C -> psd d C -> 0 < s2 ->
  let D := madd C (mscale s2 mid) in meq d (mmul d (inv D) D) mid -> meq d (mmul d D (inv D)) mid ->
  ref_moments d (fun _ => 0) (joint_cov d C s2) y0 (gp_mean d C inv s2 y0) (gp_cov d C inv s2).
Proof.
  intros HS HP Hs D H1 H2.
  assert (HD : posdef d D).
  { intros x Hx. pose proof (posdef_shift d C 1 s2 Rle_0_1 Hs HP x Hx) as K. rewrite quad_add, !quad_scale in K. unfold D. rewrite quad_add, quad_scale. lra. }
  assert (HDS : symmetric d D) by (apply symmetric_add; [exact HS|apply symmetric_scale, symmetric_mid]).
  destruct (cholesky_exists d D HDS HD) as (L & A1 & A2 & A3).
  assert (B1 : meq d (m_hh d (joint_cov d C s2)) D) by (intros i j Hi Hj; unfold joint_cov; blk_cases; unfold D; f_equal; lia).
  assert (B2 : meq d (m_hl d (joint_cov d C s2)) C) by (intros i j Hi Hj; unfold joint_cov; blk_cases; f_equal; lia).
  assert (B3 : meq d (m_lh d (joint_cov d C s2)) C) by (intros i j Hi Hj; unfold joint_cov; blk_cases; f_equal; lia).
  assert (B4 : meq d (joint_cov d C s2) C) by (intros i j Hi Hj; unfold joint_cov; blk_cases; reflexivity).
  exists (mtr L), (mvec d (inv D) y0), (mmul d (inv D) C). split; [|split; [|split; [|split]]].
  - split; [exact A1|]. split; [intros i Hi; exact (A2 i Hi)|]. change (mtr (mtr L)) with L. now rewrite A3, B1.
  - unfold cho_solve_v. change (mtr (mtr L)) with L. rewrite A3, mvec_mul, H2, mvec_id. intros i Hi. unfold vsub, vhi. ring.
  - unfold cho_solve. change (mtr (mtr L)) with L. now rewrite A3, mmul_assoc, H2, mmul_1_l, B2.
  - unfold gp_mean. fold D. rewrite B3. intros i Hi. unfold vadd. ring.
  - unfold gp_cov. fold D. now rewrite B3, B4.
Qed.

(** ** Time reversal *)
Lemma mvec_sub_r d A x y : veq d (mvec d A (vsub x y)) (vsub (mvec d A x) (mvec d A y)).
Proof.
  intros i _. unfold mvec, vsub. transitivity (Rsum (map (fun k => A i k * x k + (-(1)) * (A i k * y k)) (seq 0 d))).
  - apply Rsum_map_ext. intros; ring.
  - rewrite Rsum_map_plus, Rsum_map_mult_l. ring.
Qed.
Lemma mvec_sub_l d A B x i : mvec d (msub A B) x i = mvec d A x i - mvec d B x i.
Proof.
  unfold mvec, msub. transitivity (Rsum (map (fun k => A i k * x k + (-(1)) * (B i k * x k)) (seq 0 d))).
  - apply Rsum_map_ext. intros; ring.
  - rewrite Rsum_map_plus, Rsum_map_mult_l. ring.
Qed.
Lemma mvec_scale_l d c A x i : mvec d (mscale c A) x i = c * mvec d A x i.
Proof. unfold mvec, mscale. rewrite <- Rsum_map_mult_l. apply Rsum_map_ext. intros; ring. Qed.

Lemma is_derive_flip (f : R -> R) T t l : is_derive f (T - t) l -> is_derive (fun u => f (T - u)) t (- l).
Proof.
  intros H. apply (is_derive_ext (fun u => f (T - u))); [reflexivity|]. evar_last.
  - apply (is_derive_comp (V := R_NormedModule) f (fun u => T - u) t l (-(1)) H). auto_derive; [exact I|ring].
  - unfold scal; cbn; unfold mult; cbn. ring.
Qed.

Theorem reverse_moments d b disp T m P inv t :
  affine_moments d m P b (disp (T - t)) (T - t) -> symmetric d (P (T - t)) -> inverse_at d P inv (T - t) ->
  affine_moments d (fun u => m (T - u)) (fun u => P (T - u)) (reverse_drift d b disp T m P inv) (disp (T - t)) t.
Proof.
  set (s := T - t). set (g := disp s). intros (A & HA & Hm & HP) HS [I1 I2]. set (W := inv (P s)) in *.
  assert (HW : symmetric d W) by (now apply (inverse_symmetric d (P s))).
  exists (msub (mscale (-(1)) A) (mscale (g ^ 2) W)). split; [|split].
  - intros x x' i Hi. unfold reverse_drift, score, vsub at 1, vadd, vscale. fold s. fold W. fold g.
    rewrite mvec_sub_l, !mvec_scale_l. specialize (HA x x' i Hi). unfold vsub at 1 in HA. rewrite <- HA.
    assert (K : mvec d W (vsub x x') i = mvec d W (vsub x (m s)) i - mvec d W (vsub x' (m s)) i).
    { rewrite !mvec_sub_r by exact Hi. unfold vsub. ring. }
    rewrite K. ring.
  - intros i Hi. unfold reverse_drift, score, vadd, vscale. fold s. fold W. fold g.
    rewrite (mvec_zero d W (vsub (m s) (m s))) by (try assumption; intros k _; unfold vsub; ring).
    replace (-(1) * b (m s) s i + g ^ 2 * (-(1) * 0)) with (- b (m s) s i) by ring.
    apply (is_derive_flip (fun u => m u i)). now apply Hm.
  - intros i j Hi Hj. fold s. fold g.
    replace (mmul d (msub (mscale (-(1)) A) (mscale (g ^ 2) W)) (P s) i j + mmul d (P s) (mtr (msub (mscale (-(1)) A) (mscale (g ^ 2) W))) i j + g ^ 2 * mid i j)
      with (- (mmul d A (P s) i j + mmul d (P s) (mtr A) i j + g ^ 2 * mid i j)).
    + apply (is_derive_flip (fun u => P u i j)). now apply HP.
    + change (mtr (msub (mscale (-(1)) A) (mscale (g ^ 2) W))) with (msub (mscale (-(1)) (mtr A)) (mscale (g ^ 2) (mtr W))).
      mexpand. rewrite (I1 i j Hi Hj). rewrite (mmul_proper d (P s) (P s) (reflexivity _) (mtr W) W HW i j Hi Hj), (I2 i j Hi Hj). ring.
Qed.

Theorem forward_moments d sde m C t : SdeProofs.sde_defined sde -> SdeProofs.nonneg_noise sde t ->
  affine_moments d (fwd_mean sde m) (fwd_cov sde C) (vdrift sde) (Sde.dispersion sde t) t.
Proof.
  intros Hd Hn. pose proof (SdeProofs.F_derive sde t 0 Hd) as HF. pose proof (SdeProofs.Q_derive sde t 0 Hd Hn) as HQ.
  exists (mscale (Sde.drift_coef sde t) mid). split; [|split].
  - intros x x' i Hi. rewrite mvec_scale_l. rewrite (mvec_id d (vsub x x') i Hi). unfold vdrift, vsub, vscale. ring.
  - intros i Hi. unfold fwd_mean, vdrift, vscale. evar_last.
    + apply (is_derive_scal_l (V := R_NormedModule) (fun u => fst (Sde.FQ sde u 0)) t _ (m i) HF).
    + unfold scal; cbn; unfold mult; cbn. ring.
  - intros i j Hi Hj. unfold fwd_cov, madd, mscale.
    change (mtr (fun i0 j0 => Sde.drift_coef sde t * mid i0 j0)) with (mscale (Sde.drift_coef sde t) (mtr mid)).
    change (fun i0 j0 => Sde.drift_coef sde t * mid i0 j0) with (mscale (Sde.drift_coef sde t) mid).
    rewrite mmul_scale_l, mmul_scale_r, mmul_id_l by exact Hi. rewrite (mmul_proper d _ _ (reflexivity _) (mtr mid) mid (mtr_mid d) i j Hi Hj), mmul_id_r by exact Hj.
    evar_last.
    + apply (is_derive_plus (K := R_AbsRing) (V := R_NormedModule)).
      * apply (is_derive_scal_l (V := R_NormedModule) (fun u => fst (Sde.FQ sde u 0) ^ 2) t (INR 2 * (Sde.drift_coef sde t * fst (Sde.FQ sde t 0)) * fst (Sde.FQ sde t 0) ^ 1) (C i j)). apply (is_derive_pow (fun u => fst (Sde.FQ sde u 0)) 2 t _ HF).
      * apply (is_derive_scal_l (V := R_NormedModule) (fun u => snd (Sde.FQ sde u 0)) t _ (mid i j) HQ).
    + unfold plus, scal; cbn; unfold mult; cbn. ring.
Qed.

Lemma fwd_cov_symmetric d sde C t : symmetric d C -> symmetric d (fwd_cov sde C t).
Proof. intros H. apply symmetric_add; apply symmetric_scale; [exact H|apply symmetric_mid]. Qed.
Lemma fwd_cov_posdef d sde C t : SdeProofs.sde_defined sde -> 0 < t -> SdeProofs.noisy_between sde 0 t -> psd d C -> posdef d (fwd_cov sde C t).
Proof.
  intros Hd Ht Hn HP. apply posdef_shift; [apply pow2_ge_0|now apply SdeProofs.Q_pos|exact HP].
Qed.

(** The reverse process of the GP scripts runs through the forward marginals backwards. *)
Theorem toy_reverse d sde T m C inv t : SdeProofs.sde_defined sde -> SdeProofs.nonneg_noise sde (T - t) -> symmetric d C ->
  inverse_at d (fwd_cov sde C) inv (T - t) ->
  affine_moments d (fun u => fwd_mean sde m (T - u)) (fun u => fwd_cov sde C (T - u))
    (reverse_drift d (vdrift sde) (Sde.dispersion sde) T (fwd_mean sde m) (fwd_cov sde C) inv) (Sde.dispersion sde (T - t)) t.
Proof.
  intros Hd Hn HS HI. apply reverse_moments; [now apply forward_moments|now apply fwd_cov_symmetric|exact HI].
Qed.
Theorem sb_reverse d m0 c0 m1 c1 sig C inv T t : symmetric d c0 -> symmetric d c1 ->
  inverse_at d (marginal_cov c0 c1 sig C) inv (T - t) ->
  affine_moments d (fun u => marginal_mean m0 m1 (T - u)) (fun u => marginal_cov c0 c1 sig C (T - u))
    (reverse_drift d (sb_drift d m0 c0 m1 c1 sig C inv) (fun _ => sig) T (marginal_mean m0 m1) (marginal_cov c0 c1 sig C) inv) sig t.
Proof.
  intros H0 H1 HI. apply (reverse_moments d _ (fun _ => sig)); [|now apply marginal_cov_sym|exact HI].
  apply sb_moment_equations; try assumption. apply HI.
Qed.
