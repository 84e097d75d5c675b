(** The exact filter of the Euler chain of experiments/toy on a fine grid: its covariance tends to the GP posterior covariance. *)
From Coquelicot Require Import Coquelicot.
From Coq Require Import Reals List Lia Lra Setoid Morphisms.
From Verif Require Sde SdeProofs Sim CholFun Expm TwistedGp SbConverge.
From Verif Require Import Base Dist Mat MatMore Lti Cholesky GaussDiv GaussCond GaussSBMore Bures Spectral Toy ToyCond ToyMore ToyKf EmMoments EmConverge PriorGap CsgmConverge KfCollapse FilterRate FilterMean.
Import ListNotations.
Open Scope R_scope.

(** ** Specification *)
(** gp_kf.py 129-146 with each step the exact filtering step of the Euler chain (ToyKf.v) *)
Fixpoint exact_scan (d : nat) (rd : vec -> R -> vec) (b : R -> R) (dt : R) (elems : list (vec * vec * R)) (mf : vec) (vf : mat) (m : vec) (V : mat) : Prop :=
  match elems with
  | [] => m = mf /\ V = vf
  | ((v, v_prev), t) :: rest => exists mf' vf', exact_step d rd b dt v v_prev t mf vf mf' vf' /\ exact_scan d rd b dt rest mf' vf' m V
  end.

(** the size of a path on the grid: [prs] lists its values in pairs (next, previous) *)
Definition norm1 (d : nat) (x : vec) : R := Rsum (map (fun i => Rabs (x i)) (seq 0 d)).
Definition path_cost (d : nat) (dt : R) (prs : list (vec * vec)) : R := Rsum (map (fun q => dt * norm1 d (snd q) + norm1 d (vsub (fst q) (snd q))) prs).

(** ** Matrices with the eigenvectors [E] *)
Section basis.
Variables (d : nat) (E : mat).
Hypothesis O1 : meq d (mmul d (mtr E) E) mid.
Hypothesis O2 : meq d (mmul d E (mtr E)) mid.
Definition sp (A : mat) (f : vec) : Prop := meq d A (spectral d E f).

Lemma spectral_entry f i j : spectral d E f i j = Rsum (map (fun k => E i k * f k * E j k) (seq 0 d)).
Proof using.
  unfold spectral, mmul at 1. apply Rsum_map_ext. intros k Hk. apply in_seq in Hk. f_equal. unfold mmul, mdiag.
  rewrite (Rsum_map_ext _ (fun l => (if Nat.eqb l k then 1 else 0) * (E i k * f k))) by (intros l _; destruct (Nat.eqb_spec l k) as [ ->|]; ring).
  rewrite (Rsum_indicator d k (fun _ => E i k * f k)) by lia. reflexivity.
Qed.
Lemma sp_add A B f g : sp A f -> sp B g -> sp (madd A B) (fun k => f k + g k).
Proof using. intros HA HB i j Hi Hj. unfold madd. rewrite (HA i j Hi Hj), (HB i j Hi Hj), !spectral_entry, <- Rsum_map_plus. apply Rsum_map_ext. intros; ring. Qed.
Lemma sp_scale c A f : sp A f -> sp (mscale c A) (fun k => c * f k).
Proof using. intros HA i j Hi Hj. unfold mscale. rewrite (HA i j Hi Hj), !spectral_entry, <- Rsum_map_mult_l. apply Rsum_map_ext. intros; ring. Qed.
Lemma sp_mid : sp mid (fun _ => 1).
Proof using O2. clear O1. unfold sp. symmetry. now apply spectral_one. Qed.
Lemma sp_ext A f g : sp A f -> (forall k, (k < d)%nat -> f k = g k) -> sp A g.
Proof using. intros HA H. unfold sp in *. rewrite HA. now apply spectral_ext. Qed.
Lemma sp_meq A B f : sp A f -> meq d B A -> sp B f.
Proof using. intros HA H. unfold sp in *. now rewrite H. Qed.
Lemma sp_sub A B f g : sp A f -> sp B g -> sp (msub A B) (fun k => f k - g k).
Proof using. intros HA HB i j Hi Hj. unfold msub. rewrite (HA i j Hi Hj), (HB i j Hi Hj), !spectral_entry. rewrite (Rsum_map_ext (fun k => E i k * (f k - g k) * E j k) (fun k => E i k * f k * E j k + (-1) * (E i k * g k * E j k))) by (intros; ring). rewrite Rsum_map_plus, Rsum_map_mult_l. ring. Qed.
Lemma sp_mul A B f g : sp A f -> sp B g -> sp (mmul d A B) (fun k => f k * g k).
Proof using O1. clear O2. intros HA HB. unfold sp in *. rewrite HA, HB. now apply spectral_mul. Qed.
Lemma sp_tr A f : sp A f -> sp (mtr A) f.
Proof using. intros HA. unfold sp in *. rewrite HA. apply spectral_tr. Qed.

(** in the basis [E] a matrix of the family multiplies columns *)
Lemma mul_E A S f i j : sp S f -> (i < d)%nat -> (j < d)%nat -> mmul d (mmul d A S) E i j = mmul d A E i j * f j.
Proof using O1.
  clear O2. intros HS Hi Hj. assert (H1 : meq d (mmul d S E) (mmul d E (mdiag f))).
  { unfold sp in HS. rewrite HS. unfold spectral. rewrite <- (mmul_assoc d (mmul d E (mdiag f)) (mtr E) E), O1, mmul_1_r. reflexivity. }
  assert (H2 : meq d (mmul d (mmul d A S) E) (mmul d (mmul d A E) (mdiag f))) by (rewrite <- mmul_assoc, H1, mmul_assoc; reflexivity).
  rewrite (H2 i j Hi Hj). unfold mmul at 1. unfold mdiag.
  rewrite (Rsum_map_ext _ (fun l => (if Nat.eqb l j then 1 else 0) * (mmul d A E i j * f j))) by (intros l _; destruct (Nat.eqb_spec l j) as [ ->|]; ring).
  rewrite (Rsum_indicator d j (fun _ => mmul d A E i j * f j)) by exact Hj. reflexivity.
Qed.
Lemma of_E A f : (forall i j, (i < d)%nat -> (j < d)%nat -> mmul d A E i j = E i j * f j) -> sp A f.
Proof using O2.
  clear O1. intros H. unfold sp. transitivity (mmul d (mmul d A E) (mtr E)); [now rewrite <- mmul_assoc, O2, mmul_1_r|].
  intros i j Hi Hj. rewrite spectral_entry. unfold mmul at 1. apply Rsum_map_ext. intros k Hk. apply in_seq in Hk. rewrite H by lia. unfold mtr. ring.
Qed.
Lemma of_solve S A B f g : sp S f -> sp B g -> (forall k, (k < d)%nat -> f k <> 0) -> meq d (mmul d S A) B -> sp A (fun k => g k / f k).
Proof using O1 O2.
  intros HS HB Hf H. assert (K : meq d (mmul d (spectral d E (fun k => / f k)) S) mid).
  { assert (K1 : sp (mmul d (spectral d E (fun k => / f k)) S) (fun k => / f k * f k)) by (apply sp_mul; [unfold sp; reflexivity|exact HS]).
    apply (sp_ext _ _ (fun _ => 1)) in K1; [|intros k Hk; apply Rinv_l; now apply Hf]. unfold sp in K1. rewrite K1. now apply spectral_one. }
  apply (sp_meq (mmul d (spectral d E (fun k => / f k)) B)); [|now rewrite <- H, mmul_assoc, K, mmul_1_l].
  apply (sp_ext _ (fun k => / f k * g k)); [apply sp_mul; [unfold sp; reflexivity|exact HB]|]. intros k _. unfold Rdiv. ring.
Qed.

(** conditioning *)
Lemma schur_sp m cov y m_ cov_ al be ga : sp cov al -> sp (m_lh d cov) be -> sp (m_hl d cov) be -> sp (m_hh d cov) ga -> (forall k, (k < d)%nat -> ga k <> 0) ->
  Toy.ref_moments d m cov y m_ cov_ -> sp cov_ (fun k => al k - be k ^ 2 / ga k).
Proof using O1 O2.
  intros H1 H2 H3 H4 Hg (U & sol & Z & (_ & _ & HU) & _ & HZ & _ & Hc). unfold cho_solve in HZ. rewrite HU in HZ.
  pose proof (of_solve _ Z _ _ _ H4 H3 Hg HZ) as KZ. apply (sp_meq _ _ _ (sp_sub _ _ _ _ H1 (sp_mul _ _ _ _ H2 KZ))) in Hc.
  apply (sp_ext _ _ _ Hc). intros k Hk. specialize (Hg k Hk). field. exact Hg.
Qed.

(** blocks of an inverse *)
Lemma mmul_blocks M N i j : mmul (2 * d) M N i j = mmul d M N i j + mmul d (m_lh d M) (m_hl d N) i j.
Proof using. unfold mmul at 1. rewrite Rsum_split2. reflexivity. Qed.
Lemma inverse_sp S Wm u x w : sp S u -> sp (m_lh d S) x -> sp (m_hl d S) x -> sp (m_hh d S) w -> (forall k, (k < d)%nat -> w k <> 0) -> (forall k, (k < d)%nat -> u k - x k ^ 2 / w k <> 0) ->
  meq (2 * d) (mmul (2 * d) Wm S) mid -> sp Wm (fun k => / (u k - x k ^ 2 / w k)) /\ sp (m_hl d Wm) (fun k => - (x k / (w k * (u k - x k ^ 2 / w k)))).
Proof using O1 O2.
  intros H1 H2 H3 H4 Hw Hp HI.
  assert (gen : forall A B R1 R2, (forall i j, (i < d)%nat -> (j < d)%nat -> mmul d A S i j + mmul d B (m_hl d S) i j = R1 i j) -> (forall i j, (i < d)%nat -> (j < d)%nat -> mmul d A (m_lh d S) i j + mmul d B (m_hh d S) i j = R2 i j) ->
    forall i j, (i < d)%nat -> (j < d)%nat -> mmul d A E i j = (mmul d R1 E i j - mmul d R2 E i j * (x j / w j)) / (u j - x j ^ 2 / w j)).
  { intros A B R1 R2 K1 K2 i j Hi Hj.
    assert (L1 : mmul d A E i j * u j + mmul d B E i j * x j = mmul d R1 E i j).
    { rewrite <- (mul_E A S u i j H1 Hi Hj), <- (mul_E B _ x i j H3 Hi Hj), <- mmul_add_l. refine (mmul_proper d _ _ _ _ _ (reflexivity E) i j Hi Hj). intros p q Hp' Hq. unfold madd. now apply K1. }
    assert (L2 : mmul d A E i j * x j + mmul d B E i j * w j = mmul d R2 E i j).
    { rewrite <- (mul_E A _ x i j H2 Hi Hj), <- (mul_E B _ w i j H4 Hi Hj), <- mmul_add_l. refine (mmul_proper d _ _ _ _ _ (reflexivity E) i j Hi Hj). intros p q Hp' Hq. unfold madd. now apply K2. }
    specialize (Hw j Hj). specialize (Hp j Hj). rewrite <- L1, <- L2. field. split; [exact Hw|]. intros Z. apply Hp. apply Rmult_eq_reg_r with (w j); [|exact Hw]. field_simplify; [|exact Hw]. lra. }
  split; apply of_E; intros i j Hi Hj.
  - rewrite (gen Wm (m_lh d Wm) mid (fun _ _ => 0)); try assumption.
    + rewrite mmul_id_l by exact Hi. replace (mmul d (fun _ _ => 0) E i j) with 0 by (unfold mmul; rewrite (Rsum_map_ext _ (fun _ => 0)) by (intros; ring); rewrite Rsum_map_const; ring). unfold Rdiv. ring.
    + intros p q Hp' Hq. rewrite <- mmul_blocks. apply HI; lia.
    + intros p q Hp' Hq. transitivity (mmul (2 * d) Wm S p (d + q)%nat); [rewrite mmul_blocks; reflexivity|]. rewrite HI by lia. unfold mid. destruct (Nat.eqb_spec p (d + q)); [lia|reflexivity].
  - rewrite (gen (m_hl d Wm) (m_hh d Wm) (fun _ _ => 0) mid); try assumption.
    + rewrite mmul_id_l by exact Hi. replace (mmul d (fun _ _ => 0) E i j) with 0 by (unfold mmul; rewrite (Rsum_map_ext _ (fun _ => 0)) by (intros; ring); rewrite Rsum_map_const; ring).
      specialize (Hw j Hj). specialize (Hp j Hj). field. split; [exact Hw|]. intros Z. apply Hp. apply Rmult_eq_reg_r with (w j); [|exact Hw]. field_simplify; [|exact Hw]. lra.
    + intros p q Hp' Hq. transitivity (mmul (2 * d) Wm S (d + p)%nat q); [rewrite mmul_blocks; reflexivity|]. rewrite HI by lia. unfold mid. destruct (Nat.eqb_spec (d + p) q); [lia|reflexivity].
    + intros p q Hp' Hq. transitivity (mmul (2 * d) Wm S (d + p)%nat (d + q)%nat); [rewrite mmul_blocks; reflexivity|]. rewrite HI by lia. unfold mid. destruct (Nat.eqb_spec (d + p) (d + q)), (Nat.eqb_spec p q); try lia; reflexivity.
Qed.
Lemma inverse_sp_more S Wm u x w : sp S u -> sp (m_lh d S) x -> sp (m_hl d S) x -> sp (m_hh d S) w -> (forall k, (k < d)%nat -> w k <> 0) -> (forall k, (k < d)%nat -> u k - x k ^ 2 / w k <> 0) ->
  meq (2 * d) (mmul (2 * d) S Wm) mid -> sp (m_lh d Wm) (fun k => - (x k / (w k * (u k - x k ^ 2 / w k)))) /\ sp (m_hh d Wm) (fun k => / w k + x k ^ 2 / (w k ^ 2 * (u k - x k ^ 2 / w k))).
Proof using O1 O2.
  intros H1 H2 H3 H4 Hw Hp HI. assert (K1 : sp (m_lh d Wm) (fun k => - (x k / (w k * (u k - x k ^ 2 / w k))))).
  { assert (HI' : meq (2 * d) (mmul (2 * d) (mtr Wm) (mtr S)) mid) by (rewrite <- mtr_mul, HI; apply mtr_mid).
    destruct (inverse_sp (mtr S) (mtr Wm) u x w (sp_tr _ _ H1) (sp_tr _ _ H3) (sp_tr _ _ H2) (sp_tr _ _ H4) Hw Hp HI') as [_ K]. exact (sp_tr _ _ K). }
  split; [exact K1|]. assert (K2 : meq d (mmul d (m_hh d S) (m_hh d Wm)) (msub mid (mmul d (m_hl d S) (m_lh d Wm)))).
  { intros p q Hp' Hq. unfold msub. assert (Z : mmul (2 * d) S Wm (d + p)%nat (d + q)%nat = mid p q) by (rewrite HI by lia; unfold mid; destruct (Nat.eqb_spec (d + p) (d + q)), (Nat.eqb_spec p q); try lia; reflexivity).
    rewrite <- Z, mmul_blocks. unfold mmul, m_hl, m_lh, m_hh. ring. }
  pose proof (of_solve _ _ _ _ _ H4 (sp_sub _ _ _ _ sp_mid (sp_mul _ _ _ _ H3 K1)) Hw K2) as K3. apply (sp_ext _ _ _ K3). intros k Hk. specialize (Hw k Hk). specialize (Hp k Hk). field. split; [exact Hw|].
  intros Z. apply Hp. apply Rmult_eq_reg_r with (w k); [|exact Hw]. field_simplify; [|exact Hw]. lra.
Qed.

(** coordinates in the eigenvectors *)
Definition coord (x : vec) : vec := mvec d (mtr E) x.
Lemma sp_coord S f x k : sp S f -> (k < d)%nat -> coord (mvec d S x) k = f k * coord x k.
Proof using O1.
  intros HSp Hk. unfold coord. rewrite (mvec_mul d (mtr E) S x k Hk). unfold mvec. rewrite <- Rsum_map_mult_l. apply Rsum_map_ext. intros j Hj. apply in_seq in Hj.
  assert (K : mmul d (mtr E) S k j = E j k * f k); [|rewrite K; unfold mtr; ring].
  transitivity (mmul d (mtr S) E j k); [unfold mmul, mtr; apply Rsum_map_ext; intros; ring|].
  transitivity (mmul d (mmul d mid (mtr S)) E j k); [|rewrite (mul_E mid (mtr S) f j k (sp_tr _ _ HSp) ltac:(lia) Hk), mmul_id_l by lia; reflexivity].
  refine (mmul_proper d _ _ _ _ _ (reflexivity E) j k ltac:(lia) Hk). symmetry. apply mmul_1_l.
Qed.
Lemma coord_ext x y k : veq d x y -> (k < d)%nat -> coord x k = coord y k.
Proof using. intros H Hk. unfold coord. refine (mvec_proper d _ _ (reflexivity _) _ _ H k Hk). Qed.
Lemma coord_add x y k : (k < d)%nat -> coord (vadd x y) k = coord x k + coord y k.
Proof using. intros Hk. unfold coord. rewrite (mvec_add_r d (mtr E) x y k Hk). reflexivity. Qed.
Lemma coord_sub x y k : (k < d)%nat -> coord (vsub x y) k = coord x k - coord y k.
Proof using. intros Hk. unfold coord. rewrite (mvec_sub_r d (mtr E) x y k Hk). reflexivity. Qed.
Lemma coord_scale r x k : (k < d)%nat -> coord (vscale r x) k = r * coord x k.
Proof using. intros Hk. unfold coord. rewrite (mvec_scale_r d (mtr E) r x k Hk). reflexivity. Qed.
End basis.

(** ** The joint law of the GP *)
Section gp.
Variables (sde : Sde.linear_sde) (T : R) (d : nat) (C : mat) (inv : nat -> mat -> mat) (s2 : R).
Hypothesis Hd : SdeProofs.sde_defined sde.
Hypothesis HT : 0 < T.
Hypothesis Hn : forall t, 0 <= t <= T -> SdeProofs.nonneg_noise sde t.
Hypothesis Hb : forall t, 0 <= t <= T -> 0 < Sde.dispersion sde t.
Hypothesis HS : symmetric d C.
Hypothesis HP : posdef d C.
Hypothesis Hs2 : 0 < s2.
Hypothesis Hinv : forall k M, symmetric k M -> posdef k M -> meq k (mmul k (inv k M) M) mid /\ meq k (mmul k M (inv k M)) mid.
Variables (lam : vec) (E : mat).
Hypothesis HE : eigh d C lam E.
Let O1 : meq d (mmul d (mtr E) E) mid := proj1 (proj2 HE).
Let O2 : meq d (mmul d E (mtr E)) mid := proj2 (proj2 HE).
Let rd := gp_rd d sde T C s2 (inv (2 * d)%nat).
Let b := fun t => Sde.dispersion sde (T - t).
Let J := joint_cov d C s2.
Let F2 s := fst (Sde.FQ sde s 0) ^ 2.
Let Q s := snd (Sde.FQ sde s 0).
Let a := Sde.drift_coef sde.
Let g2 s := Sde.dispersion sde s ^ 2.
Definition eU (k : nat) (s : R) : R := fst (Sde.FQ sde s 0) ^ 2 * lam k + snd (Sde.FQ sde s 0).
Definition eX (k : nat) (s : R) : R := fst (Sde.FQ sde s 0) ^ 2 * lam k.
Definition eW (k : nat) (s : R) : R := fst (Sde.FQ sde s 0) ^ 2 * (lam k + s2) + snd (Sde.FQ sde s 0).
Let eP k := cond_var (eU k) (eX k) (eW k).

Lemma lam_pos k : (k < d)%nat -> 0 < lam k.
Proof using HE HP. clear - HE HP. intros Hk. exact (eigh_pos d C lam E HE HP k Hk). Qed.
Lemma F2_pos s : 0 < F2 s.
Proof using Hd. clear - Hd. unfold F2. apply pow_lt. now apply F_pos. Qed.
Lemma Q_pos s : 0 <= s <= T -> 0 <= Q s.
Proof using Hd Hn.
  clear - Hd Hn. intros Hs. unfold Q. apply SdeProofs.Q_nonneg; [exact Hd|lra|]. destruct sde; cbn [SdeProofs.noise_on]; try exact I. split; [apply (Hn 0); lra|now apply (Hn s)].
Qed.
Lemma eW_pos k s : (k < d)%nat -> 0 <= s <= T -> 0 < eW k s.
Proof using HE HP Hd Hn Hs2.
  intros Hk Hs. pose proof (lam_pos k Hk). pose proof (F2_pos s). pose proof (Q_pos s Hs). unfold eW. fold (F2 s) (Q s). assert (0 < F2 s * (lam k + s2)) by (apply Rmult_lt_0_compat; lra). lra.
Qed.
Lemma eP_low k s : (k < d)%nat -> 0 <= s <= T -> F2 s * F2 s * (lam k * s2) / eW k s <= eP k s.
Proof using HE HP Hd Hn Hs2.
  intros Hk Hs. pose proof (eW_pos k s Hk Hs) as HW. pose proof (lam_pos k Hk). pose proof (F2_pos s). pose proof (Q_pos s Hs).
  unfold eP, cond_var. apply Rmult_le_reg_r with (eW k s); [exact HW|]. replace ((eU k s - eX k s ^ 2 / eW k s) * eW k s) with (eU k s * eW k s - eX k s ^ 2) by (field; lra).
  unfold Rdiv. rewrite Rmult_assoc, Rinv_l, Rmult_1_r by lra. unfold eU, eX, eW. fold (F2 s) (Q s).
  assert (0 <= F2 s * lam k * Q s) by (apply Rmult_le_pos; [apply Rmult_le_pos; lra|lra]). assert (0 <= Q s * (F2 s * (lam k + s2) + Q s)).
  { apply Rmult_le_pos; [lra|]. assert (0 < F2 s * (lam k + s2)) by (apply Rmult_lt_0_compat; lra). lra. }
  lra.
Qed.
Lemma eP_pos k s : (k < d)%nat -> 0 <= s <= T -> 0 < eP k s.
Proof using HE HP Hd Hn Hs2.
  intros Hk Hs. eapply Rlt_le_trans; [|now apply eP_low]. pose proof (F2_pos s). pose proof (lam_pos k Hk). apply Rdiv_lt_0_compat; [|now apply eW_pos].
  apply Rmult_lt_0_compat; [now apply Rmult_lt_0_compat|apply Rmult_lt_0_compat; lra].
Qed.

Lemma fwd_blocks s : sp d E (fwd_cov sde J s) (fun k => eU k s) /\ sp d E (m_lh d (fwd_cov sde J s)) (fun k => eX k s) /\ sp d E (m_hl d (fwd_cov sde J s)) (fun k => eX k s) /\ sp d E (m_hh d (fwd_cov sde J s)) (fun k => eW k s).
Proof using HE.
  assert (SC : sp d E C lam) by (unfold sp; symmetry; exact (proj1 HE)). pose proof (sp_mid d E O2) as SI. split; [|split; [|split]].
  - apply (sp_meq d E (madd (mscale (F2 s) C) (mscale (Q s) mid))).
    + apply (sp_ext d E _ (fun k => F2 s * lam k + Q s * 1)); [apply sp_add; now apply sp_scale|]. intros k _. unfold eU, F2, Q. ring.
    + intros i j Hi Hj. unfold fwd_cov, madd, mscale, J, joint_cov. fold (F2 s) (Q s). f_equal. f_equal. blk_cases; reflexivity.
  - apply (sp_meq d E (mscale (F2 s) C)); [apply sp_scale; exact SC|]. intros i j Hi Hj. unfold m_lh, fwd_cov, madd, mscale, J, joint_cov. fold (F2 s) (Q s).
    unfold mid. destruct (Nat.eqb_spec i (d + j)); [lia|]. rewrite Rmult_0_r, Rplus_0_r. f_equal. blk_cases; f_equal; lia.
  - apply (sp_meq d E (mscale (F2 s) C)); [apply sp_scale; exact SC|]. intros i j Hi Hj. unfold m_hl, fwd_cov, madd, mscale, J, joint_cov. fold (F2 s) (Q s).
    unfold mid. destruct (Nat.eqb_spec (d + i) j); [lia|]. rewrite Rmult_0_r, Rplus_0_r. f_equal. blk_cases; f_equal; lia.
  - apply (sp_meq d E (madd (mscale (F2 s) (madd C (mscale s2 mid))) (mscale (Q s) mid))).
    + apply (sp_ext d E _ (fun k => F2 s * (lam k + s2 * 1) + Q s * 1)); [apply sp_add; [apply sp_scale, sp_add; [exact SC|]|]; now apply sp_scale|]. intros k _. unfold eW, F2, Q. ring.
    + intros i j Hi Hj. assert (Em : mid (d + i)%nat (d + j)%nat = mid i j) by (unfold mid; destruct (Nat.eqb_spec (d + i) (d + j)), (Nat.eqb_spec i j); try lia; reflexivity).
      assert (Ej : J (d + i)%nat (d + j)%nat = C i j + s2 * mid i j) by (unfold J, joint_cov; blk_cases; replace (d + i - d)%nat with i by lia; replace (d + j - d)%nat with j by lia; reflexivity).
      unfold m_hh, fwd_cov, madd, mscale. fold (F2 s) (Q s). rewrite Em, Ej. reflexivity.
Qed.

(** the reverse drift is affine, with these blocks *)
Let Aff s : mat := msub (mscale (- a s) mid) (mscale (g2 s) (inv (2 * d)%nat (fwd_cov sde J s))).
Lemma rd_affine t : affine_at (2 * d) rd t (Aff (T - t)).
Proof using.
  clear - rd a g2 J Aff. intros x x' i Hi. unfold Aff. set (s := T - t). set (Wm := inv (2 * d)%nat (fwd_cov sde J s)).
  unfold rd, gp_rd, reverse_drift, score, vsub at 1, vadd, vscale. fold J. fold s. fold Wm.
  rewrite mvec_sub_l, !mvec_scale_l. rewrite (mvec_id (2 * d) (vsub x x') i Hi).
  assert (K : mvec (2 * d) Wm (vsub x x') i = mvec (2 * d) Wm (vsub x (fwd_mean sde (fun _ => 0) s)) i - mvec (2 * d) Wm (vsub x' (fwd_mean sde (fun _ => 0) s)) i).
  { rewrite !(mvec_sub_r (2 * d) Wm _ _ i Hi). unfold vsub. ring. }
  rewrite K. unfold vdrift, vscale, a, g2. unfold vsub at 3. ring.
Qed.
Lemma aff_blocks s : 0 <= s <= T -> sp d E (Aff s) (fun k => coef_u (eU k) (eX k) (eW k) a g2 s) /\ sp d E (m_hl d (Aff s)) (fun k => g2 s * coef_v (eU k) (eX k) (eW k) s).
Proof using HE HP HS Hd Hinv Hn Hs2.
  intros Hs. destruct (fwd_blocks s) as (B1 & B2 & B3 & B4). destruct (joint_cov_posdef d C s2 HS HP Hs2) as [J1 J2].
  destruct (inverse_all sde T (2 * d) (inv (2 * d)%nat) Hd Hn (Hinv (2 * d)%nat) J s J1 J2 Hs) as [I1 _].
  assert (NW : forall k, (k < d)%nat -> eW k s <> 0) by (intros k Hk; pose proof (eW_pos k s Hk Hs); lra).
  assert (NP : forall k, (k < d)%nat -> eU k s - eX k s ^ 2 / eW k s <> 0) by (intros k Hk; pose proof (eP_pos k s Hk Hs) as K0; unfold eP, cond_var in K0; lra).
  destruct (inverse_sp d E O1 O2 (fwd_cov sde J s) (inv (2 * d)%nat (fwd_cov sde J s)) (fun k => eU k s) (fun k => eX k s) (fun k => eW k s) B1 B2 B3 B4 NW NP I1) as [K1 K2].
  pose proof (sp_mid d E O2) as SI. split.
  - apply (sp_ext d E _ _ _ (sp_sub d E _ _ _ _ (sp_scale d E (- a s) _ _ SI) (sp_scale d E (g2 s) _ _ K1))). intros k Hk. unfold coef_u, cond_var, Rdiv. ring.
  - apply (sp_meq d E (mscale (- g2 s) (m_hl d (inv (2 * d)%nat (fwd_cov sde J s))))).
    + apply (sp_ext d E _ _ _ (sp_scale d E (- g2 s) _ _ K2)). intros k Hk. unfold coef_v, cond_var, Rdiv. ring.
    + intros i j Hi Hj. unfold Aff, m_hl, msub, mscale. unfold mid. destruct (Nat.eqb_spec (d + i) j); [lia|]. ring.
Qed.

Lemma euler_jac_u dt v t x Jm : is_jac d (fun u => euler_mean rd dt (vcat d u v) t) x Jm <-> meq d Jm (madd mid (mscale dt (Aff (T - t)))).
Proof using.
  apply jac_affine. intros i k h Hi Hk. unfold euler_mean, vadd, vscale.
  rewrite (affine_shift (2 * d) rd t (Aff (T - t)) (vcat d x v) (vcat d (fun l => if Nat.eqb l k then h else x l) v) k (h - x k) i (rd_affine t) ltac:(lia) ltac:(lia)).
  - unfold madd, mscale, mid, vcat. destruct (Nat.ltb_spec i d); [|lia]. destruct (Nat.eqb_spec i k) as [ ->|]; ring.
  - intros l Hl. unfold vcat, unit, mid. destruct (Nat.ltb_spec l d); destruct (Nat.eqb_spec l k) as [ ->|]; try lia; ring.
Qed.
Lemma euler_jac_v dt v t x Jm : is_jac d (fun u => vhi d (euler_mean rd dt (vcat d u v) t)) x Jm <-> meq d Jm (mscale dt (m_hl d (Aff (T - t)))).
Proof using.
  apply jac_affine. intros i k h Hi Hk. unfold vhi, euler_mean, vadd, vscale.
  rewrite (affine_shift (2 * d) rd t (Aff (T - t)) (vcat d x v) (vcat d (fun l => if Nat.eqb l k then h else x l) v) k (h - x k) (d + i)%nat (rd_affine t) ltac:(lia) ltac:(lia)).
  - unfold mscale, m_hl, vcat. destruct (Nat.ltb_spec (d + i) d); [lia|]. ring.
  - intros l Hl. unfold vcat, unit, mid. destruct (Nat.ltb_spec l d); destruct (Nat.eqb_spec l k) as [ ->|]; try lia; ring.
Qed.

(** one exact step acts on the eigenvalues of the covariance *)
Lemma exact_step_sp dt v v_prev t mf vf m' v' p : 0 <= t <= T -> 0 < dt -> sp d E vf p -> (forall k, (k < d)%nat -> 0 <= p k) -> exact_step d rd b dt v v_prev t mf vf m' v' ->
  sp d E v' (fun k => riccati (eU k) (eX k) (eW k) a g2 (T - t) dt (p k)).
Proof using HE HP HS Hb Hd Hinv Hn Hs2.
  intros Ht Hdt Hv Hp (A & H & JA & JH & HR). set (s := T - t). assert (Hs : 0 <= s <= T) by (unfold s; lra). destruct (aff_blocks s Hs) as [A1 A2].
  apply euler_jac_u in JA. apply euler_jac_v in JH. fold s in JA, JH. pose proof (sp_mid d E O2) as SI.
  assert (SA : sp d E A (fun k => 1 + dt * coef_u (eU k) (eX k) (eW k) a g2 s)) by (apply (sp_meq d E _ _ _ (sp_add d E _ _ _ _ SI (sp_scale d E dt _ _ A1)) JA)).
  assert (SH : sp d E H (fun k => dt * (g2 s * coef_v (eU k) (eX k) (eW k) s))) by (apply (sp_meq d E _ _ _ (sp_scale d E dt _ _ A2) JH)).
  assert (Sq : sp d E (mscale (dt * b t ^ 2) mid) (fun _ => dt * g2 s)) by (apply (sp_ext d E _ _ _ (sp_scale d E (dt * b t ^ 2) _ _ SI)); intros k _; unfold b, g2, s; ring).
  assert (Hg : 0 < g2 s) by (unfold g2; apply pow_lt; now apply Hb).
  pose proof (sp_tr d E _ _ SA) as SAt. pose proof (sp_tr d E _ _ SH) as SHt.
  set (al := fun k => (1 + dt * coef_u (eU k) (eX k) (eW k) a g2 s) ^ 2 * p k + dt * g2 s). set (be := fun k => (1 + dt * coef_u (eU k) (eX k) (eW k) a g2 s) * p k * (dt * (g2 s * coef_v (eU k) (eX k) (eW k) s))).
  set (ga := fun k => (dt * (g2 s * coef_v (eU k) (eX k) (eW k) s)) ^ 2 * p k + dt * g2 s).
  assert (Hga : forall k, (k < d)%nat -> 0 < ga k).
  { intros k Hk. unfold ga. assert (0 <= (dt * (g2 s * coef_v (eU k) (eX k) (eW k) s)) ^ 2 * p k) by (apply Rmult_le_pos; [apply pow2_ge_0|now apply Hp]). assert (0 < dt * g2 s) by now apply Rmult_lt_0_compat. lra. }
  match type of HR with Toy.ref_moments _ _ ?B _ _ _ => set (cov := B) in * end.
  assert (K1 : sp d E cov al).
  { eapply sp_meq; [eapply sp_ext; [apply (sp_add d E _ _ _ _ (sp_mul d E O1 _ _ _ _ (sp_mul d E O1 _ _ _ _ SA Hv) SAt) Sq)|intros k _; unfold al; ring]|]. intros i j Hi Hj. unfold cov. blk_cases; reflexivity. }
  assert (K2 : sp d E (m_lh d cov) be).
  { eapply sp_meq; [eapply sp_ext; [apply (sp_mul d E O1 _ _ _ _ (sp_mul d E O1 _ _ _ _ SA Hv) SHt)|intros k _; unfold be; ring]|]. intros i j Hi Hj. unfold cov. blk_cases; f_equal; lia. }
  assert (K3 : sp d E (m_hl d cov) be).
  { eapply sp_meq; [eapply sp_ext; [apply (sp_mul d E O1 _ _ _ _ (sp_mul d E O1 _ _ _ _ SH Hv) SAt)|intros k _; unfold be; ring]|]. intros i j Hi Hj. unfold cov. blk_cases; f_equal; lia. }
  assert (K4 : sp d E (m_hh d cov) ga).
  { eapply sp_meq; [eapply sp_ext; [apply (sp_add d E _ _ _ _ (sp_mul d E O1 _ _ _ _ (sp_mul d E O1 _ _ _ _ SH Hv) SHt) Sq)|intros k _; unfold ga; ring]|]. intros i j Hi Hj. unfold cov. blk_cases. replace (d + i - d)%nat with i by lia. replace (d + j - d)%nat with j by lia. reflexivity. }
  pose proof (schur_sp d E O1 O2 _ _ _ _ _ _ _ _ K1 K2 K3 K4 (fun k Hk => Rgt_not_eq _ _ (Hga k Hk)) HR) as K5. apply (sp_ext d E _ _ _ K5). intros k Hk. specialize (Hga k Hk). specialize (Hp k Hk).
  unfold riccati, al, be, ga in *. set (cv := coef_v (eU k) (eX k) (eW k) s) in *. set (cu := coef_u (eU k) (eX k) (eW k) a g2 s) in *.
  assert (N1 : 0 < 1 + dt * (g2 s * cv ^ 2) * p k) by (assert (0 <= dt * (g2 s * cv ^ 2) * p k) by (apply Rmult_le_pos; [|exact Hp]; apply Rmult_le_pos; [lra|]; apply Rmult_le_pos; [lra|apply pow2_ge_0]); lra).
  replace ((dt * (g2 s * cv)) ^ 2 * p k + dt * g2 s) with (dt * g2 s * (1 + dt * (g2 s * cv ^ 2) * p k)) by ring. field. split; [lra|split; lra].
Qed.

Lemma rate_hyps k : (k < d)%nat -> exists C' Ma Bg MU MX MW iw ip,
  (forall s, 0 <= s <= T -> Rabs (a s) <= Ma) /\ (forall s, 0 <= s <= T -> Rabs (g2 s) <= Bg /\ 0 <= g2 s) /\
  (forall s, 0 <= s <= T -> Rabs (eU k s) <= MU) /\ (forall s, 0 <= s <= T -> Rabs (eX k s) <= MX) /\ (forall s, 0 <= s <= T -> Rabs (eW k s) <= MW) /\
  (forall s, 0 <= s <= T -> 0 < eW k s /\ Rabs (/ eW k s) <= iw) /\ (forall s, 0 <= s <= T -> 0 < cond_var (eU k) (eX k) (eW k) s /\ Rabs (/ cond_var (eU k) (eX k) (eW k) s) <= ip) /\
  (forall s s', 0 <= s <= T -> 0 <= s' <= T -> Rabs (eU k s' - eU k s - (s' - s) * (2 * a s * eU k s + g2 s)) <= C' * (s' - s) ^ 2) /\
  (forall s s', 0 <= s <= T -> 0 <= s' <= T -> Rabs (eX k s' - eX k s - (s' - s) * (2 * a s * eX k s)) <= C' * (s' - s) ^ 2) /\
  (forall s s', 0 <= s <= T -> 0 <= s' <= T -> Rabs (eW k s' - eW k s - (s' - s) * (2 * a s * eW k s + g2 s)) <= C' * (s' - s) ^ 2).
Proof using HE HP HT Hd Hn Hs2.
  intros Hk. pose proof (lam_pos k Hk) as Hl. destruct (exact_moments sde T 2 (fun _ => 0) (mat2 (lam k) (lam k) (lam k) (lam k + s2)) Hd ltac:(lra) Hn) as (Ma & Mi & kap & C' & V & H1 & H2 & H3 & H4 & B1 & B2 & _ & B4).
  set (M2 := mat2 (lam k) (lam k) (lam k) (lam k + s2)) in *.
  assert (EU : forall s, fwd_cov sde M2 s 0%nat 0%nat = eU k s) by (intros s; unfold fwd_cov, madd, mscale, mid, M2, mat2, eU; cbn [Nat.eqb]; ring).
  assert (EX : forall s, fwd_cov sde M2 s 0%nat 1%nat = eX k s) by (intros s; unfold fwd_cov, madd, mscale, mid, M2, mat2, eX; cbn [Nat.eqb]; ring).
  assert (EW : forall s, fwd_cov sde M2 s 1%nat 1%nat = eW k s) by (intros s; unfold fwd_cov, madd, mscale, mid, M2, mat2, eW; cbn [Nat.eqb]; ring).
  assert (VW : forall s, 0 <= s <= T -> Rabs (eW k s) <= V) by (intros s Hs; rewrite <- EW; apply B2; (lia || assumption)).
  exists C', Ma, (2 * Ma * Rabs kap), V, V, V, (Mi * / lam k), (V * (Mi * Mi) * / (lam k * s2)).
  split; [intros s Hs; apply (B1 s Hs)|]. split; [intros s Hs; unfold g2; rewrite Rabs_pos_eq by apply pow2_ge_0; split; [apply (B1 s Hs)|apply pow2_ge_0]|].
  split; [intros s Hs; rewrite <- EU; apply B2; (lia || assumption)|]. split; [intros s Hs; rewrite <- EX; apply B2; (lia || assumption)|]. split; [exact VW|].
  split; [|split; [|split; [|split]]].
  - intros s Hs. pose proof (eW_pos k s Hk Hs) as HW. split; [exact HW|]. destruct (B1 s Hs) as (_ & _ & F1 & F3). fold (F2 s) in F1, F3. pose proof (Q_pos s Hs) as HQ.
    rewrite Rabs_pos_eq by (left; now apply Rinv_0_lt_compat). apply Rle_trans with (/ (F2 s * lam k)).
    + apply Rinv_le_contravar; [now apply Rmult_lt_0_compat|]. unfold eW. fold (F2 s) (Q s). assert (0 < F2 s * s2) by now apply Rmult_lt_0_compat. lra.
    + rewrite Rinv_mult. apply Rmult_le_compat_r; [left; now apply Rinv_0_lt_compat|exact F3].
  - intros s Hs. pose proof (eP_pos k s Hk Hs) as HP'. fold (eP k s). split; [exact HP'|]. rewrite Rabs_pos_eq by (left; now apply Rinv_0_lt_compat).
    pose proof (eW_pos k s Hk Hs) as HW. destruct (B1 s Hs) as (_ & _ & F1 & F3). fold (F2 s) in F1, F3. specialize (VW s Hs). rewrite Rabs_pos_eq in VW by lra.
    assert (L1 : 0 < lam k * s2) by now apply Rmult_lt_0_compat. assert (L2 : 0 < F2 s * F2 s) by now apply Rmult_lt_0_compat.
    apply Rle_trans with (/ (F2 s * F2 s * (lam k * s2) / eW k s)).
    + apply Rinv_le_contravar; [apply Rdiv_lt_0_compat; [now apply Rmult_lt_0_compat|exact HW]|]. now apply eP_low.
    + replace (/ (F2 s * F2 s * (lam k * s2) / eW k s)) with (eW k s * (/ F2 s * / F2 s) * / (lam k * s2)) by (field; repeat split; lra).
      assert (I2 : 0 < / F2 s) by now apply Rinv_0_lt_compat. apply Rmult_le_compat_r; [left; now apply Rinv_0_lt_compat|]. apply Rmult_le_compat; [lra|left; now apply Rmult_lt_0_compat|exact VW|]. apply Rmult_le_compat; lra.
  - intros s s' Hs Hs'. specialize (B4 s' s 0%nat 0%nat Hs' Hs ltac:(lia) ltac:(lia)). rewrite !EU in B4. unfold mid in B4. cbn [Nat.eqb] in B4. rewrite Rmult_1_r in B4. exact B4.
  - intros s s' Hs Hs'. specialize (B4 s' s 0%nat 1%nat Hs' Hs ltac:(lia) ltac:(lia)). rewrite !EX in B4. unfold mid in B4. cbn [Nat.eqb] in B4. rewrite Rmult_0_r, Rplus_0_r in B4. exact B4.
  - intros s s' Hs Hs'. specialize (B4 s' s 1%nat 1%nat Hs' Hs ltac:(lia) ltac:(lia)). rewrite !EW in B4. unfold mid in B4. cbn [Nat.eqb] in B4. rewrite Rmult_1_r in B4. exact B4.
Qed.

Let fv dt k j := filter_var T (eU k) (eX k) (eW k) a g2 dt j.
Lemma exact_scan_sp dt j : forall i elems mf vf m V, 0 < dt -> INR (i + j) * dt <= T -> map snd elems = map (fun l => INR l * dt) (seq i j) ->
  sp d E vf (fun k => fv dt k i) -> (forall k, (k < d)%nat -> 0 <= fv dt k i) -> exact_scan d rd b dt elems mf vf m V -> sp d E V (fun k => fv dt k (i + j)).
Proof using HE HP HS HT Hb Hd Hinv Hn Hs2.
  induction j as [|j IH]; intros i elems mf vf m V Hdt Hle Hel Hv Hp Hrun.
  - destruct elems; [|discriminate]. destruct Hrun as [_ ->]. now rewrite Nat.add_0_r.
  - destruct elems as [|[[v v_prev] t] r]; [discriminate|]. cbn [seq map snd] in Hel. injection Hel as Ht Hr. destruct Hrun as (mf' & vf' & H1 & H2).
    assert (Hi : INR i * dt <= INR (i + S j) * dt) by (apply Rmult_le_compat_r; [lra|apply le_INR; lia]). pose proof (pos_INR i). assert (0 <= INR i * dt) by (apply Rmult_le_pos; lra).
    assert (Ht' : 0 <= t <= T) by (rewrite Ht; lra). pose proof (exact_step_sp dt v v_prev t mf vf mf' vf' _ Ht' Hdt Hv Hp H1) as K. rewrite Ht in K.
    replace (i + S j)%nat with (S i + j)%nat in * by lia. apply (IH (S i) r mf' vf' m V Hdt Hle Hr); [exact K| |exact H2].
    intros k Hk. destruct (rate_hyps k Hk) as (C' & Ma & Bg & MU & MX & MW & iw & ip & _ & R2 & _). apply (riccati_nonneg T (eU k) (eX k) (eW k) a g2 Bg R2); [lra|lra|now apply Hp].
Qed.

Lemma gp_post_sp : sp d E (gp_cov d C (inv d) s2) (fun k => eP k 0).
Proof using HE HP HS Hd Hinv Hn HT Hs2.
  assert (SC : sp d E C lam) by (unfold sp; symmetry; exact (proj1 HE)). pose proof (sp_mid d E O2) as SI. destruct (obs_inverse d C (inv d) s2 HS HP Hs2 (Hinv d)) as [I1 I2].
  destruct (FQ_zero sde Hd) as [F0 Q0].
  assert (SD : sp d E (madd C (mscale s2 mid)) (fun k => lam k + s2 * 1)) by (apply sp_add; [exact SC|now apply sp_scale]).
  assert (N : forall k, (k < d)%nat -> lam k + s2 * 1 <> 0) by (intros k Hk; pose proof (lam_pos k Hk); lra).
  pose proof (of_solve d E O1 O2 _ _ _ _ _ SD SI N I2) as SV.
  apply (sp_ext d E _ _ _ (sp_sub d E _ _ _ _ SC (sp_mul d E O1 _ _ _ _ SC (sp_mul d E O1 _ _ _ _ SV SC)))).
  intros k Hk. specialize (N k Hk). unfold eP, cond_var, eU, eX, eW. rewrite F0, Q0. field. repeat split; lra.
Qed.

Lemma grid_elems n vs : (1 <= n)%nat -> length vs = (n + 1)%nat -> map snd (kf_elems vs (Sde.linspace 0 T (n + 1))) = map (fun l => INR l * (T / INR n)) (seq 0 n).
Proof using.
  clear. intros Hn HL. assert (E1 : Sde.linspace 0 T (n + 1) = map (fun i => INR i * (T / INR n)) (seq 0 (n + 1))).
  { transitivity (map (fun i => 0 + INR i * ((T - 0) / INR n)) (seq 0 (n + 1))); [|apply map_ext; intros i; rewrite Rminus_0_r; ring].
    unfold Sde.linspace. replace (n + 1 - 1)%nat with n by lia. destruct (n + 1)%nat as [|[|m]] eqn:E0; [lia|lia|reflexivity]. }
  assert (E2 : removelast (Sde.linspace 0 T (n + 1)) = map (fun i => INR i * (T / INR n)) (seq 0 n)) by (rewrite E1, Nat.add_1_r, seq_S, map_app; cbn [map]; apply removelast_last).
  assert (RL : forall (A : Type) (l : list A), length (removelast l) = (length l - 1)%nat) by (intros A l; rewrite removelast_firstn_len, firstn_length; lia).
  unfold kf_elems. rewrite E2. set (l1 := combine (tl vs) (removelast vs)). set (l2 := map _ (seq 0 n)). assert (L : length l1 = length l2).
  { unfold l1, l2. rewrite combine_length, RL, map_length, seq_length. destruct vs; cbn [tl length] in *; lia. }
  clearbody l1 l2. revert l2 L. induction l1 as [|x l1 IH]; intros [|y l2] L; cbn in *; try lia; [reflexivity|]. f_equal. apply IH. lia.
Qed.

Theorem exact_filter_converges : exists K, 0 <= K /\ forall n vs yT m0 V0 m V, (1 <= n)%nat -> T / INR n <= 1 -> length vs = (n + 1)%nat ->
  Toy.ref_moments d (fwd_mean sde (fun _ => 0) T) (fwd_cov sde (joint_cov d C s2) T) yT m0 V0 ->
  exact_scan d rd b (T / INR n) (kf_elems vs (Sde.linspace 0 T (n + 1))) m0 V0 m V ->
  forall i j, (i < d)%nat -> (j < d)%nat -> Rabs (V i j - gp_cov d C (inv d) s2 i j) <= K * (T / INR n).
Proof using HE HP HS HT Hb Hd Hinv Hn Hs2.
  destruct (SbConverge.finite_bound d (fun k K => forall n, (1 <= n)%nat -> T / INR n <= 1 -> Rabs (fv (T / INR n) k n - eP k 0) <= K * (T / INR n))) as (K & HK & HQ).
  { intros k M M' H HM n Hn1 Hdt. eapply Rle_trans; [now apply H|]. apply Rmult_le_compat_r; [|exact HM]. left. apply Rdiv_lt_0_compat; [exact HT|]. apply lt_0_INR. lia. }
  { intros k Hk. destruct (rate_hyps k Hk) as (C' & Ma & Bg & MU & MX & MW & iw & ip & R1 & R2 & R3 & R4 & R5 & R6 & R7 & R8 & R9 & R10).
    exact (global_error T (eU k) (eX k) (eW k) a g2 C' Ma Bg MU MX MW iw ip R1 R2 R3 R4 R5 R6 R7 R8 R9 R10 HT). }
  destruct (matrix_bound d E) as (B & HB & BE). exists (INR d * (B * K * B)). split; [apply Rmult_le_pos; [apply pos_INR|]; apply Rmult_le_pos; [now apply Rmult_le_pos|exact HB]|].
  intros n vs yT m0 V0 m V Hn1 Hdt HL HR Hrun i j Hi Hj. assert (Hn0 : 0 < INR n) by (apply lt_0_INR; lia). set (dt := T / INR n) in *. assert (Hdt0 : 0 < dt) by (apply Rdiv_lt_0_compat; lra).
  destruct (fwd_blocks T) as (B1 & B2 & B3 & B4). fold J in HR. assert (HTT : 0 <= T <= T) by lra.
  pose proof (schur_sp d E O1 O2 _ _ _ _ _ _ _ _ B1 B2 B3 B4 (fun k Hk => Rgt_not_eq _ _ (eW_pos k T Hk HTT)) HR) as S0.
  pose proof (exact_scan_sp dt n 0 (kf_elems vs (Sde.linspace 0 T (n + 1))) m0 V0 m V Hdt0) as SV. cbn [Nat.add] in SV.
  specialize (SV ltac:(unfold dt; right; field; lra) (grid_elems n vs Hn1 HL) S0 ltac:(intros k Hk; left; exact (eP_pos k T Hk HTT)) Hrun).
  rewrite (SV i j Hi Hj), (gp_post_sp i j Hi Hj), !spectral_entry.
  replace (Rsum (map (fun k => E i k * fv dt k n * E j k) (seq 0 d)) - Rsum (map (fun k => E i k * eP k 0 * E j k) (seq 0 d))) with (Rsum (map (fun k => E i k * (fv dt k n - eP k 0) * E j k) (seq 0 d))).
  2:{ rewrite (Rsum_map_ext (fun k => E i k * (fv dt k n - eP k 0) * E j k) (fun k => E i k * fv dt k n * E j k + (-1) * (E i k * eP k 0 * E j k))) by (intros; ring). rewrite Rsum_map_plus, Rsum_map_mult_l. ring. }
  eapply Rle_trans; [apply Expm.Rabs_Rsum|]. rewrite map_map. apply Rle_trans with (Rsum (map (fun _ : nat => B * (K * dt) * B) (seq 0 d))); [|rewrite Rsum_map_const, seq_length; right; ring].
  apply Rsum_map_le. intros k Hk. apply in_seq in Hk. apply bd_mult; [apply bd_mult|]; [apply BE; lia|apply HQ; (lia || assumption)|apply BE; lia].
Qed.

(** every path and grid has a run *)
Lemma sp_posdef S f : sp d E S f -> (forall k, (k < d)%nat -> 0 < f k) -> symmetric d S /\ posdef d S.
Proof using HE.
  intros HSp Hf. split; [pose proof (sp_tr d E _ _ HSp) as K; unfold sp in *; unfold symmetric; now rewrite K, HSp|].
  intros x Hx. rewrite (quad_ext d S (spectral d E f) x x HSp (reflexivity x)), quad_spectral.
  assert (N : forall i, In i (seq 0 d) -> 0 <= f i * mvec d (mtr E) x i ^ 2) by (intros i Hi; apply in_seq in Hi; apply Rmult_le_pos; [left; apply Hf; lia|apply pow2_ge_0]).
  assert (Q0 : 0 <= Rsum (map (fun i => f i * mvec d (mtr E) x i ^ 2) (seq 0 d))) by (apply Rsum_nonneg, Forall_forall; intros z Hz; apply in_map_iff in Hz as (i & <- & Hi); now apply N).
  destruct Q0 as [Q0|Q0]; [exact Q0|]. exfalso. apply Hx.
  assert (Z : veq d (mvec d (mtr E) x) (fun _ => 0)).
  { intros i Hi. assert (Hin : In i (seq 0 d)) by (apply in_seq; lia). symmetry in Q0. destruct (Rle_lt_dec (f i * mvec d (mtr E) x i ^ 2) 0) as [L|L].
    - pose proof (Hf i Hi). pose proof (N i Hin). assert (Q1 : mvec d (mtr E) x i ^ 2 = 0) by (apply (Rmult_eq_reg_l (f i)); lra). apply Rsqr_0_uniq. unfold Rsqr. lra.
    - exfalso. apply in_split in Hin as (l1 & l2 & El). rewrite El in Q0, N. rewrite map_app in Q0. cbn [map] in Q0. rewrite Rsum_app in Q0. cbn [Rsum] in Q0.
      assert (P1 : 0 <= Rsum (map (fun i => f i * mvec d (mtr E) x i ^ 2) l1)) by (apply Rsum_nonneg, Forall_forall; intros z Hz; apply in_map_iff in Hz as (i' & <- & Hi'); apply N; apply in_or_app; now left).
      assert (P2 : 0 <= Rsum (map (fun i => f i * mvec d (mtr E) x i ^ 2) l2)) by (apply Rsum_nonneg, Forall_forall; intros z Hz; apply in_map_iff in Hz as (i' & <- & Hi'); apply N; apply in_or_app; right; now right). lra. }
  transitivity (mvec d mid x); [symmetry; apply mvec_id|]. rewrite <- O2, <- mvec_mul, Z. intros i Hi. unfold mvec. rewrite (Rsum_map_ext _ (fun _ => 0)) by (intros; ring). rewrite Rsum_map_const. ring.
Qed.
Lemma ref_exists m cov y ga : sp d E (m_hh d cov) ga -> (forall k, (k < d)%nat -> 0 < ga k) -> exists m_ cov_, Toy.ref_moments d m cov y m_ cov_.
Proof using HE.
  intros H Hg. destruct (sp_posdef _ _ H Hg) as [SS SP]. set (S := m_hh d cov) in *.
  destruct (cholesky_exists d S SS SP) as (L & A1 & A2 & A3). destruct (posdef_inverse d S SS SP) as (Si & I1 & I2 & _).
  do 2 eexists. exists (mtr L), (mvec d Si (vsub y (vhi d m))), (mmul d Si (m_hl d cov)). split; [split; [exact A1|]; split; [exact A2|exact A3]|].
  split; [unfold cho_solve_v; change (mtr (mtr L)) with L; now rewrite A3, (mvec_mul d S Si), I2, mvec_id|].
  split; [unfold cho_solve; change (mtr (mtr L)) with L; now rewrite A3, mmul_assoc, I2, mmul_1_l|]. split; reflexivity.
Qed.
Lemma exact_step_defined dt v v_prev t mf vf p : 0 <= t <= T -> 0 < dt -> sp d E vf p -> (forall k, (k < d)%nat -> 0 <= p k) -> exists m' v', exact_step d rd b dt v v_prev t mf vf m' v'.
Proof using HE HP HS Hb Hd Hinv Hn Hs2.
  intros Ht Hdt Hv Hp. set (s := T - t). assert (Hs : 0 <= s <= T) by (unfold s; lra). destruct (aff_blocks s Hs) as [_ A2].
  assert (SH := sp_scale d E dt _ _ A2). pose proof (sp_mid d E O2) as SI. assert (Hg : 0 < g2 s) by (unfold g2; apply pow_lt; now apply Hb).
  set (A := madd mid (mscale dt (Aff (T - t)))). set (H := mscale dt (m_hl d (Aff (T - t)))). fold s in SH.
  destruct (ref_exists (euler_mean rd dt (vcat d mf v_prev) t) (blk d (madd (mmul d (mmul d A vf) (mtr A)) (mscale (dt * b t ^ 2) mid)) (mmul d (mmul d A vf) (mtr H))
           (mmul d (mmul d H vf) (mtr A)) (madd (mmul d (mmul d H vf) (mtr H)) (mscale (dt * b t ^ 2) mid))) v
           (fun k => (dt * (g2 s * coef_v (eU k) (eX k) (eW k) s)) ^ 2 * p k + dt * g2 s)) as (m' & v' & K).
  - eapply sp_meq; [eapply sp_ext; [apply (sp_add d E _ _ _ _ (sp_mul d E O1 _ _ _ _ (sp_mul d E O1 _ _ _ _ SH Hv) (sp_tr d E _ _ SH)) (sp_scale d E (dt * g2 s) _ _ SI))|intros k _; cbv beta; ring]|].
    intros i j Hi Hj. blk_cases. replace (d + i - d)%nat with i by lia. replace (d + j - d)%nat with j by lia. reflexivity.
  - intros k Hk. assert (0 <= (dt * (g2 s * coef_v (eU k) (eX k) (eW k) s)) ^ 2 * p k) by (apply Rmult_le_pos; [apply pow2_ge_0|now apply Hp]). assert (0 < dt * g2 s) by now apply Rmult_lt_0_compat. lra.
  - exists m', v', A, H. split; [apply euler_jac_u; reflexivity|]. split; [apply euler_jac_v; reflexivity|exact K].
Qed.
Lemma exact_scan_defined dt : 0 < dt -> forall elems mf vf p, (forall v v_prev t, In ((v, v_prev), t) elems -> 0 <= t <= T) -> sp d E vf p -> (forall k, (k < d)%nat -> 0 <= p k) -> exists m V, exact_scan d rd b dt elems mf vf m V.
Proof using HE HP HS HT Hb Hd Hinv Hn Hs2.
  intros Hdt. induction elems as [|[[v v_prev] t] r IH]; intros mf vf p Hg Hv Hp; [exists mf, vf; split; reflexivity|].
  pose proof (Hg v v_prev t (or_introl eq_refl)) as Ht. destruct (exact_step_defined dt v v_prev t mf vf p Ht Hdt Hv Hp) as (m' & v' & K).
  pose proof (exact_step_sp dt v v_prev t mf vf m' v' p Ht Hdt Hv Hp K) as K2.
  destruct (IH m' v' _ ltac:(intros w w' t' Hin; apply (Hg w w' t'); now right) K2) as (m & V & K4); [|exists m, V, m', v'; auto].
  intros k Hk. destruct (rate_hyps k Hk) as (C' & Ma & Bg & MU & MX & MW & iw & ip & _ & R2 & _). apply (riccati_nonneg T (eU k) (eX k) (eW k) a g2 Bg R2); [lra|lra|now apply Hp].
Qed.
Lemma start_ok yT m0 V0 : Toy.ref_moments d (fwd_mean sde (fun _ => 0) T) (fwd_cov sde (joint_cov d C s2) T) yT m0 V0 -> symmetric d V0 /\ posdef d V0.
Proof using HE HP HT Hd Hn Hs2.
  intros HR. assert (HTT : 0 <= T <= T) by lra. destruct (fwd_blocks T) as (B1 & B2 & B3 & B4).
  pose proof (schur_sp d E O1 O2 _ _ _ _ _ _ _ _ B1 B2 B3 B4 (fun k Hk => Rgt_not_eq _ _ (eW_pos k T Hk HTT)) HR) as S0. apply (sp_posdef _ _ S0). intros k Hk. exact (eP_pos k T Hk HTT).
Qed.
Theorem exact_filter_defined n vs yT : (1 <= n)%nat -> exists m0 V0 m V, Toy.ref_moments d (fwd_mean sde (fun _ => 0) T) (fwd_cov sde (joint_cov d C s2) T) yT m0 V0 /\
  exact_scan d rd b (T / INR n) (kf_elems vs (Sde.linspace 0 T (n + 1))) m0 V0 m V.
Proof using HE HP HS HT Hb Hd Hinv Hn Hs2.
  intros Hn1. assert (HTT : 0 <= T <= T) by lra. destruct (fwd_blocks T) as (B1 & B2 & B3 & B4). fold J.
  destruct (ref_exists (fwd_mean sde (fun _ => 0) T) (fwd_cov sde J T) yT _ B4 (fun k Hk => eW_pos k T Hk HTT)) as (m0 & V0 & HR).
  pose proof (schur_sp d E O1 O2 _ _ _ _ _ _ _ _ B1 B2 B3 B4 (fun k Hk => Rgt_not_eq _ _ (eW_pos k T Hk HTT)) HR) as S0.
  assert (Hn0 : 0 < INR n) by (apply lt_0_INR; lia).
  destruct (exact_scan_defined (T / INR n) ltac:(apply Rdiv_lt_0_compat; lra) (kf_elems vs (Sde.linspace 0 T (n + 1))) m0 V0 _ ltac:(intros v v_prev t Hin; apply (elems_times T HT n) in Hin; [lra|exact Hn1]) S0) as (m & V & K).
  - intros k Hk. left. exact (eP_pos k T Hk HTT).
  - exists m0, V0, m, V. auto.
Qed.

(** *** The mean *)
Lemma aff_blocks_more s : 0 <= s <= T -> sp d E (m_lh d (Aff s)) (fun k => g2 s * coef_v (eU k) (eX k) (eW k) s) /\ sp d E (m_hh d (Aff s)) (fun k => coef_w (eU k) (eX k) (eW k) a g2 s).
Proof using HE HP HS Hd Hinv Hn Hs2.
  intros Hs. destruct (fwd_blocks s) as (B1 & B2 & B3 & B4). destruct (joint_cov_posdef d C s2 HS HP Hs2) as [J1 J2].
  destruct (inverse_all sde T (2 * d) (inv (2 * d)%nat) Hd Hn (Hinv (2 * d)%nat) J s J1 J2 Hs) as [_ I2].
  assert (NW : forall k, (k < d)%nat -> eW k s <> 0) by (intros k Hk; pose proof (eW_pos k s Hk Hs); lra).
  assert (NP : forall k, (k < d)%nat -> eU k s - eX k s ^ 2 / eW k s <> 0) by (intros k Hk; pose proof (eP_pos k s Hk Hs) as K0; unfold eP, cond_var in K0; lra).
  destruct (inverse_sp_more d E O1 O2 (fwd_cov sde J s) (inv (2 * d)%nat (fwd_cov sde J s)) (fun k => eU k s) (fun k => eX k s) (fun k => eW k s) B1 B2 B3 B4 NW NP I2) as [K1 K2].
  pose proof (sp_mid d E O2) as SI. split.
  - apply (sp_meq d E (mscale (- g2 s) (m_lh d (inv (2 * d)%nat (fwd_cov sde J s))))).
    + apply (sp_ext d E _ _ _ (sp_scale d E (- g2 s) _ _ K1)). intros k Hk. unfold coef_v, cond_var, Rdiv. ring.
    + intros i j Hi Hj. unfold Aff, m_lh, msub, mscale. unfold mid. destruct (Nat.eqb_spec i (d + j)); [lia|]. ring.
  - apply (sp_meq d E (msub (mscale (- a s) mid) (mscale (g2 s) (m_hh d (inv (2 * d)%nat (fwd_cov sde J s)))))).
    + apply (sp_ext d E _ _ _ (sp_sub d E _ _ _ _ (sp_scale d E (- a s) _ _ SI) (sp_scale d E (g2 s) _ _ K2))). intros k Hk. unfold coef_w, cond_var, Rdiv. ring.
    + intros i j Hi Hj. unfold Aff, m_hh, msub, mscale, mid. destruct (Nat.eqb_spec (d + i) (d + j)), (Nat.eqb_spec i j); try lia; reflexivity.
Qed.
Lemma mvec_vcat M u v i : mvec (2 * d) M (vcat d u v) i = mvec d M u i + mvec d (m_lh d M) v i.
Proof using.
  clear. unfold mvec. rewrite Rsum_split2. f_equal; apply Rsum_map_ext; intros k Hk; apply in_seq in Hk; unfold vcat, m_lh.
  - destruct (Nat.ltb_spec k d); [reflexivity|lia].
  - destruct (Nat.ltb_spec (d + k) d); [lia|]. replace (d + k - d)%nat with k by lia. reflexivity.
Qed.
Lemma rd_linear t x i : (i < 2 * d)%nat -> rd x t i = mvec (2 * d) (Aff (T - t)) x i.
Proof using.
  intros Hi. pose proof (rd_affine t x (fun _ => 0) i Hi) as K.
  assert (Z : rd (fun _ => 0) t i = 0).
  { unfold rd, gp_rd, reverse_drift, score, vadd, vscale, vdrift, vscale, fwd_mean, vscale. unfold mvec. rewrite (Rsum_map_ext _ (fun _ => 0)) by (intros; unfold vsub; ring). rewrite Rsum_map_const. ring. }
  unfold vsub at 1 in K. rewrite Z in K. rewrite Rminus_0_r in K. rewrite K. refine (mvec_proper (2 * d) _ _ (reflexivity _) _ _ _ i Hi). intros l _. unfold vsub. ring.
Qed.
Lemma euler_coord dt t u v k : 0 <= T - t <= T -> (k < d)%nat -> let s := T - t in
  coord d E (euler_mean rd dt (vcat d u v) t) k = (1 + dt * coef_u (eU k) (eX k) (eW k) a g2 s) * coord d E u k + dt * (g2 s * coef_v (eU k) (eX k) (eW k) s) * coord d E v k /\
  coord d E (vhi d (euler_mean rd dt (vcat d u v) t)) k = dt * (g2 s * coef_v (eU k) (eX k) (eW k) s) * coord d E u k + (1 + dt * coef_w (eU k) (eX k) (eW k) a g2 s) * coord d E v k.
Proof using HE HP HS Hd Hinv Hn Hs2.
  intros Hs Hk s. destruct (aff_blocks s Hs) as [A1 A2]. destruct (aff_blocks_more s Hs) as [A3 A4]. split.
  - rewrite (coord_ext d E _ (vadd u (vscale dt (vadd (mvec d (Aff s) u) (mvec d (m_lh d (Aff s)) v)))) k); [|intros i Hi; unfold euler_mean, vadd, vscale; rewrite rd_linear by lia; rewrite mvec_vcat; unfold vcat; destruct (Nat.ltb_spec i d); [reflexivity|lia]|exact Hk].
    rewrite coord_add, coord_scale, coord_add by exact Hk. rewrite (sp_coord d E O1 _ _ u k A1 Hk), (sp_coord d E O1 _ _ v k A3 Hk). ring.
  - rewrite (coord_ext d E _ (vadd v (vscale dt (vadd (mvec d (m_hl d (Aff s)) u) (mvec d (m_hh d (Aff s)) v)))) k); [|intros i Hi; unfold vhi, euler_mean, vadd, vscale; rewrite rd_linear by lia; rewrite mvec_vcat; unfold vcat; destruct (Nat.ltb_spec (d + i) d); [lia|]; replace (d + i - d)%nat with i by lia; reflexivity|exact Hk].
    rewrite coord_add, coord_scale, coord_add by exact Hk. rewrite (sp_coord d E O1 _ _ u k A2 Hk), (sp_coord d E O1 _ _ v k A4 Hk). ring.
Qed.

(** conditioning moves the coordinates of the mean *)
Lemma ref_coord m cov y m_ cov_ be ga k : sp d E (m_lh d cov) be -> sp d E (m_hh d cov) ga -> (k < d)%nat -> ga k <> 0 -> Toy.ref_moments d m cov y m_ cov_ ->
  coord d E m_ k = coord d E m k + be k / ga k * (coord d E y k - coord d E (vhi d m) k).
Proof using HE.
  intros H1 H2 Hk Hg (Uc & sol & Z & (_ & _ & HU) & Hsol & _ & Hm & _). unfold cho_solve_v in Hsol. rewrite HU in Hsol.
  rewrite (coord_ext d E _ _ k Hm Hk), coord_add by exact Hk. rewrite (sp_coord d E O1 _ _ sol k H1 Hk).
  pose proof (coord_ext d E _ _ k Hsol Hk) as K. rewrite (sp_coord d E O1 _ _ sol k H2 Hk), coord_sub in K by exact Hk. rewrite <- K. field. exact Hg.
Qed.
Lemma exact_step_coord dt v v_prev t mf vf m' v' p k : 0 <= t <= T -> 0 < dt -> sp d E vf p -> (forall k, (k < d)%nat -> 0 <= p k) -> (k < d)%nat -> exact_step d rd b dt v v_prev t mf vf m' v' ->
  coord d E m' k = mean_step (eU k) (eX k) (eW k) a g2 (T - t) dt (p k) (coord d E mf k) (coord d E v k) (coord d E v_prev k).
Proof using HE HP HS Hb Hd Hinv Hn Hs2.
  intros Ht Hdt Hv Hp Hk (A & H & JA & JH & HR). set (s := T - t). assert (Hs : 0 <= s <= T) by (unfold s; lra). destruct (aff_blocks s Hs) as [A1 A2].
  apply euler_jac_u in JA. apply euler_jac_v in JH. fold s in JA, JH. pose proof (sp_mid d E O2) as SI.
  assert (SA : sp d E A (fun k => 1 + dt * coef_u (eU k) (eX k) (eW k) a g2 s)) by (apply (sp_meq d E _ _ _ (sp_add d E _ _ _ _ SI (sp_scale d E dt _ _ A1)) JA)).
  assert (SH : sp d E H (fun k => dt * (g2 s * coef_v (eU k) (eX k) (eW k) s))) by (apply (sp_meq d E _ _ _ (sp_scale d E dt _ _ A2) JH)).
  assert (Sq : sp d E (mscale (dt * b t ^ 2) mid) (fun _ => dt * g2 s)) by (apply (sp_ext d E _ _ _ (sp_scale d E (dt * b t ^ 2) _ _ SI)); intros j _; unfold b, g2, s; ring).
  assert (Hg : 0 < g2 s) by (unfold g2; apply pow_lt; now apply Hb). pose proof (sp_tr d E _ _ SH) as SHt.
  set (be := fun k => (1 + dt * coef_u (eU k) (eX k) (eW k) a g2 s) * p k * (dt * (g2 s * coef_v (eU k) (eX k) (eW k) s))).
  set (ga := fun k => (dt * (g2 s * coef_v (eU k) (eX k) (eW k) s)) ^ 2 * p k + dt * g2 s).
  assert (Hga : 0 < ga k).
  { unfold ga. assert (0 <= (dt * (g2 s * coef_v (eU k) (eX k) (eW k) s)) ^ 2 * p k) by (apply Rmult_le_pos; [apply pow2_ge_0|now apply Hp]). assert (0 < dt * g2 s) by now apply Rmult_lt_0_compat. lra. }
  match type of HR with Toy.ref_moments _ _ ?B _ _ _ => set (cov := B) in * end.
  assert (K2 : sp d E (m_lh d cov) be).
  { eapply sp_meq; [eapply sp_ext; [apply (sp_mul d E O1 _ _ _ _ (sp_mul d E O1 _ _ _ _ SA Hv) SHt)|intros j _; unfold be; ring]|]. intros i j Hi Hj. unfold cov. blk_cases; f_equal; lia. }
  assert (K4 : sp d E (m_hh d cov) ga).
  { eapply sp_meq; [eapply sp_ext; [apply (sp_add d E _ _ _ _ (sp_mul d E O1 _ _ _ _ (sp_mul d E O1 _ _ _ _ SH Hv) SHt) Sq)|intros j _; unfold ga; ring]|]. intros i j Hi Hj. unfold cov. blk_cases. replace (d + i - d)%nat with i by lia. replace (d + j - d)%nat with j by lia. reflexivity. }
  rewrite (ref_coord _ _ _ _ _ _ _ k K2 K4 Hk ltac:(lra) HR). destruct (euler_coord dt t mf v_prev k Hs Hk) as [-> ->]. fold s.
  unfold mean_step. f_equal. f_equal. unfold gain, be, ga in *. specialize (Hp k Hk). set (cv := coef_v (eU k) (eX k) (eW k) s) in *. set (cu := coef_u (eU k) (eX k) (eW k) a g2 s) in *.
  assert (N1 : 0 < 1 + dt * (g2 s * cv ^ 2) * p k) by (assert (0 <= dt * (g2 s * cv ^ 2) * p k) by (apply Rmult_le_pos; [|exact Hp]; apply Rmult_le_pos; [lra|]; apply Rmult_le_pos; [lra|apply pow2_ge_0]); lra).
  replace ((dt * (g2 s * cv)) ^ 2 * p k + dt * g2 s) with (dt * g2 s * (1 + dt * (g2 s * cv ^ 2) * p k)) by ring. field. split; [lra|split; lra].
Qed.

Let rg k := regr (eX k) (eW k).
Lemma mean_rate k : (k < d)%nat -> exists L, 0 <= L /\ forall n, (1 <= n)%nat -> T / INR n <= 1 -> forall i m v v_prev, (i < n)%nat -> let dt := T / INR n in
  Rabs (mean_step (eU k) (eX k) (eW k) a g2 (T - INR i * dt) dt (fv dt k i) m v v_prev - rg k (T - INR (S i) * dt) * v) <= (1 + L * dt) * Rabs (m - rg k (T - INR i * dt) * v_prev) + L * dt * (dt * Rabs v_prev + Rabs (v - v_prev)).
Proof using HE HP HT Hd Hn Hs2.
  intros Hk. destruct (rate_hyps k Hk) as (C' & Ma & Bg & MU & MX & MW & iw & ip & R1 & R2 & R3 & R4 & R5 & R6 & R7 & R8 & R9 & R10).
  destruct (path_error T (eU k) (eX k) (eW k) a g2 C' Ma Bg MU MX MW iw ip R1 R2 R3 R4 R5 R6 R7 R8 R9 R10 HT) as (Kp & HKp & PE).
  destruct (mean_local T (eU k) (eX k) (eW k) a g2 C' Ma Bg MU MX MW iw ip R1 R2 R3 R4 R5 R6 R7 R9 R10 Kp) as (L & HL).
  exists (Rmax L 0). split; [apply Rmax_r|]. intros n Hn1 Hdt1 i m v v_prev Hi dt. assert (Hn0 : 0 < INR n) by (apply lt_0_INR; lia). assert (Hdt : 0 < dt) by (apply Rdiv_lt_0_compat; lra).
  assert (HTn : INR n * dt = T) by (unfold dt; field; lra). destruct (PE n Hn1 Hdt1 i ltac:(lia)) as [P1 P2]. fold dt in P1, P2, Hdt1. assert (Hin : INR (S i) <= INR n) by (apply le_INR; lia). pose proof (pos_INR i).
  assert (Hi1 : INR (S i) * dt <= INR n * dt) by (apply Rmult_le_compat_r; lra). rewrite S_INR in Hi1 |- *. assert (0 <= INR i * dt) by (apply Rmult_le_pos; lra).
  specialize (HL (T - INR i * dt) dt (fv dt k i) m v v_prev ltac:(lra) ltac:(lra) ltac:(lra) P1 P2). replace (T - INR i * dt - dt) with (T - (INR i + 1) * dt) in HL by ring. unfold rg.
  eapply Rle_trans; [exact HL|]. pose proof (Rmax_l L 0). pose proof (Rabs_pos v_prev). pose proof (Rabs_pos (v - v_prev)). assert (0 <= dt * Rabs v_prev) by (apply Rmult_le_pos; lra).
  apply Rplus_le_compat; (apply Rmult_le_compat_r; [try apply Rabs_pos; lra|]).
  - apply Rplus_le_compat_l, Rmult_le_compat_r; lra.
  - apply Rmult_le_compat_r; lra.
Qed.

Lemma last_cons (v0 v1 : vec) l : last (v1 :: l) v0 = last l v1.
Proof using. clear. revert v0 v1. induction l as [|v2 l IH]; intros v0 v1; [reflexivity|]. transitivity (last (v2 :: l) v0); [reflexivity|]. rewrite (IH v0 v2). symmetry. apply IH. Qed.
Let ccost dt k (prs : list (vec * vec)) := Rsum (map (fun q => dt * Rabs (coord d E (snd q) k) + Rabs (coord d E (fst q) k - coord d E (snd q) k)) prs).
Lemma mean_scan k L n : (k < d)%nat -> 0 <= L -> (1 <= n)%nat -> let dt := T / INR n in
  (forall i m v v_prev, (i < n)%nat -> Rabs (mean_step (eU k) (eX k) (eW k) a g2 (T - INR i * dt) dt (fv dt k i) m v v_prev - rg k (T - INR (S i) * dt) * v) <= (1 + L * dt) * Rabs (m - rg k (T - INR i * dt) * v_prev) + L * dt * (dt * Rabs v_prev + Rabs (v - v_prev))) ->
  forall vs i v0 mf vf m V, (i + length vs = n)%nat -> sp d E vf (fun k => fv dt k i) -> (forall k, (k < d)%nat -> 0 <= fv dt k i) ->
  exact_scan d rd b dt (combine (combine vs (removelast (v0 :: vs))) (map (fun l => INR l * dt) (seq i (length vs)))) mf vf m V ->
  Rabs (coord d E m k - rg k (T - INR n * dt) * coord d E (last vs v0) k) <= (1 + L * dt) ^ length vs * (Rabs (coord d E mf k - rg k (T - INR i * dt) * coord d E v0 k) + L * dt * ccost dt k (combine vs (removelast (v0 :: vs)))).
Proof using HE HP HS HT Hb Hd Hinv Hn Hs2.
  intros Hk HL Hn1 dt Hst. assert (Hn0 : 0 < INR n) by (apply lt_0_INR; lia). assert (Hdt : 0 < dt) by (apply Rdiv_lt_0_compat; lra). assert (HTn : INR n * dt = T) by (unfold dt; field; lra).
  assert (HLd : 0 <= L * dt) by (apply Rmult_le_pos; lra).
  assert (Hcp : forall prs, 0 <= ccost dt k prs).
  { intros prs. unfold ccost. apply Rsum_nonneg, Forall_forall. intros z Hz. apply in_map_iff in Hz as (q & <- & _). apply Rplus_le_le_0_compat; [apply Rmult_le_pos; [lra|]|]; apply Rabs_pos. }
  induction vs as [|v1 vs IH]; intros i v0 mf vf m V Hlen Hv Hp Hrun.
  - destruct Hrun as [-> _]. cbn [length] in Hlen. replace i with n by lia. cbn [last length pow]. specialize (Hcp (combine [] (removelast [v0]))). pose proof (Rmult_le_pos _ _ HLd Hcp). lra.
  - change (removelast (v0 :: v1 :: vs)) with (v0 :: removelast (v1 :: vs)) in *. cbn [combine length seq map] in Hrun. destruct Hrun as (mf' & vf' & H1 & H2). cbn [length] in Hlen.
    assert (Hin : INR i <= INR n) by (apply le_INR; lia). pose proof (pos_INR i). assert (0 <= INR i * dt) by (apply Rmult_le_pos; lra). assert (INR i * dt <= INR n * dt) by (apply Rmult_le_compat_r; lra).
    assert (Ht : 0 <= INR i * dt <= T) by lra. pose proof (exact_step_sp dt v1 v0 (INR i * dt) mf vf mf' vf' _ Ht Hdt Hv Hp H1) as K1.
    pose proof (exact_step_coord dt v1 v0 (INR i * dt) mf vf mf' vf' _ k Ht Hdt Hv Hp Hk H1) as K2.
    assert (Hp' : forall k, (k < d)%nat -> 0 <= fv dt k (S i)) by (intros j Hj; destruct (rate_hyps j Hj) as (C' & Ma & Bg & MU & MX & MW & iw & ip & _ & R2 & _); apply (riccati_nonneg T (eU j) (eX j) (eW j) a g2 Bg R2); [lra|lra|now apply Hp]).
    specialize (IH (S i) v1 mf' vf' m V ltac:(lia) K1 Hp' H2). rewrite last_cons. eapply Rle_trans; [exact IH|].
    specialize (Hst i (coord d E mf k) (coord d E v1 k) (coord d E v0 k) ltac:(lia)). rewrite <- K2 in Hst. cbn [combine length pow]. set (rest := combine vs (removelast (v1 :: vs))) in *.
    assert (Hc : ccost dt k ((v1, v0) :: rest) = (dt * Rabs (coord d E v0 k) + Rabs (coord d E v1 k - coord d E v0 k)) + ccost dt k rest) by reflexivity. rewrite Hc.
    specialize (Hcp rest). set (c1 := dt * Rabs (coord d E v0 k) + Rabs (coord d E v1 k - coord d E v0 k)) in *. assert (Hc1 : 0 <= c1) by (unfold c1; apply Rplus_le_le_0_compat; [apply Rmult_le_pos; [lra|]|]; apply Rabs_pos).
    set (e := Rabs (coord d E mf k - _)) in *. set (e' := Rabs (coord d E mf' k - _)) in *. assert (0 <= e) by apply Rabs_pos.
    apply Rle_trans with ((1 + L * dt) ^ length vs * ((1 + L * dt) * (e + L * dt * (c1 + ccost dt k rest)))); [|right; ring]. apply Rmult_le_compat_l; [apply pow_le; lra|].
    assert (Q1 : 0 <= L * dt * (L * dt * (c1 + ccost dt k rest))) by (apply Rmult_le_pos; [exact HLd|apply Rmult_le_pos; [exact HLd|lra]]). replace ((1 + L * dt) * (e + L * dt * (c1 + ccost dt k rest))) with ((1 + L * dt) * e + L * dt * c1 + L * dt * ccost dt k rest + L * dt * (L * dt * (c1 + ccost dt k rest))) by ring. lra.
Qed.

Lemma grid_combine n v0 vs : (1 <= n)%nat -> length vs = n -> kf_elems (v0 :: vs) (Sde.linspace 0 T (n + 1)) = combine (combine vs (removelast (v0 :: vs))) (map (fun l => INR l * (T / INR n)) (seq 0 (length vs))).
Proof using.
  clear. intros Hn HL. assert (E1 : Sde.linspace 0 T (n + 1) = map (fun i => INR i * (T / INR n)) (seq 0 (n + 1))).
  { transitivity (map (fun i => 0 + INR i * ((T - 0) / INR n)) (seq 0 (n + 1))); [|apply map_ext; intros i; rewrite Rminus_0_r; ring].
    unfold Sde.linspace. replace (n + 1 - 1)%nat with n by lia. destruct (n + 1)%nat as [|[|m]] eqn:E0; [lia|lia|reflexivity]. }
  unfold kf_elems. rewrite E1, Nat.add_1_r, seq_S, map_app. cbn [map tl]. rewrite removelast_last, HL. reflexivity.
Qed.

Theorem exact_filter_mean : exists K, 0 <= K /\ forall n v0 vs m0 V0 m V, (1 <= n)%nat -> T / INR n <= 1 -> length vs = n ->
  Toy.ref_moments d (fwd_mean sde (fun _ => 0) T) (fwd_cov sde (joint_cov d C s2) T) v0 m0 V0 ->
  exact_scan d rd b (T / INR n) (kf_elems (v0 :: vs) (Sde.linspace 0 T (n + 1))) m0 V0 m V ->
  forall i, (i < d)%nat -> Rabs (m i - gp_mean d C (inv d) s2 (last vs v0) i) <= K * (T / INR n) * path_cost d (T / INR n) (combine vs (removelast (v0 :: vs))).
Proof using HE HP HS HT Hb Hd Hinv Hn Hs2.
  destruct (matrix_bound d E) as (B & HB & BE).
  assert (CB : forall x k, (k < d)%nat -> Rabs (coord d E x k) <= B * norm1 d x).
  { intros x k Hk. unfold coord, mvec. eapply Rle_trans; [apply Expm.Rabs_Rsum|]. rewrite map_map. unfold norm1. rewrite <- Rsum_map_mult_l. apply Rsum_map_le. intros l Hl. apply in_seq in Hl. rewrite Rabs_mult. apply Rmult_le_compat_r; [apply Rabs_pos|]. unfold mtr. apply BE; lia. }
  destruct (SbConverge.finite_bound d (fun k K => forall n v0 vs m0 V0 m V, (1 <= n)%nat -> T / INR n <= 1 -> length vs = n ->
    Toy.ref_moments d (fwd_mean sde (fun _ => 0) T) (fwd_cov sde (joint_cov d C s2) T) v0 m0 V0 ->
    exact_scan d rd b (T / INR n) (kf_elems (v0 :: vs) (Sde.linspace 0 T (n + 1))) m0 V0 m V ->
    Rabs (coord d E m k - rg k 0 * coord d E (last vs v0) k) <= K * (T / INR n) * path_cost d (T / INR n) (combine vs (removelast (v0 :: vs))))) as (K & HK & HQ).
  { intros k M M' H HM n v0 vs m0 V0 m V Hn1 Hdt HL HR Hex. eapply Rle_trans; [now apply (H n v0 vs m0 V0 m V)|]. assert (0 < T / INR n) by (apply Rdiv_lt_0_compat; [exact HT|]; apply lt_0_INR; lia).
    apply Rmult_le_compat_r; [|apply Rmult_le_compat_r; lra]. unfold path_cost. apply Rsum_nonneg, Forall_forall. intros z Hz. apply in_map_iff in Hz as (q & <- & _).
    assert (N0 : forall x, 0 <= norm1 d x) by (intros x; apply Rsum_nonneg, Forall_forall; intros w Hw; apply in_map_iff in Hw as (l & <- & _); apply Rabs_pos). pose proof (N0 (snd q)). pose proof (N0 (vsub (fst q) (snd q))). apply Rplus_le_le_0_compat; [apply Rmult_le_pos; lra|lra]. }
  { intros k Hk. destruct (mean_rate k Hk) as (L & HL & HS'). exists (exp (L * T) * (L * B)). split; [apply Rmult_le_pos; [left; apply exp_pos|now apply Rmult_le_pos]|].
    intros n v0 vs m0 V0 m V Hn1 Hdt HLen HR Hex. rewrite (grid_combine n v0 vs Hn1 HLen) in Hex. assert (Hn0 : 0 < INR n) by (apply lt_0_INR; lia). assert (HTT : 0 <= T <= T) by lra.
    destruct (fwd_blocks T) as (B1 & B2 & B3 & B4). pose proof (schur_sp d E O1 O2 _ _ _ _ _ _ _ _ B1 B2 B3 B4 (fun k Hk => Rgt_not_eq _ _ (eW_pos k T Hk HTT)) HR) as S0.
    pose proof (mean_scan k L n Hk HL Hn1 (HS' n Hn1 Hdt) vs 0%nat v0 m0 V0 m V HLen S0 ltac:(intros j Hj; left; exact (eP_pos j T Hj HTT)) Hex) as M1.
    set (dt := T / INR n) in *. assert (Hdt0 : 0 < dt) by (apply Rdiv_lt_0_compat; lra). assert (HTn : INR n * dt = T) by (unfold dt; field; lra). rewrite HTn, Rminus_eq_0 in M1. eapply Rle_trans; [exact M1|].
    pose proof (eW_pos k T Hk HTT) as HW. rewrite (ref_coord _ _ _ _ _ _ _ k B2 B4 Hk ltac:(lra) HR).
    assert (Z : forall x, veq d x (fun _ => 0) -> coord d E x k = 0) by (intros x Hx; rewrite (coord_ext d E x _ k Hx Hk); unfold coord, mvec; rewrite (Rsum_map_ext _ (fun _ => 0)) by (intros; ring); rewrite Rsum_map_const; ring).
    rewrite (Z (fwd_mean sde (fun _ => 0) T)) by (intros l _; unfold fwd_mean, vscale; ring). rewrite (Z (vhi d (fwd_mean sde (fun _ => 0) T))) by (intros l _; unfold vhi, fwd_mean, vscale; ring).
    cbn [INR]. rewrite Rmult_0_l, (Rminus_0_r T). replace (0 + eX k T / eW k T * (coord d E v0 k - 0) - rg k T * coord d E v0 k) with 0 by (unfold rg, regr; ring). rewrite Rabs_R0, Rplus_0_l, HLen.
    assert (HLd : 0 <= L * dt) by (apply Rmult_le_pos; lra).
    assert (CC : ccost dt k (combine vs (removelast (v0 :: vs))) <= B * path_cost d dt (combine vs (removelast (v0 :: vs)))).
    { unfold ccost, path_cost. rewrite <- Rsum_map_mult_l. apply Rsum_map_le. intros q _. rewrite <- coord_sub by exact Hk. pose proof (CB (snd q) k Hk). pose proof (CB (vsub (fst q) (snd q)) k Hk).
      assert (dt * Rabs (coord d E (snd q) k) <= dt * (B * norm1 d (snd q))) by (apply Rmult_le_compat_l; lra). lra. }
    assert (C0 : 0 <= ccost dt k (combine vs (removelast (v0 :: vs)))).
    { unfold ccost. apply Rsum_nonneg, Forall_forall. intros z Hz. apply in_map_iff in Hz as (q & <- & _). apply Rplus_le_le_0_compat; [apply Rmult_le_pos; [lra|]|]; apply Rabs_pos. }
    assert (EX : (1 + L * dt) ^ n <= exp (L * T)).
    { rewrite <- HTn. replace (L * (INR n * dt)) with (INR n * (L * dt)) by ring. clearbody dt. clear - HLd. induction n as [|n IH]; [cbn; rewrite Rmult_0_l, exp_0; lra|]. cbn [pow]. rewrite S_INR. replace ((INR n + 1) * (L * dt)) with (L * dt + INR n * (L * dt)) by ring. rewrite exp_plus.
      apply Rmult_le_compat; [lra|apply pow_le; lra|apply exp_ineq1_le|exact IH]. }
    apply Rle_trans with (exp (L * T) * (L * dt * (B * path_cost d dt (combine vs (removelast (v0 :: vs)))))); [|right; ring].
    apply Rmult_le_compat; [apply pow_le; lra|now apply Rmult_le_pos|exact EX|]. now apply Rmult_le_compat_l. }
  exists (INR d * (B * K)). split; [apply Rmult_le_pos; [apply pos_INR|now apply Rmult_le_pos]|]. intros n v0 vs m0 V0 m V Hn1 Hdt HLen HR Hex i Hi.
  set (x := vsub m (gp_mean d C (inv d) s2 (last vs v0))). change (m i - gp_mean d C (inv d) s2 (last vs v0) i) with (x i).
  assert (HX : x i = mvec d E (coord d E x) i). { unfold coord. rewrite (mvec_mul d E (mtr E) x i Hi). symmetry. rewrite (mvec_proper d _ _ O2 _ _ (reflexivity x) i Hi). apply mvec_id. exact Hi. }
  rewrite HX. unfold mvec. eapply Rle_trans; [apply Expm.Rabs_Rsum|]. rewrite map_map. set (cost := path_cost _ _ _).
  apply Rle_trans with (Rsum (map (fun _ : nat => B * (K * (T / INR n) * cost)) (seq 0 d))); [|rewrite Rsum_map_const, seq_length; right; ring].
  apply Rsum_map_le. intros k Hk. apply in_seq in Hk. apply bd_mult; [apply BE; lia|]. unfold x. rewrite coord_sub by lia.
  replace (coord d E (gp_mean d C (inv d) s2 (last vs v0)) k) with (rg k 0 * coord d E (last vs v0) k); [apply (HQ k ltac:(lia) n v0 vs m0 V0 m V Hn1 Hdt HLen HR Hex)|].
  assert (SC : sp d E C lam) by (unfold sp; symmetry; exact (proj1 HE)). pose proof (sp_mid d E O2) as SI. destruct (obs_inverse d C (inv d) s2 HS HP Hs2 (Hinv d)) as [I1 I2]. destruct (FQ_zero sde Hd) as [F0 Q0].
  assert (SD : sp d E (madd C (mscale s2 mid)) (fun k => lam k + s2 * 1)) by (apply sp_add; [exact SC|now apply sp_scale]).
  assert (N : forall k, (k < d)%nat -> lam k + s2 * 1 <> 0) by (intros j Hj; pose proof (lam_pos j Hj); lra).
  pose proof (of_solve d E O1 O2 _ _ _ _ _ SD SI N I2) as SV. unfold gp_mean. rewrite (sp_coord d E O1 _ _ _ k SC ltac:(lia)), (sp_coord d E O1 _ _ _ k SV ltac:(lia)).
  specialize (N k ltac:(lia)). unfold rg, regr, eX, eW. rewrite F0, Q0. field. repeat split; lra.
Qed.

(** *** The filter of the script in the same coordinates *)
Let hh k s dt := 1 + dt * coef_w (eU k) (eX k) (eW k) a g2 s.
Let qq s dt := sqrt dt * Sde.dispersion sde s.
Let vv k s dt p := (1 + dt * coef_u (eU k) (eX k) (eW k) a g2 s) ^ 2 * p + qq s dt.
Lemma kf_step_sp dt v v_prev t mf vf mf' vf' p : 0 <= t <= T -> 0 < dt -> sp d E vf p -> (forall k, (k < d)%nat -> 0 <= p k) -> kf_step d rd b dt v v_prev t mf vf mf' vf' -> let s := T - t in
  (exists p', sp d E vf' p' /\ forall k, (k < d)%nat -> 0 <= p' k) /\
  forall k, (k < d)%nat -> coord d E mf k = 0 -> coord d E v_prev k = 0 -> coord d E mf' k = vv k s dt (p k) * hh k s dt / (hh k s dt ^ 2 * vv k s dt (p k) + qq s dt) * coord d E v k.
Proof using HE HP HS Hb Hd Hinv Hn Hs2.
  intros Ht Hdt Hv Hp (F & H & Uc & X & JF & JH & (_ & _ & HU) & HX & Em & Ev) s. assert (Hs : 0 <= s <= T) by (unfold s; lra). destruct (aff_blocks s Hs) as [A1 _]. destruct (aff_blocks_more s Hs) as [_ A4].
  apply (state_jac_ok d rd t (Aff (T - t)) dt _ _ _ (rd_affine t)) in JF. apply (obs_jac_ok d rd t (Aff (T - t)) dt _ _ _ (rd_affine t)) in JH. fold s in JF, JH. unfold state_jac in JF. unfold obs_jac in JH. pose proof (sp_mid d E O2) as SI.
  assert (SF : sp d E F (fun k => 1 + dt * coef_u (eU k) (eX k) (eW k) a g2 s)) by (apply (sp_meq d E _ _ _ (sp_add d E _ _ _ _ SI (sp_scale d E dt _ _ A1)) JF)).
  assert (SH : sp d E H (fun k => hh k s dt)) by (apply (sp_meq d E _ _ _ (sp_add d E _ _ _ _ SI (sp_scale d E dt _ _ A4)) JH)).
  assert (Hq : 0 < qq s dt) by (apply Rmult_lt_0_compat; [now apply sqrt_lt_R0|now apply Hb]).
  assert (SQ : sp d E (kf_noise b dt t) (fun _ => qq s dt)) by (apply (sp_ext d E _ _ _ (sp_scale d E (sqrt dt * b t) _ _ SI)); intros k _; unfold qq, b, s; ring).
  set (vp := madd (mmul d (mmul d F vf) (mtr F)) (kf_noise b dt t)) in *. set (Sm := madd (mmul d (mmul d H vp) (mtr H)) (kf_noise b dt t)) in *.
  assert (Hvv : forall k, (k < d)%nat -> 0 < vv k s dt (p k)) by (intros k Hk; unfold vv; assert (0 <= (1 + dt * coef_u (eU k) (eX k) (eW k) a g2 s) ^ 2 * p k) by (apply Rmult_le_pos; [apply pow2_ge_0|now apply Hp]); lra).
  set (sg := fun k => hh k s dt ^ 2 * vv k s dt (p k) + qq s dt).
  assert (Hsg : forall k, (k < d)%nat -> 0 < sg k) by (intros k Hk; unfold sg; specialize (Hvv k Hk); assert (0 <= hh k s dt ^ 2 * vv k s dt (p k)) by (apply Rmult_le_pos; [apply pow2_ge_0|lra]); lra).
  assert (SP : sp d E vp (fun k => vv k s dt (p k))) by (apply (sp_ext d E _ _ _ (sp_add d E _ _ _ _ (sp_mul d E O1 _ _ _ _ (sp_mul d E O1 _ _ _ _ SF Hv) (sp_tr d E _ _ SF)) SQ)); intros k _; unfold vv; ring).
  assert (SS : sp d E Sm sg) by (apply (sp_ext d E _ _ _ (sp_add d E _ _ _ _ (sp_mul d E O1 _ _ _ _ (sp_mul d E O1 _ _ _ _ SH SP) (sp_tr d E _ _ SH)) SQ)); intros k _; unfold sg; ring).
  unfold cho_solve in HX. rewrite HU in HX. pose proof (of_solve d E O1 O2 _ _ _ _ _ SS SH (fun k Hk => Rgt_not_eq _ _ (Hsg k Hk)) HX) as SX.
  pose proof (sp_mul d E O1 _ _ _ _ SP (sp_tr d E _ _ SX)) as SK. set (K := mmul d vp (mtr X)) in *. split.
  - exists (fun k => vv k s dt (p k) * qq s dt / sg k). split.
    + subst vf'. apply (sp_ext d E _ _ _ (sp_sub d E _ _ _ _ SP (sp_mul d E O1 _ _ _ _ (sp_mul d E O1 _ _ _ _ SK SS) (sp_tr d E _ _ SK)))). intros k Hk. specialize (Hsg k Hk). cbv beta. apply Rmult_eq_reg_r with (sg k); [|lra].
      transitivity (vv k s dt (p k) * (sg k - hh k s dt ^ 2 * vv k s dt (p k))); [field; lra|]. transitivity (vv k s dt (p k) * qq s dt); [unfold sg; ring|field; lra].
    + intros k Hk. specialize (Hsg k Hk). specialize (Hvv k Hk). left. apply Rdiv_lt_0_compat; [now apply Rmult_lt_0_compat|exact Hsg].
  - intros k Hk Z1 Z2. subst mf'. rewrite coord_add by exact Hk. rewrite (sp_coord d E O1 _ _ _ k SK Hk), coord_sub by exact Hk.
    assert (M1 : forall u w, coord d E (cond_state_mean d rd dt u w t) k = coord d E (euler_mean rd dt (vcat d u w) t) k).
    { intros u w. apply coord_ext; [|exact Hk]. intros l Hl. unfold cond_state_mean, rd_u, euler_mean, vadd, vscale, vcat at 2. destruct (Nat.ltb_spec l d); [ring|lia]. }
    assert (M2 : forall u w, coord d E (cond_obs_mean d rd dt u w t) k = coord d E (vhi d (euler_mean rd dt (vcat d u w) t)) k).
    { intros u w. apply coord_ext; [|exact Hk]. intros l Hl. unfold cond_obs_mean, rd_v, vhi, euler_mean, vadd, vscale, vcat at 2. destruct (Nat.ltb_spec (d + l) d); [lia|]. replace (d + l - d)%nat with l by lia. ring. }
    rewrite M2. destruct (euler_coord dt t (cond_state_mean d rd dt mf v_prev t) v_prev k Hs Hk) as [_ ->]. rewrite M1. destruct (euler_coord dt t mf v_prev k Hs Hk) as [-> _]. rewrite Z1, Z2. unfold sg. field. specialize (Hsg k Hk). unfold sg in Hsg. lra.
Qed.
Lemma kf_jump dt y z t k : 0 < dt -> 0 <= t <= T -> (k < d)%nat -> coord d E z k = 0 -> forall elems mf vf p m V, (forall e, In e elems -> fst e = (z, z) /\ 0 <= snd e <= T) -> sp d E vf p -> (forall k, (k < d)%nat -> 0 <= p k) -> coord d E mf k = 0 ->
  kf_scan d rd b dt (elems ++ [((y, z), t)]) mf vf m V -> exists p', 0 <= p' /\ coord d E m k = vv k (T - t) dt p' * hh k (T - t) dt / (hh k (T - t) dt ^ 2 * vv k (T - t) dt p' + qq (T - t) dt) * coord d E y k.
Proof using HE HP HS Hb Hd Hinv Hn Hs2.
  intros Hdt Ht Hk Hz. induction elems as [|[[v v_prev] t1] r IH]; intros mf vf p m V Hel Hv Hp Hm Hrun.
  - destruct Hrun as (m1 & V1 & H1 & [-> _]). destruct (kf_step_sp dt y z t mf vf m1 V1 p Ht Hdt Hv Hp H1) as [_ K]. exists (p k). split; [now apply Hp|]. now apply K.
  - destruct (Hel _ (or_introl eq_refl)) as [E1 Ht1]. cbn [fst snd] in E1, Ht1. injection E1 as -> ->. destruct Hrun as (m1 & V1 & H1 & H2).
    destruct (kf_step_sp dt z z t1 mf vf m1 V1 p Ht1 Hdt Hv Hp H1) as [(p1 & S1 & P1) K]. apply (IH m1 V1 p1 m V ltac:(intros e He; apply Hel; now right) S1 P1); [|exact H2]. rewrite (K k Hk Hm Hz), Hz. ring.
Qed.
Lemma gain_half v q h : 0 < q -> q <= v -> 0 < h -> 1 / 2 - (h - 1) ^ 2 / 2 <= v * h / (h ^ 2 * v + q).
Proof using.
  clear. intros Hq Hv Hh. assert (H2 : 0 < h ^ 2) by (now apply pow_lt). assert (D : 0 < h ^ 2 * v + q) by (assert (0 < h ^ 2 * v) by (apply Rmult_lt_0_compat; lra); lra).
  apply Rmult_le_reg_r with (h ^ 2 * v + q); [exact D|]. replace (v * h / (h ^ 2 * v + q) * (h ^ 2 * v + q)) with (v * h) by (field; lra).
  assert (A1 : v * h - (1 / 2 - (h - 1) ^ 2 / 2) * (h ^ 2 * v + q) = (v - q) * (h - h ^ 3 * (1 - h / 2)) + q * (h * (h - 1) ^ 2 * (h / 2)) ) by field. 
  assert (A2 : 0 <= q * (h * (h - 1) ^ 2 * (h / 2))) by (apply Rmult_le_pos; [lra|]; apply Rmult_le_pos; [apply Rmult_le_pos; [lra|apply pow2_ge_0]|lra]).
  assert (A3 : 0 <= h - h ^ 3 * (1 - h / 2)). { replace (h - h ^ 3 * (1 - h / 2)) with (h * (1 - h ^ 2 + h ^ 3 / 2)) by field. apply Rmult_le_pos; [lra|].
    replace (1 - h ^ 2 + h ^ 3 / 2) with ((h / 2 + 1 / 3) * (h - 4 / 3) ^ 2 + 11 / 27) by field. assert (0 <= (h / 2 + 1 / 3) * (h - 4 / 3) ^ 2) by (apply Rmult_le_pos; [lra|apply pow2_ge_0]). lra. }
  assert (A4 : 0 <= (v - q) * (h - h ^ 3 * (1 - h / 2))) by (apply Rmult_le_pos; lra). lra.
Qed.

Lemma comb_snoc {A B : Type} (l1 : list A) (l2 : list B) x y : length l1 = length l2 -> combine (l1 ++ [x]) (l2 ++ [y]) = combine l1 l2 ++ [(x, y)].
Proof using. clear. revert l2. induction l1 as [|w l1 IH]; intros [|w2 l2] H; try discriminate; [reflexivity|]. cbn. f_equal. apply IH. now injection H. Qed.
Lemma jump_elems n (y z : vec) : (1 <= n)%nat -> let ts := map (fun l => INR l * (T / INR n)) in
  kf_elems (repeat z n ++ [y]) (Sde.linspace 0 T (n + 1)) = combine (combine (repeat z (n - 1)) (repeat z (n - 1))) (ts (seq 0 (n - 1))) ++ [((y, z), INR (n - 1) * (T / INR n))].
Proof using.
  clear. intros Hn ts. assert (E1 : Sde.linspace 0 T (n + 1) = ts (seq 0 (n + 1))).
  { transitivity (map (fun i => 0 + INR i * ((T - 0) / INR n)) (seq 0 (n + 1))); [|apply map_ext; intros i; rewrite Rminus_0_r; ring].
    unfold Sde.linspace. replace (n + 1 - 1)%nat with n by lia. destruct (n + 1)%nat as [|[|m]] eqn:E0; [lia|lia|reflexivity]. }
  unfold kf_elems. rewrite E1, Nat.add_1_r, seq_S. unfold ts at 1. rewrite map_app. cbn [map]. rewrite !removelast_last. fold ts. destruct n as [|n]; [lia|]. replace (S n - 1)%nat with n by lia. rewrite seq_S. unfold ts at 1. rewrite map_app. cbn [map Nat.add].
  assert (E2 : repeat z (S n) = repeat z n ++ [z]) by (clear; induction n as [|n IH]; [reflexivity|]; cbn [repeat app] in *; now rewrite IH at 1). rewrite E2 at 2. cbn [repeat app tl].
  rewrite comb_snoc by reflexivity. rewrite comb_snoc by (rewrite combine_length, map_length, seq_length, !repeat_length; lia). reflexivity.
Qed.
Theorem kf_mean_wrong x0 : quad d C x0 < s2 * dot d x0 x0 -> exists (y : vec) del h0, 0 < del /\ 0 < h0 /\ forall n m0 V0 m V, (1 <= n)%nat -> T / INR n <= h0 -> let z : vec := fun _ => 0 in
  Toy.ref_moments d (fwd_mean sde (fun _ => 0) T) (fwd_cov sde (joint_cov d C s2) T) z m0 V0 ->
  adhoc_kf d rd b (T / INR n) (Sde.linspace 0 T (n + 1)) m0 V0 (repeat z n ++ [y]) m V ->
  del <= norm1 d (vsub m (gp_mean d C (inv d) s2 y)).
Proof using HE HP HS HT Hb Hd Hinv Hn Hs2.
  intros Hq0. assert (SC : sp d E C lam) by (unfold sp; symmetry; exact (proj1 HE)). pose proof (sp_mid d E O2) as SI.
  assert (Hlam : exists k, (k < d)%nat /\ lam k < s2).
  { destruct (Classical_Prop.classic (exists k, (k < d)%nat /\ lam k < s2)) as [Qx|Qx]; [exact Qx|exfalso].
    rewrite <- quad_mid in Hq0. rewrite (quad_ext d C (spectral d E lam) x0 x0 SC (reflexivity x0)), (quad_ext d mid (spectral d E (fun _ => 1)) x0 x0 SI (reflexivity x0)), !quad_spectral in Hq0. rewrite <- Rsum_map_mult_l in Hq0.
    apply (Rlt_irrefl (Rsum (map (fun i => s2 * (1 * mvec d (mtr E) x0 i ^ 2)) (seq 0 d)))). eapply Rle_lt_trans; [|exact Hq0]. apply Rsum_map_le. intros k Hk. apply in_seq in Hk. rewrite <- Rmult_assoc. apply Rmult_le_compat_r; [apply pow2_ge_0|].
    destruct (Rle_lt_dec s2 (lam k)) as [L|L]; [lra|]. exfalso. apply Qx. exists k. split; [lia|exact L]. }
  destruct Hlam as (k & Hk & Hlk). pose proof (lam_pos k Hk) as Hl0. set (y := (fun i => E i k) : vec). destruct (matrix_bound d E) as (B & HB & BE).
  assert (CB : forall x, Rabs (coord d E x k) <= B * norm1 d x).
  { intros x. unfold coord, mvec. eapply Rle_trans; [apply Expm.Rabs_Rsum|]. rewrite map_map. unfold norm1. rewrite <- Rsum_map_mult_l. apply Rsum_map_le. intros l Hl. apply in_seq in Hl. rewrite Rabs_mult. apply Rmult_le_compat_r; [apply Rabs_pos|]. unfold mtr. apply BE; lia. }
  assert (Cy : coord d E y k = 1). { transitivity (mmul d (mtr E) E k k); [reflexivity|]. rewrite O1 by exact Hk. unfold mid. now rewrite Nat.eqb_refl. }
  set (r0 := lam k / (lam k + s2)). assert (Hr0 : r0 < 1 / 2). { unfold r0. apply Rmult_lt_reg_r with (lam k + s2); [lra|]. unfold Rdiv at 1. rewrite Rmult_assoc, Rinv_l by lra. lra. }
  assert (Cg : coord d E (gp_mean d C (inv d) s2 y) k = r0).
  { destruct (obs_inverse d C (inv d) s2 HS HP Hs2 (Hinv d)) as [I1 I2].
    assert (SD : sp d E (madd C (mscale s2 mid)) (fun k => lam k + s2 * 1)) by (apply sp_add; [exact SC|now apply sp_scale]).
    assert (N : forall k, (k < d)%nat -> lam k + s2 * 1 <> 0) by (intros j Hj; pose proof (lam_pos j Hj); lra).
    pose proof (of_solve d E O1 O2 _ _ _ _ _ SD SI N I2) as SV. unfold gp_mean. rewrite (sp_coord d E O1 _ _ _ k SC Hk), (sp_coord d E O1 _ _ _ k SV Hk), Cy. unfold r0. field. lra. }
  destruct (rate_hyps k Hk) as (C' & Ma & Bg & MU & MX & MW & iw & ip & R1 & R2 & R3 & R4 & R5 & R6 & R7 & _).
  assert (BW : exists Mw, 0 <= Mw /\ forall s, 0 <= s <= T -> Rabs (coef_w (eU k) (eX k) (eW k) a g2 s) <= Mw).
  { assert (Qw : exists Mw, forall s, 0 <= s <= T -> Rabs (coef_w (eU k) (eX k) (eW k) a g2 s) <= Mw).
    { eexists. intros s Hs. destruct (R2 s Hs) as [G1 G2]. destruct (R6 s Hs) as [W1 W2]. destruct (R7 s Hs) as [P1 P2]. specialize (R1 s Hs). specialize (R4 s Hs).
      replace (coef_w (eU k) (eX k) (eW k) a g2 s) with (- a s - g2 s * (/ eW k s + eX k s * eX k s * (/ eW k s * / eW k s * / cond_var (eU k) (eX k) (eW k) s))) by (unfold coef_w; field; lra).
      apply bd_minus; [apply bd_opp; exact R1|]. apply bd_mult; [exact G1|]. apply bd_plus; [exact W2|]. apply bd_mult; [apply bd_mult; exact R4|]. apply bd_mult; [apply bd_mult; exact W2|exact P2]. }
    destruct Qw as (Mw & Qw). exists Mw. split; [|exact Qw]. eapply Rle_trans; [apply Rabs_pos|apply (Qw 0); lra]. }
  destruct BW as (Mw & HMw & BW). set (del := (1 / 2 - r0) / 2). assert (Hdel : 0 < del) by (unfold del; lra).
  exists y, (del / (B + 1)), (Rmin (1 / (2 * (Mw + 1))) (del / (Mw + 1))). assert (Hh1 : 0 < 1 / (2 * (Mw + 1))) by (apply Rdiv_lt_0_compat; lra). assert (Hh2 : 0 < del / (Mw + 1)) by (apply Rdiv_lt_0_compat; lra).
  split; [apply Rdiv_lt_0_compat; lra|]. split; [now apply Rmin_pos|]. intros n m0 V0 m V Hn1 Hdt z HR Hrun. assert (Hn0 : 0 < INR n) by (apply lt_0_INR; lia). unfold adhoc_kf in Hrun. rewrite (jump_elems n y z Hn1) in Hrun.
  set (dt := T / INR n) in *. assert (Hdt0 : 0 < dt) by (apply Rdiv_lt_0_compat; lra). assert (HTn : INR n * dt = T) by (unfold dt; field; lra). assert (HTT : 0 <= T <= T) by lra.
  assert (Hti : forall l, (l < n)%nat -> 0 <= INR l * dt <= T). { intros l Hl. pose proof (pos_INR l). assert (INR l <= INR n) by (apply le_INR; lia). split; [apply Rmult_le_pos; lra|]. rewrite <- HTn. apply Rmult_le_compat_r; lra. }
  destruct (fwd_blocks T) as (B1 & B2 & B3 & B4). pose proof (schur_sp d E O1 O2 _ _ _ _ _ _ _ _ B1 B2 B3 B4 (fun k Hk => Rgt_not_eq _ _ (eW_pos k T Hk HTT)) HR) as S0.
  assert (Z : forall x, veq d x (fun _ => 0) -> coord d E x k = 0) by (intros x Hx; rewrite (coord_ext d E x _ k Hx Hk); unfold coord, mvec; rewrite (Rsum_map_ext _ (fun _ => 0)) by (intros; ring); rewrite Rsum_map_const; ring).
  assert (Hz : coord d E z k = 0) by (apply Z; reflexivity). pose proof (eW_pos k T Hk HTT) as HW.
  assert (Hm0 : coord d E m0 k = 0).
  { rewrite (ref_coord _ _ _ _ _ _ _ k B2 B4 Hk ltac:(lra) HR). rewrite (Z (fwd_mean sde (fun _ => 0) T)) by (intros l _; unfold fwd_mean, vscale; ring). rewrite (Z (vhi d (fwd_mean sde (fun _ => 0) T))) by (intros l _; unfold vhi, fwd_mean, vscale; ring). rewrite Hz. ring. }
  match type of Hrun with kf_scan _ _ _ _ (?l ++ _) _ _ _ _ => assert (Hel : forall e, In e l -> fst e = (z, z) /\ 0 <= snd e <= T) end.
  { intros [[v w] t] He. cbn [fst snd]. pose proof (in_combine_l _ _ _ _ He) as Q1. pose proof (in_combine_r _ _ _ _ He) as Q2. pose proof (repeat_spec _ _ _ (in_combine_l _ _ _ _ Q1)) as ->. pose proof (repeat_spec _ _ _ (in_combine_r _ _ _ _ Q1)) as ->.
    split; [reflexivity|]. apply in_map_iff in Q2 as (l & <- & Hl). apply in_seq in Hl. apply Hti. lia. }
  destruct (kf_jump dt y z (INR (n - 1) * dt) k Hdt0 (Hti (n - 1)%nat ltac:(lia)) Hk Hz _ m0 V0 _ m V Hel S0 ltac:(intros j Hj; left; exact (eP_pos j T Hj HTT)) Hm0 Hrun) as (p' & Hp' & Em).
  rewrite Cy, Rmult_1_r in Em. set (s := T - INR (n - 1) * dt) in *. destruct (Hti (n - 1)%nat ltac:(lia)) as [T1 T2]. assert (Hs : 0 <= s <= T) by (unfold s; lra).
  assert (Hq : 0 < qq s dt) by (apply Rmult_lt_0_compat; [now apply sqrt_lt_R0|now apply Hb]).
  assert (Hvq : qq s dt <= vv k s dt p'). { unfold vv. assert (0 <= (1 + dt * coef_u (eU k) (eX k) (eW k) a g2 s) ^ 2 * p') by (apply Rmult_le_pos; [apply pow2_ge_0|lra]). lra. }
  assert (Hd1 : dt * (Mw + 1) <= 1 / 2). { apply Rle_trans with (1 / (2 * (Mw + 1)) * (Mw + 1)); [apply Rmult_le_compat_r; [lra|]; eapply Rle_trans; [exact Hdt|apply Rmin_l]|]. right. field. lra. }
  assert (Hd2 : dt * (Mw + 1) <= del). { apply Rle_trans with (del / (Mw + 1) * (Mw + 1)); [apply Rmult_le_compat_r; [lra|]; eapply Rle_trans; [exact Hdt|apply Rmin_r]|]. right. field. lra. }
  assert (Hh : Rabs (hh k s dt - 1) <= dt * (Mw + 1)). { unfold hh. replace (1 + dt * coef_w (eU k) (eX k) (eW k) a g2 s - 1) with (dt * coef_w (eU k) (eX k) (eW k) a g2 s) by ring. rewrite Rabs_mult, (Rabs_pos_eq dt) by lra. apply Rmult_le_compat_l; [lra|]. specialize (BW s Hs). lra. }
  assert (Hhp : 0 < hh k s dt) by (apply Rabs_le_between in Hh; lra).
  pose proof (gain_half (vv k s dt p') (qq s dt) (hh k s dt) Hq Hvq Hhp) as GH. rewrite <- Em in GH.
  assert (Hsq : (hh k s dt - 1) ^ 2 <= del). { rewrite <- pow2_abs. pose proof (Rabs_pos (hh k s dt - 1)). replace (Rabs (hh k s dt - 1) ^ 2) with (Rabs (hh k s dt - 1) * Rabs (hh k s dt - 1)) by ring. apply Rle_trans with (1 * del); [|lra]. apply Rmult_le_compat; lra. }
  assert (Hc : del <= coord d E (vsub m (gp_mean d C (inv d) s2 y)) k) by (rewrite coord_sub by exact Hk; rewrite Cg; unfold del in *; lra).
  specialize (CB (vsub m (gp_mean d C (inv d) s2 y))). assert (N0 : 0 <= norm1 d (vsub m (gp_mean d C (inv d) s2 y))) by (apply Rsum_nonneg, Forall_forall; intros w Hw; apply in_map_iff in Hw as (l & <- & _); apply Rabs_pos).
  apply Rmult_le_reg_r with (B + 1); [lra|]. unfold Rdiv. rewrite Rmult_assoc, Rinv_l by lra. pose proof (Rle_abs (coord d E (vsub m (gp_mean d C (inv d) s2 y)) k)). lra.
Qed.
End gp.

(** ** Without naming the eigenvectors *)
Theorem filter_converges sde T d C inv s2 : SdeProofs.sde_defined sde -> 0 < T ->
  (forall t, 0 <= t <= T -> SdeProofs.nonneg_noise sde t) -> (forall t, 0 <= t <= T -> 0 < Sde.dispersion sde t) -> symmetric d C -> posdef d C -> 0 < s2 ->
  (forall k M, symmetric k M -> posdef k M -> meq k (mmul k (inv k M) M) mid /\ meq k (mmul k M (inv k M)) mid) ->
  exists K, 0 <= K /\ forall n vs yT m0 V0 m V, (1 <= n)%nat -> T / INR n <= 1 -> length vs = (n + 1)%nat ->
    Toy.ref_moments d (fwd_mean sde (fun _ => 0) T) (fwd_cov sde (joint_cov d C s2) T) yT m0 V0 ->
    exact_scan d (gp_rd d sde T C s2 (inv (2 * d)%nat)) (fun t => Sde.dispersion sde (T - t)) (T / INR n) (kf_elems vs (Sde.linspace 0 T (n + 1))) m0 V0 m V ->
    forall i j, (i < d)%nat -> (j < d)%nat -> Rabs (V i j - gp_cov d C (inv d) s2 i j) <= K * (T / INR n).
Proof. intros Hd HT Hn Hb HS HP Hs2 Hinv. destruct (spectral_theorem d C HS) as (lam & E & HE). exact (exact_filter_converges sde T d C inv s2 Hd HT Hn Hb HS HP Hs2 Hinv lam E HE). Qed.
Theorem filter_mean sde T d C inv s2 : SdeProofs.sde_defined sde -> 0 < T ->
  (forall t, 0 <= t <= T -> SdeProofs.nonneg_noise sde t) -> (forall t, 0 <= t <= T -> 0 < Sde.dispersion sde t) -> symmetric d C -> posdef d C -> 0 < s2 ->
  (forall k M, symmetric k M -> posdef k M -> meq k (mmul k (inv k M) M) mid /\ meq k (mmul k M (inv k M)) mid) ->
  exists K, 0 <= K /\ forall n v0 vs m0 V0 m V, (1 <= n)%nat -> T / INR n <= 1 -> length vs = n ->
    Toy.ref_moments d (fwd_mean sde (fun _ => 0) T) (fwd_cov sde (joint_cov d C s2) T) v0 m0 V0 ->
    exact_scan d (gp_rd d sde T C s2 (inv (2 * d)%nat)) (fun t => Sde.dispersion sde (T - t)) (T / INR n) (kf_elems (v0 :: vs) (Sde.linspace 0 T (n + 1))) m0 V0 m V ->
    forall i, (i < d)%nat -> Rabs (m i - gp_mean d C (inv d) s2 (last vs v0) i) <= K * (T / INR n) * path_cost d (T / INR n) (combine vs (removelast (v0 :: vs))).
Proof. intros Hd HT Hn Hb HS HP Hs2 Hinv. destruct (spectral_theorem d C HS) as (lam & E & HE). exact (exact_filter_mean sde T d C inv s2 Hd HT Hn Hb HS HP Hs2 Hinv lam E HE). Qed.
Theorem filter_defined sde T d C inv s2 : SdeProofs.sde_defined sde -> 0 < T ->
  (forall t, 0 <= t <= T -> SdeProofs.nonneg_noise sde t) -> (forall t, 0 <= t <= T -> 0 < Sde.dispersion sde t) -> symmetric d C -> posdef d C -> 0 < s2 ->
  (forall k M, symmetric k M -> posdef k M -> meq k (mmul k (inv k M) M) mid /\ meq k (mmul k M (inv k M)) mid) ->
  forall n vs yT, (1 <= n)%nat -> exists m0 V0 m V, Toy.ref_moments d (fwd_mean sde (fun _ => 0) T) (fwd_cov sde (joint_cov d C s2) T) yT m0 V0 /\
    exact_scan d (gp_rd d sde T C s2 (inv (2 * d)%nat)) (fun t => Sde.dispersion sde (T - t)) (T / INR n) (kf_elems vs (Sde.linspace 0 T (n + 1))) m0 V0 m V.
Proof. intros Hd HT Hn Hb HS HP Hs2 Hinv. destruct (spectral_theorem d C HS) as (lam & E & HE). exact (exact_filter_defined sde T d C inv s2 Hd HT Hn Hb HS HP Hs2 Hinv lam E HE). Qed.

(** the filter of the script, next to the exact one *)
Lemma diag_min d G : posdef d G -> exists c, 0 < c /\ forall i, (i < d)%nat -> c <= G i i.
Proof.
  intros G2. assert (Hpos : forall i, (i < d)%nat -> 0 < G i i). { intros i Hi. rewrite <- (quad_unit d G i Hi). apply G2. intros E0. specialize (E0 i Hi). unfold unit, mid in E0. rewrite Nat.eqb_refl in E0. lra. }
  clear G2. induction d as [|k IH]; [exists 1; split; [lra|intros; lia]|]. destruct IH as (c & Hc & Hm); [intros i Hi; apply Hpos; lia|]. exists (Rmin c (G k k)). split; [apply Rmin_pos; [exact Hc|apply Hpos; lia]|].
  intros i Hi. destruct (Nat.eq_dec i k) as [ ->|Hne]; [apply Rmin_r|]. eapply Rle_trans; [apply Rmin_l|]. apply Hm. lia.
Qed.
Theorem filters_differ sde T d C inv s2 : SdeProofs.sde_defined sde -> 0 < T ->
  (forall t, 0 <= t <= T -> SdeProofs.nonneg_noise sde t) -> (forall t, 0 <= t <= T -> 0 < Sde.dispersion sde t) -> symmetric d C -> posdef d C -> 0 < s2 ->
  (forall k M, symmetric k M -> posdef k M -> meq k (mmul k (inv k M) M) mid /\ meq k (mmul k M (inv k M)) mid) ->
  forall eps, 0 < eps -> exists h0, 0 < h0 /\ forall n vs yT m0 V0 m V mk Vk, (1 <= n)%nat -> T / INR n <= h0 -> length vs = (n + 1)%nat ->
    Toy.ref_moments d (fwd_mean sde (fun _ => 0) T) (fwd_cov sde (joint_cov d C s2) T) yT m0 V0 ->
    exact_scan d (gp_rd d sde T C s2 (inv (2 * d)%nat)) (fun t => Sde.dispersion sde (T - t)) (T / INR n) (kf_elems vs (Sde.linspace 0 T (n + 1))) m0 V0 m V ->
    adhoc_kf d (gp_rd d sde T C s2 (inv (2 * d)%nat)) (fun t => Sde.dispersion sde (T - t)) (T / INR n) (Sde.linspace 0 T (n + 1)) m0 V0 vs mk Vk ->
    forall i, (i < d)%nat -> 0 < V i i /\ Vk i i <= eps * V i i.
Proof.
  intros Hd HT Hn Hb HS HP Hs2 Hinv eps He. destruct (filter_converges sde T d C inv s2 Hd HT Hn Hb HS HP Hs2 Hinv) as (K & HK & HC).
  destruct (kf_vanishes sde T d C inv s2 Hd HT Hn Hb HS HP Hs2 Hinv (eps / 2) ltac:(lra)) as (h1 & Hh1 & HV).
  destruct (G_ok d C (inv d) s2 HS HP Hs2 (Hinv d)) as [_ G2]. destruct (diag_min d _ G2) as (c & Hc & Hm).
  assert (Hr : 0 < c / (2 * (K + 1))) by (apply Rdiv_lt_0_compat; lra).
  exists (Rmin (Rmin h1 1) (c / (2 * (K + 1)))). split; [repeat apply Rmin_pos; lra|].
  intros n vs yT m0 V0 m V mk Vk Hn1 Hdt HL HR Hex Hkf i Hi. destruct (spectral_theorem d C HS) as (lam & E & HE). destruct (start_ok sde T d C s2 Hd HT Hn HP Hs2 lam E HE yT m0 V0 HR) as [S0 PD0].
  pose proof (posdef_psd d V0 PD0) as P0. pose proof (Rmin_l (Rmin h1 1) (c / (2 * (K + 1)))). pose proof (Rmin_r (Rmin h1 1) (c / (2 * (K + 1)))). pose proof (Rmin_l h1 1). pose proof (Rmin_r h1 1).
  specialize (HC n vs yT m0 V0 m V Hn1 ltac:(lra) HL HR Hex i i Hi Hi). destruct (HV n vs m0 V0 mk Vk Hn1 ltac:(lra) HL S0 P0 Hkf i Hi) as [_ HV2]. specialize (Hm i Hi).
  set (g := gp_cov d C (inv d) s2 i i) in *. assert (0 < T / INR n) by (apply Rdiv_lt_0_compat; [lra|apply lt_0_INR; lia]).
  assert (HB : K * (T / INR n) <= c / 2). { apply Rle_trans with ((K + 1) * (c / (2 * (K + 1)))); [apply Rmult_le_compat; lra|]. right. field. lra. }
  apply Rabs_le_between in HC. assert (HV1 : g <= 2 * V i i) by lra. split; [lra|]. eapply Rle_trans; [exact HV2|]. apply Rle_trans with (eps / 2 * (2 * V i i)); [apply Rmult_le_compat_l; lra|right; field].
Qed.

(** paths that move by the order of sqrt dt per step *)
Lemma path_cost_bound d dt prs M q : 0 <= dt -> (forall p i, In p prs -> (i < d)%nat -> Rabs (snd p i) <= M /\ Rabs (fst p i - snd p i) <= q) -> path_cost d dt prs <= INR (length prs) * (INR d * (dt * M + q)).
Proof.
  intros Hdt H. unfold path_cost. rewrite <- Rsum_map_const. apply Rsum_map_le. intros p Hp.
  assert (N : forall x c, (forall i, (i < d)%nat -> Rabs (x i) <= c) -> norm1 d x <= INR d * c) by (intros x c Hx; unfold norm1; rewrite <- (seq_length d 0) at 2; rewrite <- Rsum_map_const; apply Rsum_map_le; intros i Hi; apply in_seq in Hi; apply Hx; lia).
  pose proof (N (snd p) M (fun i Hi => proj1 (H p i Hp Hi))). pose proof (N (vsub (fst p) (snd p)) q (fun i Hi => proj2 (H p i Hp Hi))).
  assert (dt * norm1 d (snd p) <= dt * (INR d * M)) by (apply Rmult_le_compat_l; lra). lra.
Qed.
Theorem filter_mean_rough sde T d C inv s2 : SdeProofs.sde_defined sde -> 0 < T ->
  (forall t, 0 <= t <= T -> SdeProofs.nonneg_noise sde t) -> (forall t, 0 <= t <= T -> 0 < Sde.dispersion sde t) -> symmetric d C -> posdef d C -> 0 < s2 ->
  (forall k M, symmetric k M -> posdef k M -> meq k (mmul k (inv k M) M) mid /\ meq k (mmul k M (inv k M)) mid) ->
  exists K, 0 <= K /\ forall n v0 vs m0 V0 m V M q, (1 <= n)%nat -> T / INR n <= 1 -> length vs = n -> 0 <= M -> 0 <= q ->
    (forall v i, In v (v0 :: vs) -> (i < d)%nat -> Rabs (v i) <= M) -> (forall p i, In p (combine vs (removelast (v0 :: vs))) -> (i < d)%nat -> Rabs (fst p i - snd p i) <= q * sqrt (T / INR n)) ->
    Toy.ref_moments d (fwd_mean sde (fun _ => 0) T) (fwd_cov sde (joint_cov d C s2) T) v0 m0 V0 ->
    exact_scan d (gp_rd d sde T C s2 (inv (2 * d)%nat)) (fun t => Sde.dispersion sde (T - t)) (T / INR n) (kf_elems (v0 :: vs) (Sde.linspace 0 T (n + 1))) m0 V0 m V ->
    forall i, (i < d)%nat -> Rabs (m i - gp_mean d C (inv d) s2 (last vs v0) i) <= K * (M + q) * sqrt (T / INR n).
Proof.
  intros Hd HT Hn Hb HS HP Hs2 Hinv. destruct (filter_mean sde T d C inv s2 Hd HT Hn Hb HS HP Hs2 Hinv) as (K & HK & H). exists (K * T * INR d). split; [apply Rmult_le_pos; [apply Rmult_le_pos; lra|apply pos_INR]|].
  intros n v0 vs m0 V0 m V M q Hn1 Hdt HL HM Hq HB HI HR Hex i Hi. eapply Rle_trans; [apply (H n v0 vs m0 V0 m V Hn1 Hdt HL HR Hex i Hi)|].
  assert (Hn0 : 0 < INR n) by (apply lt_0_INR; lia). set (dt := T / INR n) in *. assert (Hdt0 : 0 < dt) by (apply Rdiv_lt_0_compat; lra). assert (HTn : INR n * dt = T) by (unfold dt; field; lra).
  assert (RI : forall (A : Type) (l : list A) x, In x (removelast l) -> In x l).
  { intros A l x. induction l as [|y l IH]; [auto|]. destruct l as [|w l]; [intros []|]. intros [ ->|Hx]; [now left|right; now apply IH]. }
  pose proof (path_cost_bound d dt (combine vs (removelast (v0 :: vs))) M (q * sqrt dt) ltac:(lra) ltac:(intros [v w] l Hp Hl; split; [apply HB; [apply RI; exact (in_combine_r _ _ _ _ Hp)|exact Hl]|now apply HI])) as PC.
  assert (RL : length (combine vs (removelast (v0 :: vs))) = n) by (rewrite combine_length, removelast_firstn_len, firstn_length; cbn [length]; lia). rewrite RL in PC.
  assert (Hs : dt <= sqrt dt). { rewrite <- (sqrt_sqrt dt) at 1 by lra. rewrite <- (Rmult_1_r (sqrt dt)) at 3. apply Rmult_le_compat_l; [apply sqrt_pos|]. rewrite <- sqrt_1. now apply sqrt_le_1_alt. }
  apply Rle_trans with (K * dt * (INR n * (INR d * (dt * M + q * sqrt dt)))); [apply Rmult_le_compat_l; [apply Rmult_le_pos; lra|exact PC]|].
  replace (K * dt * (INR n * (INR d * (dt * M + q * sqrt dt)))) with (K * (INR n * dt) * INR d * (dt * M + q * sqrt dt)) by ring. rewrite HTn, (Rmult_assoc (K * T * INR d)). apply Rmult_le_compat_l; [apply Rmult_le_pos; [apply Rmult_le_pos; lra|apply pos_INR]|].
  assert (dt * M <= sqrt dt * M) by (apply Rmult_le_compat_r; lra). lra.
Qed.
Theorem kf_mean_refuted sde T d C inv s2 : SdeProofs.sde_defined sde -> 0 < T ->
  (forall t, 0 <= t <= T -> SdeProofs.nonneg_noise sde t) -> (forall t, 0 <= t <= T -> 0 < Sde.dispersion sde t) -> symmetric d C -> posdef d C -> 0 < s2 ->
  (forall k M, symmetric k M -> posdef k M -> meq k (mmul k (inv k M) M) mid /\ meq k (mmul k M (inv k M)) mid) ->
  (exists x, quad d C x < s2 * dot d x x) -> exists (y : vec) del h0, 0 < del /\ 0 < h0 /\ forall n m0 V0 m V, (1 <= n)%nat -> T / INR n <= h0 -> let z : vec := fun _ => 0 in
    Toy.ref_moments d (fwd_mean sde (fun _ => 0) T) (fwd_cov sde (joint_cov d C s2) T) z m0 V0 ->
    adhoc_kf d (gp_rd d sde T C s2 (inv (2 * d)%nat)) (fun t => Sde.dispersion sde (T - t)) (T / INR n) (Sde.linspace 0 T (n + 1)) m0 V0 (repeat z n ++ [y]) m V ->
    del <= norm1 d (vsub m (gp_mean d C (inv d) s2 y)).
Proof. intros Hd HT Hn Hb HS HP Hs2 Hinv (x0 & Hx). destruct (spectral_theorem d C HS) as (lam & E & HE). exact (kf_mean_wrong sde T d C inv s2 Hd HT Hn Hb HS HP Hs2 Hinv lam E HE x0 Hx). Qed.

(** the exact filter on the same path *)
Theorem exact_mean_jump sde T d C inv s2 : SdeProofs.sde_defined sde -> 0 < T ->
  (forall t, 0 <= t <= T -> SdeProofs.nonneg_noise sde t) -> (forall t, 0 <= t <= T -> 0 < Sde.dispersion sde t) -> symmetric d C -> posdef d C -> 0 < s2 ->
  (forall k M, symmetric k M -> posdef k M -> meq k (mmul k (inv k M) M) mid /\ meq k (mmul k M (inv k M)) mid) ->
  exists K, 0 <= K /\ forall n m0 V0 m V (y : vec), (1 <= n)%nat -> T / INR n <= 1 -> let z : vec := fun _ => 0 in
    Toy.ref_moments d (fwd_mean sde (fun _ => 0) T) (fwd_cov sde (joint_cov d C s2) T) z m0 V0 ->
    exact_scan d (gp_rd d sde T C s2 (inv (2 * d)%nat)) (fun t => Sde.dispersion sde (T - t)) (T / INR n) (kf_elems (repeat z n ++ [y]) (Sde.linspace 0 T (n + 1))) m0 V0 m V ->
    norm1 d (vsub m (gp_mean d C (inv d) s2 y)) <= K * (T / INR n) * norm1 d y.
Proof.
  intros Hd HT Hn Hb HS HP Hs2 Hinv. destruct (filter_mean sde T d C inv s2 Hd HT Hn Hb HS HP Hs2 Hinv) as (K & HK & H). exists (INR d * K). split; [apply Rmult_le_pos; [apply pos_INR|exact HK]|].
  intros n m0 V0 m V y Hn1 Hdt z HR Hex. destruct n as [|n]; [lia|]. cbn [repeat app] in Hex.
  assert (HL : length (repeat z n ++ [y]) = S n) by (rewrite app_length, repeat_length; cbn; lia). specialize (H (S n) z (repeat z n ++ [y]) m0 V0 m V Hn1 Hdt HL HR Hex). rewrite last_last in H.
  assert (PC : path_cost d (T / INR (S n)) (combine (repeat z n ++ [y]) (removelast (z :: repeat z n ++ [y]))) = norm1 d y).
  { change (z :: repeat z n ++ [y]) with ((z :: repeat z n) ++ [y]). rewrite removelast_last. assert (E2 : z :: repeat z n = repeat z n ++ [z]) by (clear; induction n as [|n IH]; [reflexivity|]; cbn [repeat app]; now rewrite <- IH). rewrite E2, comb_snoc by reflexivity.
    unfold path_cost. rewrite map_app, Rsum_app. cbn [map Rsum fst snd]. assert (N0 : norm1 d z = 0) by (unfold norm1, z; rewrite (Rsum_map_ext _ (fun _ => 0)) by (intros; apply Rabs_R0); rewrite Rsum_map_const; ring).
    assert (N1 : forall x, norm1 d (vsub x z) = norm1 d x) by (intros x; unfold norm1; apply Rsum_map_ext; intros i _; unfold vsub, z; now rewrite Rminus_0_r).
    rewrite (Rsum_map_ext _ (fun _ => 0)); [rewrite Rsum_map_const, N0, N1; ring|]. intros [v w] Hq. pose proof (repeat_spec _ _ _ (in_combine_l _ _ _ _ Hq)) as ->. pose proof (repeat_spec _ _ _ (in_combine_r _ _ _ _ Hq)) as ->. cbn [fst snd]. rewrite N1, N0. ring. }
  rewrite PC in H. unfold norm1 at 1. apply Rle_trans with (Rsum (map (fun _ : nat => K * (T / INR (S n)) * norm1 d y) (seq 0 d))); [|rewrite Rsum_map_const, seq_length; right; ring].
  apply Rsum_map_le. intros i Hi. apply in_seq in Hi. apply H. lia.
Qed.

(** ** The script with either of its SDEs *)
Lemma kernel_direction d : (2 <= d)%nat -> let C := cov_fn 1 1 (zs_grid d) (zs_grid d) in exists x, quad d C x < 1 * dot d x x.
Proof.
  intros H2 C. exists (vsub (unit 0) (unit 1)). assert (Q : quad d C (vsub (unit 0) (unit 1)) = C 0%nat 0%nat - C 0%nat 1%nat - C 1%nat 0%nat + C 1%nat 1%nat).
  { rewrite quad_dot. rewrite dot_sub_l, !(dot_comm d (unit _)), !dot_unit by lia. rewrite (mvec_sub_r d C (unit 0) (unit 1) 0%nat ltac:(lia)), (mvec_sub_r d C (unit 0) (unit 1) 1%nat ltac:(lia)). unfold vsub. rewrite !mvec_unit by lia. ring. }
  assert (D : dot d (vsub (unit 0) (unit 1)) (vsub (unit 0) (unit 1)) = 2) by (rewrite dot_sub_r, !dot_unit by lia; unfold vsub, unit, mid; cbn [Nat.eqb]; ring). rewrite Q, D. unfold C, cov_fn. rewrite !Rminus_eq_0, Rabs_R0.
  pose proof (exp_pos (- Rabs (zs_grid d 1%nat - zs_grid d 0%nat) / 1)). pose proof (exp_pos (- Rabs (zs_grid d 0%nat - zs_grid d 1%nat) / 1)). replace (-0 / 1) with 0 by field. rewrite exp_0. lra.
Qed.
Theorem kf_script_wrong d sde : (2 <= d)%nat -> sde = Sde.ConstSDE (- (1 / 2)) 1 \/ sde = Sde.LinSDE (2/100) 4 0 1 ->
  let C := cov_fn 1 1 (zs_grid d) (zs_grid d) in let z : vec := fun _ => 0 in exists (y : vec) del n0, 0 < del /\ forall n, (n0 <= n)%nat ->
  let run m0 V0 m V := Toy.ref_moments d (fwd_mean sde (fun _ => 0) 1) (fwd_cov sde (joint_cov d C 1) 1) z m0 V0 /\
    adhoc_kf d (gp_rd d sde 1 C 1 (CholFun.cho_inv (2 * d))) (fun t => Sde.dispersion sde (1 - t)) (1 / INR n) (Sde.linspace 0 1 (n + 1)) m0 V0 (repeat z n ++ [y]) m V in
  (exists m0 V0 m V, run m0 V0 m V) /\ forall m0 V0 m V, run m0 V0 m V -> del <= norm1 d (vsub m (gp_mean d C (CholFun.cho_inv d) 1 y)).
Proof.
  intros H2 Hsde C z. assert (Hbeta : forall t, 0 <= t <= 1 -> 0 < Sde.beta (2/100) 4 0 1 t) by (intros t Ht; unfold Sde.beta; assert (0 <= (4 - 2/100) * t) by (apply Rmult_le_pos; lra); lra).
  assert (Hd : SdeProofs.sde_defined sde) by (destruct Hsde as [-> | ->]; cbn; lra).
  assert (Hn : forall t, 0 <= t <= 1 -> SdeProofs.nonneg_noise sde t) by (intros t Ht; destruct Hsde as [-> | ->]; cbn; [exact I|specialize (Hbeta t Ht); lra]).
  assert (Hb : forall t, 0 <= t <= 1 -> 0 < Sde.dispersion sde t) by (intros t Ht; destruct Hsde as [-> | ->]; cbn [Sde.dispersion]; [lra|apply sqrt_lt_R0; now apply Hbeta]).
  destruct (cov_fn_posdef d 1 1 (zs_grid d) ltac:(lra) ltac:(lra) (zs_grid_increasing d)) as [C1 C2]. fold C in C1, C2.
  assert (HI : forall k M, symmetric k M -> posdef k M -> meq k (mmul k (CholFun.cho_inv k M) M) mid /\ meq k (mmul k M (CholFun.cho_inv k M)) mid) by (intros k M; apply CholFun.cho_inv_correct).
  destruct (kf_mean_refuted sde 1 d C CholFun.cho_inv 1 Hd ltac:(lra) Hn Hb C1 C2 ltac:(lra) HI (kernel_direction d H2)) as (y & del & h0 & Hdel & Hh0 & H).
  destruct (nfloor_ex (/ h0) ltac:(left; now apply Rinv_0_lt_compat)) as [N0 HN0]. set (N := S N0). assert (HN : / h0 < INR N) by (unfold N; rewrite S_INR; lra). exists y, del, (S N). split; [exact Hdel|]. intros n Hnn run. assert (Hn1 : (1 <= n)%nat) by lia.
  assert (HNn : INR N <= INR n) by (apply le_INR; lia). assert (0 < / h0) by now apply Rinv_0_lt_compat.
  assert (Hdt : 1 / INR n <= h0). { unfold Rdiv. rewrite Rmult_1_l, <- (Rinv_inv h0). apply Rinv_le_contravar; lra. }
  split; [|intros m0 V0 m V [HR Hr]; exact (H n m0 V0 m V Hn1 Hdt HR Hr)].
  destruct (filter_defined sde 1 d C CholFun.cho_inv 1 Hd ltac:(lra) Hn Hb C1 C2 ltac:(lra) HI n [] z Hn1) as (m0 & V0 & _ & _ & HR & _).
  destruct (spectral_theorem d C C1) as (lam & E & HE). destruct (start_ok sde 1 d C 1 Hd ltac:(lra) Hn C2 ltac:(lra) lam E HE z m0 V0 HR) as [S0 P0]. apply posdef_psd in P0.
  destruct (kf_defined sde 1 d C CholFun.cho_inv 1 Hd ltac:(lra) Hn Hb C1 C2 ltac:(lra) HI n (repeat z n ++ [y]) m0 V0 Hn1 S0 P0) as (m & V & Hr). exists m0, V0, m, V. split; [exact HR|exact Hr].
Qed.
