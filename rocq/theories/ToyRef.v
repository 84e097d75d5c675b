(** experiments/toy: the reference samplers [m_ + normal @ cholesky(cov_)] with the covariance the scripts compute. *)
From Coquelicot Require Import Coquelicot.
From Coq Require Import Reals List Lia Lra Morphisms Setoid.
From Verif Require Sde SdeProofs SdeMore.
From Verif Require Import Base Dist Mat MatMore Expm Lti Cholesky GaussDiv GaussCond GaussSB GaussSBMore Toy ToyCond ToyMore.
Import ListNotations.
Open Scope R_scope.

Lemma F_nonzero sde t : SdeProofs.sde_defined sde -> fst (Sde.FQ sde t 0) <> 0.
Proof. destruct sde; cbn [SdeProofs.sde_defined Sde.FQ fst]; intros H; try easy; apply Rgt_not_eq, exp_pos. Qed.

(** The conditional covariance is diagonal only if the kernel matrix is. *)
Lemma ref_cov_diagonal d sde C s2 T m y m_ cov_ : SdeProofs.sde_defined sde -> 0 < T -> SdeProofs.noisy_between sde 0 T -> 0 < s2 ->
  ref_moments d m (fwd_cov sde (joint_cov d C s2) T) y m_ cov_ ->
  (forall i j, (i < d)%nat -> (j < d)%nat -> i <> j -> cov_ i j = 0) ->
  forall i j, (i < d)%nat -> (j < d)%nat -> i <> j -> C i j = 0.
Proof.
  intros Hd HT Hn Hs (U & sol & X & (_ & _ & HU) & _ & HX & _ & HC) Hdiag i j Hi Hj Hij.
  pose proof (F_nonzero sde T Hd) as HF. pose proof (SdeProofs.Q_pos sde T 0 Hd HT Hn) as HQ.
  set (F := fst (Sde.FQ sde T 0)) in *. set (Q := snd (Sde.FQ sde T 0)) in *.
  pose (A := mscale (F ^ 2) C). set (b := F ^ 2 * s2 + Q). assert (Hb : 0 < b) by (unfold b; assert (0 < F ^ 2) by (apply pow2_gt_0; exact HF); nra).
  set (S := fwd_cov sde (joint_cov d C s2) T) in *.
  assert (S1 : meq d (m_hh d S) (madd A (mscale b mid))).
  { intros p q Hp Hq. unfold S, fwd_cov, joint_cov, m_hh, madd, mscale. blk_cases. fold F Q. replace (d + p - d)%nat with p by lia. replace (d + q - d)%nat with q by lia.
    replace (mid (d + p)%nat (d + q)%nat) with (mid p q) by (unfold mid; destruct (Nat.eqb_spec p q), (Nat.eqb_spec (d + p) (d + q)); try lia; reflexivity).
    unfold A, madd, mscale, b. ring. }
  assert (S2 : meq d (m_hl d S) A).
  { intros p q Hp Hq. unfold S, fwd_cov, joint_cov, m_hl, madd, mscale. blk_cases. fold F Q. replace (d + p - d)%nat with p by lia.
    replace (mid (d + p)%nat q) with 0 by (unfold mid; destruct (Nat.eqb_spec (d + p) q); [lia|reflexivity]). unfold A, mscale. ring. }
  assert (S3 : meq d (m_lh d S) A).
  { intros p q Hp Hq. unfold S, fwd_cov, joint_cov, m_lh, madd, mscale. blk_cases. fold F Q. replace (d + q - d)%nat with q by lia.
    replace (mid p (d + q)%nat) with 0 by (unfold mid; destruct (Nat.eqb_spec p (d + q)); [lia|reflexivity]). unfold A, mscale. ring. }
  assert (S4 : meq d S (madd A (mscale Q mid))).
  { intros p q Hp Hq. unfold S, fwd_cov, joint_cov, madd, mscale. blk_cases. fold F Q. unfold A, mscale. reflexivity. }
  unfold cho_solve in HX. rewrite HU, S1, S2 in HX. rewrite S3, S4 in HC.
  assert (E : forall p q, (p < d)%nat -> (q < d)%nat -> mmul d A X p q + b * X p q = A p q).
  { intros p q Hp Hq. rewrite <- (HX p q Hp Hq). unfold mmul at 2. rewrite (Rsum_map_ext _ (fun k => A p k * X k q + b * (mid p k * X k q))) by (intros; unfold madd, mscale; ring).
    rewrite Rsum_map_plus, Rsum_map_mult_l. f_equal. change (Rsum (map (fun k => mid p k * X k q) (seq 0 d))) with (mmul d mid X p q). rewrite mmul_id_l by exact Hp. reflexivity. }
  assert (Xd : forall p q, (p < d)%nat -> (q < d)%nat -> p <> q -> X p q = 0).
  { intros p q Hp Hq Hpq. pose proof (Hdiag p q Hp Hq Hpq) as K. rewrite (HC p q Hp Hq) in K. unfold msub, madd, mscale, mid in K. destruct (Nat.eqb_spec p q); [lia|].
    pose proof (E p q Hp Hq) as K2. apply Rmult_eq_reg_l with b; [|lra]. lra. }
  assert (AX : forall p q, (p < d)%nat -> (q < d)%nat -> mmul d A X p q = A p q * X q q).
  { intros p q Hp Hq. unfold mmul. rewrite (Rsum_map_ext _ (fun k => (if Nat.eqb k q then 1 else 0) * (A p k * X k q))); [now rewrite (Rsum_indicator d q (fun k => A p k * X k q) Hq)|].
    intros k Hk. apply in_seq in Hk. destruct (Nat.eqb_spec k q) as [ ->|Hne]; [ring|]. rewrite (Xd k q) by lia. ring. }
  destruct (Req_dec (C i j) 0) as [|Hc]; [assumption|exfalso].
  pose proof (E i j Hi Hj) as E1. rewrite AX, (Xd i j) in E1 by assumption.
  assert (Aij : A i j <> 0) by (unfold A, mscale; apply Rmult_integral_contrapositive_currified; [now apply pow_nonzero|exact Hc]).
  assert (X1 : X j j = 1) by (apply Rmult_eq_reg_l with (A i j); [lra|exact Aij]).
  pose proof (E j j Hj Hj) as E2. rewrite AX, X1 in E2 by assumption. lra.
Qed.

Theorem toy_ref_draw_wrong d sde C s2 T m y m_ cov_ L law : SdeProofs.sde_defined sde -> 0 < T -> SdeProofs.noisy_between sde 0 T -> 0 < s2 ->
  ref_moments d m (fwd_cov sde (joint_cov d C s2) T) y m_ cov_ -> cholesky d cov_ L -> standard d law ->
  (exists i j, (i < d)%nat /\ (j < d)%nat /\ i <> j /\ C i j <> 0) ->
  ~ has_cov d (dmap (row_draw d m_ L) law) m_ cov_.
Proof.
  intros Hd HT Hn Hs HR HL Hlaw (i & j & Hi & Hj & Hij & Hc) H. apply Hc.
  pose proof (proj1 (row_draw_iff d m_ cov_ L law HL Hlaw) H) as K. exact (ref_cov_diagonal d sde C s2 T m y m_ cov_ Hd HT Hn Hs HR K i j Hi Hj Hij).
Qed.

(** In particular for the kernel of the scripts and two or more grid points. *)
Theorem toy_scripts_ref_draw_wrong d sde sigma ell s2 T m y m_ cov_ L law : (2 <= d)%nat -> 0 < sigma -> 0 < ell ->
  SdeProofs.sde_defined sde -> 0 < T -> SdeProofs.noisy_between sde 0 T -> 0 < s2 ->
  ref_moments d m (fwd_cov sde (joint_cov d (cov_fn sigma ell (zs_grid d) (zs_grid d)) s2) T) y m_ cov_ -> cholesky d cov_ L -> standard d law ->
  ~ has_cov d (dmap (row_draw d m_ L) law) m_ cov_.
Proof.
  intros H2 Hs He Hd HT Hn Hs2 HR HL Hlaw. apply (toy_ref_draw_wrong d sde _ s2 T m y m_ cov_ L law Hd HT Hn Hs2 HR HL Hlaw). exists 0%nat, 1%nat. repeat split; try lia.
  unfold cov_fn. apply Rmult_integral_contrapositive_currified; [apply pow_nonzero; lra|]. apply Rgt_not_eq, exp_pos.
Qed.

(** such moments and factors exist *)
Theorem toy_ref_exists d sde sigma ell s2 T m y : 0 < sigma -> 0 < ell ->
  SdeProofs.sde_defined sde -> 0 < T -> SdeProofs.noisy_between sde 0 T -> 0 < s2 ->
  exists m_ cov_ L, ref_moments d m (fwd_cov sde (joint_cov d (cov_fn sigma ell (zs_grid d) (zs_grid d)) s2) T) y m_ cov_ /\ cholesky d cov_ L.
Proof.
  intros Hs He Hd HT Hn Hs2.
  destruct (cov_fn_posdef d sigma ell (zs_grid d) Hs He (zs_grid_increasing d)) as [C1 C2].
  destruct (joint_cov_posdef d _ s2 C1 C2 Hs2) as [J1 J2].
  destruct (ref_moments_total d m (fwd_cov sde (joint_cov d (cov_fn sigma ell (zs_grid d) (zs_grid d)) s2) T) y) as (m_ & cov_ & A & B1 & B2 & _).
  - now apply fwd_cov_symmetric.
  - apply fwd_cov_posdef; try assumption. now apply posdef_psd.
  - destruct (cholesky_exists d cov_ B1 B2) as (L & L1 & L2 & L3). exists m_, cov_, L. repeat split; assumption.
Qed.

(** ** gp_csgm.py: the drift is defined *)
#[local] Existing Instance vadd_proper.
#[local] Existing Instance vsub_proper.
#[local] Existing Instance vscale_proper.
Theorem csgm_drift_total d sde T m C inv s2 y0 u t :
  let F := fst (Sde.FQ sde (T - t) 0) in let S := csgm_cond_cov d F C (inv (fwd_cov sde C (T - t))) s2 in
  symmetric d S -> posdef d S -> exists r, csgm_drift d sde T m C inv s2 y0 u t r.
Proof.
  intros F S HS HP. destruct (cholesky_exists d S HS HP) as (L & L1 & L2 & L3). destruct (posdef_inverse d S HS HP) as (Si & S1 & S2 & _).
  set (Pi := inv (fwd_cov sde C (T - t))) in *. set (J := mmul d (mscale F C) Pi).
  assert (HM : forall x, veq d (csgm_cond_mean d F m C Pi x) (vadd (vsub m (mvec d J (vscale F m))) (mvec d J x))).
  { intros x. unfold csgm_cond_mean. rewrite (mvec_mul d (mscale F C) Pi). fold J. rewrite mvec_sub_r. intros i Hi. unfold vadd, vsub. ring. }
  eexists. exists (fun x => gauss_lp d (csgm_cond_mean d F m C Pi x) L y0). eexists. split; [|split; [|reflexivity]].
  - intros x. now apply gauss_lp_ok.
  - apply is_grad_gauss with (a := vsub m (mvec d J (vscale F m))) (J := J) (S := S) (Si := Si) (y := y0); try assumption.
    intros x. eapply gauss_logpdf_transport; [apply HM|reflexivity|reflexivity|now apply gauss_lp_ok].
Qed.

(** ** A scalar instance of gp_csgm.py: unit kernel and observation variances *)
Definition inv1 (M : mat) : mat := fun _ _ => / M 0%nat 0%nat.
Lemma inv1_inverse M : M 0%nat 0%nat <> 0 -> meq 1 (mmul 1 (inv1 M) M) mid /\ meq 1 (mmul 1 M (inv1 M)) mid.
Proof.
  intros H. split; intros i j Hi Hj; assert (i = 0%nat) as -> by lia; assert (j = 0%nat) as -> by lia; unfold mmul, inv1, mid; cbn; field; exact H.
Qed.
Definition ou_sde := Sde.ConstSDE (- (1 / 2)) 1.
Lemma csgm_scalar s : 0 <= s -> exists r, csgm_drift 1 ou_sde s (fun _ => 0) mid inv1 1 (fun _ => 1) (fun _ => 2) 0 r /\ 
  symmetric 1 mid /\ inverse_at 1 (fwd_cov ou_sde mid) inv1 (s - 0) /\
  meq 1 (mmul 1 (inv1 (madd mid (mscale 1 mid))) (madd mid (mscale 1 mid))) mid /\
  inverse_at 1 (fwd_cov ou_sde (gp_cov 1 mid inv1 1)) inv1 (s - 0).
Proof.
  intros Hs. set (f := exp (- (1 / 2) * (s - 0 - 0))). assert (Hf : 0 < f <= 1).
  { split; [apply exp_pos|]. enough (f <= exp 0) by (rewrite exp_0 in *; lra). unfold f. destruct Hs as [Hs|Hs]; [left; apply exp_increasing; lra|right; f_equal; lra]. }
  assert (Ef : exp (2 * - (1 / 2) * (s - 0 - 0)) = f ^ 2) by (unfold f; cbn [pow]; rewrite Rmult_1_r, <- exp_plus; f_equal; field).
  assert (E1 : fwd_cov ou_sde mid (s - 0) 0%nat 0%nat = 1).
  { unfold fwd_cov, ou_sde, madd, mscale, mid. cbn [Sde.FQ fst snd Nat.eqb]. rewrite Ef. fold f. field. }
  assert (E2 : fwd_cov ou_sde (gp_cov 1 mid inv1 1) (s - 0) 0%nat 0%nat = 1 - f ^ 2 / 2).
  { unfold fwd_cov, ou_sde, gp_cov, msub, madd, mscale, mmul, inv1, madd, mscale, mid. cbn [Sde.FQ fst snd Nat.eqb map seq Rsum fold_right]. rewrite Ef. fold f. field. }
  destruct (csgm_drift_total 1 ou_sde s (fun _ => 0) mid inv1 1 (fun _ => 1) (fun _ => 2) 0) as [r Hr].
  - intros i j Hi Hj. assert (i = 0%nat) as -> by lia. assert (j = 0%nat) as -> by lia. reflexivity.
  - intros x Hx. unfold quad, dot, mvec, csgm_cond_cov, msub, madd, mscale, mmul. cbn [map seq Rsum fold_right]. unfold inv1 at 1. rewrite E1.
    cbn [ou_sde Sde.FQ fst]. fold f. unfold mid. cbn [Nat.eqb].
    assert (x 0%nat <> 0). { intros K. apply Hx. intros i Hi. assert (i = 0%nat) as -> by lia. exact K. }
    assert (0 < x 0%nat * x 0%nat) by nra.
    rewrite Rinv_1. replace (x 0%nat * ((1 + 1 * 1 - (f * 1 * (1 * (f * 1) + 0) + 0)) * x 0%nat + 0) + 0) with ((x 0%nat * x 0%nat) * (2 - f * f)) by ring.
    apply Rmult_lt_0_compat; nra.
  - exists r. split; [exact Hr|]. split; [apply symmetric_mid|]. split; [apply inv1_inverse; rewrite E1; lra|]. split.
    + apply inv1_inverse. unfold madd, mscale, mid. cbn. lra.
    + apply inv1_inverse. rewrite E2. nra.
Qed.
