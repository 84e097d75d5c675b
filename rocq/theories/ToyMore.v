(** More proofs about Toy.v: the kernel matrix, the conditional score script, the Kalman filter script. *)
From Coquelicot Require Import Coquelicot.
From Coq Require Import Reals List Lia Lra Morphisms Setoid.
From Verif Require Sde SdeProofs SdeMore.
From Verif Require Import Base Dist Mat MatMore Expm Lti Cholesky GaussDiv GaussCond GaussSB GaussSBMore Toy ToyCond.
Import ListNotations.
Open Scope R_scope.

(** ** The exponential kernel on increasing points is positive definite *)
Definition ou_s (ell : R) (z : vec) (k : nat) : R := match k with O => 1 | S k' => sqrt (1 - exp (- (2 * (z k - z k') / ell))) end.
Definition ou_chol (sigma ell : R) (z : vec) : mat := fun i j =>
  if Nat.leb j i then sigma * exp (- ((z i - z j) / ell)) * ou_s ell z j else 0.

Lemma ou_s_pos ell z d k : 0 < ell -> (forall i j, (i < j)%nat -> (j < d)%nat -> z i < z j) -> (k < d)%nat -> 0 < ou_s ell z k.
Proof.
  intros He Hz Hk. destruct k as [|k]; cbn [ou_s]; [lra|]. apply sqrt_lt_R0.
  assert (exp (- (2 * (z (S k) - z k) / ell)) < 1); [|lra]. rewrite <- exp_0. apply exp_increasing.
  specialize (Hz k (S k) ltac:(lia) Hk). assert (0 < (2 * (z (S k) - z k)) / ell); [|lra]. apply Rdiv_lt_0_compat; lra.
Qed.

Lemma ou_telescope ell z d i : 0 < ell -> (forall i j, (i < j)%nat -> (j < d)%nat -> z i < z j) -> (i < d)%nat ->
  Rsum (map (fun k => exp (2 * z k / ell) * ou_s ell z k ^ 2) (seq 0 (S i))) = exp (2 * z i / ell).
Proof.
  intros He Hz. induction i as [|i IH]; intros Hi; rewrite Rsum_seq_S.
  - cbn. ring.
  - rewrite IH by lia. cbn [ou_s]. rewrite pow2_sqrt.
    + rewrite Rmult_minus_distr_l, <- exp_plus. replace (2 * z (S i) / ell + - (2 * (z (S i) - z i) / ell)) with (2 * z i / ell) by (field; lra). ring.
    + assert (exp (- (2 * (z (S i) - z i) / ell)) < 1); [|lra]. rewrite <- exp_0. apply exp_increasing.
      specialize (Hz i (S i) ltac:(lia) Hi). assert (0 < (2 * (z (S i) - z i)) / ell); [|lra]. apply Rdiv_lt_0_compat; lra.
Qed.

Theorem cov_fn_cholesky d sigma ell z : 0 < sigma -> 0 < ell -> (forall i j, (i < j)%nat -> (j < d)%nat -> z i < z j) ->
  cholesky d (cov_fn sigma ell z z) (ou_chol sigma ell z).
Proof.
  intros Hs He Hz. split; [|split].
  - intros i j Hi Hj H. unfold ou_chol. destruct (Nat.leb_spec j i); [lia|reflexivity].
  - intros i Hi. unfold ou_chol. rewrite Nat.leb_refl. apply Rmult_lt_0_compat; [apply Rmult_lt_0_compat; [exact Hs|apply exp_pos]|now apply (ou_s_pos ell z d)].
  - assert (G : forall i j, (i <= j)%nat -> (j < d)%nat -> mmul d (ou_chol sigma ell z) (mtr (ou_chol sigma ell z)) i j = sigma ^ 2 * exp (- ((z j - z i) / ell))).
    { intros i j Hij Hj. unfold mmul, mtr. rewrite (Rsum_lower _ d i).
      - rewrite <- (Rsum_seq_S (fun k => ou_chol sigma ell z i k * ou_chol sigma ell z j k) i).
        rewrite (Rsum_map_ext _ (fun k => (sigma ^ 2 * exp (- ((z i + z j) / ell))) * (exp (2 * z k / ell) * ou_s ell z k ^ 2))).
        + rewrite Rsum_map_mult_l, (ou_telescope ell z d i He Hz) by lia. rewrite Rmult_assoc, <- exp_plus. do 2 f_equal. field. lra.
        + intros k Hk. apply in_seq in Hk. unfold ou_chol. destruct (Nat.leb_spec k i); [|lia]. destruct (Nat.leb_spec k j); [|lia].
          replace (- ((z i + z j) / ell)) with (- ((z i - z k) / ell) + (- ((z j - z k) / ell) + - (2 * z k / ell))) by (field; lra).
          rewrite !exp_plus. replace (exp (- (2 * z k / ell))) with (/ exp (2 * z k / ell)) by (now rewrite exp_Ropp). field. apply Rgt_not_eq, exp_pos.
      - lia.
      - intros k Hk Hkd. unfold ou_chol at 1. destruct (Nat.leb_spec k i); [lia|ring]. }
    intros i j Hi Hj. unfold cov_fn. destruct (Nat.le_ge_cases i j) as [H|H].
    + rewrite G by assumption. do 2 f_equal. rewrite Rabs_pos_eq; [field; lra|]. destruct (Nat.eq_dec i j) as [ ->|Hn]; [lra|]. pose proof (Hz i j ltac:(lia) Hj). lra.
    + transitivity (mmul d (ou_chol sigma ell z) (mtr (ou_chol sigma ell z)) j i); [unfold mmul, mtr; apply Rsum_map_ext; intros; ring|].
      rewrite G by assumption. do 2 f_equal. rewrite Rabs_left1; [field; lra|]. destruct (Nat.eq_dec i j) as [ ->|Hn]; [lra|]. pose proof (Hz j i ltac:(lia) Hi). lra.
Qed.

Lemma zs_grid_increasing d i j : (i < j)%nat -> (j < d)%nat -> zs_grid d i < zs_grid d j.
Proof.
  intros Hij Hj. unfold zs_grid, Sde.linspace. destruct d as [|[|d]]; [lia|lia|].
  assert (Hd : (S (S d) - 1)%nat = S d) by lia. rewrite Hd.
  assert (E : forall k, (k < S (S d))%nat -> nth k (map (fun i0 => 0 + INR i0 * ((5 - 0) / INR (S d))) (seq 0 (S (S d)))) 0 = 0 + INR k * ((5 - 0) / INR (S d))).
  { intros k Hk. rewrite (nth_indep _ _ ((fun i0 => 0 + INR i0 * ((5 - 0) / INR (S d))) 0%nat)) by (rewrite map_length, seq_length; lia).
    rewrite (map_nth (fun i0 => 0 + INR i0 * ((5 - 0) / INR (S d)))), seq_nth by lia. reflexivity. }
  rewrite !E by lia.
  assert (0 < (5 - 0) / INR (S d)) by (apply Rdiv_lt_0_compat; [lra|apply lt_0_INR; lia]). assert (INR i < INR j) by (now apply lt_INR). nra.
Qed.

Theorem cov_fn_posdef d sigma ell z : 0 < sigma -> 0 < ell -> (forall i j, (i < j)%nat -> (j < d)%nat -> z i < z j) ->
  symmetric d (cov_fn sigma ell z z) /\ posdef d (cov_fn sigma ell z z).
Proof.
  intros Hs He Hz. destruct (cov_fn_cholesky d sigma ell z Hs He Hz) as (A1 & A2 & A3). split.
  - unfold symmetric. rewrite <- A3, mtr_mul. reflexivity.
  - intros x Hx. rewrite <- A3. now apply gram_posdef.
Qed.

(** joint covariance of (f, y): positive definite as well *)
Lemma quad_joint d C s2 x : symmetric d C -> quad (2 * d) (joint_cov d C s2) x = quad d C (vadd x (vhi d x)) + s2 * dot d (vhi d x) (vhi d x).
Proof.
  intros HS. unfold quad at 1. rewrite Rsum_split2.
  assert (E1 : forall i, (i < d)%nat -> mvec (2 * d) (joint_cov d C s2) x i = mvec d C (vadd x (vhi d x)) i).
  { intros i Hi. unfold mvec. rewrite Rsum_split2, <- Rsum_map_plus. apply Rsum_map_ext. intros k Hk. apply in_seq in Hk.
    unfold joint_cov, vadd. blk_cases. replace (d + k - d)%nat with k by lia. ring. }
  assert (E2 : forall i, (i < d)%nat -> mvec (2 * d) (joint_cov d C s2) x (d + i)%nat = mvec d C (vadd x (vhi d x)) i + s2 * vhi d x i).
  { intros i Hi. unfold mvec. rewrite Rsum_split2.
    rewrite <- (Rsum_indicator d i (fun k => s2 * vhi d x k)) by exact Hi. rewrite <- !Rsum_map_plus. apply Rsum_map_ext. intros k Hk. apply in_seq in Hk.
    unfold joint_cov, vadd, madd, mscale, mid. blk_cases. replace (d + k - d)%nat with k by lia. replace (d + i - d)%nat with i by lia. rewrite (Nat.eqb_sym k i). ring. }
  rewrite (Rsum_map_ext _ (fun i => x i * mvec d C (vadd x (vhi d x)) i)) by (intros i Hi; apply in_seq in Hi; now rewrite E1 by lia).
  rewrite (Rsum_map_ext (fun k => x (d + k)%nat * _) (fun i => vhi d x i * mvec d C (vadd x (vhi d x)) i + s2 * (vhi d x i * vhi d x i))).
  - rewrite Rsum_map_plus, Rsum_map_mult_l. unfold quad, dot. rewrite <- Rplus_assoc. f_equal. rewrite <- Rsum_map_plus. apply Rsum_map_ext. intros i _. change (vadd x (vhi d x) i) with (x i + vhi d x i). ring.
  - intros i Hi. apply in_seq in Hi. rewrite E2 by lia. unfold vhi. ring.
Qed.
Theorem joint_cov_posdef d C s2 : symmetric d C -> posdef d C -> 0 < s2 -> symmetric (2 * d) (joint_cov d C s2) /\ posdef (2 * d) (joint_cov d C s2).
Proof.
  intros HS HP Hs. split.
  - intros i j Hi Hj. unfold mtr, joint_cov. blk_cases.
    + now apply HS.
    + apply HS; lia.
    + apply HS; lia.
    + unfold madd, mscale, mid. rewrite (Nat.eqb_sym (j - d)). f_equal. apply (HS (i - d) (j - d))%nat; lia.
  - intros x Hx. rewrite quad_joint by exact HS. pose proof (posdef_psd d C HP (vadd x (vhi d x))) as Q1. pose proof (dot_self_nonneg d (vhi d x)) as Q2.
    destruct (veq_dec d (vhi d x)) as [Hz|Hz].
    + assert (0 < quad d C (vadd x (vhi d x))); [|nra]. apply HP. intros K. apply Hx. intros i Hi. destruct (Nat.lt_ge_cases i d) as [H|H].
      * specialize (K i H). specialize (Hz i H). unfold vadd in K. rewrite Hz in K. lra.
      * specialize (Hz (i - d)%nat ltac:(lia)). unfold vhi in Hz. replace (d + (i - d))%nat with i in Hz by lia. exact Hz.
    + assert (0 < dot d (vhi d x) (vhi d x)); [|nra]. destruct Q2 as [H|H]; [exact H|]. exfalso. apply Hz. now apply dot_self_zero.
Qed.

(** ** The conditional score of gp_csgm.py *)
Lemma is_grad_gauss d (a : vec) (J S Si : mat) (y : vec) lp x :
  (forall x, gauss_logpdf d (vadd a (mvec d J x)) S y (lp x)) -> meq d (mmul d Si S) mid -> meq d (mmul d S Si) mid ->
  is_grad d lp x (mvec d (mtr J) (mvec d Si (vsub y (vadd a (mvec d J x))))).
Proof.
  intros Hlp I1 I2.
  destruct (gauss_logpdf_val _ _ _ _ _ (Hlp x)) as (L & A1 & A2 & A3 & _).
  set (W := tri_inv L). set (K := - INR d * (ln (2 * PI) / 2) - Rsum (map (fun i => ln (L i i)) (seq 0 d))).
  assert (V : forall x', lp x' = K - dot d (mvec d W (vsub y (vadd a (mvec d J x')))) (mvec d W (vsub y (vadd a (mvec d J x')))) / 2).
  { intros x'. eapply gauss_logpdf_ext; [reflexivity|reflexivity|reflexivity|apply Hlp|].
    pose proof (gauss_lp_ok d (vadd a (mvec d J x')) S L y A1 A2 A3) as G. destruct (gauss_logpdf_val _ _ _ _ _ G) as (L' & B1 & B2 & B3 & E).
    assert (EL : meq d L' L) by (apply cholesky_unique; try assumption; now rewrite A3, B3).
    replace (K - _) with (gauss_lp d (vadd a (mvec d J x')) L y); [exact G|]. rewrite E. unfold K, W. rewrite (tri_inv_proper d L' L B1 B2 EL). f_equal. f_equal.
    apply Rsum_map_ext. intros i Hi. apply in_seq in Hi. now rewrite EL by lia. }
  assert (WW : meq d (mmul d (mtr W) W) Si).
  { apply (inverse_unique d S); [|exact I2]. rewrite <- A3. rewrite <- (mmul_assoc d (mtr W) W), (mmul_assoc d W L). unfold W. rewrite tri_inv_left, mmul_1_l by assumption.
    rewrite <- mtr_mul, tri_inv_right, mtr_mid by assumption. reflexivity. }
  intros i Hi. set (e := fun h k => if Nat.eqb k i then h else x k).
  assert (De : forall k, is_derive (fun h => e h k) (x i) (if Nat.eqb k i then 1 else 0)).
  { intros k. unfold e. destruct (Nat.eqb k i); [apply (is_derive_id (K := R_AbsRing))|apply (is_derive_const (K := R_AbsRing) (V := R_NormedModule))]. }
  assert (Ee : forall k, e (x i) k = x k) by (intros k; unfold e; destruct (Nat.eqb_spec k i) as [ ->|]; reflexivity).
  assert (DJ : forall l, is_derive (fun h => mvec d J (e h) l) (x i) (J l i)).
  { intros l. evar_last.
    - apply (is_derive_Rsum_map (fun k h => J l k * e h k) (fun k => J l k * (if Nat.eqb k i then 1 else 0))). intros k _.
      apply (is_derive_scal (fun h => e h k) (x i) (J l k)). apply De.
    - rewrite <- (Rsum_indicator d i (fun k => J l k)) by exact Hi. apply Rsum_map_ext. intros; ring. }
  assert (DW : forall k, is_derive (fun h => mvec d W (vsub y (vadd a (mvec d J (e h)))) k) (x i) (- mmul d W J k i)).
  { intros k. evar_last.
    - apply (is_derive_Rsum_map (fun l h => W k l * (y l - (a l + mvec d J (e h) l))) (fun l => W k l * (- J l i))). intros l _.
      apply (is_derive_scal (fun h => y l - (a l + mvec d J (e h) l)) (x i) (W k l)).
      evar_last.
      + apply (is_derive_minus (K := R_AbsRing) (V := R_NormedModule)); [apply (is_derive_const (K := R_AbsRing) (V := R_NormedModule))|].
        apply (is_derive_plus (K := R_AbsRing) (V := R_NormedModule)); [apply (is_derive_const (K := R_AbsRing) (V := R_NormedModule))|apply DJ].
      + unfold minus, plus, opp, zero; cbn. ring.
    - unfold mmul. transitivity (-(1) * Rsum (map (fun k0 => W k k0 * J k0 i) (seq 0 d))); [|ring]. rewrite <- Rsum_map_mult_l. apply Rsum_map_ext. intros; ring. }
  apply (is_derive_ext (fun h => K - dot d (mvec d W (vsub y (vadd a (mvec d J (e h))))) (mvec d W (vsub y (vadd a (mvec d J (e h))))) / 2)).
  - intros h. now rewrite V.
  - set (r := fun h => mvec d W (vsub y (vadd a (mvec d J (e h))))). fold r.
    assert (Dd : is_derive (fun h => dot d (r h) (r h)) (x i) (Rsum (map (fun k => 2 * (- mmul d W J k i * r (x i) k)) (seq 0 d)))).
    { apply (is_derive_Rsum_map (fun k h => r h k * r h k) (fun k => 2 * (- mmul d W J k i * r (x i) k))). intros k _. evar_last.
      - apply (is_derive_mult (fun h => r h k) (fun h => r h k) (x i)); [apply DW|apply DW|intros; apply Rmult_comm].
      - unfold plus, mult; cbn. fold (r (x i)). ring. }
    assert (Er : veq d (r (x i)) (mvec d W (vsub y (vadd a (mvec d J x))))).
    { unfold r. intros k Hk. unfold mvec. apply Rsum_map_ext. intros l _. unfold vsub, vadd. do 3 f_equal. apply Rsum_map_ext. intros q _. now rewrite Ee. }
    evar_last.
    + apply (is_derive_minus (K := R_AbsRing) (V := R_NormedModule)); [apply (is_derive_const (K := R_AbsRing) (V := R_NormedModule))|].
      apply (is_derive_ext (fun h => / 2 * dot d (r h) (r h))); [intros; unfold Rdiv; apply Rmult_comm|]. apply (is_derive_scal (fun h => dot d (r h) (r h)) (x i) (/ 2)). exact Dd.
    + unfold minus, plus, opp, zero; cbn. rewrite Rsum_map_mult_l.
      transitivity (Rsum (map (fun k => mmul d W J k i * mvec d W (vsub y (vadd a (mvec d J x))) k) (seq 0 d))).
      * rewrite (Rsum_map_ext (fun k => - mmul d W J k i * r (x i) k) (fun k => (-(1)) * (mmul d W J k i * mvec d W (vsub y (vadd a (mvec d J x))) k))).
        -- rewrite Rsum_map_mult_l. field.
        -- intros k Hk. apply in_seq in Hk. rewrite Er by lia. ring.
      * change (mvec d (mtr (mmul d W J)) (mvec d W (vsub y (vadd a (mvec d J x)))) i = mvec d (mtr J) (mvec d Si (vsub y (vadd a (mvec d J x)))) i).
        refine ((_ : veq d (mvec d (mtr (mmul d W J)) (mvec d W (vsub y (vadd a (mvec d J x))))) (mvec d (mtr J) (mvec d Si (vsub y (vadd a (mvec d J x)))))) i Hi).
        rewrite <- WW, <- (mvec_mul d (mtr W) W), (mvec_mul d (mtr J) (mtr W)). now rewrite mtr_mul.
Qed.
Lemma is_grad_unique d f x g g' : is_grad d f x g -> is_grad d f x g' -> veq d g g'.
Proof. intros H H' i Hi. pose proof (is_derive_unique _ _ _ (H i Hi)) as E. now rewrite <- (is_derive_unique _ _ _ (H' i Hi)), E. Qed.

#[local] Instance vadd_proper d : Proper (veq d ==> veq d ==> veq d) vadd.
Proof. intros a b H a' b' H' i Hi. unfold vadd. now rewrite H, H'. Qed.
#[local] Instance vsub_proper d : Proper (veq d ==> veq d ==> veq d) vsub.
Proof. intros a b H a' b' H' i Hi. unfold vsub. now rewrite H, H'. Qed.
#[local] Instance vscale_proper d c : Proper (veq d ==> veq d) (vscale c).
Proof. intros a b H i Hi. unfold vscale. now rewrite H. Qed.
Lemma mvec_add_r d A x y : veq d (mvec d A (vadd x y)) (vadd (mvec d A x) (mvec d A y)).
Proof. intros i _. unfold mvec, vadd. rewrite <- Rsum_map_plus. apply Rsum_map_ext. intros; ring. Qed.
Lemma mvec_scale_r d A c x : veq d (mvec d A (vscale c x)) (vscale c (mvec d A x)).
Proof. intros i _. unfold mvec, vscale. rewrite <- Rsum_map_mult_l. apply Rsum_map_ext. intros; ring. Qed.
Lemma mvec_msub d A B x : veq d (mvec d (msub A B) x) (vsub (mvec d A x) (mvec d B x)).
Proof. intros i _. apply mvec_sub_l. Qed.
Lemma mvec_mscale d c A x : veq d (mvec d (mscale c A) x) (vscale c (mvec d A x)).
Proof. intros i _. apply mvec_scale_l. Qed.

(** Bayes' rule for scores, in matrix form: B is the cross covariance of (x, y). *)
Lemma bayes_score d (P Pi D Di B G Gi Sy Syi : mat) (w r : vec) :
  symmetric d B -> symmetric d Pi ->
  meq d (mmul d P Pi) mid -> meq d (mmul d Di D) mid -> meq d (mmul d Gi G) mid -> meq d (mmul d Sy Syi) mid ->
  meq d G (msub P (mmul d B (mmul d Di B))) -> meq d Sy (msub D (mmul d B (mmul d Pi B))) ->
  let J := mmul d B Pi in
  veq d (vadd (vscale (-(1)) (mvec d Pi w)) (mvec d (mtr J) (mvec d Syi (vsub r (mvec d J w)))))
        (vscale (-(1)) (mvec d Gi (vsub w (mvec d B (mvec d Di r))))).
Proof.
  intros HB HPi IP ID IG IS EG ES J. unfold symmetric in *.
  assert (EJ : meq d (mtr J) (mmul d Pi B)) by (unfold J; now rewrite mtr_mul, HB, HPi).
  assert (K1 : meq d (mmul d G Pi) (msub mid (mmul d B (mmul d Di J)))).
  { rewrite EG. intros i j Hi Hj. rewrite mmul_sub_l. unfold msub. rewrite (IP i j Hi Hj). f_equal.
    refine ((_ : meq d (mmul d (mmul d B (mmul d Di B)) Pi) (mmul d B (mmul d Di J))) i j Hi Hj). unfold J. now rewrite !mmul_assoc. }
  assert (K2 : meq d (mmul d (mmul d G (mtr J)) Syi) (mmul d B Di)).
  { assert (K : meq d (mmul d G (mtr J)) (mmul d (mmul d B Di) Sy)).
    { rewrite EJ, mmul_assoc, K1, ES. intros i j Hi Hj. rewrite mmul_sub_l, mmul_sub_r, mmul_id_l by exact Hi. f_equal.
      - refine ((_ : meq d B (mmul d (mmul d B Di) D)) i j Hi Hj). now rewrite <- mmul_assoc, ID, mmul_1_r.
      - refine ((_ : meq d (mmul d (mmul d B (mmul d Di J)) B) (mmul d (mmul d B Di) (mmul d B (mmul d Pi B)))) i j Hi Hj). unfold J. now rewrite !mmul_assoc. }
    now rewrite K, <- mmul_assoc, IS, mmul_1_r. }
  set (X := vadd (vscale (-(1)) (mvec d Pi w)) (mvec d (mtr J) (mvec d Syi (vsub r (mvec d J w))))).
  assert (KX : veq d (mvec d G X) (vscale (-(1)) (vsub w (mvec d B (mvec d Di r))))).
  { unfold X. rewrite mvec_add_r, mvec_scale_r, (mvec_mul d G Pi), K1, (mvec_mul d (mtr J) Syi), (mvec_mul d G), (mmul_assoc d G), K2.
    rewrite mvec_msub, mvec_id, mvec_sub_r. rewrite (mvec_mul d B Di r). rewrite (mvec_mul d (mmul d B Di) J w), <- (mmul_assoc d B Di J).
    intros i Hi. unfold vadd, vscale, vsub. ring. }
  transitivity (mvec d Gi (mvec d G X)).
  - now rewrite mvec_mul, IG, mvec_id.
  - now rewrite KX, mvec_scale_r.
Qed.

Lemma gauss_logpdf_posdef d m C x lp : gauss_logpdf d m C x lp -> symmetric d C /\ posdef d C.
Proof.
  intros (L & z & A1 & A2 & A3 & _). split.
  - unfold symmetric. rewrite <- A3, mtr_mul. reflexivity.
  - intros y Hy. rewrite <- A3. now apply gram_posdef.
Qed.

(** The posterior of the unknown function given y0, for a prior mean m. *)
Definition post_mean (d : nat) (m : vec) (C : mat) (inv : mat -> mat) (s2 : R) (y0 : vec) : vec := vadd m (gp_mean d C inv s2 (vsub y0 m)).

Lemma csgm_G d sde C inv s2 s : let F := fst (Sde.FQ sde s 0) in let Di := inv (madd C (mscale s2 mid)) in
  meq d (fwd_cov sde (gp_cov d C inv s2) s) (msub (fwd_cov sde C s) (mmul d (mscale F C) (mmul d Di (mscale F C)))).
Proof.
  intros F Di i j Hi Hj. unfold fwd_cov, gp_cov, madd, msub, mscale. fold F. fold Di. fold (mscale F C).
  change (fun i0 j0 => C i0 j0 + s2 * mid i0 j0) with (madd C (mscale s2 mid)). fold Di.
  assert (E : mmul d (mscale F C) (mmul d Di (mscale F C)) i j = F ^ 2 * mmul d C (mmul d Di C) i j).
  { rewrite mmul_scale_l. rewrite (mmul_proper d C C (reflexivity _) (mmul d Di (mscale F C)) (mscale F (mmul d Di C))) by (try assumption; intros a b _ _; unfold mscale at 2; apply mmul_scale_r).
    rewrite mmul_scale_r. ring. }
  rewrite E. ring.
Qed.

Theorem csgm_drift_exact d sde T m C inv s2 y0 u t r : symmetric d C ->
  inverse_at d (fwd_cov sde C) inv (T - t) ->
  meq d (mmul d (inv (madd C (mscale s2 mid))) (madd C (mscale s2 mid))) mid ->
  inverse_at d (fwd_cov sde (gp_cov d C inv s2)) inv (T - t) ->
  csgm_drift d sde T m C inv s2 y0 u t r ->
  veq d r (reverse_drift d (vdrift sde) (Sde.dispersion sde) T (fwd_mean sde (post_mean d m C inv s2 y0)) (fwd_cov sde (gp_cov d C inv s2)) inv u t).
Proof.
  intros HS [IP1 IP2] ID [IG1 IG2] (lp & g & Hlp & Hg & Hr). set (s := T - t) in *. set (F := fst (Sde.FQ sde s 0)) in *.
  set (P := fwd_cov sde C s) in *. set (Pi := inv P) in *. set (D := madd C (mscale s2 mid)) in *. set (Di := inv D) in *.
  set (G := fwd_cov sde (gp_cov d C inv s2) s) in *. set (Gi := inv G) in *. set (B := mscale F C) in *.
  set (Sy := csgm_cond_cov d F C Pi s2) in *.
  assert (HPi : symmetric d Pi) by (apply (inverse_symmetric d P); try assumption; now apply fwd_cov_symmetric).
  destruct (gauss_logpdf_posdef _ _ _ _ _ (Hlp u)) as [SS SP]. destruct (posdef_inverse d Sy SS SP) as (Syi & IS1 & IS2 & _).
  set (J := mmul d B Pi).
  assert (HM : forall x, veq d (csgm_cond_mean d F m C Pi x) (vadd (vsub m (mvec d J (vscale F m))) (mvec d J x))).
  { intros x. unfold csgm_cond_mean. fold B. rewrite (mvec_mul d B Pi). fold J. rewrite mvec_sub_r. intros i Hi. unfold vadd, vsub. ring. }
  assert (Hlp' : forall x, gauss_logpdf d (vadd (vsub m (mvec d J (vscale F m))) (mvec d J x)) Sy y0 (lp x)).
  { intros x. eapply gauss_logpdf_transport; [apply HM|reflexivity|reflexivity|apply Hlp]. }
  pose proof (is_grad_unique d lp u _ _ Hg (is_grad_gauss d _ J Sy Syi y0 lp u Hlp' IS1 IS2)) as Eg.
  pose proof (bayes_score d P Pi D Di B G Gi Sy Syi (vsub u (vscale F m)) (vsub y0 m) (symmetric_scale d F C HS) HPi IP2 ID IG1 IS2
    (csgm_G d sde C inv s2 s) (reflexivity _)) as Hb. cbv zeta in Hb. fold J in Hb.
  rewrite Hr. unfold reverse_drift, score. fold s. fold G. fold Gi.
  assert (E1 : veq d (vsub y0 (vadd (vsub m (mvec d J (vscale F m))) (mvec d J u))) (vsub (vsub y0 m) (mvec d J (vsub u (vscale F m))))).
  { rewrite mvec_sub_r. intros i Hi. unfold vadd, vsub. ring. }
  assert (E2 : veq d (vsub u (fwd_mean sde (post_mean d m C inv s2 y0) s)) (vsub (vsub u (vscale F m)) (mvec d B (mvec d Di (vsub y0 m))))).
  { unfold fwd_mean, post_mean, gp_mean. fold F. fold D. fold Di. unfold B. rewrite mvec_mscale. intros i Hi. unfold vadd, vsub, vscale. ring. }
  assert (E3 : veq d (vadd (vscale (-(1)) (mvec d Pi (vsub u (vscale F m)))) g) (vscale (-(1)) (mvec d Gi (vsub u (fwd_mean sde (post_mean d m C inv s2 y0) s))))).
  { rewrite E2, <- Hb, Eg, E1. reflexivity. }
  now rewrite E3.
Qed.

(** Terminal reference law of gp_csgm.py: the right moments ... *)
Theorem csgm_ref_exact d sde T m C inv s2 y0 :
  veq d (csgm_ref_mean d sde T m C inv s2 y0) (fwd_mean sde (post_mean d m C inv s2 y0) T) /\
  meq d (csgm_ref_cov d sde T C inv s2) (fwd_cov sde (gp_cov d C inv s2) T).
Proof.
  split.
  - unfold csgm_ref_mean, fwd_mean, post_mean, gp_mean. rewrite mvec_mscale. intros i Hi. unfold vadd, vscale. ring.
  - rewrite csgm_G. unfold csgm_ref_cov, fwd_cov. destruct (Sde.FQ sde T 0) as [F Q]. reflexivity.
Qed.
(** ... but the draws have covariance C C instead of C. *)
Theorem csgm_ref_draw_cov d m C law : symmetric d C -> standard d law ->
  has_mean d (dmap (csgm_ref_draw d m C) law) m /\ has_cov d (dmap (csgm_ref_draw d m C) law) m (mmul d C C).
Proof.
  intros HS Hl. destruct (col_draw_moments d m C law Hl) as [H1 H2]. split; [exact H1|].
  intros i j Hi Hj. rewrite <- (mmul_proper d C C (reflexivity _) (mtr C) C HS i j Hi Hj). now apply H2.
Qed.
Theorem csgm_ref_draw_iff d m C law : symmetric d C -> posdef d C -> standard d law ->
  (has_cov d (dmap (csgm_ref_draw d m C) law) m C <-> meq d C mid).
Proof.
  intros HS HP Hl. destruct (csgm_ref_draw_cov d m C law HS Hl) as [_ H]. split.
  - intros H'. pose proof (has_cov_unique _ _ _ _ _ H H') as E. destruct (posdef_inverse d C HS HP) as (Ci & I1 & I2 & _).
    transitivity (mmul d Ci (mmul d C C)); [now rewrite mmul_assoc, I1, mmul_1_l|]. now rewrite E, I1.
  - intros E i j Hi Hj. rewrite (H i j Hi Hj). refine ((_ : meq d (mmul d C C) C) i j Hi Hj). rewrite E at 1. now rewrite mmul_1_l.
Qed.
