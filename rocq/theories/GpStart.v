(** experiments/sb/filter.py, gibbs.py: the exact GP posterior and the draw from it that [--x0 proper] uses. *)
From Coquelicot Require Import Coquelicot.
From Coq Require Import Reals List Lia Lra Morphisms Setoid.
From Verif Require Import Base Dist Mat MatMore Expm Lti Cholesky GaussDiv GaussCond GaussSB GaussSBMore Toy ToyCond ToyMore ToyRef.
Import ListNotations.
Open Scope R_scope.

(** sb/filter.py:43-48 (sb/gibbs.py the same): cov_mat = C, [chol = cho_factor(cov_mat + obs_var * eye(d))], posterior mean and covariance.
    The draw of lines 51-52, [gp_posterior_mean + normal @ gp_posterior_chol], is [row_draw] with the Cholesky factor. *)
Definition gp_posterior (d : nat) (C : mat) (obs_var : R) (y0 m_ : vec) (cov_ : mat) : Prop :=
  exists U sol X, cho_factor d (madd C (mscale obs_var mid)) U /\ cho_solve_v d U y0 sol /\ cho_solve d U C X /\
    veq d m_ (mvec d C sol) /\ meq d cov_ (msub C (mmul d C X)).

Lemma gp_posterior_diagonal d C s2 y m_ cov_ : 0 < s2 -> gp_posterior d C s2 y m_ cov_ ->
  (forall i j, (i < d)%nat -> (j < d)%nat -> i <> j -> cov_ i j = 0) -> forall i j, (i < d)%nat -> (j < d)%nat -> i <> j -> C i j = 0.
Proof.
  intros Hs (U & sol & X & (_ & _ & HU) & _ & HX & _ & HC) Hdiag i j Hi Hj Hij.
  unfold cho_solve in HX. rewrite HU in HX.
  assert (E : forall p q, (p < d)%nat -> (q < d)%nat -> mmul d C X p q + s2 * X p q = C p q).
  { intros p q Hp Hq. rewrite <- (HX p q Hp Hq). unfold mmul at 2. rewrite (Rsum_map_ext _ (fun k => C p k * X k q + s2 * (mid p k * X k q))) by (intros; unfold madd, mscale; ring).
    rewrite Rsum_map_plus, Rsum_map_mult_l. f_equal. change (Rsum (map (fun k => mid p k * X k q) (seq 0 d))) with (mmul d mid X p q). rewrite mmul_id_l by exact Hp. reflexivity. }
  assert (Xd : forall p q, (p < d)%nat -> (q < d)%nat -> p <> q -> X p q = 0).
  { intros p q Hp Hq Hpq. pose proof (Hdiag p q Hp Hq Hpq) as K. rewrite (HC p q Hp Hq) in K. unfold msub in K. pose proof (E p q Hp Hq) as K2. apply Rmult_eq_reg_l with s2; lra. }
  assert (AX : forall p q, (p < d)%nat -> (q < d)%nat -> mmul d C X p q = C p q * X q q).
  { intros p q Hp Hq. unfold mmul. rewrite (Rsum_map_ext _ (fun k => (if Nat.eqb k q then 1 else 0) * (C p k * X k q))); [now rewrite (Rsum_indicator d q (fun k => C p k * X k q) Hq)|].
    intros k Hk. apply in_seq in Hk. destruct (Nat.eqb_spec k q) as [ ->|Hne]; [ring|]. rewrite (Xd k q) by lia. ring. }
  destruct (Req_dec (C i j) 0) as [|Hc]; [assumption|exfalso].
  pose proof (E i j Hi Hj) as E1. rewrite AX, (Xd i j) in E1 by assumption.
  assert (X1 : X j j = 1) by (apply Rmult_eq_reg_l with (C i j); [lra|exact Hc]).
  pose proof (E j j Hj Hj) as E2. rewrite AX, X1 in E2 by assumption. lra.
Qed.
Theorem gp_start_wrong d sigma ell s2 y m_ cov_ L law : (2 <= d)%nat -> 0 < sigma -> 0 < ell -> 0 < s2 ->
  gp_posterior d (cov_fn sigma ell (zs_grid d) (zs_grid d)) s2 y m_ cov_ -> cholesky d cov_ L -> standard d law ->
  ~ has_cov d (dmap (row_draw d m_ L) law) m_ cov_.
Proof.
  intros H2 Hs He Hs2 HR HL Hlaw H. pose proof (proj1 (row_draw_iff d m_ cov_ L law HL Hlaw) H) as K.
  pose proof (gp_posterior_diagonal d _ s2 y m_ cov_ Hs2 HR K 0%nat 1%nat ltac:(lia) ltac:(lia) ltac:(lia)) as Z. revert Z. unfold cov_fn.
  apply Rmult_integral_contrapositive_currified; [apply pow_nonzero; lra|]. apply Rgt_not_eq, exp_pos.
Qed.
(** it is the conditional law of the joint covariance of function and observations, so it exists and is positive definite *)
Lemma gp_posterior_ref d C s2 y m_ cov_ : ref_moments d (fun _ => 0) (joint_cov d C s2) y m_ cov_ -> gp_posterior d C s2 y m_ cov_.
Proof.
  intros (U & sol & X & HU & Hs & HX & Hm & HC). exists U, sol, X.
  assert (S1 : meq d (m_hh d (joint_cov d C s2)) (madd C (mscale s2 mid))).
  { intros p q Hp Hq. unfold joint_cov, m_hh, madd, mscale. blk_cases. replace (d + p - d)%nat with p by lia. replace (d + q - d)%nat with q by lia. reflexivity. }
  assert (S2 : meq d (m_hl d (joint_cov d C s2)) C) by (intros p q Hp Hq; unfold joint_cov, m_hl; blk_cases; replace (d + p - d)%nat with p by lia; reflexivity).
  assert (S3 : meq d (m_lh d (joint_cov d C s2)) C) by (intros p q Hp Hq; unfold joint_cov, m_lh; blk_cases; replace (d + q - d)%nat with q by lia; reflexivity).
  assert (S4 : meq d (joint_cov d C s2) C) by (intros p q Hp Hq; unfold joint_cov; blk_cases; reflexivity).
  destruct HU as (U1 & U2 & U3). split; [split; [exact U1|split; [exact U2|]]; rewrite U3; exact S1|].
  split.
  { unfold cho_solve_v in *. intros i Hi. rewrite (Hs i Hi). unfold vsub, vhi. ring. }
  split; [unfold cho_solve in *; rewrite HX; exact S2|]. split.
  - intros i Hi. rewrite (Hm i Hi). unfold vadd. rewrite Rplus_0_l. unfold mvec. apply Rsum_map_ext. intros k Hk. apply in_seq in Hk. rewrite (S3 i k) by lia. reflexivity.
  - rewrite HC, S3, S4. reflexivity.
Qed.
Theorem gp_posterior_exists d sigma ell s2 y : 0 < sigma -> 0 < ell -> 0 < s2 ->
  exists m_ cov_ L, gp_posterior d (cov_fn sigma ell (zs_grid d) (zs_grid d)) s2 y m_ cov_ /\ cholesky d cov_ L.
Proof.
  intros Hs He Hs2. destruct (cov_fn_posdef d sigma ell (zs_grid d) Hs He (zs_grid_increasing d)) as [C1 C2]. destruct (joint_cov_posdef d _ s2 C1 C2 Hs2) as [J1 J2].
  destruct (ref_moments_total d (fun _ => 0) (joint_cov d (cov_fn sigma ell (zs_grid d) (zs_grid d)) s2) y J1 J2) as (m_ & cov_ & A & B1 & B2 & _).
  destruct (cholesky_exists d cov_ B1 B2) as (L & L1 & L2 & L3). exists m_, cov_, L. split; [now apply gp_posterior_ref|]. repeat split; assumption.
Qed.
