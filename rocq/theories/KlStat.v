(** The KL column of tabulate_toy.py: bounds on fbs/utils.py kl by the errors of the moments, and its value on independent samples. *)
From Coquelicot Require Import Coquelicot.
From Coq Require Import Reals List Lia Lra Morphisms Setoid.
From Verif Require Import Base Dist Prog FinLaw Mat MatMore Cholesky ResVariance GaussDiv Bures Spectral CholFun SbTotal BuresBound ScriptRuns SampleStats BuresStat.
From Verif Require EmConverge.
Import ListNotations.
Open Scope R_scope.

Definition inverse_of (d : nat) (C I : mat) : Prop := symmetric d I /\ meq d (mmul d C I) mid /\ meq d (mmul d I C) mid.

(** the inverse by the Cholesky factor *)
Definition cho_inverse (d : nat) (U : mat) : mat := mmul d (mtr (tri_inv (mtr U))) (tri_inv (mtr U)).
Lemma cho_inverse_ok d C U : cho_factor d C U -> inverse_of d C (cho_inverse d U).
Proof.
  intros H. destruct (cho_factor_tr _ _ _ H) as (A1 & A2 & A3). unfold cho_inverse. set (L := mtr U) in *. split; [|split].
  - unfold symmetric. rewrite mtr_mul. reflexivity.
  - rewrite <- A3. rewrite <- (mmul_assoc d L (mtr L)). rewrite (mmul_assoc d (mtr L) (mtr (tri_inv L))). rewrite <- mtr_mul, tri_inv_left, mtr_mid, mmul_1_l by assumption. now apply tri_inv_right.
  - rewrite <- A3. rewrite <- (mmul_assoc d (mtr (tri_inv L)) (tri_inv L)). rewrite (mmul_assoc d (tri_inv L) L (mtr L)). rewrite (tri_inv_left d L A1 A2), mmul_1_l. rewrite <- mtr_mul, tri_inv_right, mtr_mid by assumption. reflexivity.
Qed.

Lemma solve_inverse d C U B X : cho_factor d C U -> cho_solve d U B X -> meq d X (mmul d (cho_inverse d U) B).
Proof. intros H HX. destruct (cho_factor_tr _ _ _ H) as (A1 & A2 & A3). rewrite (cho_solve_val d U B X A1 (proj1 (proj2 H)) HX). unfold cho_inverse. now rewrite mmul_assoc. Qed.
Lemma solve_v_inverse d C U b x : cho_factor d C U -> cho_solve_v d U b x -> veq d x (mvec d (cho_inverse d U) b).
Proof. intros H HX. destruct (cho_factor_tr _ _ _ H) as (A1 & A2 & A3). rewrite (cho_solve_v_val d U b x A1 (proj1 (proj2 H)) HX). unfold cho_inverse. now rewrite mvec_mul. Qed.
Lemma inverse_solves d C U B : cho_factor d C U -> cho_solve d U B (mmul d (cho_inverse d U) B).
Proof. intros H. unfold cho_solve. destruct (cho_inverse_ok d C U H) as (_ & I1 & _). destruct H as (_ & _ & H). rewrite H, mmul_assoc, I1. apply mmul_1_l. Qed.
Lemma inverse_solves_v d C U b : cho_factor d C U -> cho_solve_v d U b (mvec d (cho_inverse d U) b).
Proof. intros H. unfold cho_solve_v. destruct (cho_inverse_ok d C U H) as (_ & I1 & _). destruct H as (_ & _ & H). rewrite H, mvec_mul, I1. apply mvec_id. Qed.

(** kl against the sum with its reverse, whose log-determinants cancel *)
Lemma kl_jeffreys d m0 c0 m1 c1 r : kl_returns d m0 c0 m1 c1 r -> exists U0 U1, cho_factor d c0 U0 /\ cho_factor d c1 U1 /\
  let I0 := cho_inverse d U0 in let I1 := cho_inverse d U1 in
  quad d I1 (vsub m1 m0) <= r <= mtrace d (mmul d I1 c0) + mtrace d (mmul d I0 c1) - 2 * INR d + quad d I1 (vsub m1 m0) + quad d I0 (vsub m0 m1).
Proof.
  intros (U0 & U1 & X & x & H0 & H1 & HX & Hx & Er). exists U0, U1. split; [exact H0|]. split; [exact H1|]. intros I0 I1.
  assert (E1 : mtrace d X = mtrace d (mmul d I1 c0)) by (apply mtrace_proper; now apply (solve_inverse d c1)).
  assert (E2 : dot d (vsub m1 m0) x = quad d I1 (vsub m1 m0)) by (rewrite quad_dot; apply EmConverge.dot_ext; [reflexivity|now apply (solve_v_inverse d c1)]).
  assert (K0 : kl_returns d m0 c0 m0 c1 (r - quad d I1 (vsub m1 m0))).
  { exists U0, U1, X, (fun _ => 0). split; [exact H0|]. split; [exact H1|]. split; [exact HX|]. split.
    - intros i Hi. unfold mvec, vsub. rewrite (Rsum_map_ext _ (fun _ => 0)) by (intros; ring). rewrite Rsum_map_const. ring.
    - rewrite Er, E2. assert (dot d (vsub m0 m0) (fun _ => 0) = 0). { unfold dot. rewrite (Rsum_map_ext _ (fun _ => 0)) by (intros; ring). rewrite Rsum_map_const. ring. } lra. }
  assert (K1 : kl_returns d m1 c1 m0 c0 (mtrace d (mmul d I0 c1) - INR d + dot d (vsub m0 m1) (mvec d I0 (vsub m0 m1)) + log_det d U0 - log_det d U1)).
  { exists U1, U0, (mmul d I0 c1), (mvec d I0 (vsub m0 m1)). split; [exact H1|]. split; [exact H0|]. split; [now apply (inverse_solves d c0)|]. split; [now apply (inverse_solves_v d c0)|reflexivity]. }
  apply kl_nonneg in K0. apply kl_nonneg in K1. rewrite <- quad_dot in K1. rewrite E1, E2 in Er. lra.
Qed.

Lemma dot_lin d al x y : dot d (fun k => al * x k) y = al * dot d x y.
Proof. unfold dot. rewrite <- Rsum_map_mult_l. apply Rsum_map_ext. intros; ring. Qed.
Lemma dot_amgm d lam x y : 0 < lam -> 2 * dot d x y <= dot d x x / lam + lam * dot d y y.
Proof.
  intros Hl. unfold dot, Rdiv. rewrite (Rmult_comm _ (/ lam)), <- !Rsum_map_mult_l, <- Rsum_map_plus. apply sum_mono. intros i _.
  assert (H : 0 <= / lam * (x i - lam * y i) ^ 2) by (apply Rmult_le_pos; [left; now apply Rinv_0_lt_compat|apply pow2_ge_0]).
  replace (/ lam * (x i - lam * y i) ^ 2) with (/ lam * (x i * x i) + lam * (y i * y i) - 2 * (x i * y i)) in H by (field; lra). lra.
Qed.
Lemma dot_cauchy d a x : dot d a x ^ 2 <= dot d a a * dot d x x.
Proof.
  assert (Hs : symmetric d mid) by (apply mtr_mid). assert (Hp : psd d mid). { intros z. rewrite quad_dot. rewrite (EmConverge.dot_ext d z (mvec d mid z) z z) by (reflexivity || apply mvec_id). apply dot_self_nonneg. }
  pose proof (EmConverge.quad_cauchy_schwarz d mid a x Hs Hp) as H. rewrite !quad_dot in H.
  rewrite (EmConverge.dot_ext d a (mvec d mid x) a x), (EmConverge.dot_ext d a (mvec d mid a) a a), (EmConverge.dot_ext d x (mvec d mid x) x x) in H by (reflexivity || apply mvec_id). exact H.
Qed.

Lemma inverse_upper d C I lam : 0 < lam -> (forall x, lam * dot d x x <= quad d C x) -> inverse_of d C I -> forall x, quad d I x <= dot d x x / lam.
Proof.
  intros Hl HC (HS & H1 & H2) x. rewrite quad_dot. set (y := mvec d I x). specialize (HC y). rewrite quad_dot in HC.
  assert (Ey : veq d (mvec d C y) x) by (unfold y; rewrite mvec_mul, H1; apply mvec_id).
  rewrite (EmConverge.dot_ext d y (mvec d C y) y x) in HC by (reflexivity || exact Ey). rewrite (dot_comm d y x) in HC. pose proof (dot_amgm d lam x y Hl). lra.
Qed.
Lemma inverse_lower d C I Lam : 0 < Lam -> symmetric d C -> psd d C -> (forall x, quad d C x <= Lam * dot d x x) -> inverse_of d C I -> forall x, dot d x x / Lam <= quad d I x.
Proof.
  intros HL SC PC HC (HS & H1 & H2) x. set (y := mvec d I x). assert (Ey : veq d (mvec d C y) x) by (unfold y; rewrite mvec_mul, H1; apply mvec_id).
  pose proof (EmConverge.quad_cauchy_schwarz d C x y SC PC) as H. rewrite (EmConverge.dot_ext d x (mvec d C y) x x) in H by (reflexivity || exact Ey).
  assert (Eq : quad d C y = quad d I x). { rewrite !quad_dot. rewrite (EmConverge.dot_ext d y (mvec d C y) y x) by (reflexivity || exact Ey). apply dot_comm. }
  rewrite Eq in H. pose proof (dot_self_nonneg d x) as Hx. specialize (HC x).
  assert (Hq : 0 <= quad d I x) by (rewrite <- Eq; apply PC).
  destruct (Req_dec (dot d x x) 0) as [E0|E0]; [rewrite E0; unfold Rdiv; lra|].
  apply Rmult_le_reg_r with Lam; [exact HL|]. replace (dot d x x / Lam * Lam) with (dot d x x) by (field; lra).
  apply Rmult_le_reg_l with (dot d x x); [lra|].
  assert (quad d C x * quad d I x <= Lam * dot d x x * quad d I x) by now apply Rmult_le_compat_r. nra.
Qed.

Lemma frob_mvec d A x : dot d (mvec d A x) (mvec d A x) <= frob d A * dot d x x.
Proof.
  rewrite dot_self. unfold frob. rewrite <- Rsum_map_mult_r. apply sum_mono. intros i _.
  pose proof (dot_cauchy d (A i) x) as H. rewrite (dot_self d (A i)) in H. exact H.
Qed.
Lemma trace_conj_upper d A W mu : (forall x, quad d A x <= mu * dot d x x) -> mtrace d (mmul d (mtr W) (mmul d A W)) <= mu * frob d W.
Proof.
  intros H. rewrite trace_conj. unfold frob. rewrite Rsum_exchange. rewrite <- Rsum_map_mult_l. apply sum_mono. intros i _. rewrite <- (dot_self d (fun k => W k i)). apply H.
Qed.

(** tr (I1 c0) + tr (I0 c1) - 2 d = tr (I1 (c0 - c1) I0 (c0 - c1)) *)
Lemma jeffreys_trace d c0 c1 I0 I1 : inverse_of d c0 I0 -> inverse_of d c1 I1 -> let Dl := msub c0 c1 in
  mtrace d (mmul d I1 c0) + mtrace d (mmul d I0 c1) - 2 * INR d = mtrace d (mmul d (mmul d I1 Dl) (mmul d I0 Dl)).
Proof.
  intros (S0 & A1 & A2) (S1 & B1 & B2) Dl.
  assert (E1 : meq d (mmul d I1 Dl) (msub (mmul d I1 c0) mid)). { intros i j Hi Hj. unfold Dl. rewrite mmul_sub_r. unfold msub. now rewrite (B2 i j Hi Hj). }
  assert (E0 : meq d (mmul d I0 Dl) (msub mid (mmul d I0 c1))). { intros i j Hi Hj. unfold Dl. rewrite mmul_sub_r. unfold msub. now rewrite (A2 i j Hi Hj). }
  rewrite E1, E0.
  assert (E2 : meq d (mmul d (msub (mmul d I1 c0) mid) (msub mid (mmul d I0 c1))) (madd (msub (mmul d I1 c0) mid) (msub (mmul d I0 c1) mid))).
  { intros i j Hi Hj. rewrite mmul_sub_r. rewrite (mmul_1_r d (msub (mmul d I1 c0) mid) i j Hi Hj). rewrite mmul_sub_l.
    assert (E3 : meq d (mmul d (mmul d I1 c0) (mmul d I0 c1)) mid). { rewrite (mmul_assoc d (mmul d I1 c0) I0 c1). rewrite <- (mmul_assoc d I1 c0 I0), A1, mmul_1_r. exact B2. }
    rewrite (E3 i j Hi Hj), (mmul_1_l d (mmul d I0 c1) i j Hi Hj). unfold madd, msub. ring. }
  rewrite E2, mtrace_add, !mtrace_sub, mtrace_id. ring.
Qed.

Lemma jeffreys_bound d c0 c1 U0 U1 lam lam' : symmetric d c0 -> symmetric d c1 -> cho_factor d c0 U0 -> cho_factor d c1 U1 -> 0 < lam -> 0 < lam' ->
  (forall x, lam * dot d x x <= quad d c0 x) -> (forall x, lam' * dot d x x <= quad d c1 x) ->
  mtrace d (mmul d (cho_inverse d U1) c0) + mtrace d (mmul d (cho_inverse d U0) c1) - 2 * INR d <= frob d (msub c1 c0) / (lam * lam').
Proof.
  intros S0 S1 H0 H1 Hl Hl' P0 P1. pose proof (cho_inverse_ok _ _ _ H0) as J0. pose proof (cho_inverse_ok _ _ _ H1) as J1.
  rewrite (jeffreys_trace d c0 c1 _ _ J0 J1). set (I0 := cho_inverse d U0) in *. set (I1 := cho_inverse d U1) in *. set (Dl := msub c0 c1).
  assert (SD : meq d (mtr Dl) Dl). { intros i j Hi Hj. specialize (S0 i j Hi Hj). specialize (S1 i j Hi Hj). unfold Dl, mtr, msub in *. now rewrite S0, S1. }
  set (V := tri_inv (mtr U1)). set (N := mmul d Dl (mtr V)).
  assert (EI : I1 = mmul d (mtr V) V) by reflexivity.
  assert (ET : mtrace d (mmul d (mmul d I1 Dl) (mmul d I0 Dl)) = mtrace d (mmul d (mtr N) (mmul d I0 N))).
  { unfold N. rewrite mtr_mul, SD. change (mtr (mtr V)) with V. rewrite EI.
    rewrite <- (mmul_assoc d (mtr V) V Dl). rewrite <- (mmul_assoc d (mtr V) (mmul d V Dl)). rewrite mtrace_comm. rewrite !mmul_assoc. reflexivity. }
  rewrite ET.
  assert (B1 : mtrace d (mmul d (mtr N) (mmul d I0 N)) <= / lam * frob d N). { apply trace_conj_upper. intros x. pose proof (inverse_upper d c0 I0 lam Hl P0 J0 x) as H. unfold Rdiv in H. lra. }
  assert (EN : frob d N = mtrace d (mmul d (mtr Dl) (mmul d I1 Dl))).
  { unfold frob. rewrite <- mtrace_gram. unfold N. rewrite mtr_mul. change (mtr (mtr V)) with V. rewrite EI, SD. rewrite !mmul_assoc. reflexivity. }
  assert (B2 : frob d N <= / lam' * frob d Dl). { rewrite EN. apply trace_conj_upper. intros x. pose proof (inverse_upper d c1 I1 lam' Hl' P1 J1 x) as H. unfold Rdiv in H. lra. }
  assert (EF : frob d Dl = frob d (msub c1 c0)). { unfold frob. apply Rsum_map_ext. intros i _. apply Rsum_map_ext. intros j _. unfold Dl, msub. ring. }
  rewrite EF in B2. apply Rle_trans with (/ lam * (/ lam' * frob d (msub c1 c0))); [|right; field; split; lra].
  eapply Rle_trans; [exact B1|]. apply Rmult_le_compat_l; [left; now apply Rinv_0_lt_compat|exact B2].
Qed.

Lemma quad_msub d A B x : quad d (msub A B) x = quad d A x - quad d B x.
Proof.
  unfold quad, mvec, msub. rewrite (Rsum_map_ext _ (fun i => x i * Rsum (map (fun k => A i k * x k) (seq 0 d)) + (-1) * (x i * Rsum (map (fun k => B i k * x k) (seq 0 d))))).
  - rewrite Rsum_map_plus, Rsum_map_mult_l. ring.
  - intros i _. rewrite (Rsum_map_ext (fun k => (A i k - B i k) * x k) (fun k => A i k * x k + (-1) * (B i k * x k))) by (intros; ring). rewrite Rsum_map_plus, Rsum_map_mult_l. ring.
Qed.

(** close covariances differ little as quadratic forms *)
Lemma quad_close d c0 c1 lam x : 0 < lam -> frob d (msub c1 c0) <= lam ^ 2 / 4 -> Rabs (quad d c1 x - quad d c0 x) <= lam / 2 * dot d x x.
Proof.
  intros Hl HF. rewrite <- quad_msub, quad_dot. set (y := mvec d (msub c1 c0) x).
  assert (Hy : dot d y y <= lam ^ 2 / 4 * dot d x x). { eapply Rle_trans; [apply frob_mvec|]. apply Rmult_le_compat_r; [apply dot_self_nonneg|exact HF]. }
  assert (H1 := dot_amgm d (lam / 2) y x ltac:(lra)). assert (H2 := dot_amgm d (lam / 2) (fun k => (-1) * y k) x ltac:(lra)).
  rewrite !dot_lin, (dot_comm d y (fun k => -1 * y k)), dot_lin in H2. rewrite (dot_comm d y x) in *.
  assert (H3 : dot d y y / (lam / 2) <= lam / 2 * dot d x x).
  { apply Rmult_le_reg_r with (lam / 2); [lra|]. replace (dot d y y / (lam / 2) * (lam / 2)) with (dot d y y) by (field; lra). lra. }
  apply Rabs_le. replace (-1 * (-1 * dot d y y) / (lam / 2)) with (dot d y y / (lam / 2)) in H2 by (field; lra). lra.
Qed.

Section bounds.
Context (d : nat) (c0 c1 : mat) (lam : R).
Hypothesis (S0 : symmetric d c0) (Hl : 0 < lam) (P0 : forall x, lam * dot d x x <= quad d c0 x) (S1 : symmetric d c1) (HF : frob d (msub c1 c0) <= lam ^ 2 / 4).

Lemma close_lower x : lam / 2 * dot d x x <= quad d c1 x.
Proof using Hl P0 HF. pose proof (quad_close d c0 c1 lam x Hl HF) as H. apply Rabs_le_between in H. specialize (P0 x). lra. Qed.

Theorem kl_defined m0 m1 : exists r, kl_returns d m0 c0 m1 c1 r.
Proof using S0 Hl P0 S1 HF.
  apply kl_total; try assumption; [exact (lower_posdef d c0 lam Hl P0)|]. apply (lower_posdef d c1 (lam / 2)); [lra|exact close_lower].
Qed.

Theorem kl_upper m0 m1 r : kl_returns d m0 c0 m1 c1 r -> r <= 2 * frob d (msub c1 c0) / lam ^ 2 + 3 / lam * Rsum (map (fun i => (m0 i - m1 i) ^ 2) (seq 0 d)).
Proof using S0 Hl P0 S1 HF.
  intros Hr. destruct (kl_jeffreys _ _ _ _ _ _ Hr) as (U0 & U1 & H0 & H1 & _ & HU). eapply Rle_trans; [exact HU|].
  pose proof (jeffreys_bound d c0 c1 U0 U1 lam (lam / 2) S0 S1 H0 H1 Hl ltac:(lra) P0 close_lower) as HJ.
  pose proof (inverse_upper d c1 _ (lam / 2) ltac:(lra) close_lower (cho_inverse_ok _ _ _ H1) (vsub m1 m0)) as Q1.
  pose proof (inverse_upper d c0 _ lam Hl P0 (cho_inverse_ok _ _ _ H0) (vsub m0 m1)) as Q0.
  rewrite dot_self in Q0, Q1. set (s := Rsum (map (fun i => (m0 i - m1 i) ^ 2) (seq 0 d))).
  assert (E0 : Rsum (map (fun i => vsub m0 m1 i ^ 2) (seq 0 d)) = s) by reflexivity.
  assert (E1 : Rsum (map (fun i => vsub m1 m0 i ^ 2) (seq 0 d)) = s) by (apply Rsum_map_ext; intros i _; unfold vsub; ring).
  rewrite E0 in Q0. rewrite E1 in Q1.
  replace (frob d (msub c1 c0) / (lam * (lam / 2))) with (2 * frob d (msub c1 c0) / lam ^ 2) in HJ by (field; lra).
  replace (3 / lam * s) with (s / (lam / 2) + s / lam) by (field; lra). lra.
Qed.

Theorem kl_lower Lam m0 m1 r : 0 < Lam -> (forall x, quad d c0 x <= Lam * dot d x x) -> kl_returns d m0 c0 m1 c1 r ->
  Rsum (map (fun i => (m0 i - m1 i) ^ 2) (seq 0 d)) / (Lam + lam / 2) <= r.
Proof using S0 Hl P0 S1 HF.
  intros HL HU Hr. destruct (kl_jeffreys _ _ _ _ _ _ Hr) as (U0 & U1 & H0 & H1 & HQ & _). eapply Rle_trans; [|exact HQ].
  assert (E1 : Rsum (map (fun i => (m0 i - m1 i) ^ 2) (seq 0 d)) = dot d (vsub m1 m0) (vsub m1 m0)) by (rewrite dot_self; apply Rsum_map_ext; intros i _; unfold vsub; ring).
  rewrite E1. apply (inverse_lower d c1); [lra|exact S1| | |exact (cho_inverse_ok _ _ _ H1)].
  - intros x. pose proof (close_lower x). pose proof (dot_self_nonneg d x). assert (0 <= lam / 2 * dot d x x) by (apply Rmult_le_pos; lra). lra.
  - intros x. pose proof (quad_close d c0 c1 lam x Hl HF) as H. apply Rabs_le_between in H. specialize (HU x). lra.
Qed.
End bounds.

(** ** The column *)
(** tabulate_toy.py 54-59: [r] is kl of the reference moments and the sample moments where it has a value *)
Definition kl_column (d n : nat) (gp_mean : vec) (gp_cov : mat) (r : list vec -> R) : Prop :=
  forall l, length l = n -> (exists v, kl_returns d gp_mean gp_cov (approx_mean l) (approx_cov l) v) -> kl_returns d gp_mean gp_cov (approx_mean l) (approx_cov l) (r l).

Definition cov_ok (d : nat) (lam : R) (gp_cov : mat) (l : list vec) : bool := if Rle_dec (frob d (msub (approx_cov l) gp_cov)) (lam ^ 2 / 4) then true else false.

Section stat.
  Context (d n : nat) (D : dist vec) (B : R).
  Hypothesis (HD : is_prob D) (HB : 0 <= B) (Hb : forall x, In x (map snd D) -> forall i, (i < d)%nat -> Rabs (x i - mean_vec D i) <= B) (Hn : (2 <= n)%nat).
  Context (gp_mean : vec) (gp_cov : mat) (lam : R) (r : list vec -> R) (sampler : key -> prog vec).
  Hypothesis (GS : symmetric d gp_cov) (Hl : 0 < lam) (GP : forall x, lam * dot d x x <= quad d gp_cov x) (Hr : kl_column d n gp_mean gp_cov r) (Hs : forall k, denotes (sampler k) D).
  Let eC := frob d (msub (cov_mat D) gp_cov) + 16 * INR d ^ 2 * B ^ 4 / INR n.
  Let eM := Rsum (map (fun i => (gp_mean i - mean_vec D i) ^ 2) (seq 0 d)) + mtrace d (cov_mat D) / INR n.

  Lemma frob_err : E (dseq (repeat D n)) (fun l => frob d (msub (approx_cov l) gp_cov)) <= eC.
  Proof using HD HB Hb Hn.
    pose proof (frob_error d n D B HD HB Hb Hn gp_cov) as H. unfold eC. replace (16 * INR d ^ 2 * B ^ 4 / INR n) with (INR d ^ 2 * (16 * B ^ 4 / INR n)) by (unfold Rdiv; ring). exact H.
  Qed.

  (** the column has a value with probability at least 1 - 4 eC / lam^2 ... *)
  Theorem column_defined k : law (sample_loop sampler k n) (fun l => if cov_ok d lam gp_cov l then 0 else 1) <= 4 * eC / lam ^ 2 /\
    forall l, length l = n -> cov_ok d lam gp_cov l = true -> kl_returns d gp_mean gp_cov (approx_mean l) (approx_cov l) (r l).
  Proof using HD HB Hb Hn GS Hl GP Hr Hs.
    split.
    - rewrite (sample_loop_denotes sampler D Hs n k _). apply Rle_trans with (E (dseq (repeat D n)) (fun l => 4 / lam ^ 2 * frob d (msub (approx_cov l) gp_cov))).
      + apply E_le; [apply (W_prob n D HD)|]. intros l _. unfold cov_ok. destruct Rle_dec as [H|H].
        * apply Rmult_le_pos; [|apply frob_nonneg]. apply Rmult_le_pos; [lra|left; apply Rinv_0_lt_compat, pow_lt, Hl].
        * apply Rmult_le_reg_l with (lam ^ 2 / 4); [assert (0 < lam ^ 2) by (now apply pow_lt); lra|]. replace (lam ^ 2 / 4 * (4 / lam ^ 2 * frob d (msub (approx_cov l) gp_cov))) with (frob d (msub (approx_cov l) gp_cov)) by (field; lra). lra.
      + rewrite E_mult_l. replace (4 * eC / lam ^ 2) with (4 / lam ^ 2 * eC) by (unfold Rdiv; ring). apply Rmult_le_compat_l; [|exact frob_err]. apply Rmult_le_pos; [lra|left; apply Rinv_0_lt_compat, pow_lt, Hl].
    - intros l Hlen Hok. unfold cov_ok in Hok. destruct Rle_dec as [H|H]; [|discriminate]. apply Hr; [exact Hlen|]. apply (kl_defined d gp_cov (approx_cov l) lam); try assumption. apply (cov_psd d l); lia.
  Qed.

  (** ... and there its expectation is at most 2 eC / lam^2 + 3 eM / lam *)
  Theorem column_small k : 0 <= law (sample_loop sampler k n) (fun l => if cov_ok d lam gp_cov l then r l else 0) <= 2 * eC / lam ^ 2 + 3 / lam * eM.
  Proof using HD HB Hb Hn GS Hl GP Hr Hs.
    destruct (column_defined k) as [_ Hdef]. rewrite (sample_loop_denotes sampler D Hs n k _).
    assert (Hsup : forall l, In l (map snd (dseq (repeat D n))) -> length l = n) by (intros l Hin; now apply dseq_repeat_support in Hin as [? _]).
    split.
    - apply E_nonneg; [apply (W_prob n D HD)|]. intros l Hin. destruct (cov_ok d lam gp_cov l) eqn:Hok; [|lra]. exact (kl_nonneg _ _ _ _ _ _ (Hdef l (Hsup l Hin) Hok)).
    - apply Rle_trans with (E (dseq (repeat D n)) (fun l => 2 / lam ^ 2 * frob d (msub (approx_cov l) gp_cov) + 3 / lam * Rsum (map (fun i => (gp_mean i - approx_mean l i) ^ 2) (seq 0 d)))).
      + apply E_le; [apply (W_prob n D HD)|]. intros l Hin. destruct (cov_ok d lam gp_cov l) eqn:Hok.
        * pose proof (Hdef l (Hsup l Hin) Hok) as Hv. unfold cov_ok in Hok. destruct Rle_dec as [H|H]; [|discriminate]. specialize (Hsup l Hin).
          pose proof (kl_upper d gp_cov (approx_cov l) lam GS Hl GP (proj1 (cov_psd d l ltac:(lia))) H _ _ _ Hv) as HU. unfold Rdiv in *. lra.
        * assert (0 <= Rsum (map (fun i => (gp_mean i - approx_mean l i) ^ 2) (seq 0 d))) by (apply sum_abs_nonneg; intros i _; apply pow2_ge_0).
          apply Rplus_le_le_0_compat; apply Rmult_le_pos; try apply frob_nonneg; try assumption; apply Rmult_le_pos; try lra; left; apply Rinv_0_lt_compat; [now apply pow_lt|exact Hl].
      + rewrite E_plus, !E_mult_l, (mean_error d n D HD Hn gp_mean). fold eM. apply Rplus_le_compat_r.
        replace (2 * eC / lam ^ 2) with (2 / lam ^ 2 * eC) by (unfold Rdiv; ring). apply Rmult_le_compat_l; [|exact frob_err]. apply Rmult_le_pos; [lra|left; apply Rinv_0_lt_compat, pow_lt, Hl].
  Qed.
End stat.

(** kl is single-valued, so the column is a function of the samples *)
Lemma kl_unique d m0 c0 m1 c1 r r' : kl_returns d m0 c0 m1 c1 r -> kl_returns d m0 c0 m1 c1 r' -> r = r'.
Proof.
  intros (U0 & U1 & X & x & H0 & H1 & HX & Hx & ->) (V0 & V1 & Y & y & G0 & G1 & HY & Hy & ->).
  assert (HU : forall c U V, cho_factor d c U -> cho_factor d c V -> log_det d U = log_det d V).
  { intros c U V HU HV. destruct (cho_factor_tr _ _ _ HU) as (A1 & A2 & A3). destruct (cho_factor_tr _ _ _ HV) as (B1 & B2 & B3).
    assert (EL : meq d (mtr U) (mtr V)) by (apply cholesky_unique; try assumption; now rewrite A3, B3).
    rewrite (log_det_eq d U (proj1 (proj2 HU))), (log_det_eq d V (proj1 (proj2 HV))). f_equal. apply Rsum_map_ext. intros i Hi. apply in_seq in Hi. f_equal. apply (EL i i); lia. }
  assert (HI : meq d (cho_inverse d U1) (cho_inverse d V1)).
  { destruct (cho_inverse_ok _ _ _ H1) as (_ & _ & I2). destruct (cho_inverse_ok _ _ _ G1) as (_ & J1 & _).
    rewrite <- (mmul_1_r d (cho_inverse d U1)), <- J1, mmul_assoc, I2, mmul_1_l. reflexivity. }
  rewrite (HU c0 U0 V0 H0 G0), (HU c1 U1 V1 H1 G1). rewrite (solve_inverse d c1 U1 c0 X H1 HX), (solve_inverse d c1 V1 c0 Y G1 HY), HI.
  rewrite (EmConverge.dot_ext d (vsub m1 m0) x (vsub m1 m0) y); [reflexivity|reflexivity|].
  rewrite (solve_v_inverse d c1 U1 _ x H1 Hx), (solve_v_inverse d c1 V1 _ y G1 Hy), HI. reflexivity.
Qed.

Theorem kl_column_exists d n gp_mean gp_cov : exists r, kl_column d n gp_mean gp_cov r.
Proof.
  exists (fun l => real (Lub_Rbar (fun x => kl_returns d gp_mean gp_cov (approx_mean l) (approx_cov l) x))). intros l _ [v Hv].
  assert (E : Lub_Rbar (fun x => kl_returns d gp_mean gp_cov (approx_mean l) (approx_cov l) x) = Finite v).
  { apply is_lub_Rbar_unique. split.
    - intros x Hx. rewrite (kl_unique _ _ _ _ _ x v Hx Hv). apply Rbar_le_refl.
    - intros b H. now apply H. }
  now rewrite E.
Qed.

(** too few samples: no value (the table then shows nan) *)
Theorem kl_no_value d gp_mean gp_cov l : (2 <= length l <= d)%nat -> ~ exists v, kl_returns d gp_mean gp_cov (approx_mean l) (approx_cov l) v.
Proof.
  intros Hl (v & U0 & U1 & X & x & H0 & H1 & _). apply (cov_singular d l Hl). destruct (cho_factor_tr _ _ _ H1) as (A1 & A2 & A3).
  intros z Hz. rewrite <- A3. change (mtr (mtr U1)) with U1. set (L := mtr U1) in *. change U1 with (mtr L). rewrite quad_gram.
  destruct (Rle_lt_or_eq_dec _ _ (dot_self_nonneg d (mvec d (mtr L) z))) as [G|G]; [exact G|]. exfalso. apply Hz. symmetry in G. apply dot_self_zero in G.
  assert (Ez : veq d (mvec d (mtr (tri_inv L)) (mvec d (mtr L) z)) z). { rewrite mvec_mul, <- mtr_mul, tri_inv_right, mtr_mid by assumption. apply mvec_id. }
  intros i Hi. rewrite <- (Ez i Hi). unfold mvec at 1. rewrite (Rsum_map_ext _ (fun _ => 0)); [rewrite Rsum_map_const; ring|]. intros k Hk. apply in_seq in Hk. rewrite (G k) by lia. ring.
Qed.
