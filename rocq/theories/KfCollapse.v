(** The covariance returned by the Kalman filter of experiments/toy/gp_kf.py on a fine grid. *)
From Coquelicot Require Import Coquelicot.
From Coq Require Import Reals List Lia Lra Setoid Morphisms.
From Verif Require Sde SdeProofs Sim CholFun Expm.
From Verif Require Import Base Dist Mat MatMore Cholesky GaussDiv GaussCond GaussSBMore Toy ToyCond ToyMore ToyKf EmMoments EmConverge PriorGap CsgmConverge.
Import ListNotations.
Open Scope R_scope.

(** ** Model *)
(** gp_kf.py 129-146 [adhoc_kf]: the scan over (vs[1:], vs[:-1], ts[:-1]) *)
Fixpoint kf_scan (d : nat) (rd : vec -> R -> vec) (b : R -> R) (dt : R) (elems : list (vec * vec * R)) (mf : vec) (vf : mat) (m : vec) (V : mat) : Prop :=
  match elems with
  | [] => m = mf /\ V = vf
  | ((v, v_prev), t) :: rest => exists mf' vf', kf_step d rd b dt v v_prev t mf vf mf' vf' /\ kf_scan d rd b dt rest mf' vf' m V
  end.
Definition kf_elems (vs : list vec) (ts : list R) : list (vec * vec * R) := combine (combine (tl vs) (removelast vs)) (removelast ts).
Definition adhoc_kf (d : nat) (rd : vec -> R -> vec) (b : R -> R) (dt : R) (ts : list R) (init_m : vec) (init_v : mat) (vs : list vec) (m : vec) (V : mat) : Prop :=
  kf_scan d rd b dt (kf_elems vs ts) init_m init_v m V.
(** gp_kf.py 46-49, 64-72, 81-82: the reverse drift of the joint (u, v) for the kernel matrix [C] *)
Definition gp_rd (d : nat) (sde : Sde.linear_sde) (T : R) (C : mat) (s2 : R) (inv : mat -> mat) : vec -> R -> vec :=
  reverse_drift (2 * d) (vdrift sde) (Sde.dispersion sde) T (fwd_mean sde (fun _ => 0)) (fwd_cov sde (joint_cov d C s2)) inv.

(** ** One step *)
Lemma dot_sub_l d x y z : dot d (vsub x y) z = dot d x z - dot d y z.
Proof.
  unfold dot, vsub. transitivity (Rsum (map (fun i => x i * z i + (-1) * (y i * z i)) (seq 0 d))); [apply Rsum_map_ext; intros; ring|]. rewrite Rsum_map_plus, Rsum_map_mult_l. ring.
Qed.
Lemma dot_sub_r d x y z : dot d x (vsub y z) = dot d x y - dot d x z.
Proof. rewrite !(dot_comm d x). apply dot_sub_l. Qed.
Lemma dot_sym_mvec d M x y : symmetric d M -> dot d x (mvec d M y) = dot d y (mvec d M x).
Proof.
  intros HS. rewrite dot_mvec, dot_comm. apply dot_ext; [reflexivity|]. intros i Hi. now apply mvec_ext_l.
Qed.
Lemma quad_sub d M x y : symmetric d M -> quad d M (vsub x y) = quad d M x - 2 * dot d y (mvec d M x) + quad d M y.
Proof.
  intros HS. rewrite !quad_dot. rewrite (dot_ext d (vsub x y) _ (vsub x y) _ (fun _ _ => eq_refl) (mvec_sub_r d M x y)), dot_sub_l, !dot_sub_r, (dot_sym_mvec d M x y HS). ring.
Qed.
Lemma quad_ext d A B x y : meq d A B -> veq d x y -> quad d A x = quad d B y.
Proof. intros H1 H2. rewrite !quad_dot. apply dot_ext; [exact H2|]. rewrite H1, H2. reflexivity. Qed.
Lemma quad_msub d A B x : quad d (msub A B) x = quad d A x - quad d B x.
Proof. rewrite !quad_dot, <- dot_sub_r. apply dot_ext; [reflexivity|]. intros i _. apply mvec_sub_l. Qed.

Section step.
Variables (d : nat) (vp H X : mat) (s : R).
Let S := madd (mmul d (mmul d H vp) (mtr H)) (mscale s mid).
Let K := mmul d vp (mtr X).
Let V := msub vp (mmul d (mmul d K S) (mtr K)).
Hypothesis HS : symmetric d vp.
Hypothesis HX : meq d (mmul d S X) H.

Lemma S_symmetric : symmetric d S.
Proof using HS.
  clear HX. apply symmetric_add; [|apply symmetric_scale, symmetric_mid]. unfold symmetric in *. rewrite !mtr_mul, HS. change (mtr (mtr H)) with H. now rewrite mmul_assoc.
Qed.
Lemma V_symmetric : symmetric d V.
Proof using HS.
  clear HX. intros i j Hi Hj. unfold mtr, V, msub. rewrite <- (HS i j Hi Hj) at 1. unfold mtr. f_equal.
  assert (Q : meq d (mtr (mmul d (mmul d K S) (mtr K))) (mmul d (mmul d K S) (mtr K))).
  { pose proof S_symmetric as E0. unfold symmetric in E0. rewrite !mtr_mul, E0. change (mtr (mtr K)) with K. now rewrite mmul_assoc. }
  exact (Q i j Hi Hj).
Qed.
Lemma quad_S z : quad d S z = quad d vp (mvec d (mtr H) z) + s * dot d z z.
Proof using. unfold S. rewrite quad_add, quad_scale, quad_mid. f_equal. rewrite (quad_ext d _ (mmul d H (mmul d vp (mtr H))) z z); [apply quad_conj|now rewrite mmul_assoc|reflexivity]. Qed.

(** the new covariance is the value of a least-squares problem *)
Lemma kf_least_squares x : exists z, quad d V x = quad d vp x - quad d S z /\ veq d (mvec d S z) (mvec d H (mvec d vp x)).
Proof using HS HX.
  exists (mvec d (mtr K) x). split.
  - unfold V. rewrite quad_msub. f_equal. rewrite <- quad_conj. apply quad_ext; [now rewrite mmul_assoc|reflexivity].
  - assert (E1 : meq d (mtr K) (mmul d X vp)) by (pose proof HS as E0; unfold symmetric in E0; unfold K; rewrite mtr_mul; change (mtr (mtr X)) with X; now rewrite E0). rewrite E1, <- mvec_mul.
    intros i Hi. rewrite (mvec_mul d S X _ i Hi). now apply mvec_ext_l.
Qed.
Lemma kf_variational x z0 : 0 <= s -> psd d vp -> quad d V x <= quad d vp (vsub x (mvec d (mtr H) z0)) + s * dot d z0 z0.
Proof using HS HX.
  intros Hs HP. destruct (kf_least_squares x) as (z & -> & Hz). rewrite quad_sub by exact HS. pose proof (quad_S z0) as Q0.
  assert (E1 : dot d (mvec d (mtr H) z0) (mvec d vp x) = dot d z0 (mvec d S z)) by (rewrite <- dot_mvec; apply dot_ext; [reflexivity|now symmetry]).
  rewrite E1. pose proof (quad_sub d S z0 z S_symmetric) as Q1. rewrite (dot_sym_mvec d S z z0 S_symmetric) in Q1.
  assert (Q2 : 0 <= quad d S (vsub z0 z)). { rewrite quad_S. apply Rplus_le_le_0_compat; [apply HP|]. apply Rmult_le_pos; [exact Hs|apply dot_self_nonneg]. } lra.
Qed.
Lemma kf_psd : 0 <= s -> psd d vp -> psd d V.
Proof using HS HX.
  intros Hs HP x. destruct (kf_least_squares x) as (z & -> & Hz).
  pose proof (quad_sub d vp x (mvec d (mtr H) z) HS) as Q. pose proof (HP (vsub x (mvec d (mtr H) z))) as Q0.
  assert (E1 : dot d (mvec d (mtr H) z) (mvec d vp x) = quad d S z) by (rewrite quad_dot, <- dot_mvec; apply dot_ext; [reflexivity|now symmetry]).
  pose proof (quad_S z). assert (0 <= s * dot d z z) by (apply Rmult_le_pos; [exact Hs|apply dot_self_nonneg]). lra.
Qed.
Lemma kf_small y : 0 <= s -> psd d vp -> quad d V (mvec d (mtr H) y) <= s * dot d y y.
Proof using HS HX.
  intros Hs HP. pose proof (kf_variational (mvec d (mtr H) y) y Hs HP) as Q.
  replace (quad d vp (vsub (mvec d (mtr H) y) (mvec d (mtr H) y))) with 0 in Q; [lra|].
  rewrite (quad_ext d vp vp _ (fun _ => 0) (reflexivity _)) by (intros i _; unfold vsub; ring). rewrite quad_dot. unfold dot. rewrite (Rsum_map_ext _ (fun _ => 0)) by (intros; ring). rewrite Rsum_map_const. ring.
Qed.
End step.

(** ** Trace *)
Definition unit (k : nat) : vec := fun i => mid i k.
Lemma dot_unit d (x : vec) l : (l < d)%nat -> dot d x (unit l) = x l.
Proof. intros Hl. rewrite dot_comm. unfold dot, unit. rewrite <- (mvec_id d x l Hl). unfold mvec. apply Rsum_map_ext. intros k _. unfold mid. now rewrite Nat.eqb_sym. Qed.
Lemma mvec_unit d M k i : (k < d)%nat -> mvec d M (unit k) i = M i k.
Proof. intros Hk. change (mvec d M (unit k) i) with (dot d (M i) (unit k)). now apply dot_unit. Qed.
Lemma quad_unit d M k : (k < d)%nat -> quad d M (unit k) = M k k.
Proof. intros Hk. rewrite quad_dot, dot_comm, dot_unit, mvec_unit by exact Hk. reflexivity. Qed.
Lemma psd_diag d M i : psd d M -> (i < d)%nat -> 0 <= M i i.
Proof. intros HP Hi. rewrite <- (quad_unit d M i Hi). apply HP. Qed.
Lemma diag_le_trace d M i : psd d M -> (i < d)%nat -> M i i <= mtrace d M.
Proof.
  intros HP Hi. unfold mtrace. apply (Rsum_In_le (map (fun k => M k k) (seq 0 d))); [|apply (in_map (fun k => M k k)); apply in_seq; lia].
  apply Forall_forall. intros y Hy. apply in_map_iff in Hy as (k & <- & Hk). apply in_seq in Hk. apply (psd_diag d); [exact HP|lia].
Qed.
Lemma psd_entry d M i j : symmetric d M -> psd d M -> (i < d)%nat -> (j < d)%nat -> Rabs (M i j) <= mtrace d M.
Proof.
  intros HS HP Hi Hj. pose proof (quad_cauchy_schwarz d M (unit i) (unit j) HS HP) as Q. rewrite dot_comm, dot_unit, mvec_unit, !quad_unit in Q by assumption.
  pose proof (diag_le_trace d M i HP Hi). pose proof (diag_le_trace d M j HP Hj). pose proof (psd_diag d M i HP Hi). pose proof (psd_diag d M j HP Hj).
  apply Rsqr_incr_0_var; [|lra]. rewrite <- Rsqr_abs. unfold Rsqr. replace (M i j * M i j) with (M i j ^ 2) by ring. eapply Rle_trans; [exact Q|]. now apply Rmult_le_compat.
Qed.
Lemma psd_quad_bound d M (x : vec) g : symmetric d M -> psd d M -> 0 <= g -> (forall i, (i < d)%nat -> Rabs (x i) <= g) -> quad d M x <= (INR d * g) ^ 2 * mtrace d M.
Proof.
  intros HS HP Hg Hx. assert (Ht : 0 <= mtrace d M).
  { unfold mtrace. apply Rsum_nonneg, Forall_forall. intros y Hy. apply in_map_iff in Hy as (k & <- & Hk). apply in_seq in Hk. apply (psd_diag d); [exact HP|lia]. }
  assert (B1 : forall i, (i < d)%nat -> Rabs (mvec d M x i) <= INR d * (mtrace d M * g)).
  { intros i Hi. unfold mvec. eapply Rle_trans; [apply Expm.Rabs_Rsum|]. rewrite map_map. replace (INR d) with (INR (length (seq 0 d))) by (now rewrite seq_length). rewrite <- (Rsum_map_const (mtrace d M * g)).
    apply Rsum_map_le. intros k Hk. apply in_seq in Hk. rewrite Rabs_mult. apply Rmult_le_compat; try apply Rabs_pos; [apply psd_entry; (assumption || lia)|apply Hx; lia]. }
  rewrite quad_dot. unfold dot. eapply Rle_trans; [apply Rle_abs|]. eapply Rle_trans; [apply Expm.Rabs_Rsum|]. rewrite map_map.
  apply Rle_trans with (Rsum (map (fun _ : nat => g * (INR d * (mtrace d M * g))) (seq 0 d))).
  - apply Rsum_map_le. intros k Hk. apply in_seq in Hk. rewrite Rabs_mult. apply Rmult_le_compat; try apply Rabs_pos; [apply Hx; lia|apply B1; lia].
  - rewrite Rsum_map_const, seq_length. right. ring.
Qed.

(** ** Jacobians of the step *)
Lemma jac_affine d (f : vec -> vec) x M J : (forall i k h, (i < d)%nat -> (k < d)%nat -> f (fun l => if Nat.eqb l k then h else x l) i = f x i + (h - x k) * M i k) ->
  is_jac d f x J <-> meq d J M.
Proof.
  intros Hf. assert (D : forall i k, (i < d)%nat -> (k < d)%nat -> is_derive (fun h => f (fun l => if Nat.eqb l k then h else x l) i) (x k) (M i k)).
  { intros i k Hi Hk. apply (is_derive_ext (fun h => f x i + (h - x k) * M i k)); [intros h; symmetry; now apply Hf|]. auto_derive; [exact I|ring]. }
  split.
  - intros HJ i k Hi Hk. specialize (HJ i Hi k Hk). cbv beta in HJ. rewrite <- (is_derive_unique _ _ _ HJ). apply is_derive_unique. now apply D.
  - intros HJ i Hi k Hk. rewrite (HJ i k Hi Hk). now apply D.
Qed.
Definition state_jac (dt : R) (A : mat) : mat := madd mid (mscale dt A).
Definition obs_jac (d : nat) (dt : R) (A : mat) : mat := madd mid (mscale dt (m_hh d A)).
Lemma affine_shift d rd t A x x' k c i : affine_at d rd t A -> (i < d)%nat -> (k < d)%nat -> (forall l, (l < d)%nat -> x' l = x l + c * unit k l) -> rd x' t i = rd x t i + c * A i k.
Proof.
  intros HA Hi Hk Hx. pose proof (HA x' x i Hi) as Q. assert (E1 : mvec d A (vsub x' x) i = c * A i k).
  { rewrite <- (mvec_unit d A k i Hk). unfold mvec. rewrite <- Rsum_map_mult_l. apply Rsum_map_ext. intros l Hl. apply in_seq in Hl. unfold vsub. rewrite Hx by lia. ring. }
  change (rd x' t i - rd x t i = mvec d A (vsub x' x) i) in Q. lra.
Qed.
Lemma state_jac_ok d rd t A dt v x J : affine_at (2 * d) rd t A -> is_jac d (fun u => cond_state_mean d rd dt u v t) x J <-> meq d J (state_jac dt A).
Proof.
  intros HA. apply jac_affine. intros i k h Hi Hk. unfold cond_state_mean, rd_u.
  rewrite (affine_shift (2 * d) rd t A (vcat d x v) (vcat d (fun l => if Nat.eqb l k then h else x l) v) k (h - x k) i HA ltac:(lia) ltac:(lia)).
  - unfold state_jac, madd, mscale, mid. destruct (Nat.eqb_spec i k) as [ ->|]; ring.
  - intros l Hl. unfold vcat, unit, mid. destruct (Nat.ltb_spec l d); destruct (Nat.eqb_spec l k) as [ ->|]; try lia; ring.
Qed.
Lemma obs_jac_ok d rd t A dt u x J : affine_at (2 * d) rd t A -> is_jac d (fun w => cond_obs_mean d rd dt u w t) x J <-> meq d J (obs_jac d dt A).
Proof.
  intros HA. apply jac_affine. intros i k h Hi Hk. unfold cond_obs_mean, rd_v, vhi.
  rewrite (affine_shift (2 * d) rd t A (vcat d u x) (vcat d u (fun l => if Nat.eqb l k then h else x l)) (d + k) (h - x k) (d + i) HA ltac:(lia) ltac:(lia)).
  - unfold obs_jac, madd, mscale, mid, m_hh. destruct (Nat.eqb_spec i k) as [ ->|]; ring.
  - intros l Hl. unfold vcat, unit, mid. destruct (Nat.ltb_spec l d); destruct (Nat.eqb_spec (l - d) k); destruct (Nat.eqb_spec l (d + k)); try lia; subst; ring.
Qed.

Lemma quad_two d M x y : symmetric d M -> psd d M -> quad d M (vsub x y) <= 2 * quad d M x + 2 * quad d M y.
Proof.
  intros HS HP. rewrite quad_sub by exact HS. pose proof (HP (vsub x (fun i => (-1) * y i))) as Q. rewrite quad_sub in Q by exact HS.
  assert (E1 : veq d (mvec d M (fun i => (-1) * y i)) (fun i => (-1) * mvec d M y i)) by (intros i _; unfold mvec; rewrite <- Rsum_map_mult_l; apply Rsum_map_ext; intros; ring).
  assert (E2 : quad d M (fun i => (-1) * y i) = quad d M y). { rewrite !quad_dot, (dot_ext d _ _ _ _ (fun _ _ => eq_refl) E1). unfold dot. apply Rsum_map_ext. intros; ring. }
  assert (E3 : dot d (fun i => (-1) * y i) (mvec d M x) = - dot d y (mvec d M x)). { unfold dot. rewrite (Rsum_map_ext _ (fun i => (-1) * (y i * mvec d M x i))) by (intros; ring). rewrite Rsum_map_mult_l. ring. }
  rewrite E2, E3 in Q. lra.
Qed.

Lemma row_entry d A Lam i j : row_bound d A Lam -> (i < d)%nat -> (j < d)%nat -> Rabs (A i j) <= Lam.
Proof. intros HA Hi Hj. eapply Rle_trans; [|exact (HA i Hi)]. exact (Rsum_entry (A i) d j Hj). Qed.

Lemma trace_small d V H G dt Lam s : symmetric d V -> psd d V -> meq d H (madd mid (mscale dt G)) -> 0 <= dt -> 0 <= Lam -> (forall i j, (i < d)%nat -> (j < d)%nat -> Rabs (G i j) <= Lam) ->
  (forall y, quad d V (mvec d (mtr H) y) <= s * dot d y y) -> INR d * (INR d * (dt * Lam)) ^ 2 <= 1 / 4 -> mtrace d V <= 4 * (INR d * s).
Proof.
  intros HS HP HH Hdt HL HG Hq Hsm. assert (B1 : forall i, (i < d)%nat -> V i i <= 2 * s + 2 * ((INR d * (dt * Lam)) ^ 2 * mtrace d V)).
  { intros i Hi. rewrite <- (quad_unit d V i Hi). specialize (Hq (unit i)). rewrite dot_unit in Hq by exact Hi. unfold unit at 2, mid in Hq. rewrite Nat.eqb_refl in Hq.
    pose proof (quad_two d V (mvec d (mtr H) (unit i)) (fun k => dt * G i k) HS HP) as Q1.
    pose proof (psd_quad_bound d V (fun k => dt * G i k) (dt * Lam) HS HP ltac:(now apply Rmult_le_pos)) as Q2.
    specialize (Q2 ltac:(intros k Hk; cbv beta; rewrite Rabs_mult, (Rabs_pos_eq dt) by exact Hdt; apply Rmult_le_compat_l; [exact Hdt|now apply HG])).
    rewrite (quad_ext d V V (vsub (mvec d (mtr H) (unit i)) (fun k => dt * G i k)) (unit i) (reflexivity _)) in Q1; [lra|].
    intros k Hk. unfold vsub. rewrite mvec_unit by exact Hi. unfold mtr. rewrite (HH i k Hi Hk). unfold madd, mscale, unit, mid. rewrite (Nat.eqb_sym k i). ring. }
  assert (B2 : mtrace d V <= INR d * (2 * s + 2 * ((INR d * (dt * Lam)) ^ 2 * mtrace d V))).
  { unfold mtrace at 1. rewrite <- (seq_length d 0) at 2. rewrite <- (Rsum_map_const _ (seq 0 d)). apply Rsum_map_le. intros i Hi. apply in_seq in Hi. apply B1. lia. }
  assert (B3 : 0 <= mtrace d V). { unfold mtrace. apply Rsum_nonneg, Forall_forall. intros y Hy. apply in_map_iff in Hy as (k & <- & Hk). apply in_seq in Hk. apply (psd_diag d); [exact HP|lia]. }
  assert (B4 : INR d * (INR d * (dt * Lam)) ^ 2 * mtrace d V <= 1 / 4 * mtrace d V) by (now apply Rmult_le_compat_r). lra.
Qed.

Section scan.
Variables (d : nat) (rd : vec -> R -> vec) (b : R -> R) (dt Lam Bd : R).
Hypothesis Hdt : 0 < dt.
Hypothesis HL : 0 <= Lam.
Hypothesis HB : 0 <= Bd.
Definition good (t : R) : Prop := (exists A, affine_at (2 * d) rd t A /\ row_bound (2 * d) A Lam) /\ 0 <= b t <= Bd.
Hypothesis Hsm : INR d * (INR d * (dt * Lam)) ^ 2 <= 1 / 4.

Lemma predicted_ok F vf s : symmetric d vf -> psd d vf -> 0 <= s -> symmetric d (madd (mmul d (mmul d F vf) (mtr F)) (mscale s mid)) /\ psd d (madd (mmul d (mmul d F vf) (mtr F)) (mscale s mid)).
Proof using.
  clear Hdt HL HB Hsm. intros HS HP Hs. split; [now apply S_symmetric|]. intros x. rewrite (quad_S d vf F s x). apply Rplus_le_le_0_compat; [apply HP|]. apply Rmult_le_pos; [exact Hs|apply dot_self_nonneg].
Qed.
Lemma kf_step_small v v_prev t mf vf mf' vf' : good t -> symmetric d vf -> psd d vf -> kf_step d rd b dt v v_prev t mf vf mf' vf' ->
  symmetric d vf' /\ psd d vf' /\ mtrace d vf' <= 4 * (INR d * (sqrt dt * Bd)).
Proof using Hdt HL HB Hsm.
  intros [(A & HA & HR) [Hb0 Hb1]] HS HP (F & H & U & X & JF & JH & (_ & _ & HU) & HX & _ & Ev).
  assert (Hsq : 0 <= sqrt dt) by apply sqrt_pos. assert (Hs : 0 <= sqrt dt * b t) by now apply Rmult_le_pos.
  unfold kf_noise in *. set (s := sqrt dt * b t) in *. destruct (predicted_ok F vf s HS HP Hs) as [VS VP]. set (vp := madd (mmul d (mmul d F vf) (mtr F)) (mscale s mid)) in *.
  apply (obs_jac_ok d rd t A dt _ _ _ HA) in JH. unfold cho_solve in HX. rewrite HU in HX. subst vf'. set (V := msub vp _).
  assert (V1 : symmetric d V) by now apply V_symmetric. assert (V2 : psd d V) by now apply kf_psd. split; [exact V1|]. split; [exact V2|].
  apply Rle_trans with (4 * (INR d * s)).
  - apply (trace_small d V H (m_hh d A) dt Lam s V1 V2 JH); [lra|exact HL| | |exact Hsm].
    + intros i j Hi Hj. unfold m_hh. apply (row_entry (2 * d)); [exact HR|lia|lia].
    + intros y. now apply kf_small.
  - apply Rmult_le_compat_l; [lra|]. apply Rmult_le_compat_l; [apply pos_INR|]. unfold s. now apply Rmult_le_compat_l.
Qed.
Lemma kf_scan_small elems : (forall v v_prev t, In ((v, v_prev), t) elems -> good t) -> forall mf vf m V, symmetric d vf -> psd d vf -> elems <> [] -> kf_scan d rd b dt elems mf vf m V ->
  symmetric d V /\ psd d V /\ mtrace d V <= 4 * (INR d * (sqrt dt * Bd)).
Proof using Hdt HL HB Hsm.
  induction elems as [|[[v v_prev] t] r IH]; [congruence|]. intros Hg mf vf m V HS HP _ (mf' & vf' & H1 & H2).
  destruct (kf_step_small v v_prev t mf vf mf' vf' (Hg v v_prev t (or_introl eq_refl)) HS HP H1) as (K1 & K2 & K3). destruct r as [|e r].
  - destruct H2 as [_ ->]. auto.
  - apply (IH ltac:(intros w w' t' Hin; apply (Hg w w' t'); now right) mf' vf' m V K1 K2 ltac:(discriminate) H2).
Qed.

(** the scan is defined: the factorised matrix is positive definite *)
Lemma kf_step_defined v v_prev t mf vf : good t -> 0 < b t -> symmetric d vf -> psd d vf -> exists mf' vf', kf_step d rd b dt v v_prev t mf vf mf' vf' /\ symmetric d vf' /\ psd d vf'.
Proof using Hdt.
  intros [(A & HA & HR) _] Hb HS HP. assert (Hsq : 0 < sqrt dt) by now apply sqrt_lt_R0. assert (Hs : 0 < sqrt dt * b t) by now apply Rmult_lt_0_compat.
  set (F := state_jac dt A). set (H := obs_jac d dt A). set (s := sqrt dt * b t) in *. destruct (predicted_ok F vf s HS HP ltac:(lra)) as [VS VP]. set (vp := madd (mmul d (mmul d F vf) (mtr F)) (mscale s mid)) in *.
  set (S := madd (mmul d (mmul d H vp) (mtr H)) (mscale s mid)). assert (SS : symmetric d S) by now apply S_symmetric.
  assert (SP : posdef d S). { intros x Hx. unfold S. rewrite quad_S. assert (0 < dot d x x) by (destruct (dot_self_nonneg d x) as [Q|Q]; [exact Q|exfalso; apply Hx; now apply dot_self_zero]). specialize (VP (mvec d (mtr H) x)). assert (0 < s * dot d x x) by (now apply Rmult_lt_0_compat). lra. }
  destruct (cholesky_exists d S SS SP) as (L & A1 & A2 & A3). destruct (posdef_inverse d S SS SP) as (Si & I1 & I2 & _).
  assert (HX : meq d (mmul d S (mmul d Si H)) H) by (now rewrite mmul_assoc, I2, mmul_1_l).
  do 2 eexists. split; [exists F, H, (mtr L), (mmul d Si H); split; [|split; [|split; [|split; [|split; [reflexivity|reflexivity]]]]]|].
  - now apply (state_jac_ok d rd t A dt).
  - now apply (obs_jac_ok d rd t A dt).
  - split; [exact A1|]. split; [exact A2|]. exact A3.
  - unfold cho_solve. change (mtr (mtr L)) with L. rewrite A3. exact HX.
  - split; [now apply V_symmetric|]. apply (kf_psd d vp H (mmul d Si H) s VS HX ltac:(lra) VP).
Qed.
Lemma kf_scan_defined elems : (forall v v_prev t, In ((v, v_prev), t) elems -> good t /\ 0 < b t) -> forall mf vf, symmetric d vf -> psd d vf -> exists m V, kf_scan d rd b dt elems mf vf m V.
Proof using Hdt.
  induction elems as [|[[v v_prev] t] r IH]; intros Hg mf vf HS HP; [exists mf, vf; split; reflexivity|].
  destruct (Hg v v_prev t (or_introl eq_refl)) as [G1 G2]. destruct (kf_step_defined v v_prev t mf vf G1 G2 HS HP) as (mf' & vf' & K1 & K2 & K3).
  destruct (IH ltac:(intros w w' t' Hin; apply (Hg w w' t'); now right) mf' vf' K2 K3) as (m & V & K4). exists m, V. exists mf', vf'. auto.
Qed.
End scan.

(** ** The filter of the script on the grid of [n] steps *)
Section gp.
Variables (sde : Sde.linear_sde) (T : R) (d : nat) (C : mat) (inv : nat -> mat -> mat) (s2 : R).
Hypothesis Hd : SdeProofs.sde_defined sde.
Hypothesis HT : 0 < T.
Hypothesis Hn : forall t, 0 <= t <= T -> SdeProofs.nonneg_noise sde t.
Hypothesis Hb : forall t, 0 <= t <= T -> 0 < Sde.dispersion sde t.
Hypothesis HS : symmetric d C.
Hypothesis HP : posdef d C.
Hypothesis Hs2 : 0 < s2.
Hypothesis Hinv : forall k M, symmetric k M -> posdef k M -> meq k (mmul k (inv k M) M) mid /\ meq k (mmul k M (inv k M)) mid.
Let rd := gp_rd d sde T C s2 (inv (2 * d)%nat).
Let b := fun t => Sde.dispersion sde (T - t).

Lemma gp_good : exists Lam Bd, 0 <= Lam /\ 0 <= Bd /\ forall t, 0 <= t < T -> good d rd b Lam Bd t.
Proof using Hd HT Hn Hb HS HP Hs2 Hinv.
  destruct (joint_cov_posdef d C s2 HS HP Hs2) as [J1 J2].
  destruct (reverse_flow sde T (2 * d) (fun _ => 0) (joint_cov d C s2) Hd ltac:(lra) Hn (inv (2 * d)%nat) J1 J2) as (Lam & K & V & H1 & H2 & H3 & HF).
  { intros t Ht. apply (inverse_all sde T (2 * d) (inv (2 * d)%nat) Hd Hn (Hinv (2 * d))); assumption. }
  destruct (exact_moments sde T d (fun _ => 0) C Hd ltac:(lra) Hn) as (Ma & Mi & kap & C' & V' & HMa & _ & _ & _ & B1 & _).
  exists Lam, (1 + 2 * Ma * Rabs kap). assert (HK : 0 <= 2 * Ma * Rabs kap) by (apply Rmult_le_pos; [lra|apply Rabs_pos]).
  split; [exact H1|]. split; [lra|]. intros t Ht. destruct (HF t Ht) as (A & A1 & A2 & _). split; [now exists A|]. unfold b. specialize (Hb (T - t) ltac:(lra)). destruct (B1 (T - t) ltac:(lra)) as (_ & Q & _).
  set (g := Sde.dispersion sde (T - t)) in *. split; [lra|]. destruct (Rle_dec g 1); [lra|]. replace (g ^ 2) with (g * g) in Q by ring. assert (1 * g <= g * g) by (apply Rmult_le_compat_r; lra). lra.
Qed.

Lemma grid_times n t : (1 <= n)%nat -> In t (removelast (Sde.linspace 0 T (n + 1))) -> 0 <= t < T.
Proof using HT.
  clear - HT. intros Hn Ht. assert (E1 : Sde.linspace 0 T (n + 1) = map (fun i => 0 + INR i * ((T - 0) / INR n)) (seq 0 (n + 1))).
  { unfold Sde.linspace. replace (n + 1 - 1)%nat with n by lia. destruct (n + 1)%nat as [|[|m]] eqn:E0; [lia|lia|reflexivity]. }
  rewrite E1, Nat.add_1_r, seq_S, map_app in Ht. cbn [map] in Ht. rewrite removelast_last in Ht. apply in_map_iff in Ht as (i & <- & Hi). apply in_seq in Hi.
  assert (Hn0 : 0 < INR n) by (apply lt_0_INR; lia). assert (Hi0 := pos_INR i). assert (Hin : INR i < INR n) by (apply lt_INR; lia).
  assert (HTn : 0 < T / INR n) by (apply Rdiv_lt_0_compat; lra). rewrite Rplus_0_l, Rminus_0_r. split; [apply Rmult_le_pos; lra|].
  apply Rlt_le_trans with (INR n * (T / INR n)); [now apply Rmult_lt_compat_r|right; field; lra].
Qed.
Lemma elems_times n vs v v_prev t : (1 <= n)%nat -> In ((v, v_prev), t) (kf_elems vs (Sde.linspace 0 T (n + 1))) -> 0 <= t < T.
Proof using HT. clear - HT. intros Hn Hin. apply (grid_times n); [exact Hn|]. exact (in_combine_r _ _ _ _ Hin). Qed.
Lemma elems_nonempty n vs : (1 <= n)%nat -> length vs = (n + 1)%nat -> kf_elems vs (Sde.linspace 0 T (n + 1)) <> [].
Proof using.
  clear. intros Hn HL E0. assert (K : length (kf_elems vs (Sde.linspace 0 T (n + 1))) = n); [|rewrite E0 in K; cbn in K; lia].
  assert (RL : forall (A : Type) (l : list A), length (removelast l) = (length l - 1)%nat) by (intros A l; rewrite removelast_firstn_len, firstn_length; lia).
  unfold kf_elems. rewrite !combine_length, !RL, Sim.length_linspace. destruct vs; cbn [tl length] in *; lia.
Qed.

Theorem kf_collapses : exists K h0, 0 <= K /\ 0 < h0 /\ forall n vs mf vf m V, (1 <= n)%nat -> T / INR n <= h0 -> length vs = (n + 1)%nat -> symmetric d vf -> psd d vf ->
  adhoc_kf d rd b (T / INR n) (Sde.linspace 0 T (n + 1)) mf vf vs m V ->
  symmetric d V /\ psd d V /\ forall i j, (i < d)%nat -> (j < d)%nat -> Rabs (V i j) <= K * sqrt (T / INR n).
Proof using Hd HT Hn Hb HS HP Hs2 Hinv.
  destruct gp_good as (Lam & Bd & HL & HB & Hg). pose proof (pos_INR d) as Hd0.
  set (q := INR d * (INR d * Lam) ^ 2). assert (Hq : 0 <= q) by (apply Rmult_le_pos; [exact Hd0|apply pow2_ge_0]).
  exists (4 * (INR d * Bd)), (Rmin 1 (/ (4 * (q + 1)))). split; [apply Rmult_le_pos; [lra|now apply Rmult_le_pos]|].
  assert (Hi : 0 < / (4 * (q + 1))) by (apply Rinv_0_lt_compat; lra). split; [apply Rmin_pos; lra|].
  intros n vs mf vf m V Hn1 Hdt HLen VS VP Hrun. assert (Hn0 : 0 < INR n) by (apply lt_0_INR; lia). set (dt := T / INR n) in *. assert (Hdt0 : 0 < dt) by (apply Rdiv_lt_0_compat; lra).
  assert (D1 : dt <= 1) by (eapply Rle_trans; [exact Hdt|apply Rmin_l]). assert (D2 : dt <= / (4 * (q + 1))) by (eapply Rle_trans; [exact Hdt|apply Rmin_r]).
  assert (Hsm : INR d * (INR d * (dt * Lam)) ^ 2 <= 1 / 4).
  { replace (INR d * (INR d * (dt * Lam)) ^ 2) with (q * (dt * dt)) by (unfold q; ring). assert (dt * dt <= dt * 1) by (apply Rmult_le_compat_l; lra).
    apply Rle_trans with (q * / (4 * (q + 1))); [apply Rmult_le_compat_l; lra|]. apply Rmult_le_reg_r with (4 * (q + 1)); [lra|]. rewrite Rmult_assoc, Rinv_l by lra. lra. }
  destruct (kf_scan_small d rd b dt Lam Bd Hdt0 HL HB Hsm (kf_elems vs (Sde.linspace 0 T (n + 1)))) with (mf := mf) (vf := vf) (m := m) (V := V) as (K1 & K2 & K3);
    [intros v v_prev t Hin; apply Hg; now apply (elems_times n vs v v_prev)|exact VS|exact VP|now apply elems_nonempty|exact Hrun|].
  split; [exact K1|]. split; [exact K2|]. intros i j Hi' Hj. eapply Rle_trans; [now apply (psd_entry d)|]. eapply Rle_trans; [exact K3|]. right. ring.
Qed.

Theorem kf_defined n vs mf vf : (1 <= n)%nat -> symmetric d vf -> psd d vf -> exists m V, adhoc_kf d rd b (T / INR n) (Sde.linspace 0 T (n + 1)) mf vf vs m V.
Proof using Hd HT Hn Hb HS HP Hs2 Hinv.
  intros Hn1 VS VP. destruct gp_good as (Lam & Bd & HL & HB & Hg). assert (Hn0 : 0 < INR n) by (apply lt_0_INR; lia).
  apply (kf_scan_defined d rd b (T / INR n) Lam Bd); [apply Rdiv_lt_0_compat; lra| |exact VS|exact VP].
  intros v v_prev t Hin. apply (elems_times n) in Hin; [|exact Hn1]. split; [now apply Hg|]. unfold b. apply Hb. lra.
Qed.

(** relative to the posterior variance of the GP the filter's variance vanishes *)
Theorem kf_vanishes eps : 0 < eps -> exists h0, 0 < h0 /\ forall n vs mf vf m V, (1 <= n)%nat -> T / INR n <= h0 -> length vs = (n + 1)%nat -> symmetric d vf -> psd d vf ->
  adhoc_kf d rd b (T / INR n) (Sde.linspace 0 T (n + 1)) mf vf vs m V ->
  forall i, (i < d)%nat -> 0 <= V i i <= eps * gp_cov d C (inv d) s2 i i.
Proof using Hd HT Hn Hb HS HP Hs2 Hinv.
  intros He. destruct kf_collapses as (K & h0 & HK & Hh0 & H). destruct (G_ok d C (inv d) s2 HS HP Hs2 (Hinv d)) as [G1 G2]. set (G := gp_cov d C (inv d) s2) in *.
  assert (Hmin : exists c, 0 < c /\ forall i, (i < d)%nat -> c <= G i i).
  { clearbody G. clear - G2. assert (Hpos : forall i, (i < d)%nat -> 0 < G i i). { intros i Hi. rewrite <- (quad_unit d G i Hi). apply G2. intros E0. specialize (E0 i Hi). unfold unit, mid in E0. rewrite Nat.eqb_refl in E0. lra. }
    clear G2. induction d as [|k IH]; [exists 1; split; [lra|intros; lia]|]. destruct IH as (c & Hc & Hm); [intros i Hi; apply Hpos; lia|]. exists (Rmin c (G k k)). split; [apply Rmin_pos; [exact Hc|apply Hpos; lia]|].
    intros i Hi. destruct (Nat.eq_dec i k) as [ ->|Hne]; [apply Rmin_r|]. eapply Rle_trans; [apply Rmin_l|]. apply Hm. lia. }
  destruct Hmin as (c & Hc & Hm). set (r := eps * c / (K + 1)). assert (Hr : 0 < r) by (apply Rdiv_lt_0_compat; [now apply Rmult_lt_0_compat|lra]).
  exists (Rmin h0 (r * r)). split; [apply Rmin_pos; [exact Hh0|now apply Rmult_lt_0_compat]|].
  intros n vs mf vf m V Hn1 Hdt HLen VS VP Hrun i Hi. destruct (H n vs mf vf m V Hn1 ltac:(eapply Rle_trans; [exact Hdt|apply Rmin_l]) HLen VS VP Hrun) as (_ & K2 & K3).
  split; [now apply (psd_diag d)|]. specialize (K3 i i Hi Hi). eapply Rle_trans; [apply Rle_abs|]. eapply Rle_trans; [exact K3|].
  assert (Q1 : sqrt (T / INR n) <= r). { rewrite <- (sqrt_square r) by lra. apply sqrt_le_1_alt. eapply Rle_trans; [exact Hdt|apply Rmin_r]. }
  apply Rle_trans with ((K + 1) * r); [apply Rmult_le_compat; [exact HK|apply sqrt_pos|lra|exact Q1]|]. replace ((K + 1) * r) with (eps * c) by (unfold r; field; lra). apply Rmult_le_compat_l; [lra|now apply Hm].
Qed.
End gp.
