(** fbs/utils.py 7-18, discretise_lti_sde. *)
From Coquelicot Require Import Coquelicot.
From Coq Require Import Reals List Lia Lra Morphisms Setoid.
From Verif Require Import Base Dist Mat MatMore Expm.
Import ListNotations.
Open Scope R_scope.

(** ** Model *)

(** fbs/utils.py 14: F = expm(A * dt). *)
Definition lti_F (d : nat) (A : mat) (dt : R) : mat := expm d (mscale dt A).

(** fbs/utils.py 15: phi = vstack([hstack([A, gamma]), hstack([zeros_like(A), -A.T])]),
    a (2d) by (2d) matrix. *)
Definition lti_phi (d : nat) (A G : mat) : mat := fun i j =>
  if Nat.ltb i d then (if Nat.ltb j d then A i j else G i (j - d)%nat)
  else (if Nat.ltb j d then 0 else - mtr A (i - d)%nat (j - d)%nat).

(** fbs/utils.py 16: vstack([zeros_like(A), eye(d)]), (2d) by d. *)
Definition lti_zero_one (d : nat) : mat := fun i j => if Nat.ltb i d then 0 else mid (i - d)%nat j.

(** fbs/utils.py 16: AB = expm(phi * dt) @ vstack([zeros, eye]). *)
Definition lti_AB (d : nat) (A G : mat) (dt : R) : mat :=
  mmul (2 * d) (expm (2 * d) (mscale dt (lti_phi d A G))) (lti_zero_one d).

(** fbs/utils.py 17: cov = AB[0:d, :] @ F.T. *)
Definition lti_cov (d : nat) (A G : mat) (dt : R) : mat := mmul d (lti_AB d A G dt) (mtr (lti_F d A dt)).

(** fbs/utils.py 18 *)
Definition discretise_lti_sde (d : nat) (A G : mat) (dt : R) : mat * mat := (lti_F d A dt, lti_cov d A G dt).

(** ** Specification, from the theory of dX = A X dt + B dW with B B^T = gamma

    The mean of X solves m' = A m and the covariance V' = A V + V A^T + gamma.
    A discretisation X(t+dt) = F X(t) + w, w of covariance Q, is exact when it carries the
    moments at t of every solution of the two equations to the moments at t+dt. *)
Definition vderiv (d : nat) (m : R -> vec) (t : R) (m' : vec) : Prop :=
  forall i, (i < d)%nat -> is_derive (fun s => m s i) t (m' i).
Definition lti_mean_eq (d : nat) (A : mat) (m : R -> vec) : Prop := forall t, vderiv d m t (mvec d A (m t)).
Definition lti_cov_eq (d : nat) (A G : mat) (V : R -> mat) : Prop :=
  forall t, mderiv d V t (madd (madd (mmul d A (V t)) (mmul d (V t) (mtr A))) G).
Definition exact_discretisation (d : nat) (A G : mat) (dt : R) (F Q : mat) : Prop :=
  (forall m, lti_mean_eq d A m -> forall t, veq d (m (t + dt)) (mvec d F (m t))) /\
  (forall V, lti_cov_eq d A G V -> forall t,
     meq d (V (t + dt)) (madd (mmul d F (mmul d (V t) (mtr F))) Q)).

(** ** Proofs *)
Lemma Rsum_split2 (f : nat -> R) d : Rsum (map f (seq 0 (2 * d))) =
  Rsum (map f (seq 0 d)) + Rsum (map (fun k => f (d + k)%nat) (seq 0 d)).
Proof.
  replace (2 * d)%nat with (d + d)%nat by lia. rewrite seq_app, map_app, Rsum_app. f_equal. cbn [Nat.add].
  rewrite <- (map_map (fun k => (d + k)%nat) f). f_equal. f_equal.
  assert (H : forall n s, seq (d + s) n = map (fun k => (d + k)%nat) (seq s n)).
  { induction n as [|n IH]; intros s; cbn [seq map]; [reflexivity|]. f_equal. rewrite <- IH. f_equal. lia. }
  now rewrite <- H, Nat.add_0_r.
Qed.

Definition topright (d : nat) (M : mat) : mat := fun i j => M i (d + j)%nat.
Definition botright (d : nat) (M : mat) : mat := fun i j => M (d + i)%nat (d + j)%nat.

Lemma lti_AB_topright d A G t : meq d (lti_AB d A G t) (topright d (expm (2 * d) (mscale t (lti_phi d A G)))).
Proof.
  intros i j Hi Hj. unfold lti_AB, topright. set (M := expm _ _). unfold mmul. rewrite Rsum_split2.
  rewrite (Rsum_map_ext _ (fun _ => 0)).
  2: { intros k Hk. apply in_seq in Hk. unfold lti_zero_one. destruct (Nat.ltb_spec k d); [ring|lia]. }
  rewrite Rsum_map_const. rewrite (Rsum_map_ext _ (fun k => M i (d + k)%nat * mid k j)).
  2: { intros k Hk. unfold lti_zero_one. destruct (Nat.ltb_spec (d + k) d); [lia|]. do 2 f_equal. lia. }
  pose proof (mmul_id_r d (topright d M) i j Hj) as E. unfold mmul, topright in E. rewrite E. ring.
Qed.

Section Blocks.
  Context (d : nat) (A G : mat).
  Notation E2 := (fun t => expm (2 * d) (mscale t (lti_phi d A G))).
  Notation TR := (fun t => topright d (E2 t)).
  Notation BR := (fun t => botright d (E2 t)).
  Notation E := (fun t => expm d (mscale t A)).

  Lemma TR_deriv t : mderiv d TR t (madd (mmul d A (TR t)) (mmul d G (BR t))).
  Proof.
    intros i j Hi Hj. pose proof (expm_left (2 * d) (lti_phi d A G) t i (d + j)%nat ltac:(lia) ltac:(lia)) as H.
    unfold topright. replace (madd _ _ i j) with (mmul (2 * d) (lti_phi d A G) (E2 t) i (d + j)%nat); [exact H|].
    unfold mmul at 1, madd. rewrite Rsum_split2. f_equal; unfold mmul; apply Rsum_map_ext; intros k Hk; apply in_seq in Hk; unfold lti_phi.
    - destruct (Nat.ltb_spec i d); [|lia]. destruct (Nat.ltb_spec k d); [|lia]. reflexivity.
    - destruct (Nat.ltb_spec i d); [|lia]. destruct (Nat.ltb_spec (d + k) d); [lia|]. unfold botright. do 2 f_equal. lia.
  Qed.
  Lemma BR_deriv t : mderiv d BR t (mscale (-(1)) (mmul d (mtr A) (BR t))).
  Proof.
    intros i j Hi Hj. pose proof (expm_left (2 * d) (lti_phi d A G) t (d + i)%nat (d + j)%nat ltac:(lia) ltac:(lia)) as H.
    unfold botright at 1. replace (mscale _ _ i j) with (mmul (2 * d) (lti_phi d A G) (E2 t) (d + i)%nat (d + j)%nat); [exact H|].
    unfold mmul at 1, mscale. rewrite Rsum_split2. unfold mmul at 1.
    rewrite (Rsum_map_ext _ (fun _ => 0)).
    2: { intros k Hk. apply in_seq in Hk. unfold lti_phi. destruct (Nat.ltb_spec (d + i) d); [lia|]. destruct (Nat.ltb_spec k d); [ring|lia]. }
    rewrite Rsum_map_const, Rmult_0_r, Rplus_0_l. rewrite <- Rsum_map_mult_l. apply Rsum_map_ext. intros k Hk. unfold lti_phi, botright.
    destruct (Nat.ltb_spec (d + i) d); [lia|]. destruct (Nat.ltb_spec (d + k) d); [lia|]. unfold mtr.
    replace (d + i - d)%nat with i by lia. replace (d + k - d)%nat with k by lia. unfold mscale. ring.
  Qed.
  Lemma TR_0 : meq d (TR 0) (fun _ _ => 0).
  Proof.
    intros i j Hi Hj. unfold topright. rewrite (expm_zero (2 * d) _ i (d + j)%nat) by lia. unfold mid.
    destruct (Nat.eqb_spec i (d + j)); [lia|reflexivity].
  Qed.
  Lemma BR_0 : meq d (BR 0) mid.
  Proof.
    intros i j Hi Hj. unfold botright. rewrite (expm_zero (2 * d) _ (d + i)%nat (d + j)%nat) by lia. unfold mid.
    destruct (Nat.eqb_spec (d + i) (d + j)), (Nat.eqb_spec i j); try lia; reflexivity.
  Qed.

  Lemma BR_inv t : meq d (mmul d (mtr (E t)) (BR t)) mid.
  Proof.
    assert (H : forall s, mderiv d (fun u => mmul d (mtr (E u)) (BR u)) s (fun _ _ => 0)).
    { intros s. eapply mderiv_meq; [|apply mderiv_mmul; [apply mderiv_tr, expm_left|apply BR_deriv]].
      intros i j Hi Hj. unfold madd. rewrite mmul_scale_r.
      rewrite (mmul_assoc d (mtr (E s)) (mtr A) (BR s) i j Hi Hj).
      rewrite (mmul_proper d _ _ (mtr_mul d A (E s)) (BR s) (BR s) (reflexivity _) i j Hi Hj). cbv beta. ring. }
    pose proof (mderiv_constant d _ H t 0) as Hc. cbv beta in Hc. rewrite Hc. rewrite expm_zero. rewrite BR_0.
    rewrite mmul_1_r. intros i j _ _. unfold mtr, mid. now rewrite Nat.eqb_sym.
  Qed.
  Lemma BR_eq t : meq d (BR t) (mtr (E (- t))).
  Proof.
    assert (H : meq d (mmul d (mtr (E (- t))) (mmul d (mtr (E t)) (BR t))) (mtr (E (- t)))) by (rewrite BR_inv; apply mmul_1_r).
    rewrite mmul_assoc in H. rewrite <- mtr_mul in H. rewrite expm_opp in H. etransitivity; [|exact H].
    assert (Ht : meq d (mtr mid) mid) by (intros i j _ _; unfold mtr, mid; now rewrite Nat.eqb_sym).
    rewrite Ht. symmetry. apply mmul_1_l.
  Qed.
  Lemma BR_ET t : meq d (mmul d (BR t) (mtr (E t))) mid.
  Proof.
    rewrite BR_eq. rewrite <- mtr_mul. rewrite expm_opp.
    intros i j _ _; unfold mtr, mid; now rewrite Nat.eqb_sym.
  Qed.
End Blocks.

Lemma lti_cov_TR d A G t : meq d (lti_cov d A G t) (mmul d (topright d (expm (2 * d) (mscale t (lti_phi d A G)))) (mtr (expm d (mscale t A)))).
Proof. unfold lti_cov, lti_F. rewrite lti_AB_topright. reflexivity. Qed.

Lemma lti_cov_zero d A G : meq d (lti_cov d A G 0) (fun _ _ => 0).
Proof.
  rewrite lti_cov_TR. pose proof (TR_0 d A G) as H. cbv beta in H. rewrite H. intros i j _ _. unfold mmul.
  rewrite (Rsum_map_ext _ (fun _ => 0)) by (intros; ring). rewrite Rsum_map_const. ring.
Qed.

Lemma lti_cov_deriv d A G t : mderiv d (lti_cov d A G) t
  (madd (madd (mmul d A (lti_cov d A G t)) (mmul d (lti_cov d A G t) (mtr A))) G).
Proof.
  apply (mderiv_ext d (fun s => mmul d (topright d (expm (2 * d) (mscale s (lti_phi d A G)))) (mtr (expm d (mscale s A))))).
  { intros s. symmetry. apply lti_cov_TR. }
  eapply mderiv_meq; [|apply mderiv_mmul; [apply TR_deriv|apply mderiv_tr, expm_left]].
  cbv beta. set (TR := topright d _). set (E := expm d (mscale t A)).
  rewrite !lti_cov_TR. fold TR E. rewrite mtr_mul.
  pose proof (BR_ET d A G t) as HB. cbv beta in HB. fold E in HB. set (BR := botright d _) in *.
  intros i j Hi Hj. unfold madd. rewrite (mmul_assoc d TR (mtr E) (mtr A) i j Hi Hj).
  rewrite (mmul_assoc d A TR (mtr E) i j Hi Hj).
  change (mmul d (fun i0 j0 : nat => mmul d A TR i0 j0 + mmul d G BR i0 j0) (mtr E) i j) with (mmul d (madd (mmul d A TR) (mmul d G BR)) (mtr E) i j).
  rewrite mmul_add_l. rewrite <- (mmul_assoc d G BR (mtr E) i j Hi Hj).
  rewrite (mmul_proper d G G (reflexivity _) _ _ HB i j Hi Hj). rewrite mmul_id_r by exact Hj. ring.
Qed.

(** Homogeneous solutions of the covariance equation: D(t+s) = E(s) D(t) E(s)^T. *)
Lemma lti_homogeneous d A D : (forall t, mderiv d D t (madd (mmul d A (D t)) (mmul d (D t) (mtr A)))) ->
  forall t s, meq d (D (t + s)) (mmul d (expm d (mscale s A)) (mmul d (D t) (mtr (expm d (mscale s A))))).
Proof.
  intros H t s. set (E := fun s => expm d (mscale s A)).
  assert (HE : forall u, mderiv d (fun u => E (- u)) u (mscale (-(1)) (mmul d (E (- u)) A))).
  { intros u. apply (mderiv_comp d E u (fun u => - u) (-(1))); [|apply expm_right].
    apply (is_derive_opp (K := R_AbsRing) (V := R_NormedModule) (fun u => u)). apply (is_derive_id (K := R_AbsRing)). }
  assert (HD : forall u, mderiv d (fun u => D (t + u)) u (madd (mmul d A (D (t + u))) (mmul d (D (t + u)) (mtr A)))).
  { intros u. eapply mderiv_meq; [|apply (mderiv_comp d D u (fun u => t + u) 1); [|apply H]].
    - intros i j _ _. unfold mscale. ring.
    - auto_derive; [exact I|ring]. }
  assert (H0 : forall u, mderiv d (fun u => mmul d (E (- u)) (mmul d (D (t + u)) (mtr (E (- u))))) u (fun _ _ => 0)).
  { intros u. eapply mderiv_meq; [|apply mderiv_mmul; [apply HE|apply mderiv_mmul; [apply HD|apply mderiv_tr, HE]]].
    cbv beta. set (e := E (- u)). set (x := D (t + u)). intros i j Hi Hj. unfold madd at 1.
    change (mtr (mscale (-(1)) (mmul d e A))) with (mscale (-(1)) (mtr (mmul d e A))).
    rewrite mmul_scale_l, mmul_add_r.
    rewrite (mmul_proper d e e (reflexivity _) (mmul d (madd (mmul d A x) (mmul d x (mtr A))) (mtr e))
      (madd (mmul d A (mmul d x (mtr e))) (mmul d x (mmul d (mtr A) (mtr e))))).
    3,4: assumption.
    2: { intros k l Hk Hl. rewrite mmul_add_l. unfold madd. now rewrite (mmul_assoc d A x (mtr e) k l Hk Hl), (mmul_assoc d x (mtr A) (mtr e) k l Hk Hl). }
    rewrite mmul_add_r.
    rewrite (mmul_proper d e e (reflexivity _) (mmul d x (mscale (-(1)) (mtr (mmul d e A)))) (mscale (-(1)) (mmul d x (mmul d (mtr A) (mtr e))))).
    3,4: assumption.
    2: { intros k l Hk Hl. rewrite mmul_scale_r. unfold mscale. f_equal.
         apply (mmul_proper d x x (reflexivity _) _ _ (mtr_mul d e A) k l Hk Hl). }
    rewrite mmul_scale_r. rewrite (mmul_assoc d e A (mmul d x (mtr e)) i j Hi Hj). ring. }
  pose proof (mderiv_constant d _ H0 s 0) as Hc. cbv beta in Hc. rewrite Ropp_0, Rplus_0_r in Hc.
  assert (E0 : meq d (E 0) mid) by apply expm_zero.
  assert (Tm : meq d (mtr mid) mid) by (intros i j _ _; unfold mtr, mid; now rewrite Nat.eqb_sym).
  rewrite E0, Tm, mmul_1_l, mmul_1_r in Hc.
  change (meq d (D (t + s)) (mmul d (E s) (mmul d (D t) (mtr (E s))))). rewrite <- Hc.
  pose proof (expm_opp d A s) as I1. fold (E s) (E (- s)) in I1.
  rewrite <- !mmul_assoc. rewrite <- mtr_mul. rewrite !mmul_assoc. rewrite I1. rewrite Tm. now rewrite mmul_1_l, mmul_1_r.
Qed.

Lemma lti_mean_solution d A m : lti_mean_eq d A m -> forall t s, veq d (m (t + s)) (mvec d (expm d (mscale s A)) (m t)).
Proof.
  intros H t s.
  (* the mean as the first column of a matrix *)
  set (M := fun (u : R) (i j : nat) => m u i). set (E := fun s => expm d (mscale s A)).
  assert (HM : forall u, mderiv d M u (mmul d A (M u))) by (intros u i j Hi Hj; exact (H u i Hi)).
  assert (HE : forall u, mderiv d (fun u => E (- u)) u (mscale (-(1)) (mmul d (E (- u)) A))).
  { intros u. apply (mderiv_comp d E u (fun u => - u) (-(1))); [|apply expm_right].
    apply (is_derive_opp (K := R_AbsRing) (V := R_NormedModule) (fun u => u)). apply (is_derive_id (K := R_AbsRing)). }
  assert (HD : forall u, mderiv d (fun u => M (t + u)) u (mmul d A (M (t + u)))).
  { intros u. eapply mderiv_meq; [|apply (mderiv_comp d M u (fun u => t + u) 1); [|apply HM]].
    - intros i j _ _. unfold mscale. ring.
    - auto_derive; [exact I|ring]. }
  assert (H0 : forall u, mderiv d (fun u => mmul d (E (- u)) (M (t + u))) u (fun _ _ => 0)).
  { intros u. eapply mderiv_meq; [|apply mderiv_mmul; [apply HE|apply HD]]. cbv beta. intros i j Hi Hj. unfold madd.
    rewrite mmul_scale_l, (mmul_assoc d (E (- u)) A (M (t + u)) i j Hi Hj). ring. }
  pose proof (mderiv_constant d _ H0 s 0) as Hc. cbv beta in Hc. rewrite Ropp_0, Rplus_0_r in Hc.
  assert (E0 : meq d (E 0) mid) by apply expm_zero. rewrite E0, mmul_1_l in Hc.
  assert (HF : meq d (M (t + s)) (mmul d (E s) (M t))).
  { rewrite <- Hc. pose proof (expm_opp d A s) as I1. fold (E s) (E (- s)) in I1. rewrite mmul_assoc, I1. now rewrite mmul_1_l. }
  intros i Hi. exact (HF i i Hi Hi).
Qed.

Lemma lti_exact d A G dt : exact_discretisation d A G dt (fst (discretise_lti_sde d A G dt)) (snd (discretise_lti_sde d A G dt)).
Proof.
  cbn [discretise_lti_sde fst snd]. split.
  - intros m Hm t. now apply lti_mean_solution.
  - intros V HV t. set (D := fun s => msub (V s) (lti_cov d A G (s - t))).
    assert (HD : forall u, mderiv d D u (madd (mmul d A (D u)) (mmul d (D u) (mtr A)))).
    { intros u. eapply mderiv_meq; [|apply mderiv_sub; [apply HV|]].
      2: { apply (mderiv_comp d (lti_cov d A G) u (fun u => u - t) 1); [auto_derive; [exact I|ring]|apply lti_cov_deriv]. }
      intros i j Hi Hj. unfold D, madd. rewrite mmul_sub_l, mmul_sub_r. unfold msub, mscale. ring. }
    pose proof (lti_homogeneous d A D HD t dt) as Hs. intros i j Hi Hj. specialize (Hs i j Hi Hj). unfold D at 1 in Hs. unfold msub at 1 in Hs.
    replace (t + dt - t) with dt in Hs by ring. unfold madd, lti_F.
    assert (E0 : meq d (D t) (V t)).
    { intros k l Hk Hl. unfold D, msub. replace (t - t) with 0 by ring. rewrite (lti_cov_zero d A G k l Hk Hl). ring. }
    assert (E1 : meq d (mmul d (expm d (mscale dt A)) (mmul d (D t) (mtr (expm d (mscale dt A)))))
      (mmul d (expm d (mscale dt A)) (mmul d (V t) (mtr (expm d (mscale dt A)))))) by (rewrite E0; reflexivity).
    rewrite (E1 i j Hi Hj) in Hs. rewrite <- Hs. ring.
Qed.

(** It is the only exact discretisation. *)
Lemma lti_exact_unique d A G dt F Q : exact_discretisation d A G dt F Q ->
  meq d F (fst (discretise_lti_sde d A G dt)) /\ meq d Q (snd (discretise_lti_sde d A G dt)).
Proof.
  intros [H1 H2]. cbn [discretise_lti_sde fst snd].
  assert (HF : meq d F (lti_F d A dt)).
  { intros i j Hi Hj. set (m := fun t i => expm d (mscale t A) i j).
    assert (Hm : lti_mean_eq d A m) by (intros t k Hk; exact (expm_left d A t k j Hk Hj)).
    specialize (H1 m Hm 0 i Hi). rewrite Rplus_0_l in H1. unfold m at 1 in H1. unfold lti_F. rewrite H1.
    unfold mvec. rewrite (Rsum_map_ext _ (fun k => F i k * mid k j)).
    - symmetry. exact (mmul_id_r d F i j Hj).
    - intros k Hk. apply in_seq in Hk. unfold m. rewrite (expm_zero d A k j); [reflexivity|lia|assumption]. }
  split; [exact HF|].
  assert (HV : lti_cov_eq d A G (lti_cov d A G)) by (intros t; apply lti_cov_deriv).
  pose proof (H2 _ HV 0) as H. rewrite Rplus_0_l in H.
  intros i j Hi Hj. rewrite (H i j Hi Hj). unfold madd.
  rewrite (mmul_proper d F F (reflexivity _) _ (fun _ _ => 0)); try assumption.
  - unfold mmul. rewrite (Rsum_map_ext _ (fun _ => 0)) by (intros; ring). rewrite Rsum_map_const. ring.
  - rewrite lti_cov_zero. intros k l _ _. unfold mmul. rewrite (Rsum_map_ext _ (fun _ => 0)) by (intros; ring). rewrite Rsum_map_const. ring.
Qed.

(** Two steps compose. *)
Lemma lti_compose d A G s t :
  meq d (lti_F d A (s + t)) (mmul d (lti_F d A t) (lti_F d A s)) /\
  meq d (lti_cov d A G (s + t)) (madd (mmul d (lti_F d A t) (mmul d (lti_cov d A G s) (mtr (lti_F d A t)))) (lti_cov d A G t)).
Proof.
  split.
  - unfold lti_F. rewrite Rplus_comm. apply expm_plus.
  - apply (proj2 (lti_exact d A G t)). intros u. apply lti_cov_deriv.
Qed.

Lemma mtr_lti_cov d A G t : symmetric d G -> symmetric d (lti_cov d A G t).
Proof.
  intros HG. set (D := fun s => msub (mtr (lti_cov d A G s)) (lti_cov d A G s)).
  assert (HD : forall u, mderiv d D u (madd (mmul d A (D u)) (mmul d (D u) (mtr A)))).
  { intros u. eapply mderiv_meq; [|apply mderiv_sub; [apply mderiv_tr|]; apply lti_cov_deriv].
    intros i j Hi Hj. unfold D, madd. rewrite mmul_sub_l, mmul_sub_r. unfold msub, mtr at 1.
    pose proof (HG i j Hi Hj) as Hg. unfold mtr in Hg. rewrite Hg.
    set (P := lti_cov d A G u).
    pose proof (mmul_tr d A P i j) as T1. pose proof (mmul_tr d P (mtr A) i j) as T2. change (mtr (mtr A)) with A in T2. rewrite <- T1, <- T2. ring. }
  pose proof (lti_homogeneous d A D HD 0 t) as H. rewrite Rplus_0_l in H.
  assert (H0 : meq d (D 0) (fun _ _ => 0)).
  { unfold D. intros i j Hi Hj. unfold msub, mtr. rewrite !(lti_cov_zero d A G) by assumption. ring. }
  rewrite H0 in H. intros i j Hi Hj. specialize (H i j Hi Hj). unfold D, msub in H.
  assert (Z : mmul d (expm d (mscale t A)) (mmul d (fun _ _ => 0) (mtr (expm d (mscale t A)))) i j = 0).
  { unfold mmul at 1. rewrite (Rsum_map_ext _ (fun _ => 0)); [rewrite Rsum_map_const; ring|]. intros k _.
    unfold mmul. rewrite (Rsum_map_ext _ (fun _ => 0)) by (intros; ring). rewrite Rsum_map_const. ring. }
  lra.
Qed.

(** The covariance is the integral of E(s) G E(s)^T. *)
Definition lti_integrand (d : nat) (A G : mat) (s : R) : mat := mmul d (expm d (mscale s A)) (mmul d G (mtr (expm d (mscale s A)))).

Lemma lti_integrand_deriv d A G t : mderiv d (lti_integrand d A G) t
  (madd (mmul d A (lti_integrand d A G t)) (mmul d (lti_integrand d A G t) (mtr A))).
Proof.
  unfold lti_integrand. set (E := fun s => expm d (mscale s A)).
  eapply mderiv_meq; [|apply mderiv_mmul; [apply expm_left|apply mderiv_mmul; [apply mderiv_const|apply mderiv_tr, expm_left]]].
  cbv beta. fold (E t). set (e := E t). intros i j Hi Hj. unfold madd. rewrite <- (mmul_assoc d A e _ i j Hi Hj). f_equal.
  etransitivity; [apply (mmul_proper d e e (reflexivity _) _ (mmul d (mmul d G (mtr e)) (mtr A))); [|assumption|assumption]|].
  2: exact (mmul_assoc d e (mmul d G (mtr e)) (mtr A) i j Hi Hj).
  intros k l Hk Hl. cbv beta.
  change (madd (mmul d (fun _ _ => 0) (mtr e)) (mmul d G (mtr (mmul d A e))) k l = mmul d (mmul d G (mtr e)) (mtr A) k l).
  unfold madd. rewrite <- (mmul_assoc d G (mtr e) (mtr A) k l Hk Hl). rewrite (mmul_proper d G G (reflexivity _) _ _ (mtr_mul d A e) k l Hk Hl).
  unfold mmul at 1. rewrite (Rsum_map_ext _ (fun _ => 0)) by (intros; ring). rewrite Rsum_map_const. ring.
Qed.

Lemma lti_cov_rate d A G t : mderiv d (lti_cov d A G) t (lti_integrand d A G t).
Proof.
  eapply mderiv_meq; [|apply lti_cov_deriv].
  set (R := fun s => madd (madd (mmul d A (lti_cov d A G s)) (mmul d (lti_cov d A G s) (mtr A))) G).
  set (D := fun s => msub (R s) (lti_integrand d A G s)).
  assert (HR : forall u, mderiv d R u (madd (mmul d A (R u)) (mmul d (R u) (mtr A)))).
  { intros u. pose proof (lti_cov_deriv d A G u) as HP. fold (R u) in HP.
    assert (H1 : mderiv d (fun s => mmul d A (lti_cov d A G s)) u (madd (mmul d (fun _ _ => 0) (lti_cov d A G u)) (mmul d A (R u)))).
    { exact (mderiv_mmul d (fun _ => A) (lti_cov d A G) _ _ u (mderiv_const d A u) HP). }
    assert (H2 : mderiv d (fun s => mmul d (lti_cov d A G s) (mtr A)) u (madd (mmul d (R u) (mtr A)) (mmul d (lti_cov d A G u) (fun _ _ => 0)))).
    { exact (mderiv_mmul d (lti_cov d A G) (fun _ => mtr A) _ _ u HP (mderiv_const d (mtr A) u)). }
    pose proof (mderiv_add d _ _ u _ _ (mderiv_add d _ _ u _ _ H1 H2) (mderiv_const d G u)) as H3. cbv beta in H3.
    eapply mderiv_meq; [|exact H3].
    generalize (R u) as Ru. generalize (lti_cov d A G u) as Pu. clear. intros Pu Ru.
    intros i j _ _. unfold madd.
    unfold mmul at 1 4. rewrite !(Rsum_map_ext (fun k => 0 * _) (fun _ => 0)) by (intros; ring).
    rewrite !(Rsum_map_ext (fun k => _ * 0) (fun _ => 0)) by (intros; ring). rewrite !Rsum_map_const. ring. }
  assert (HD : forall u, mderiv d D u (madd (mmul d A (D u)) (mmul d (D u) (mtr A)))).
  { intros u. eapply mderiv_meq; [|apply mderiv_sub; [apply HR|apply lti_integrand_deriv]].
    intros i j _ _. unfold D, madd. rewrite mmul_sub_l, mmul_sub_r. unfold msub. ring. }
  pose proof (lti_homogeneous d A D HD 0 t) as H. rewrite Rplus_0_l in H.
  assert (H0 : meq d (D 0) (fun _ _ => 0)).
  { intros i j Hi Hj. unfold D, R, msub, madd.
    rewrite (mmul_proper d A A (reflexivity _) _ _ (lti_cov_zero d A G) i j Hi Hj).
    rewrite (mmul_proper d _ _ (lti_cov_zero d A G) (mtr A) (mtr A) (reflexivity _) i j Hi Hj).
    assert (HI : meq d (lti_integrand d A G 0) G).
    { unfold lti_integrand. rewrite expm_zero. assert (Tm : meq d (mtr mid) mid) by (intros k l _ _; unfold mtr, mid; now rewrite Nat.eqb_sym).
      rewrite Tm, mmul_1_l, mmul_1_r. reflexivity. }
    rewrite (HI i j Hi Hj). unfold mmul. rewrite (Rsum_map_ext (fun k => A i k * 0) (fun _ => 0)) by (intros; ring).
    rewrite (Rsum_map_ext (fun k => 0 * mtr A k j) (fun _ => 0)) by (intros; ring). rewrite Rsum_map_const. ring. }
  rewrite H0 in H. intros i j Hi Hj. specialize (H i j Hi Hj). unfold D, msub in H.
  assert (Z : mmul d (expm d (mscale t A)) (mmul d (fun _ _ => 0) (mtr (expm d (mscale t A)))) i j = 0).
  { unfold mmul at 1. rewrite (Rsum_map_ext _ (fun _ => 0)); [rewrite Rsum_map_const; ring|]. intros k _.
    unfold mmul. rewrite (Rsum_map_ext _ (fun _ => 0)) by (intros; ring). rewrite Rsum_map_const. ring. }
  fold (R t). lra.
Qed.

Lemma lti_cov_integral d A G dt i j : (i < d)%nat -> (j < d)%nat ->
  is_RInt (V := R_NormedModule) (fun s => lti_integrand d A G s i j) 0 dt (snd (discretise_lti_sde d A G dt) i j).
Proof.
  intros Hi Hj. cbn [discretise_lti_sde snd].
  replace (lti_cov d A G dt i j) with (minus (lti_cov d A G dt i j) (lti_cov d A G 0 i j) : R_NormedModule).
  2: { rewrite (lti_cov_zero d A G i j Hi Hj). unfold minus, plus, opp; cbn. ring. }
  apply (is_RInt_derive (V := R_CompleteNormedModule) (fun s => lti_cov d A G s i j) (fun s => lti_integrand d A G s i j)).
  - intros s _. now apply lti_cov_rate.
  - intros s _. apply (ex_derive_continuous (V := R_NormedModule) (fun s => lti_integrand d A G s i j)).
    eexists. apply (lti_integrand_deriv d A G s i j Hi Hj).
Qed.

(** Positive semi-definiteness. *)
Lemma is_derive_quad d (P : R -> mat) P' x t : mderiv d P t P' -> is_derive (fun s => quad d (P s) x) t (quad d P' x).
Proof.
  intros H. unfold quad.
  apply (is_derive_Rsum_map (fun i s => x i * mvec d (P s) x i) (fun i => x i * mvec d P' x i)). intros i Hi. apply in_seq in Hi.
  apply (is_derive_scal (fun s => mvec d (P s) x i) t (x i)). unfold mvec.
  apply (is_derive_Rsum_map (fun k s => P s i k * x k) (fun k => P' i k * x k)). intros k Hk. apply in_seq in Hk.
  apply (is_derive_ext (fun s => x k * P s i k)); [intros; apply Rmult_comm|]. rewrite Rmult_comm.
  apply (is_derive_scal (fun s => P s i k) t (x k)). apply H; lia.
Qed.

Lemma lti_cov_psd d A G dt : (forall x, 0 <= quad d G x) -> 0 <= dt -> forall x, 0 <= quad d (snd (discretise_lti_sde d A G dt)) x.
Proof.
  intros HG Hdt x. cbn [discretise_lti_sde snd]. destruct (Req_dec dt 0) as [->|Hne].
  - right. symmetry. unfold quad. rewrite (Rsum_map_ext _ (fun _ => 0)); [rewrite Rsum_map_const; ring|].
    intros i Hi. apply in_seq in Hi. unfold mvec. rewrite (Rsum_map_ext _ (fun _ => 0)); [rewrite Rsum_map_const; ring|].
    intros k Hk. apply in_seq in Hk. rewrite (lti_cov_zero d A G i k) by lia. ring.
  - destruct (MVT_gen (fun s => quad d (lti_cov d A G s) x) 0 dt (fun s => quad d (lti_integrand d A G s) x)) as (c & Hc & E).
    + intros s _. apply is_derive_quad, lti_cov_rate.
    + intros s _. apply continuity_pt_filterlim. apply (ex_derive_continuous (V := R_NormedModule) (fun s => quad d (lti_cov d A G s) x)).
      eexists. apply is_derive_quad, lti_cov_rate.
    + assert (Z : quad d (lti_cov d A G 0) x = 0).
      { unfold quad. rewrite (Rsum_map_ext _ (fun _ => 0)); [rewrite Rsum_map_const; ring|].
        intros i Hi. apply in_seq in Hi. unfold mvec. rewrite (Rsum_map_ext _ (fun _ => 0)); [rewrite Rsum_map_const; ring|].
        intros k Hk. apply in_seq in Hk. rewrite (lti_cov_zero d A G i k) by lia. ring. }
      rewrite Z in E. unfold lti_integrand in E. rewrite quad_conj in E.
      pose proof (HG (mvec d (mtr (expm d (mscale c A))) x)). nra.
Qed.

(** The scalar case: the Ornstein-Uhlenbeck formulas. *)
Lemma expm_scalar (a t : R) : expm 1 (mscale t (fun _ _ => a)) 0%nat 0%nat = exp (t * a).
Proof.
  set (E := fun t => expm 1 (mscale t (fun _ _ => a)) 0%nat 0%nat * exp (- (t * a))).
  assert (H : forall s, is_derive E s 0).
  { intros s. unfold E. pose proof (expm_left 1 (fun _ _ => a) s 0%nat 0%nat ltac:(lia) ltac:(lia)) as H1.
    evar_last.
    - apply (is_derive_mult (fun t => expm 1 (mscale t (fun _ _ => a)) 0%nat 0%nat) (fun t => exp (- (t * a)))); [exact H1| |intros; apply Rmult_comm].
      auto_derive; [exact I|reflexivity].
    - unfold mmul. cbn [seq map Rsum fold_right]. unfold plus, mult; cbn. ring. }
  assert (E t = E 0).
  { destruct (Rtotal_order t 0) as [L|[->|L]]; [|reflexivity|symmetry];
    apply (eq_is_derive (V := R_NormedModule) E); try assumption; intros; apply H. }
  unfold E in H0. rewrite (expm_zero 1 (fun _ _ => a) 0%nat 0%nat) in H0 by lia. unfold mid in H0. cbn in H0.
  rewrite Rmult_0_l, Ropp_0, exp_0 in H0. rewrite exp_Ropp in H0. pose proof (exp_pos (t * a)).
  apply (Rmult_eq_reg_r (/ exp (t * a))); [|apply Rinv_neq_0_compat; lra]. rewrite H0. field. lra.
Qed.

Lemma lti_scalar (a b dt : R) : a <> 0 ->
  fst (discretise_lti_sde 1 (fun _ _ => a) (fun _ _ => b ^ 2) dt) 0%nat 0%nat = exp (a * dt) /\
  snd (discretise_lti_sde 1 (fun _ _ => a) (fun _ _ => b ^ 2) dt) 0%nat 0%nat = b ^ 2 / (2 * a) * (exp (2 * a * dt) - 1).
Proof.
  intros Ha. split.
  - cbn [discretise_lti_sde fst]. unfold lti_F. rewrite expm_scalar. f_equal. ring.
  - set (V := fun (t : R) (_ _ : nat) => b ^ 2 / (2 * a) * (exp (2 * a * t) - 1)).
    pose proof (proj2 (lti_exact 1 (fun _ _ => a) (fun _ _ => b ^ 2) dt) V) as H.
    assert (HV : lti_cov_eq 1 (fun _ _ => a) (fun _ _ => b ^ 2) V).
    { intros t i j _ _. unfold V, madd, mmul, mtr. cbn [seq map Rsum fold_right]. evar_last; [auto_derive; [exact I|reflexivity]|]. field. exact Ha. }
    specialize (H HV 0 0%nat 0%nat ltac:(lia) ltac:(lia)). rewrite Rplus_0_l in H. unfold madd in H.
    assert (Z : V 0 0%nat 0%nat = 0) by (unfold V; rewrite Rmult_0_r, exp_0; ring).
    unfold mmul at 1 2 in H. cbn [seq map Rsum fold_right] in H. rewrite Z in H.
    unfold V in H at 1. rewrite H. ring.
Qed.

(** Witness: the integrated Brownian motion dX1 = X2 dt, dX2 = dW.  A is not symmetric, so
    a misplaced transpose in the model would show up here. *)
Definition ibm_A : mat := fun i j => match i, j with 0%nat, 1%nat => 1 | _, _ => 0 end.
Definition ibm_G : mat := fun i j => match i, j with 1%nat, 1%nat => 1 | _, _ => 0 end.
Definition ibm_F (t : R) : mat := fun i j => match i, j with 0%nat, 1%nat => t | 1%nat, 0%nat => 0 | _, _ => 1 end.
Definition ibm_Q (t : R) : mat := fun i j => match i, j with 0%nat, 0%nat => t ^ 3 / 3 | 1%nat, 1%nat => t | _, _ => t ^ 2 / 2 end.

Lemma ibm_exact dt :
  meq 2 (fst (discretise_lti_sde 2 ibm_A ibm_G dt)) (ibm_F dt) /\
  meq 2 (snd (discretise_lti_sde 2 ibm_A ibm_G dt)) (ibm_Q dt).
Proof.
  split.
  - intros i j Hi Hj. set (m := fun t i => ibm_F t i j).
    assert (Hm : lti_mean_eq 2 ibm_A m).
    { intros t k Hk. unfold m, mvec. cbn [seq map Rsum fold_right].
      destruct k as [|[|k]]; [| |lia]; destruct j as [|[|j]]; try lia; unfold ibm_F, ibm_A;
        (evar_last; [auto_derive; [exact I|reflexivity]|ring]). }
    pose proof (proj1 (lti_exact 2 ibm_A ibm_G dt) m Hm 0 i Hi) as H. rewrite Rplus_0_l in H. fold (m dt i).
    change (ibm_F dt i j) with (m dt i). rewrite H.
    destruct j as [|[|j]]; try lia; unfold m, mvec; cbn [seq map Rsum fold_right]; unfold ibm_F; ring.
  - assert (HV : lti_cov_eq 2 ibm_A ibm_G ibm_Q).
    { intros t i j Hi Hj. unfold madd, mmul, mtr. cbn [seq map Rsum fold_right].
      destruct i as [|[|i]]; [| |lia]; (destruct j as [|[|j]]; [| |lia]); unfold ibm_Q, ibm_A, ibm_G;
        (evar_last; [auto_derive; [exact I|reflexivity]|field]). }
    intros i j Hi Hj. pose proof (proj2 (lti_exact 2 ibm_A ibm_G dt) ibm_Q HV 0 i j Hi Hj) as H. rewrite Rplus_0_l in H.
    rewrite H. unfold madd. symmetry. 
    assert (Z : mmul 2 (fst (discretise_lti_sde 2 ibm_A ibm_G dt)) (mmul 2 (ibm_Q 0) (mtr (fst (discretise_lti_sde 2 ibm_A ibm_G dt)))) i j = 0); [|rewrite Z; ring].
    assert (Q0 : forall k l, (k < 2)%nat -> (l < 2)%nat -> ibm_Q 0 k l = 0).
    { intros k l Hk Hl. destruct k as [|[|k]]; [| |lia]; (destruct l as [|[|l]]; [| |lia]); cbn; lra. }
    unfold mmul. cbn [seq map Rsum fold_right]. rewrite !Q0 by lia. ring.
Qed.
