(** fbs/utils.py 21-36: sqrtm and bures_dist. *)
From Coquelicot Require Import Coquelicot.
From Coq Require Import Reals List Lia Lra Morphisms Setoid.
From Verif Require Import Base Dist Mat MatMore Cholesky GaussDiv.
Import ListNotations.
Open Scope R_scope.

(** jnp.linalg.eigh(M): M = V diag(w) V^T with V orthogonal. *)
Definition eigh (d : nat) (M : mat) (w : vec) (V : mat) : Prop :=
  meq d (mmul d (mmul d V (mdiag w)) (mtr V)) M /\ meq d (mmul d (mtr V) V) mid /\ meq d (mmul d V (mtr V)) mid.

(** fbs/utils.py 26: eigenvecs @ diag(sqrt(eigenvals)) @ eigenvecs.T *)
Definition sqrtm (d : nat) (w : vec) (V : mat) : mat := mmul d (mmul d V (mdiag (fun i => sqrt (w i)))) (mtr V).

(** fbs/utils.py 21-28, method 'eigh' *)
Definition sqrtm_returns (d : nat) (M R : mat) : Prop := exists w V, eigh d M w V /\ meq d R (sqrtm d w V).

(** fbs/utils.py 31-36 *)
Definition bures_returns (d : nat) (m0 : vec) (c0 : mat) (m1 : vec) (c1 : mat) (r : R) : Prop :=
  exists S Q, sqrtm_returns d c0 S /\ sqrtm_returns d (mmul d (mmul d S c1) S) Q /\
  r = Rsum (map (fun i => (m0 i - m1 i) ^ 2) (seq 0 d)) + mtrace d (msub (madd c0 c1) (mscale 2 Q)).

(** Specification: the couplings of two laws given by their first two moments, and the
    squared Wasserstein distance as the least expected squared distance. *)
Definition coupling (d : nat) (m0 : vec) (c0 : mat) (m1 : vec) (c1 : mat) (joint : dist (vec * vec)) : Prop :=
  is_prob joint /\ has_mean d (dmap fst joint) m0 /\ has_cov d (dmap fst joint) m0 c0 /\
  has_mean d (dmap snd joint) m1 /\ has_cov d (dmap snd joint) m1 c1.
Definition transport_cost (d : nat) (joint : dist (vec * vec)) : R :=
  E joint (fun xy => Rsum (map (fun i => (fst xy i - snd xy i) ^ 2) (seq 0 d))).

(** ** sqrtm *)
Section Root.
  Context (d : nat).
  Local Infix "**" := (mmul d) (at level 40, left associativity).
  Local Infix "==" := (meq d) (at level 70).

  Lemma mdiag_mul u w : mdiag u ** mdiag w == mdiag (fun i => u i * w i).
  Proof.
    intros i j Hi Hj. unfold mmul, mdiag.
    rewrite (Rsum_map_ext _ (fun k => (if Nat.eqb k i then 1 else 0) * (if Nat.eqb i j then u i * w i else 0))).
    - rewrite (Rsum_indicator d i (fun _ => if Nat.eqb i j then u i * w i else 0)) by exact Hi. reflexivity.
    - intros k _. rewrite (Nat.eqb_sym k i). destruct (Nat.eqb_spec i k) as [<-|]; [|ring]. destruct (Nat.eqb i j); ring.
  Qed.
  Lemma mdiag_tr u : mtr (mdiag u) == mdiag u.
  Proof. intros i j _ _. unfold mtr, mdiag. rewrite Nat.eqb_sym. destruct (Nat.eqb_spec i j) as [->|]; reflexivity. Qed.
  Lemma mdiag_ext u w : veq d u w -> mdiag u == mdiag w.
  Proof. intros H i j Hi _. unfold mdiag. destruct (Nat.eqb i j); [now apply H|reflexivity]. Qed.
  Lemma mdiag_one : mdiag (fun _ => 1) == mid.
  Proof. intros i j _ _. reflexivity. Qed.

  Definition spectral (V : mat) (u : vec) : mat := (V ** mdiag u) ** mtr V.
  Lemma spectral_mul V u w : mtr V ** V == mid -> spectral V u ** spectral V w == spectral V (fun i => u i * w i).
  Proof.
    intros HV. unfold spectral. rewrite <- mdiag_mul. rewrite !mmul_assoc.
    rewrite <- (mmul_assoc d (V ** mdiag u) (mtr V) V). rewrite HV, mmul_1_r. reflexivity.
  Qed.
  Lemma spectral_tr V u : mtr (spectral V u) == spectral V u.
  Proof. unfold spectral. rewrite !mtr_mul, mdiag_tr. change (mtr (mtr V)) with V. now rewrite mmul_assoc. Qed.
  Lemma spectral_ext V u w : veq d u w -> spectral V u == spectral V w.
  Proof. intros H. unfold spectral. now rewrite (mdiag_ext u w H). Qed.
  Lemma spectral_one V : V ** mtr V == mid -> spectral V (fun _ => 1) == mid.
  Proof. intros H. unfold spectral. now rewrite mdiag_one, mmul_1_r. Qed.
  Lemma quad_mdiag u x : quad d (mdiag u) x = Rsum (map (fun i => u i * x i ^ 2) (seq 0 d)).
  Proof.
    unfold quad. apply Rsum_map_ext. intros i Hi. apply in_seq in Hi. unfold mvec, mdiag.
    rewrite (Rsum_map_ext _ (fun k => (if Nat.eqb k i then 1 else 0) * (u i * x k))).
    - rewrite (Rsum_indicator d i (fun k => u i * x k)) by lia. ring.
    - intros k _. rewrite Nat.eqb_sym. destruct (Nat.eqb_spec k i); ring.
  Qed.
  Lemma quad_spectral V u x : quad d (spectral V u) x = Rsum (map (fun i => u i * mvec d (mtr V) x i ^ 2) (seq 0 d)).
  Proof. unfold spectral. rewrite <- mmul_assoc. rewrite quad_conj. apply quad_mdiag. Qed.

  (** The eigenvalue w_k is the quadratic form at the k-th eigenvector. *)
  Lemma eigenvalue_quad M w V k : eigh d M w V -> (k < d)%nat ->
    quad d M (fun i => V i k) = w k /\ ~ veq d (fun i => V i k) (fun _ => 0).
  Proof.
    intros (HM & H1 & H2) Hk.
    assert (He : veq d (mvec d (mtr V) (fun i => V i k)) (fun i => mid i k)) by (intros i Hi; exact (H1 i k Hi Hk)).
    split.
    - rewrite <- HM. fold (spectral V w). rewrite quad_spectral.
      rewrite (Rsum_map_ext _ (fun i => (if Nat.eqb i k then 1 else 0) * w i)).
      + now apply Rsum_indicator.
      + intros i Hi. apply in_seq in Hi. rewrite He by lia. unfold mid. destruct (Nat.eqb i k); ring.
    - intros Z. pose proof (He k Hk) as C. rewrite (mvec_zero d (mtr V) _ Z k Hk) in C. unfold mid in C. rewrite Nat.eqb_refl in C. lra.
  Qed.
  Lemma eigh_pos M w V : eigh d M w V -> posdef d M -> forall k, (k < d)%nat -> 0 < w k.
  Proof. intros H HP k Hk. destruct (eigenvalue_quad M w V k H Hk) as [<- N]. now apply HP. Qed.
  Lemma eigh_nonneg M w V : eigh d M w V -> psd d M -> forall k, (k < d)%nat -> 0 <= w k.
  Proof. intros H HP k Hk. destruct (eigenvalue_quad M w V k H Hk) as [<- N]. apply HP. Qed.

  (** For positive semi-definite M the returned matrix is symmetric, positive semi-definite
      and squares to M. *)
  Theorem sqrtm_correct M Q : psd d M -> sqrtm_returns d M Q -> symmetric d Q /\ psd d Q /\ Q ** Q == M.
  Proof.
    intros HP (w & V & He & HQ). pose proof (eigh_nonneg M w V He HP) as Hw. destruct He as (HM & H1 & H2).
    split; [|split].
    - unfold symmetric. rewrite HQ. apply spectral_tr.
    - intros x. rewrite HQ. change (sqrtm d w V) with (spectral V (fun i => sqrt (w i))). rewrite quad_spectral.
      apply Rsum_nonneg, Forall_forall. intros y Hy. apply in_map_iff in Hy. destruct Hy as (i & <- & _).
      apply Rmult_le_pos; [apply sqrt_pos|apply pow2_ge_0].
    - rewrite HQ. change (sqrtm d w V) with (spectral V (fun i => sqrt (w i))). rewrite spectral_mul by exact H1.
      rewrite (spectral_ext V _ w). exact HM. intros i Hi. apply sqrt_sqrt. now apply Hw.
  Qed.

  (** For positive definite M it is invertible. *)
  Lemma sqrtm_inverse M Q : posdef d M -> sqrtm_returns d M Q ->
    exists Qi, Q ** Qi == mid /\ Qi ** Q == mid /\ symmetric d Qi.
  Proof.
    intros HP (w & V & He & HQ). pose proof (eigh_pos M w V He HP) as Hw. destruct He as (HM & H1 & H2).
    exists (spectral V (fun i => / sqrt (w i))).
    assert (I1 : spectral V (fun i => sqrt (w i)) ** spectral V (fun i => / sqrt (w i)) == mid).
    { rewrite spectral_mul by exact H1. rewrite (spectral_ext V _ (fun _ => 1)); [now apply spectral_one|].
      intros i Hi. pose proof (sqrt_lt_R0 _ (Hw i Hi)). field. lra. }
    assert (I2 : spectral V (fun i => / sqrt (w i)) ** spectral V (fun i => sqrt (w i)) == mid).
    { rewrite spectral_mul by exact H1. rewrite (spectral_ext V _ (fun _ => 1)); [now apply spectral_one|].
      intros i Hi. pose proof (sqrt_lt_R0 _ (Hw i Hi)). field. lra. }
    split; [|split].
    - rewrite HQ. exact I1.
    - rewrite HQ. exact I2.
    - apply spectral_tr.
  Qed.

  (** ** The optimal map *)
  (** What the proof needs of T: C1 = T C0 T, T symmetric, positive and invertible, and the traces. *)
  Definition monge (c0 c1 Q T : mat) : Prop :=
    symmetric d T /\ psd d T /\ T ** c0 ** T == c1 /\ mtrace d (T ** c0) = mtrace d Q /\
    exists Ti, symmetric d Ti /\ T ** Ti == mid /\ Ti ** T == mid /\ mtrace d (Ti ** c1) = mtrace d Q.

  Lemma monge_exists c0 c1 S Q : symmetric d c0 -> posdef d c0 -> symmetric d c1 -> posdef d c1 ->
    sqrtm_returns d c0 S -> sqrtm_returns d (S ** c1 ** S) Q -> exists T, monge c0 c1 Q T.
  Proof.
    intros S0 P0 S1 P1 HS HQ.
    destruct (sqrtm_correct c0 S (posdef_psd d _ P0) HS) as (SS & SP & S2). destruct (sqrtm_inverse c0 S P0 HS) as (Si & I1 & I2 & I3).
    unfold symmetric in SS, I3.
    assert (PQ : posdef d (S ** c1 ** S)).
    { intros x Hx. assert (E : meq d (S ** c1 ** S) (S ** (c1 ** mtr S))) by (rewrite SS; now rewrite mmul_assoc).
      rewrite E, quad_conj. apply P1. intros Z. apply Hx.
      assert (V : veq d (mvec d Si (mvec d (mtr S) x)) (fun _ => 0)) by (rewrite Z; now apply mvec_zero).
      rewrite SS, mvec_mul, I2, mvec_id in V. exact V. }
    destruct (sqrtm_correct _ Q (posdef_psd d _ PQ) HQ) as (QS & QP & Q2). destruct (sqrtm_inverse _ Q PQ HQ) as (Qi & J1 & J2 & J3).
    unfold symmetric in QS, J3.
    exists (Si ** Q ** Si). split; [|split; [|split; [|split]]].
    - unfold symmetric. rewrite !mtr_mul, I3, QS. now rewrite mmul_assoc.
    - intros x. assert (E : meq d (Si ** Q ** Si) (Si ** (Q ** mtr Si))) by (rewrite I3; now rewrite mmul_assoc).
      rewrite E, quad_conj. apply QP.
    - rewrite <- S2. rewrite !mmul_assoc. rewrite <- (mmul_assoc d (Si ** Q) Si S), I2, mmul_1_r.
      rewrite <- (mmul_assoc d (Si ** Q) S Si), I1, mmul_1_r. rewrite <- (mmul_assoc d Si Q Q), Q2.
      rewrite !mmul_assoc, I2, mmul_1_l. rewrite <- mmul_assoc, I1, mmul_1_r. reflexivity.
    - rewrite <- S2. rewrite !mmul_assoc. rewrite <- (mmul_assoc d (Si ** Q) Si S), I2, mmul_1_r.
      rewrite mtrace_comm, !mmul_assoc, I1, mmul_1_l. reflexivity.
    - exists (S ** Qi ** S). split; [|split; [|split]].
      + unfold symmetric. rewrite !mtr_mul, SS, J3. now rewrite mmul_assoc.
      + rewrite !mmul_assoc. rewrite <- (mmul_assoc d (Si ** Q) Si S), I2, mmul_1_r. rewrite <- (mmul_assoc d Si Q Qi), J1, mmul_1_r. exact I2.
      + rewrite !mmul_assoc. rewrite <- (mmul_assoc d (S ** Qi) S Si), I1, mmul_1_r. rewrite <- (mmul_assoc d S Qi Q), J2, mmul_1_r. exact I1.
      + rewrite <- !mmul_assoc. rewrite mtrace_comm. rewrite <- !mmul_assoc. rewrite (mmul_assoc d S c1 S), <- Q2.
        rewrite mmul_assoc, J2, mmul_1_l. reflexivity.
  Qed.
End Root.

(** ** bures_dist *)
Definition cross (m0 m1 : vec) (joint : dist (vec * vec)) : mat := fun i j => E joint (fun xy => (fst xy i - m0 i) * (snd xy j - m1 j)).

Lemma E_dot_mvec {A} d (law : dist A) (X Y : A -> vec) (B : mat) :
  E law (fun w => dot d (X w) (mvec d B (Y w))) =
  Rsum (map (fun i => Rsum (map (fun j => B i j * E law (fun w => X w i * Y w j)) (seq 0 d))) (seq 0 d)).
Proof.
  unfold dot. rewrite E_Rsum. apply Rsum_map_ext. intros i _. unfold mvec.
  transitivity (E law (fun w => Rsum (map (fun j => B i j * (X w i * Y w j)) (seq 0 d)))).
  - apply E_ext'. intros w. rewrite <- Rsum_map_mult_l. apply Rsum_map_ext. intros; ring.
  - rewrite E_Rsum. apply Rsum_map_ext. intros j _. apply E_mult_l.
Qed.

Lemma coupling_cost d m0 c0 m1 c1 joint : coupling d m0 c0 m1 c1 joint ->
  transport_cost d joint = Rsum (map (fun i => (m0 i - m1 i) ^ 2) (seq 0 d)) + mtrace d c0 + mtrace d c1 - 2 * mtrace d (cross m0 m1 joint).
Proof.
  intros (HP & M0 & C0 & M1 & C1). unfold transport_cost. rewrite E_Rsum. unfold mtrace.
  transitivity (Rsum (map (fun i => (m0 i - m1 i) ^ 2 + c0 i i + c1 i i + (-(2)) * cross m0 m1 joint i i) (seq 0 d))).
  - apply Rsum_map_ext. intros i Hi. apply in_seq in Hi. unfold cross.
    specialize (M0 i ltac:(lia)). specialize (M1 i ltac:(lia)). specialize (C0 i i ltac:(lia) ltac:(lia)). specialize (C1 i i ltac:(lia) ltac:(lia)).
    rewrite E_dmap in M0, M1, C0, C1. rewrite <- C0, <- C1.
    transitivity (E joint (fun xy => (m0 i - m1 i) ^ 2 + ((2 * (m0 i - m1 i)) * (fst xy i - m0 i) + ((-(2)) * (m0 i - m1 i)) * (snd xy i - m1 i))
      + ((fst xy i - m0 i) * (fst xy i - m0 i) + (snd xy i - m1 i) * (snd xy i - m1 i) + (-(2)) * ((fst xy i - m0 i) * (snd xy i - m1 i))))).
    { apply E_ext'. intros [x y]. cbn [fst snd]. ring. }
    rewrite !E_plus, !E_mult_l, !E_minus, !E_const by exact HP. rewrite M0, M1. ring.
  - rewrite !Rsum_map_plus, Rsum_map_mult_l. ring.
Qed.

Theorem bures_lower_bound d m0 c0 m1 c1 r : symmetric d c0 -> posdef d c0 -> symmetric d c1 -> posdef d c1 ->
  bures_returns d m0 c0 m1 c1 r -> forall joint, coupling d m0 c0 m1 c1 joint -> r <= transport_cost d joint.
Proof.
  intros S0 P0 S1 P1 (S & Q & HS & HQ & ->) joint HJ. destruct (monge_exists d c0 c1 S Q S0 P0 S1 P1 HS HQ) as (T & TS & TP & T2 & Tr & Ti & TiS & I1 & I2 & Tr').
  rewrite (coupling_cost d m0 c0 m1 c1 joint HJ). rewrite mtrace_sub, mtrace_add, mtrace_scale.
  destruct HJ as (HP & M0 & C0 & M1 & C1).
  assert (K : mtrace d (cross m0 m1 joint) <= mtrace d Q); [|lra].
  set (X := fun xy : vec * vec => vsub (fst xy) m0). set (Y := fun xy : vec * vec => vsub (snd xy) m1).
  assert (N : 0 <= E joint (fun xy => quad d T (vsub (X xy) (mvec d Ti (Y xy))))).
  { apply E_nonneg; [exact (proj1 HP)|]. intros xy _. apply TP. }
  assert (Ex : forall x y, quad d T (vsub x (mvec d Ti y)) = dot d x (mvec d T x) + (-(2)) * dot d x (mvec d mid y) + dot d y (mvec d Ti y)).
  { intros x y. rewrite quad_dot.
    assert (L : veq d (mvec d T (vsub x (mvec d Ti y))) (vsub (mvec d T x) y)).
    { intros i Hi. unfold vsub at 2. replace (y i) with (mvec d T (mvec d Ti y) i).
      - generalize (mvec d Ti y) as p. intros p. unfold mvec, vsub. transitivity (Rsum (map (fun k => T i k * x k + (-(1)) * (T i k * p k)) (seq 0 d))).
        + apply Rsum_map_ext. intros; ring.
        + rewrite Rsum_map_plus, Rsum_map_mult_l. ring.
      - rewrite (mvec_mul d T Ti y i Hi). rewrite (mvec_proper d _ _ I1 y y (reflexivity _) i Hi). now apply mvec_id. }
    rewrite L. rewrite mvec_id. unfold symmetric in TS.
    assert (X1 : dot d (mvec d Ti y) (mvec d T x) = dot d x y).
    { rewrite dot_mvec. rewrite TS, mvec_mul, I1, mvec_id. apply dot_comm. }
    assert (X2 : dot d (mvec d Ti y) y = dot d y (mvec d Ti y)) by apply dot_comm.
    transitivity (dot d x (mvec d T x) - dot d x y - dot d (mvec d Ti y) (mvec d T x) + dot d (mvec d Ti y) y).
    - unfold dot, vsub. set (p := mvec d Ti y). set (q := mvec d T x).
      transitivity (Rsum (map (fun i => x i * q i + (-(1)) * (x i * y i) + (-(1)) * (p i * q i) + p i * y i) (seq 0 d))).
      + apply Rsum_map_ext. intros; ring.
      + rewrite !Rsum_map_plus, !Rsum_map_mult_l. ring.
    - rewrite X1, X2. ring. }
  rewrite (E_ext' joint _ _ (fun xy => Ex (X xy) (Y xy))) in N. rewrite !E_plus, E_mult_l, !E_dot_mvec in N.
  assert (A1 : Rsum (map (fun i => Rsum (map (fun j => T i j * E joint (fun w => X w i * X w j)) (seq 0 d))) (seq 0 d)) = mtrace d Q).
  { rewrite <- Tr. unfold mtrace, mmul. apply Rsum_map_ext. intros i Hi. apply in_seq in Hi. apply Rsum_map_ext. intros j Hj. apply in_seq in Hj.
    f_equal. pose proof (C0 j i ltac:(lia) ltac:(lia)) as Hc. rewrite E_dmap in Hc. rewrite <- Hc. apply E_ext'. intros xy. unfold X, vsub. ring. }
  assert (A2 : Rsum (map (fun i => Rsum (map (fun j => Ti i j * E joint (fun w => Y w i * Y w j)) (seq 0 d))) (seq 0 d)) = mtrace d Q).
  { rewrite <- Tr'. unfold mtrace, mmul. apply Rsum_map_ext. intros i Hi. apply in_seq in Hi. apply Rsum_map_ext. intros j Hj. apply in_seq in Hj.
    f_equal. pose proof (C1 j i ltac:(lia) ltac:(lia)) as Hc. rewrite E_dmap in Hc. rewrite <- Hc. apply E_ext'. intros xy. unfold Y, vsub. ring. }
  assert (A3 : Rsum (map (fun i => Rsum (map (fun j => mid i j * E joint (fun w => X w i * Y w j)) (seq 0 d))) (seq 0 d)) = mtrace d (cross m0 m1 joint)).
  { unfold mtrace. apply Rsum_map_ext. intros i Hi. apply in_seq in Hi. unfold cross.
    transitivity (E joint (fun w => X w i * Y w i)); [|reflexivity].
    rewrite <- (Rsum_indicator d i (fun j => E joint (fun w => X w i * Y w j))) by lia. apply Rsum_map_ext. intros j _. unfold mid. rewrite (Nat.eqb_sym i j).
    destruct (Nat.eqb j i); ring. }
  rewrite A1, A2, A3 in N. lra.
Qed.

Theorem bures_attained d m0 c0 m1 c1 r : symmetric d c0 -> posdef d c0 -> symmetric d c1 -> posdef d c1 ->
  bures_returns d m0 c0 m1 c1 r -> forall law, is_prob law -> has_mean d law m0 -> has_cov d law m0 c0 ->
  exists A, let joint := dmap (fun x => (x, vadd m1 (mvec d A (vsub x m0)))) law in
    coupling d m0 c0 m1 c1 joint /\ transport_cost d joint = r.
Proof.
  intros S0 P0 S1 P1 (S & Q & HS & HQ & ->) law HP HM HC. destruct (monge_exists d c0 c1 S Q S0 P0 S1 P1 HS HQ) as (T & TS & TP & T2 & Tr & _).
  exists T. cbv zeta. set (joint := dmap _ law).
  assert (HJ : coupling d m0 c0 m1 c1 joint).
  { split; [now apply is_prob_dmap|]. split; [|split; [|split]].
    - intros i Hi. unfold joint. rewrite !E_dmap. cbn [fst]. now apply HM.
    - intros i j Hi Hj. unfold joint. rewrite !E_dmap. cbn [fst]. now apply HC.
    - intros i Hi. unfold joint. rewrite !E_dmap. cbn [snd]. unfold vadd, mvec. rewrite E_plus, E_const, E_Rsum by exact HP.
      rewrite (Rsum_map_ext _ (fun _ => 0)); [rewrite Rsum_map_const; ring|]. intros k Hk. apply in_seq in Hk. rewrite E_mult_l. unfold vsub.
      rewrite E_minus, E_const, (HM k) by (assumption || lia). ring.
    - intros i j Hi Hj. unfold joint. rewrite !E_dmap. cbn [snd]. unfold vadd.
      rewrite <- (T2 i j Hi Hj).
      transitivity (E law (fun x => dot d (fun k => T i k) (vsub x m0) * dot d (fun k => T j k) (vsub x m0))).
      + apply E_ext'. intros x. unfold mvec, dot. ring.
      + rewrite (E_bilinear d law (fun x => vsub x m0) (fun x => vsub x m0) c0) by exact HC.
        rewrite <- (mmul_assoc d T c0 T i j Hi Hj). unfold dot, mvec, mmul. apply Rsum_map_ext. intros k _. f_equal. apply Rsum_map_ext. intros l Hl. apply in_seq in Hl.
        f_equal. pose proof (TS l j ltac:(lia) Hj) as E. unfold mtr in E. now rewrite E. }
  split; [exact HJ|]. rewrite (coupling_cost d m0 c0 m1 c1 joint HJ). rewrite mtrace_sub, mtrace_add, mtrace_scale.
  assert (K : mtrace d (cross m0 m1 joint) = mtrace d Q); [|lra].
  rewrite <- Tr. unfold mtrace. apply Rsum_map_ext. intros i Hi. apply in_seq in Hi. unfold cross, joint. rewrite E_dmap. cbn [fst snd]. unfold vadd.
  transitivity (E law (fun x => Rsum (map (fun k => T i k * ((x k - m0 k) * (x i - m0 i))) (seq 0 d)))).
  - apply E_ext'. intros x. unfold mvec, vsub. transitivity ((x i - m0 i) * Rsum (map (fun k => T i k * (x k - m0 k)) (seq 0 d))); [ring|].
    rewrite <- Rsum_map_mult_l. apply Rsum_map_ext. intros; ring.
  - rewrite E_Rsum. unfold mmul. apply Rsum_map_ext. intros k Hk. apply in_seq in Hk. rewrite E_mult_l, HC by lia. reflexivity.
Qed.

Lemma bures_zero_dim m0 c0 m1 c1 r : bures_returns 0 m0 c0 m1 c1 r -> r = 0.
Proof. intros (S & Q & _ & _ & ->). unfold mtrace. cbn. ring. Qed.

Theorem bures_nonneg d m0 c0 m1 c1 r : symmetric d c0 -> posdef d c0 -> symmetric d c1 -> posdef d c1 ->
  bures_returns d m0 c0 m1 c1 r -> 0 <= r.
Proof.
  intros S0 P0 S1 P1 H. destruct (Nat.eq_dec d 0) as [->|Hd]; [rewrite (bures_zero_dim _ _ _ _ _ H); lra|].
  destruct (cholesky_exists d c0 S0 P0) as (L & _ & _ & HL).
  destruct (bures_attained d m0 c0 m1 c1 r S0 P0 S1 P1 H (two_point d m0 L)) as (A & HJ & <-).
  - apply two_point_prob. lia.
  - apply two_point_mean. lia.
  - intros i j Hi Hj. rewrite <- (HL i j Hi Hj). apply two_point_cov; lia.
  - unfold transport_cost. apply E_nonneg; [exact (proj1 (proj1 HJ))|]. intros xy _. apply Rsum_nonneg, Forall_forall.
    intros y Hy. apply in_map_iff in Hy. destruct Hy as (i & <- & _). apply pow2_ge_0.
Qed.

Theorem bures_zero_iff d m0 c0 m1 c1 r : symmetric d c0 -> posdef d c0 -> symmetric d c1 -> posdef d c1 ->
  bures_returns d m0 c0 m1 c1 r -> (r = 0 <-> veq d m0 m1 /\ meq d c0 c1).
Proof.
  intros S0 P0 S1 P1 H. destruct (Nat.eq_dec d 0) as [->|Hd].
  { split; [|intros _; exact (bures_zero_dim _ _ _ _ _ H)]. intros _. split; [intros i Hi; lia|intros i j Hi; lia]. }
  destruct (cholesky_exists d c0 S0 P0) as (L & L1 & L2 & HL).
  assert (HP : is_prob (two_point d m0 L)) by (apply two_point_prob; lia).
  assert (HM : has_mean d (two_point d m0 L) m0) by (apply two_point_mean; lia).
  assert (HC : has_cov d (two_point d m0 L) m0 c0) by (intros i j Hi Hj; rewrite <- (HL i j Hi Hj); apply two_point_cov; lia).
  pose proof (bures_nonneg d m0 c0 m1 c1 r S0 P0 S1 P1 H) as N. split.
  - intros ->. destruct (bures_attained d m0 c0 m1 c1 0 S0 P0 S1 P1 H _ HP HM HC) as (A & HJ & Hc). cbv zeta in HJ, Hc.
    set (law := two_point d m0 L) in *. set (joint := dmap _ law) in *.
    assert (Z : forall i, (i < d)%nat -> forall pa, In pa joint -> fst pa * (fst (snd pa) i - snd (snd pa) i) ^ 2 = 0).
    { intros i Hi. unfold transport_cost in Hc. rewrite E_Rsum in Hc. pose proof (proj1 (proj1 HJ)) as HW. rewrite Forall_forall in HW.
      assert (Ei : E joint (fun xy => (fst xy i - snd xy i) ^ 2) = 0).
      { apply (Rsum_zero_nonneg (fun i => E joint (fun xy => (fst xy i - snd xy i) ^ 2)) (seq 0 d)); [|exact Hc|apply in_seq; lia].
        intros k _. apply E_nonneg; [exact (proj1 (proj1 HJ))|]. intros; apply pow2_ge_0. }
      intros pa Hpa. apply (Rsum_zero_nonneg (fun pa : R * (vec * vec) => fst pa * (fst (snd pa) i - snd (snd pa) i) ^ 2) joint); [|exact Ei|exact Hpa].
      intros q Hq. apply Rmult_le_pos; [now apply HW|apply pow2_ge_0]. }
    assert (G : forall (f : vec -> R) (g : vec -> R) i j, (i < d)%nat -> (j < d)%nat ->
       (forall x y, x i = y i -> x j = y j -> f x = f y) -> E joint (fun xy => f (fst xy)) = E joint (fun xy => f (snd xy))).
    { intros f _ i j Hi Hj Hf. unfold E. apply Rsum_map_ext. intros [p [x y]] Hin. cbn [fst snd].
      pose proof (Z i Hi _ Hin) as Zi. pose proof (Z j Hj _ Hin) as Zj. cbn [fst snd] in Zi, Zj.
      destruct (Req_dec p 0) as [->|Np]; [ring|]. f_equal. apply Hf.
      - apply Rmult_integral in Zi. destruct Zi as [|Zi]; [contradiction|]. apply Rsqr_0_uniq in Zi || idtac. cbn in Zi. nra.
      - apply Rmult_integral in Zj. destruct Zj as [|Zj]; [contradiction|]. cbn in Zj. nra. }
    destruct HJ as (_ & M0 & C0 & M1 & C1).
    assert (Em : veq d m0 m1).
    { intros i Hi. specialize (M0 i Hi). specialize (M1 i Hi). rewrite E_dmap in M0, M1. rewrite <- M0, <- M1.
      apply (G (fun x => x i) (fun _ => 0) i i Hi Hi). intros x y Hx _. exact Hx. }
    split; [exact Em|]. intros i j Hi Hj. specialize (C0 i j Hi Hj). specialize (C1 i j Hi Hj). rewrite E_dmap in C0, C1. rewrite <- C0, <- C1.
    rewrite <- (Em i Hi), <- (Em j Hj).
    apply (G (fun x => (x i - m0 i) * (x j - m0 j)) (fun _ => 0) i j Hi Hj). intros x y Hx Hy. now rewrite Hx, Hy.
  - intros [Em Ec].
    assert (L0 : r <= transport_cost d (dmap (fun x => (x, x)) (two_point d m0 L))).
    { apply (bures_lower_bound d m0 c0 m1 c1 r S0 P0 S1 P1 H). split; [now apply is_prob_dmap|]. split; [|split; [|split]].
      - intros i Hi. rewrite !E_dmap. now apply HM.
      - intros i j Hi Hj. rewrite !E_dmap. now apply HC.
      - intros i Hi. rewrite !E_dmap. rewrite <- (Em i Hi). now apply HM.
      - intros i j Hi Hj. rewrite !E_dmap. rewrite <- (Em i Hi), <- (Em j Hj), <- (Ec i j Hi Hj). now apply HC. }
    unfold transport_cost in L0. rewrite E_dmap in L0. cbn [fst snd] in L0.
    rewrite (E_ext' _ _ (fun _ => 0)), E_zero in L0; [lra|]. intros x. rewrite (Rsum_map_ext _ (fun _ => 0)) by (intros; ring). rewrite Rsum_map_const. ring.
Qed.

(** Witness: two dimensions, covariances that do not commute with the axes. *)
Definition rot_V : mat := fun i j => match i, j with 0%nat, 0%nat => 3/5 | 0%nat, _ => -(4/5) | _, 0%nat => 4/5 | _, _ => 3/5 end.
Definition rot_w : vec := fun i => match i with 0%nat => 4 | _ => 1 end.
Definition rot_c : mat := fun i j => match i, j with 0%nat, 0%nat => 52/25 | 1%nat, 1%nat => 73/25 | _, _ => 36/25 end.

Ltac two i := destruct i as [|[|i]]; [| |lia].
Lemma rot_eigh : eigh 2 rot_c rot_w rot_V.
Proof.
  split; [|split]; intros i j Hi Hj; two i; two j; unfold mmul, mtr, mdiag, mid, rot_V, rot_w, rot_c; cbn; field.
Qed.
Example bures_rotated : bures_returns 2 (fun _ => 0) rot_c (fun _ => 1) mid 3 /\
  symmetric 2 rot_c /\ posdef 2 rot_c /\ symmetric 2 mid /\ posdef 2 mid.
Proof.
  assert (S4 : sqrt 4 = 2) by (replace 4 with (2 * 2) by ring; apply sqrt_square; lra).
  split; [|split; [|split; [|split]]].
  - exists (sqrtm 2 rot_w rot_V), (sqrtm 2 rot_w rot_V). split; [|split].
    + exists rot_w, rot_V. split; [exact rot_eigh|reflexivity].
    + exists rot_w, rot_V. split; [|reflexivity]. destruct rot_eigh as (H1 & H2 & H3). split; [|split; assumption].
      rewrite mmul_1_r. rewrite H1. symmetry. apply sqrtm_correct; [|exists rot_w, rot_V; split; [exact rot_eigh|reflexivity]].
      intros x. rewrite <- H1. fold (spectral 2 rot_V rot_w). rewrite quad_spectral. apply Rsum_nonneg, Forall_forall. intros y Hy.
      apply in_map_iff in Hy. destruct Hy as (i & <- & _). apply Rmult_le_pos; [|apply pow2_ge_0]. destruct i as [|i]; cbn; lra.
    + unfold mtrace, msub, madd, mscale, sqrtm, mmul, mtr, mdiag, mid, rot_V, rot_w, rot_c. cbn. rewrite S4, sqrt_1. field.
  - intros i j Hi Hj. two i; two j; reflexivity.
  - intros x Hx. unfold quad, mvec, rot_c. cbn.
    assert (N : x 0%nat <> 0 \/ x 1%nat <> 0).
    { destruct (Req_dec (x 0%nat) 0); [|now left]. right. intros Z. apply Hx. intros i Hi. two i; assumption. }
    assert (P : 0 < x 0%nat * x 0%nat + x 1%nat * x 1%nat).
    { destruct N as [N|N]; [pose proof (Rsqr_pos_lt _ N)|pose proof (Rsqr_pos_lt _ N)]; unfold Rsqr in *; nra. }
    pose proof (Rle_0_sqr (4 * x 0%nat - 3 * x 1%nat)). pose proof (Rle_0_sqr (3 * x 0%nat + 4 * x 1%nat)). unfold Rsqr in *. nra.
  - apply mtr_mid.
  - intros x Hx. rewrite quad_dot, mvec_id. pose proof (dot_self_nonneg 2 x). destruct (Req_dec (dot 2 x x) 0) as [Z|Z]; [|lra].
    exfalso. now apply Hx, dot_self_zero.
Qed.

(** The positive semi-definite root is unique, so sqrtm is the root whatever eigenvectors
    the library returns. *)
Lemma mvec_zero' d A x : veq d x (fun _ => 0) -> forall i, (i < d)%nat -> mvec d A x i = 0.
Proof. intros H i Hi. exact (mvec_zero d A x H i Hi). Qed.

Lemma mvec_lin d A p c q l : mvec d A (fun i => p i - c * q i) l = mvec d A p l - c * mvec d A q l.
Proof.
  unfold mvec. transitivity (Rsum (map (fun j => A l j * p j + (- c) * (A l j * q j)) (seq 0 d))).
  - apply Rsum_map_ext. intros; ring.
  - rewrite Rsum_map_plus, Rsum_map_mult_l. ring.
Qed.

Theorem sqrtm_unique d M Q Q' : psd d M -> sqrtm_returns d M Q -> symmetric d Q' -> psd d Q' -> meq d (mmul d Q' Q') M -> meq d Q Q'.
Proof.
  intros HP (w & V & He & HQ) SQ' PQ' HQ'. pose proof (eigh_nonneg d M w V He HP) as Hw. destruct He as (HM & H1 & H2).
  assert (MV : meq d (mmul d M V) (mmul d V (mdiag w))).
  { rewrite <- HM. rewrite <- mmul_assoc, H1, mmul_1_r. reflexivity. }
  assert (col : forall u i k, (i < d)%nat -> (k < d)%nat -> mmul d V (mdiag u) i k = u k * V i k).
  { intros u i k Hi Hk. unfold mmul, mdiag. rewrite (Rsum_map_ext _ (fun l => (if Nat.eqb l k then 1 else 0) * (u l * V i l))).
    - now rewrite (Rsum_indicator d k (fun l => u l * V i l)) by exact Hk.
    - intros l _. destruct (Nat.eqb_spec l k); ring. }
  set (s := fun i => sqrt (w i)).
  assert (QV : meq d (mmul d Q' V) (mmul d V (mdiag s))).
  { intros i k Hi Hk. rewrite col by assumption. set (v := fun i => V i k). set (u := fun i => mvec d Q' v i - s k * v i).
    assert (Mv : veq d (mvec d Q' (mvec d Q' v)) (fun i => w k * v i)).
    { rewrite mvec_mul, HQ'. intros l Hl. transitivity (mmul d M V l k); [reflexivity|]. rewrite (MV l k Hl Hk). now apply col. }
    assert (Qu : veq d (mvec d Q' u) (fun i => - s k * u i)).
    { intros l Hl. unfold u at 1. transitivity (mvec d Q' (mvec d Q' v) l - s k * mvec d Q' v l).
      - apply mvec_lin.
      - rewrite (Mv l Hl). unfold u. pose proof (sqrt_sqrt (w k) (Hw k Hk)) as Es. fold (s k) in Es. rewrite <- Es. ring. }
    assert (Z : veq d u (fun _ => 0)).
    { apply dot_self_zero. pose proof (dot_self_nonneg d u) as N. assert (Ps : 0 <= s k) by apply sqrt_pos.
      assert (Qq : quad d Q' u = - s k * dot d u u).
      { rewrite quad_dot, Qu. unfold dot. rewrite <- Rsum_map_mult_l. apply Rsum_map_ext. intros; ring. }
      destruct (Req_dec (s k) 0) as [Z0|Z0].
      - (* s k = 0: u = Q' v and |u|^2 = v . Q' Q' v = 0 *)
        assert (Eu : veq d u (mvec d Q' v)) by (intros l Hl; unfold u; rewrite Z0; ring).
        rewrite Eu. rewrite dot_mvec. unfold symmetric in SQ'. rewrite SQ', Mv.
        assert (Wk : w k = 0) by (rewrite <- (sqrt_sqrt (w k) (Hw k Hk)); fold (s k); rewrite Z0; ring).
        unfold dot. rewrite (Rsum_map_ext _ (fun _ => 0)) by (intros; rewrite Wk; ring). rewrite Rsum_map_const. ring.
      - pose proof (PQ' u). rewrite Qq in H. nra. }
    pose proof (Z i Hi) as Zi. unfold u in Zi. change (mmul d Q' V i k) with (mvec d Q' v i). change (V i k) with (v i). lra. }
  rewrite HQ. unfold sqrtm. fold s. rewrite <- QV. rewrite <- mmul_assoc, H2, mmul_1_r. reflexivity.
Qed.
