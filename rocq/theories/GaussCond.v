(** Conditioning of Gaussian vectors: the block formulas of experiments/toy and experiments/sb.

    Specification side: the density of GaussDiv.v ([gauss_logpdf], coordinate after coordinate).
    The chain rule log p(v, u) = log p(v) + log p(u | v) characterises the conditional law. *)
From Coquelicot Require Import Coquelicot.
From Coq Require Import Reals List Lia Lra Morphisms Setoid.
From Verif Require Import Base Dist Mat MatMore Lti Cholesky GaussDiv.
Import ListNotations.
Open Scope R_scope.

(** ** The density is a function of (m, C, x) *)
Lemma tri_inv_proper d L L' : lower d L -> diag_pos d L -> meq d L L' -> meq d (tri_inv L) (tri_inv L').
Proof.
  intros HL HP HE.
  assert (HL' : lower d L') by (intros i j Hi Hj H; rewrite <- HE by assumption; now apply HL).
  assert (HP' : diag_pos d L') by (intros i Hi; rewrite <- HE by assumption; now apply HP).
  pose proof (tri_inv_right d L' HL' HP') as H1. pose proof (tri_inv_left d L HL HP) as H2.
  transitivity (mmul d (tri_inv L) (mmul d L' (tri_inv L'))).
  - now rewrite H1, mmul_1_r.
  - rewrite mmul_assoc. rewrite (mmul_proper d (tri_inv L) (tri_inv L) (reflexivity _) L' L (symmetry HE)).
    now rewrite H2, mmul_1_l.
Qed.

Lemma gauss_logpdf_ext d m m' C C' x x' lp lp' : veq d m m' -> meq d C C' -> veq d x x' ->
  gauss_logpdf d m C x lp -> gauss_logpdf d m' C' x' lp' -> lp = lp'.
Proof.
  intros Hm HC Hx H H'.
  destruct (gauss_logpdf_val _ _ _ _ _ H) as (L & A1 & A2 & A3 & ->).
  destruct (gauss_logpdf_val _ _ _ _ _ H') as (L' & B1 & B2 & B3 & ->).
  assert (EL : meq d L L').
  { apply cholesky_unique; try assumption. now rewrite A3, B3. }
  pose proof (tri_inv_proper d L L' A1 A2 EL) as EW.
  assert (Ex : veq d (vsub x m) (vsub x' m')) by (intros i Hi; unfold vsub; now rewrite Hm, Hx).
  assert (Ez : veq d (mvec d (tri_inv L) (vsub x m)) (mvec d (tri_inv L') (vsub x' m'))) by (now rewrite EW, Ex).
  rewrite Ez. f_equal. f_equal. apply Rsum_map_ext. intros i Hi. apply in_seq in Hi. now rewrite EL by lia.
Qed.

Lemma gauss_logpdf_transport d m m' C C' x x' lp : veq d m m' -> meq d C C' -> veq d x x' ->
  gauss_logpdf d m C x lp -> gauss_logpdf d m' C' x' lp.
Proof.
  intros Hm HC Hx (L & z & A1 & A2 & A3 & A4 & ->). exists L, z. repeat (split; [assumption|]). split; [now rewrite A3|].
  assert (E : forall i, (i < d)%nat -> cond_mean m L z i = cond_mean m' L z i) by (intros i Hi; unfold cond_mean; now rewrite Hm).
  split.
  - intros i Hi. rewrite (A4 i Hi) at 1. now rewrite E, Hx.
  - apply Rsum_map_ext. intros i Hi. apply in_seq in Hi. rewrite E, Hx by lia. reflexivity.
Qed.

(** ** Slices and blocks *)
Definition vhi (d : nat) (x : vec) : vec := fun i => x (d + i)%nat.           (* x[d:] *)
Definition m_hl (d : nat) (M : mat) : mat := fun i j => M (d + i)%nat j.       (* M[d:, :d] *)
Definition m_lh (d : nat) (M : mat) : mat := fun i j => M i (d + j)%nat.       (* M[:d, d:] *)
Definition m_hh (d : nat) (M : mat) : mat := fun i j => M (d + i)%nat (d + j)%nat. (* M[d:, d:] *)
Definition vcat (d : nat) (a b : vec) : vec := fun i => if Nat.ltb i d then a i else b (i - d)%nat.
Definition blk (d : nat) (A B C D : mat) : mat := fun i j =>
  if Nat.ltb i d then (if Nat.ltb j d then A i j else B i (j - d)%nat)
  else (if Nat.ltb j d then C (i - d)%nat j else D (i - d)%nat (j - d)%nat).

(** Exchange of the two halves: (u, v) -> (v, u). *)
Definition swp (d i : nat) : nat := if Nat.ltb i d then (d + i)%nat else (i - d)%nat.
Definition vswap (d : nat) (x : vec) : vec := fun i => x (swp d i).
Definition mswap (d : nat) (M : mat) : mat := fun i j => M (swp d i) (swp d j).

Ltac blk_cases := unfold blk, vcat, vswap, mswap, swp, vhi, m_hl, m_lh, m_hh in *;
  repeat match goal with |- context [Nat.ltb ?a ?b] => destruct (Nat.ltb_spec a b); try lia end.

(** ** Chain rule *)
Lemma gauss_chain d m C x lp : gauss_logpdf (2 * d) m C x lp ->
  exists L1 M L2 lp1 lp2, lower d L1 /\ diag_pos d L1 /\ lower d L2 /\ diag_pos d L2 /\
    meq d C (mmul d L1 (mtr L1)) /\ meq d (m_hl d C) (mmul d M (mtr L1)) /\ meq d (m_lh d C) (mmul d L1 (mtr M)) /\
    meq d (m_hh d C) (madd (mmul d M (mtr M)) (mmul d L2 (mtr L2))) /\
    gauss_logpdf d m C x lp1 /\
    gauss_logpdf d (vadd (vhi d m) (mvec d M (mvec d (tri_inv L1) (vsub x m)))) (mmul d L2 (mtr L2)) (vhi d x) lp2 /\
    lp = lp1 + lp2.
Proof.
  intros (L & z & HL & HP & HC & Hz & ->).
  set (L2 := m_hh d L). set (M := m_hl d L).
  assert (K1 : lower d L) by (intros i j Hi Hj H; apply HL; lia).
  assert (K2 : diag_pos d L) by (intros i Hi; apply HP; lia).
  assert (K3 : lower d L2) by (intros i j Hi Hj H; apply HL; lia).
  assert (K4 : diag_pos d L2) by (intros i Hi; apply HP; lia).
  assert (E11 : meq d C (mmul d L (mtr L))).
  { intros i j Hi Hj. rewrite <- (HC i j) by lia. unfold mmul, mtr. rewrite Rsum_split2.
    rewrite (Rsum_map_ext (fun k => L i (d + k)%nat * L j (d + k)%nat) (fun _ => 0)).
    - rewrite Rsum_map_const. ring.
    - intros k Hk. apply in_seq in Hk. rewrite (HL i) by lia. ring. }
  assert (E21 : meq d (m_hl d C) (mmul d M (mtr L))).
  { intros i j Hi Hj. unfold m_hl. rewrite <- (HC (d + i)%nat j) by lia. unfold mmul, mtr. rewrite Rsum_split2.
    rewrite (Rsum_map_ext (fun k => L (d + i)%nat (d + k)%nat * L j (d + k)%nat) (fun _ => 0)).
    - rewrite Rsum_map_const. unfold M, m_hl. ring.
    - intros k Hk. apply in_seq in Hk. rewrite (HL j) by lia. ring. }
  assert (E12 : meq d (m_lh d C) (mmul d L (mtr M))).
  { intros i j Hi Hj. unfold m_lh. rewrite <- (HC i (d + j)%nat) by lia. unfold mmul, mtr. rewrite Rsum_split2.
    rewrite (Rsum_map_ext (fun k => L i (d + k)%nat * L (d + j)%nat (d + k)%nat) (fun _ => 0)).
    - rewrite Rsum_map_const. unfold M, m_hl. ring.
    - intros k Hk. apply in_seq in Hk. rewrite (HL i) by lia. ring. }
  assert (E22 : meq d (m_hh d C) (madd (mmul d M (mtr M)) (mmul d L2 (mtr L2)))).
  { intros i j Hi Hj. unfold m_hh. rewrite <- (HC (d + i)%nat (d + j)%nat) by lia. unfold madd, mmul, mtr. rewrite Rsum_split2. reflexivity. }
  assert (Hz1 : veq d (mvec d (tri_inv L) (vsub x m)) z).
  { rewrite <- (cond_mean_solve d m L z x K1 K2) by (intros i Hi; apply Hz; lia). rewrite mvec_mul, tri_inv_left, mvec_id by assumption. reflexivity. }
  assert (Ec : forall i, (i < d)%nat -> cond_mean m L z (d + i)%nat =
     cond_mean (vadd (vhi d m) (mvec d M (mvec d (tri_inv L) (vsub x m)))) L2 (vhi d z) i).
  { intros i Hi. assert (Ev : mvec d M (mvec d (tri_inv L) (vsub x m)) i = mvec d M z i) by (exact (mvec_proper d M M (reflexivity _) _ _ Hz1 i Hi)).
    unfold cond_mean. unfold vadd. rewrite Ev. unfold vhi, mvec. rewrite Rplus_assoc. f_equal.
    rewrite seq_app, map_app, Rsum_app. f_equal. cbn [Nat.add].
    rewrite <- (Nat.add_0_r d) at 1.
    assert (Hs : forall n s, seq (d + s) n = map (fun k => (d + k)%nat) (seq s n)).
    { induction n as [|n IH]; intros s; cbn [seq map]; [reflexivity|]. f_equal. rewrite <- IH. f_equal. lia. }
    rewrite Hs, map_map. reflexivity. }
  exists L, M, L2, (Rsum (map (fun i => normal_logpdf (x i) (cond_mean m L z i) (L i i)) (seq 0 d))),
    (Rsum (map (fun i => normal_logpdf (vhi d x i) (cond_mean (vadd (vhi d m) (mvec d M (mvec d (tri_inv L) (vsub x m)))) L2 (vhi d z) i) (L2 i i)) (seq 0 d))).
  do 8 (split; [assumption|]). split; [|split].
  - exists L, z. split; [exact K1|]. split; [exact K2|]. split; [symmetry; exact E11|]. split; [intros i Hi; apply Hz; lia|reflexivity].
  - exists L2, (vhi d z). split; [exact K3|]. split; [exact K4|]. split; [reflexivity|]. split; [|reflexivity].
    intros i Hi. rewrite <- Ec by exact Hi. unfold vhi, L2, m_hh. apply Hz. lia.
  - rewrite Rsum_split2. f_equal. apply Rsum_map_ext. intros i Hi. apply in_seq in Hi. rewrite <- Ec by lia. reflexivity.
Qed.

(** The conditional moments in the form computed by the scripts: with X11 any left inverse. *)
Lemma cond_blocks d C L1 M L2 m x U sol X : lower d L1 -> diag_pos d L1 ->
  meq d C (mmul d L1 (mtr L1)) -> meq d (m_hl d C) (mmul d M (mtr L1)) -> meq d (m_lh d C) (mmul d L1 (mtr M)) ->
  meq d (m_hh d C) (madd (mmul d M (mtr M)) (mmul d L2 (mtr L2))) ->
  cho_factor d C U -> cho_solve_v d U (vsub x m) sol -> cho_solve d U (m_lh d C) X ->
  veq d (mvec d (m_hl d C) sol) (mvec d M (mvec d (tri_inv L1) (vsub x m))) /\
  meq d (msub (m_hh d C) (mmul d (m_hl d C) X)) (mmul d L2 (mtr L2)).
Proof.
  intros HL HP E11 E21 E12 E22 HU Hs HX.
  destruct (cho_factor_tr _ _ _ HU) as (A1 & A2 & A3). pose proof (proj1 (proj2 HU)) as A4.
  assert (EL : meq d (mtr U) L1) by (apply cholesky_unique; try assumption; now rewrite A3, E11).
  pose proof (tri_inv_proper d _ _ A1 A2 EL) as EW.
  rewrite (cho_solve_v_val d U _ sol A1 A4 Hs). 
  assert (K : meq d (mmul d (m_hl d C) (mtr (tri_inv (mtr U)))) M).
  { rewrite E21, EW, <- mmul_assoc, <- mtr_mul. rewrite tri_inv_left, mtr_mid, mmul_1_r by assumption. reflexivity. }
  split.
  - rewrite mvec_mul, K, EW. reflexivity.
  - rewrite (cho_solve_val d U _ X A1 A4 HX). rewrite E12 at 1. rewrite mmul_assoc, K, EW.
    rewrite (mmul_assoc d (tri_inv L1)), tri_inv_left, mmul_1_l by assumption. rewrite E22. intros i j _ _. unfold msub, madd. ring.
Qed.
