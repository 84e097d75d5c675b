(** The matrix exponential as its power series. *)
From Coquelicot Require Import Coquelicot.
From Coq Require Import Reals List Lia Lra Morphisms Setoid.
From Verif Require Import Base Dist Mat.
Import ListNotations.
Open Scope R_scope.

Fixpoint mpow (d : nat) (A : mat) (n : nat) : mat :=
  match n with 0%nat => mid | S m => mmul d A (mpow d A m) end.

(** jax.scipy.linalg.expm, in exact arithmetic. *)
Definition expm (d : nat) (M : mat) : mat := fun i j => Series (fun n => mpow d M n i j / INR (fact n)).

Definition ecoef (d : nat) (A : mat) (i j n : nat) : R := mpow d A n i j / INR (fact n).

(** Derivative entry by entry. *)
Definition mderiv (d : nat) (F : R -> mat) (t : R) (F' : mat) : Prop :=
  forall i j, (i < d)%nat -> (j < d)%nat -> is_derive (fun s => F s i j) t (F' i j).

#[global] Instance mpow_proper d : Proper (meq d ==> eq ==> meq d) (mpow d).
Proof. intros A B H n m <-. induction n as [|n IH]; cbn [mpow]; [reflexivity|]. exact (mmul_proper d A B H _ _ IH). Qed.

Lemma mpow_right d A n : meq d (mpow d A (S n)) (mmul d (mpow d A n) A).
Proof.
  induction n as [|n IH].
  - cbn [mpow]. now rewrite mmul_1_l, mmul_1_r.
  - change (mpow d A (S (S n))) with (mmul d A (mpow d A (S n))). rewrite IH at 1. rewrite mmul_assoc. reflexivity.
Qed.

Lemma mpow_scale d t A n : meq d (mpow d (mscale t A) n) (mscale (t ^ n) (mpow d A n)).
Proof.
  induction n as [|n IH].
  - intros i j _ _. unfold mscale. cbn. ring.
  - cbn [mpow]. rewrite IH. intros i j _ _. rewrite mmul_scale_l, mmul_scale_r. unfold mscale. cbn [pow]. ring.
Qed.

Lemma mpow_tr d A n : meq d (mpow d (mtr A) n) (mtr (mpow d A n)).
Proof.
  induction n as [|n IH].
  - intros i j _ _. unfold mtr. cbn. unfold mid. now rewrite Nat.eqb_sym.
  - rewrite mpow_right. rewrite IH. rewrite <- mtr_mul. reflexivity.
Qed.

Lemma expm_scale d A t i j : (i < d)%nat -> (j < d)%nat -> expm d (mscale t A) i j = PSeries (ecoef d A i j) t.
Proof.
  intros Hi Hj. unfold expm, PSeries. apply Series_ext. intros n. rewrite (mpow_scale d t A n i j Hi Hj). unfold mscale, ecoef. unfold Rdiv. ring.
Qed.

Definition asum (d : nat) (A : mat) : R := Rsum (map (fun i => Rsum (map (fun k => Rabs (A i k)) (seq 0 d))) (seq 0 d)).

Lemma Rabs_Rsum l : Rabs (Rsum l) <= Rsum (map Rabs l).
Proof. induction l as [|a l IH]; cbn; [rewrite Rabs_R0; lra|]. eapply Rle_trans; [apply Rabs_triang|]. lra. Qed.

Lemma asum_nonneg d A : 0 <= asum d A.
Proof.
  unfold asum. apply Rsum_nonneg, Forall_forall. intros x Hx. apply in_map_iff in Hx. destruct Hx as (i & <- & _).
  apply Rsum_nonneg, Forall_forall. intros y Hy. apply in_map_iff in Hy. destruct Hy as (k & <- & _). apply Rabs_pos.
Qed.
Lemma asum_row d A i : (i < d)%nat -> Rsum (map (fun k => Rabs (A i k)) (seq 0 d)) <= asum d A.
Proof.
  intros Hi. unfold asum. apply Rsum_In_le.
  - apply Forall_forall. intros x Hx. apply in_map_iff in Hx. destruct Hx as (k & <- & _).
    apply Rsum_nonneg, Forall_forall. intros y Hy. apply in_map_iff in Hy. destruct Hy as (l & <- & _). apply Rabs_pos.
  - apply (in_map (fun i => Rsum (map (fun k => Rabs (A i k)) (seq 0 d)))). apply in_seq. lia.
Qed.

Lemma mpow_bound d A n i j : (i < d)%nat -> (j < d)%nat -> Rabs (mpow d A n i j) <= (asum d A + 1) ^ n.
Proof.
  revert i. induction n as [|n IH]; intros i Hi Hj.
  - cbn. unfold mid. destruct (Nat.eqb i j); rewrite ?Rabs_R1, ?Rabs_R0; lra.
  - cbn [mpow pow]. unfold mmul. eapply Rle_trans; [apply Rabs_Rsum|]. rewrite map_map.
    assert (Hp : 0 <= (asum d A + 1) ^ n) by (apply pow_le; pose proof (asum_nonneg d A); lra).
    apply Rle_trans with (Rsum (map (fun k => Rabs (A i k) * (asum d A + 1) ^ n) (seq 0 d))).
    + apply Rsum_map_le. intros k Hk. apply in_seq in Hk. rewrite Rabs_mult. apply Rmult_le_compat_l; [apply Rabs_pos|]. apply IH; lia.
    + rewrite Rsum_map_mult_r. apply Rmult_le_compat_r; [exact Hp|]. pose proof (asum_row d A i Hi). lra.
Qed.

Lemma CV_radius_exp c : 0 < c -> CV_radius (fun n => c ^ n / INR (fact n)) = p_infty.
Proof.
  intros Hc. apply CV_radius_infinite_DAlembert.
  - intros n. apply Rgt_not_eq. apply Rdiv_lt_0_compat; [apply pow_lt, Hc|apply INR_fact_lt_0].
  - apply (is_lim_seq_ext (fun n => c * / INR (S n))).
    + intros n. rewrite Rabs_pos_eq.
      * rewrite fact_simpl, mult_INR. pose proof (INR_fact_neq_0 n). pose proof (pow_lt c n Hc).
        assert (INR (S n) <> 0) by (apply not_0_INR; lia). cbn [pow]. field. repeat split; lra || assumption.
      * apply Rlt_le, Rdiv_lt_0_compat; apply Rdiv_lt_0_compat; try apply pow_lt, Hc; apply INR_fact_lt_0.
    + assert (L : is_lim_seq (fun n => / INR (S n)) 0).
      { apply (is_lim_seq_inv (fun n => INR (S n)) p_infty); [|discriminate].
        apply (is_lim_seq_incr_1 INR). apply is_lim_seq_INR. }
      apply (is_lim_seq_scal_l _ c) in L. cbn in L. now rewrite Rmult_0_r in L.
Qed.

Lemma CV_radius_dominated (a b : nat -> R) : (forall n, Rabs (a n) <= Rabs (b n)) -> CV_radius b = p_infty -> CV_radius a = p_infty.
Proof.
  intros H Hb.
  assert (D : forall r, CV_disk a r).
  { intros r. assert (Db : CV_disk b r) by (apply CV_disk_inside; rewrite Hb; exact I).
    unfold CV_disk in *. apply (ex_series_le (K := R_AbsRing) (V := R_CompleteNormedModule) _ (fun n => Rabs (b n * r ^ n))); [|exact Db].
    intros n. change (norm (Rabs (a n * r ^ n))) with (Rabs (Rabs (a n * r ^ n))). rewrite Rabs_Rabsolu, !Rabs_mult.
    apply Rmult_le_compat_r; [apply Rabs_pos|apply H]. }
  unfold CV_radius, Lub_Rbar. destruct (ex_lub_Rbar (CV_disk a)) as [l [Hu Hl]]. cbn.
  destruct l as [l| |]; [|reflexivity|].
  - pose proof (Hu (l + 1) (D _)) as C. cbn in C. lra.
  - destruct (Hu 0 (D _)).
Qed.

Lemma CV_radius_ecoef d A i j : (i < d)%nat -> (j < d)%nat -> CV_radius (ecoef d A i j) = p_infty.
Proof.
  intros Hi Hj. pose proof (asum_nonneg d A).
  apply (CV_radius_dominated _ (fun n => (asum d A + 1) ^ n / INR (fact n))); [|apply CV_radius_exp; lra].
  intros n. unfold ecoef, Rdiv. rewrite !Rabs_mult.
  apply Rmult_le_compat_r; [apply Rabs_pos|]. rewrite (Rabs_pos_eq ((asum d A + 1) ^ n)) by (apply pow_le; lra). now apply mpow_bound.
Qed.

Lemma ex_ecoef d A i j t : (i < d)%nat -> (j < d)%nat -> ex_pseries (ecoef d A i j) t.
Proof. intros Hi Hj. apply CV_radius_inside. rewrite CV_radius_ecoef by assumption. exact I. Qed.

Lemma PSeries_Rsum (c : nat -> R) (a : nat -> nat -> R) l t : (forall k, In k l -> ex_pseries (a k) t) ->
  ex_pseries (fun n => Rsum (map (fun k => c k * a k n) l)) t /\
  PSeries (fun n => Rsum (map (fun k => c k * a k n) l)) t = Rsum (map (fun k => c k * PSeries (a k) t) l).
Proof.
  induction l as [|k l IH]; intros H.
  - cbn. split.
    + exists 0. apply (is_pseries_ext (fun _ => 0)); [reflexivity|]. unfold is_pseries.
      apply (is_series_ext (fun _ => 0)); [intros n; now rewrite (scal_zero_r (K := R_AbsRing) (V := R_ModuleSpace))|].
      assert (Z : is_series (fun _ : nat => 0) (0 * 1 * / (1 - 0))).
      { rewrite Rmult_0_l, Rmult_0_l. apply filterlim_ext with (fun _ : nat => 0).
        - intros n. induction n as [|n IHn]; [now rewrite sum_O|]. rewrite sum_Sn, <- IHn. unfold plus; cbn. ring.
        - apply filterlim_const. }
      now rewrite Rmult_0_l, Rmult_0_l in Z.
    + unfold PSeries. rewrite (Series_ext _ (fun n => 0 * 0)); [|intros n; cbn; ring]. rewrite Series_scal_l. ring.
  - destruct (IH ltac:(intros; apply H; now right)) as [E1 E2]. pose proof (H k (or_introl eq_refl)) as Hk.
    assert (Es : ex_pseries (PS_scal (c k) (a k)) t) by (apply ex_pseries_scal; [apply Rmult_comm|exact Hk]).
    cbn [map Rsum]. split.
    + apply (ex_pseries_plus (PS_scal (c k) (a k)) _ t Es E1).
    + rewrite <- E2, <- PSeries_scal. rewrite <- PSeries_plus by assumption. reflexivity.
Qed.

(** The two forms of the differential equation. *)
Lemma expm_left d A t : mderiv d (fun s => expm d (mscale s A)) t (mmul d A (expm d (mscale t A))).
Proof.
  intros i j Hi Hj. apply (is_derive_ext (PSeries (ecoef d A i j))); [intros s; symmetry; now apply expm_scale|].
  assert (E : mmul d A (expm d (mscale t A)) i j = PSeries (PS_derive (ecoef d A i j)) t).
  { unfold mmul. transitivity (Rsum (map (fun k => A i k * PSeries (ecoef d A k j) t) (seq 0 d))).
    - apply Rsum_map_ext. intros k Hk. apply in_seq in Hk. rewrite expm_scale by lia. reflexivity.
    - rewrite <- (proj2 (PSeries_Rsum (fun k => A i k) (fun k => ecoef d A k j) (seq 0 d) t
        ltac:(intros k Hk; apply in_seq in Hk; apply ex_ecoef; lia))).
      apply PSeries_ext. intros n. unfold PS_derive, ecoef. cbn [mpow]. unfold mmul, Rdiv.
      rewrite fact_simpl, mult_INR. pose proof (INR_fact_neq_0 n). assert (INR (S n) <> 0) by (apply not_0_INR; lia).
      rewrite <- Rmult_assoc, (Rmult_comm (INR (S n))), Rmult_assoc.
      replace (INR (S n) * / (INR (S n) * INR (fact n))) with (/ INR (fact n)) by (field; split; assumption).
      rewrite <- Rsum_map_mult_r. apply Rsum_map_ext. intros k _. ring. }
  rewrite E. apply is_derive_PSeries. rewrite CV_radius_ecoef by assumption. exact I.
Qed.

Lemma expm_right d A t : mderiv d (fun s => expm d (mscale s A)) t (mmul d (expm d (mscale t A)) A).
Proof.
  intros i j Hi Hj. apply (is_derive_ext (PSeries (ecoef d A i j))); [intros s; symmetry; now apply expm_scale|].
  assert (E : mmul d (expm d (mscale t A)) A i j = PSeries (PS_derive (ecoef d A i j)) t).
  { unfold mmul. transitivity (Rsum (map (fun k => A k j * PSeries (ecoef d A i k) t) (seq 0 d))).
    - apply Rsum_map_ext. intros k Hk. apply in_seq in Hk. rewrite expm_scale by lia. apply Rmult_comm.
    - rewrite <- (proj2 (PSeries_Rsum (fun k => A k j) (fun k => ecoef d A i k) (seq 0 d) t
        ltac:(intros k Hk; apply in_seq in Hk; apply ex_ecoef; lia))).
      apply PSeries_ext. intros n. unfold PS_derive, ecoef. rewrite (mpow_right d A n i j Hi Hj). unfold mmul, Rdiv.
      rewrite fact_simpl, mult_INR. pose proof (INR_fact_neq_0 n). assert (INR (S n) <> 0) by (apply not_0_INR; lia).
      rewrite <- Rmult_assoc, (Rmult_comm (INR (S n))), Rmult_assoc.
      replace (INR (S n) * / (INR (S n) * INR (fact n))) with (/ INR (fact n)) by (field; split; assumption).
      rewrite <- Rsum_map_mult_r. apply Rsum_map_ext. intros k _. ring. }
  rewrite E. apply is_derive_PSeries. rewrite CV_radius_ecoef by assumption. exact I.
Qed.

Lemma expm_comm d A t : meq d (mmul d A (expm d (mscale t A))) (mmul d (expm d (mscale t A)) A).
Proof.
  intros i j Hi Hj. pose proof (expm_left d A t i j Hi Hj) as H1. pose proof (expm_right d A t i j Hi Hj) as H2.
  apply is_derive_unique in H1. apply is_derive_unique in H2. congruence.
Qed.

Lemma expm_zero d A : meq d (expm d (mscale 0 A)) mid.
Proof. intros i j Hi Hj. rewrite expm_scale by assumption. rewrite PSeries_0. unfold ecoef. cbn. field. Qed.

#[global] Instance expm_proper d : Proper (meq d ==> meq d) (expm d).
Proof. intros A B H i j Hi Hj. unfold expm. apply Series_ext. intros n. now rewrite (mpow_proper d A B H n n eq_refl i j Hi Hj). Qed.

(** A matrix function with derivative zero is constant. *)
Lemma mderiv_constant d F : (forall t, mderiv d F t (fun _ _ => 0)) -> forall s t, meq d (F s) (F t).
Proof.
  intros H s t i j Hi Hj.
  assert (G : forall a b, a < b -> F a i j = F b i j).
  { intros a b Hab. apply (eq_is_derive (V := R_NormedModule) (fun u => F u i j) a b); [|exact Hab]. intros u _. exact (H u i j Hi Hj). }
  destruct (Rtotal_order s t) as [Hlt|[->|Hgt]]; [now apply G|reflexivity|symmetry; now apply G].
Qed.

Lemma mderiv_mmul d (A B : R -> mat) A' B' t : mderiv d A t A' -> mderiv d B t B' ->
  mderiv d (fun u => mmul d (A u) (B u)) t (madd (mmul d A' (B t)) (mmul d (A t) B')).
Proof. intros HA HB i j Hi Hj. exact (is_derive_mmul d A B A' B' t HA HB i j Hi Hj). Qed.
Lemma mderiv_meq d F t M N : meq d M N -> mderiv d F t M -> mderiv d F t N.
Proof. intros H HF i j Hi Hj. rewrite <- (H i j Hi Hj). now apply HF. Qed.
Lemma mderiv_ext d F G t M : (forall s, meq d (F s) (G s)) -> mderiv d F t M -> mderiv d G t M.
Proof. intros H HF i j Hi Hj. apply (is_derive_ext (fun s => F s i j)); [intros s; now apply H|]. now apply HF. Qed.
Lemma mderiv_tr d F t M : mderiv d F t M -> mderiv d (fun s => mtr (F s)) t (mtr M).
Proof. intros H i j Hi Hj. exact (H j i Hj Hi). Qed.
Lemma mderiv_const d M t : mderiv d (fun _ => M) t (fun _ _ => 0).
Proof. intros i j _ _. apply (is_derive_const (K := R_AbsRing) (V := R_NormedModule) (M i j) t). Qed.
Lemma mderiv_add d F G t M N : mderiv d F t M -> mderiv d G t N -> mderiv d (fun s => madd (F s) (G s)) t (madd M N).
Proof. intros HF HG i j Hi Hj. apply (is_derive_plus (K := R_AbsRing) (V := R_NormedModule) (fun s => F s i j) (fun s => G s i j)); [now apply HF|now apply HG]. Qed.
Lemma mderiv_sub d F G t M N : mderiv d F t M -> mderiv d G t N -> mderiv d (fun s => msub (F s) (G s)) t (msub M N).
Proof. intros HF HG i j Hi Hj. apply (is_derive_minus (K := R_AbsRing) (V := R_NormedModule) (fun s => F s i j) (fun s => G s i j)); [now apply HF|now apply HG]. Qed.
Lemma mderiv_comp d F t (g : R -> R) (c : R) M : is_derive g t c -> mderiv d F (g t) M -> mderiv d (fun s => F (g s)) t (mscale c M).
Proof.
  intros Hg HF i j Hi Hj. exact (is_derive_comp (K := R_AbsRing) (V := R_NormedModule) (fun s => F s i j) g t (M i j) c (HF i j Hi Hj) Hg).
Qed.

(** e^{tA} e^{-tA} = 1 *)
Lemma expm_opp d A t : meq d (mmul d (expm d (mscale t A)) (expm d (mscale (- t) A))) mid.
Proof.
  set (E := fun s => expm d (mscale s A)).
  assert (H : forall s, mderiv d (fun u => mmul d (E u) (E (- u))) s (fun _ _ => 0)).
  { intros s. eapply mderiv_meq; [|apply (mderiv_mmul d E (fun u => E (- u)) (mmul d (E s) A) (mscale (-(1)) (mmul d A (E (- s)))) s)].
    - intros i j Hi Hj. unfold madd. rewrite mmul_scale_r. rewrite (mmul_assoc d (E s) A (E (- s)) i j Hi Hj). ring.
    - apply expm_right.
    - apply (mderiv_comp d E s (fun u => - u) (-(1))); [|apply expm_left].
      apply (is_derive_opp (K := R_AbsRing) (V := R_NormedModule) (fun u => u)). apply (is_derive_id (K := R_AbsRing)). }
  pose proof (mderiv_constant d _ H t 0) as Hc. cbv beta in Hc. unfold E in Hc. rewrite Hc.
  rewrite Ropp_0. rewrite expm_zero. apply mmul_1_l.
Qed.
Lemma expm_opp' d A t : meq d (mmul d (expm d (mscale (- t) A)) (expm d (mscale t A))) mid.
Proof. pose proof (expm_opp d A (- t)) as H. now rewrite Ropp_involutive in H. Qed.

(** e^{(s+t)A} = e^{sA} e^{tA} *)
Lemma expm_plus d A s t : meq d (expm d (mscale (s + t) A)) (mmul d (expm d (mscale s A)) (expm d (mscale t A))).
Proof.
  set (E := fun s => expm d (mscale s A)).
  assert (H : forall u, mderiv d (fun u => mmul d (E (s + u)) (E (- u))) u (fun _ _ => 0)).
  { intros u. eapply mderiv_meq; [|apply (mderiv_mmul d (fun u => E (s + u)) (fun u => E (- u)) (mscale 1 (mmul d (E (s + u)) A)) (mscale (-(1)) (mmul d A (E (- u)))) u)].
    - intros i j Hi Hj. unfold madd. rewrite mmul_scale_r, mmul_scale_l. rewrite (mmul_assoc d (E (s + u)) A (E (- u)) i j Hi Hj). ring.
    - apply (mderiv_comp d E u (fun u => s + u) 1); [|apply expm_right]. auto_derive; [exact I|ring].
    - apply (mderiv_comp d E u (fun u => - u) (-(1))); [|apply expm_left].
      apply (is_derive_opp (K := R_AbsRing) (V := R_NormedModule) (fun u => u)). apply (is_derive_id (K := R_AbsRing)). }
  pose proof (mderiv_constant d _ H t 0) as Hc. cbv beta in Hc. rewrite Rplus_0_r, Ropp_0 in Hc.
  assert (Hz : meq d (mmul d (E (s + t)) (E (- t))) (E s)).
  { rewrite Hc. unfold E at 2. rewrite expm_zero. apply mmul_1_r. }
  fold (E (s + t)) (E s) (E t). rewrite <- Hz. rewrite <- mmul_assoc. unfold E at 3 4. rewrite expm_opp'. now rewrite mmul_1_r.
Qed.

Lemma expm_tr d A t : meq d (expm d (mscale t (mtr A))) (mtr (expm d (mscale t A))).
Proof.
  intros i j Hi Hj. unfold mtr at 2. rewrite !expm_scale by assumption. apply PSeries_ext. intros n. unfold ecoef.
  now rewrite (mpow_tr d A n i j Hi Hj).
Qed.
