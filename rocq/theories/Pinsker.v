(** Pinsker's inequality for laws with finite support, in terms of a density ratio. *)
From Coquelicot Require Import Coquelicot.
From Coq Require Import Reals List Lia Lra.
From Verif Require ResVariance.
From Verif Require Import Base Dist.
Import ListNotations.
Open Scope R_scope.

(** [- ln s + s - 1 >= (3/2) (1 - s)^2 / (1 + 2 s)] *)
Definition gap_fun (s : R) : R := - ln s + s - 1 - 3 / 2 * ((1 - s) * (1 - s)) / (1 + 2 * s).
Lemma gap_derive s : 0 < s -> is_derive gap_fun s ((s - 1) ^ 3 / (s * (1 + 2 * s) ^ 2)).
Proof. intros Hs. unfold gap_fun. auto_derive; [repeat split; lra|]. field. split; lra. Qed.
Lemma gap_nonneg s : 0 < s -> 0 <= gap_fun s.
Proof.
  intros Hs. assert (G1 : gap_fun 1 = 0) by (unfold gap_fun; rewrite ln_1; field).
  destruct (Rtotal_order s 1) as [H|[ ->|H]]; [| rewrite G1; lra |].
  - destruct (MVT_gen gap_fun s 1 (fun x => (x - 1) ^ 3 / (x * (1 + 2 * x) ^ 2))) as (c & Hc & E).
    + intros x Hx. rewrite Rmin_left, Rmax_right in Hx by lra. apply gap_derive. lra.
    + intros x Hx. rewrite Rmin_left, Rmax_right in Hx by lra. apply derivable_continuous_pt. exists ((x - 1) ^ 3 / (x * (1 + 2 * x) ^ 2)). apply is_derive_Reals, gap_derive. lra.
    + rewrite Rmin_left, Rmax_right in Hc by lra. rewrite G1 in E.
      assert (D : 0 <= - ((c - 1) ^ 3) / (c * (1 + 2 * c) ^ 2)).
      { apply Rdiv_le_0_compat; [|apply Rmult_lt_0_compat; [lra|apply pow_lt; lra]]. replace (- (c - 1) ^ 3) with ((1 - c) ^ 3) by ring. apply pow_le. lra. }
      assert (D' : 0 <= - ((c - 1) ^ 3) / (c * (1 + 2 * c) ^ 2) * (1 - s)) by (apply Rmult_le_pos; lra).
      replace (- (c - 1) ^ 3 / (c * (1 + 2 * c) ^ 2) * (1 - s)) with (- ((c - 1) ^ 3 / (c * (1 + 2 * c) ^ 2) * (1 - s))) in D' by (unfold Rdiv; ring). lra.
  - destruct (MVT_gen gap_fun 1 s (fun x => (x - 1) ^ 3 / (x * (1 + 2 * x) ^ 2))) as (c & Hc & E).
    + intros x Hx. rewrite Rmin_left, Rmax_right in Hx by lra. apply gap_derive. lra.
    + intros x Hx. rewrite Rmin_left, Rmax_right in Hx by lra. apply derivable_continuous_pt. exists ((x - 1) ^ 3 / (x * (1 + 2 * x) ^ 2)). apply is_derive_Reals, gap_derive. lra.
    + rewrite Rmin_left, Rmax_right in Hc by lra. rewrite G1 in E.
      assert (D : 0 <= (c - 1) ^ 3 / (c * (1 + 2 * c) ^ 2)) by (apply Rdiv_le_0_compat; [apply pow_le; lra|apply Rmult_lt_0_compat; [lra|apply pow_lt; lra]]).
      assert (D' : 0 <= (c - 1) ^ 3 / (c * (1 + 2 * c) ^ 2) * (s - 1)) by (apply Rmult_le_pos; lra). lra.
Qed.

Lemma ln_le_minus x : 0 < x -> ln x <= x - 1.
Proof. intros H. pose proof (gap_nonneg x H) as G. unfold gap_fun in G. assert (0 <= 3 / 2 * ((1 - x) * (1 - x)) / (1 + 2 * x)) by (apply Rdiv_le_0_compat; [apply Rmult_le_pos; [lra|apply Rle_0_sqr]|lra]). lra. Qed.

Section pinsker.
  Context {A : Type}.
  Variables (K : dist A) (r : A -> R).
  Hypothesis HK : is_prob K.
  Hypothesis Hr : forall a, 0 < r a.

  Lemma E_pos_fun (f : A -> R) : (forall a, 0 < f a) -> 0 < E K f.
  Proof using HK. clear r Hr.
    intros Hf. destruct HK as [H0 H1]. clear HK. unfold E in *. assert (G : forall l : dist A, Forall (fun pa => 0 <= fst pa) l -> 0 < Rsum (map (fun pa => fst pa * 1) l) -> 0 < Rsum (map (fun pa => fst pa * f (snd pa)) l)).
    { induction l as [|[p a] l IH]; cbn [map Rsum fst snd]; intros HF Hs; [lra|]. apply Forall_cons_iff in HF as [Hp HF]. cbn [fst] in Hp. pose proof (Hf a) as Ha.
      assert (L0 : 0 <= Rsum (map (fun pa => fst pa * f (snd pa)) l)) by (clear - HF Hf; induction HF as [|[q b] l Hq _ IH]; cbn [map Rsum fst snd]; [lra|]; cbn [fst] in Hq; pose proof (Rmult_le_pos _ _ Hq (Rlt_le _ _ (Hf b))); lra).
      destruct (Req_dec p 0) as [ ->|Hp0]; [rewrite Rmult_0_l, Rplus_0_l in *; now apply IH|]. assert (0 < p * f a) by (apply Rmult_lt_0_compat; lra). lra. }
    apply G; [exact H0|]. lra.
  Qed.

  (** the divergence of the law with density r / E r from K *)
  Definition divergence : R := ln (E K r) - E K (fun a => ln (r a)).
  Lemma pinsker phi B : (forall a, Rabs (phi a) <= B) -> (E K phi - E K (fun a => r a * phi a) / E K r) ^ 2 <= 2 * B ^ 2 * divergence.
  Proof using HK Hr.
    intros HB. pose proof (E_pos_fun r Hr) as Hm. set (m := E K r) in *. set (s := fun a => r a / m). assert (Hs : forall a, 0 < s a) by (intros a; unfold s; now apply Rdiv_lt_0_compat).
    assert (Es : E K s = 1) by (unfold s, Rdiv; rewrite (E_ext' K _ (fun a => / m * r a)) by (intros; ring); rewrite E_mult_l; fold m; field; lra).
    assert (D : divergence = E K (fun a => - ln (s a) + s a - 1)).
    { unfold divergence. fold m. transitivity (E K (fun a => (ln m - 1) + (s a + (-1) * ln (r a)))); [|apply E_ext'; intros a; unfold s, Rdiv; rewrite ln_mult, ln_Rinv by (try apply Rinv_0_lt_compat; auto); ring].
      rewrite E_plus, (E_const _ K HK), E_plus, Es, E_mult_l. ring. }
    assert (F : E K phi - E K (fun a => r a * phi a) / m = E K (fun a => (1 - s a) * phi a)).
    { rewrite (E_ext' K (fun a => (1 - s a) * phi a) (fun a => phi a + (-/ m) * (r a * phi a))) by (intros; unfold s, Rdiv; ring). rewrite E_plus, E_mult_l. unfold Rdiv. ring. }
    rewrite F, D. clear D F. set (Q := E K (fun a => (1 - s a) * (1 - s a) / (1 + 2 * s a))).
    assert (HQ : 3 / 2 * Q <= E K (fun a => - ln (s a) + s a - 1)).
    { unfold Q. rewrite <- E_mult_l. apply ResVariance.E_le; [apply HK|]. intros a _. pose proof (gap_nonneg (s a) (Hs a)) as G. unfold gap_fun in G. unfold Rdiv in *. lra. }
    (* Cauchy-Schwarz through a quadratic *)
    set (X := E K (fun a => (1 - s a) * phi a)). assert (CS : forall l, 0 < l -> 2 * (X * l) <= B ^ 2 * 3 * l ^ 2 + Q /\ - (2 * (X * l)) <= B ^ 2 * 3 * l ^ 2 + Q).
    { intros l Hl. assert (E3 : E K (fun a => B ^ 2 * l ^ 2 * (1 + 2 * s a) + (1 - s a) * (1 - s a) / (1 + 2 * s a)) = B ^ 2 * 3 * l ^ 2 + Q).
      { rewrite E_plus. fold Q. f_equal. rewrite (E_ext' K _ (fun a => B ^ 2 * l ^ 2 * 1 + B ^ 2 * l ^ 2 * 2 * s a)) by (intros; ring). rewrite E_plus, (E_const _ K HK), E_mult_l, Es. ring. }
      rewrite <- E3. unfold X. assert (P : forall a, let y := (1 - s a) * phi a * l in 2 * y <= B ^ 2 * l ^ 2 * (1 + 2 * s a) + (1 - s a) * (1 - s a) / (1 + 2 * s a) /\ - (2 * y) <= B ^ 2 * l ^ 2 * (1 + 2 * s a) + (1 - s a) * (1 - s a) / (1 + 2 * s a)).
      { intros a y. pose proof (Hs a) as Ha. pose proof (HB a) as Hb. set (w := 1 + 2 * s a) in *. assert (Hw : 0 < w) by (unfold w; lra). set (z := (1 - s a)) in *.
        assert (Hp2 : phi a ^ 2 <= B ^ 2) by (rewrite <- (pow2_abs (phi a)); apply pow_incr; split; [apply Rabs_pos|assumption]).
        assert (T1 : (phi a * l) ^ 2 * w <= B ^ 2 * l ^ 2 * w) by (rewrite Rpow_mult_distr; apply Rmult_le_compat_r; [lra|]; apply Rmult_le_compat_r; [apply pow2_ge_0|assumption]).
        assert (T2 : 0 <= (phi a * l * w - z) ^ 2 / w) by (apply Rdiv_le_0_compat; [apply pow2_ge_0|assumption]). assert (T3 : 0 <= (phi a * l * w + z) ^ 2 / w) by (apply Rdiv_le_0_compat; [apply pow2_ge_0|assumption]).
        replace ((phi a * l * w - z) ^ 2 / w) with ((phi a * l) ^ 2 * w - 2 * y + z * z / w) in T2 by (unfold y; field; lra). replace ((phi a * l * w + z) ^ 2 / w) with ((phi a * l) ^ 2 * w + 2 * y + z * z / w) in T3 by (unfold y; field; lra). lra. }
      split.
      - replace (2 * (E K (fun a => (1 - s a) * phi a) * l)) with (E K (fun a => 2 * ((1 - s a) * phi a * l))) by (rewrite (E_ext' K _ (fun a => 2 * l * ((1 - s a) * phi a))) by (intros; ring); rewrite E_mult_l; ring).
        apply ResVariance.E_le; [apply HK|]. intros a _. apply P.
      - replace (- (2 * (E K (fun a => (1 - s a) * phi a) * l))) with (E K (fun a => - (2 * ((1 - s a) * phi a * l)))) by (rewrite (E_ext' K _ (fun a => (- 2 * l) * ((1 - s a) * phi a))) by (intros; ring); rewrite E_mult_l; ring).
        apply ResVariance.E_le; [apply HK|]. intros a _. apply P. }
    assert (Q0 : 0 <= Q).
    { unfold Q. apply Rle_trans with (E K (fun _ => 0)); [rewrite (E_const _ K HK); lra|]. apply ResVariance.E_le; [apply HK|]. intros a _. apply Rdiv_le_0_compat; [apply Rle_0_sqr|pose proof (Hs a); lra]. }
    apply Rle_trans with (3 * B ^ 2 * Q); [|pose proof (pow2_ge_0 B) as B0; pose proof (Rmult_le_compat_l _ _ _ B0 HQ); lra].
    clear HQ. pose proof (pow2_ge_0 B) as B0. set (c := B ^ 2 * 3) in *. assert (C0 : 0 <= c) by (unfold c; lra).
    destruct (Req_dec X 0) as [X0|X0]; [rewrite X0; replace (0 ^ 2) with 0 by ring; replace (3 * B ^ 2 * Q) with (c * Q) by (unfold c; ring); now apply Rmult_le_pos|].
    replace (3 * B ^ 2 * Q) with (c * Q) by (unfold c; ring). pose proof (Rabs_pos_lt X X0) as AX.
    assert (CA : forall l, 0 < l -> 2 * (Rabs X * l) <= c * l ^ 2 + Q) by (intros l Hl; destruct (CS l Hl) as [c1 c2]; destruct (Rle_dec 0 X); [rewrite Rabs_pos_eq by assumption|rewrite Rabs_left by lra]; lra).
    rewrite <- pow2_abs. destruct (Rle_lt_or_eq_dec _ _ C0) as [Hc|Hc].
    - specialize (CA (Rabs X / c) ltac:(now apply Rdiv_lt_0_compat)). replace (2 * (Rabs X * (Rabs X / c))) with (2 * (Rabs X ^ 2 / c)) in CA by (field; lra). replace (c * (Rabs X / c) ^ 2) with (Rabs X ^ 2 / c) in CA by (field; lra).
      assert (T : Rabs X ^ 2 / c <= Q) by lra. apply (Rmult_le_compat_l c) in T; [|lra]. replace (c * (Rabs X ^ 2 / c)) with (Rabs X ^ 2) in T by (field; lra). exact T.
    - exfalso. rewrite <- Hc in CA. specialize (CA ((Q + 1) / Rabs X) ltac:(apply Rdiv_lt_0_compat; lra)). replace (2 * (Rabs X * ((Q + 1) / Rabs X))) with (2 * (Q + 1)) in CA by (field; lra). lra.
  Qed.
End pinsker.
