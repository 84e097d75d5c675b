(** The chain of simulators.py:53-106 [euler_maruyama] with [m] sub-steps against the one with a single sub-step driven by the
    same Brownian increments: for a drift that is Lipschitz in the state and the time the mean square distance is of the order of the mesh. *)
From Coquelicot Require Import Coquelicot.
From Coq Require Import Reals List Lia Lra.
From Verif Require Sde SdeProofs Sim ResVariance.
From Verif Require Import Base Dist Prog Mat EmMoments EmStable.
Import ListNotations.
Open Scope R_scope.

(** The sum of the sub-steps' increments [sqrt(h / m) * r] is [sqrt h * merged]. *)
Definition row_sum (rnds : list (list R)) (a : nat) : R := Rsum (map (fun r => nth a r 0) rnds).
Definition merged (d : nat) (rnds : list (list R)) : list R := map (fun a => row_sum rnds a / sqrt (INR (length rnds))) (seq 0 d).

Definition nsq (d : nat) (v : nat -> R) : R := Rsum (map (fun a => v a * v a) (seq 0 d)).
Definition entry (x : list R) : nat -> R := fun a => nth a x 0.
Lemma nsq_nonneg d v : 0 <= nsq d v.
Proof. apply Rsum_nonneg. apply Forall_forall. intros y Hy. apply in_map_iff in Hy as (a & <- & _). apply Rle_0_sqr. Qed.
Lemma nsq_ext d v v' : (forall a, (a < d)%nat -> v a = v' a) -> nsq d v = nsq d v'.
Proof. intros H. apply Rsum_map_ext. intros a Ha. apply in_seq in Ha. rewrite H by lia. reflexivity. Qed.
Lemma nsq_le d v v' : (forall a, (a < d)%nat -> v a * v a <= v' a) -> nsq d v <= Rsum (map v' (seq 0 d)).
Proof. intros H. apply Rsum_map_le. intros a Ha. apply in_seq in Ha. apply H. lia. Qed.
Lemma nsq_scale d s v : nsq d (fun a => s * v a) = s ^ 2 * nsq d v.
Proof. unfold nsq. rewrite <- Rsum_map_mult_l. apply Rsum_map_ext. intros. ring. Qed.
Lemma nsq_plus2 d u v : nsq d (fun a => u a + v a) <= 2 * nsq d u + 2 * nsq d v.
Proof. unfold nsq at 2 3. rewrite <- !Rsum_map_mult_l, <- Rsum_map_plus. apply nsq_le. intros a _. pose proof (Rle_0_sqr (u a - v a)) as H. unfold Rsqr in H. lra. Qed.
Lemma nsq_plus_weighted d u v e : 0 <= e -> nsq d (fun a => u a + e * v a) <= (1 + e) * nsq d u + e * (1 + e) * nsq d v.
Proof.
  intros He. unfold nsq at 2 3. rewrite <- !Rsum_map_mult_l, <- Rsum_map_plus. apply nsq_le. intros a _. pose proof (Rle_0_sqr (u a - v a)) as H. unfold Rsqr in H. nra.
Qed.
Lemma sq_norm_entry d x : length x = d -> sq_norm x = nsq d (entry x).
Proof. apply sq_norm_seq. Qed.

(** ** Averaging over noise *)
Section noise.
  Variables (d : nat) (N : dist (list R)).
  Hypothesis HN : has_moments d N (fun _ => 0) mid.

  Lemma white_sq v s : E N (fun r => nsq d (fun a => v a + s * nth a r 0)) = nsq d v + s ^ 2 * INR d.
  Proof using HN.
    destruct HN as (Np & Nl & Nm & Nc). unfold nsq at 1. rewrite E_Rsum. transitivity (Rsum (map (fun a => v a * v a + s ^ 2) (seq 0 d))).
    - apply Rsum_map_ext. intros a Ha. apply in_seq in Ha. transitivity (E N (fun r => v a * v a + (2 * v a * s * nth a r 0 + s ^ 2 * ((nth a r 0 - 0) * (nth a r 0 - 0))))); [apply E_ext'; intros; ring|].
      rewrite !E_plus, E_const, !E_mult_l, Nm, Nc by (assumption || lia). unfold mid. rewrite Nat.eqb_refl. ring.
    - rewrite Rsum_map_plus, Rsum_map_const, seq_length. unfold nsq. ring.
  Qed.
  Lemma rows_prob m : is_prob (dseq (repeat N m)).
  Proof using HN. apply is_prob_dseq, Forall_forall. intros y Hy. apply repeat_spec in Hy. subst. apply HN. Qed.
  Lemma sum_sq s m : forall v, E (dseq (repeat N m)) (fun rnds => nsq d (fun a => v a + s * row_sum rnds a)) = nsq d v + s ^ 2 * (INR m * INR d).
  Proof using HN.
    induction m as [|m IH]; intros v.
    - cbn [repeat dseq]. rewrite E_dret. rewrite (nsq_ext d _ v); [cbn [INR]; ring|]. intros. unfold row_sum. cbn [map Rsum]. ring.
    - cbn [repeat]. rewrite E_dseq_cons. transitivity (E N (fun r => nsq d (fun a => v a + s * nth a r 0) + s ^ 2 * (INR m * INR d))).
      + apply E_ext'. intros r. rewrite <- (IH (fun a => v a + s * nth a r 0)). apply E_ext'. intros rs. apply nsq_ext. intros a _. unfold row_sum. cbn [map Rsum]. ring.
      + rewrite E_plus, E_const, white_sq by apply HN. rewrite S_INR. ring.
  Qed.
End noise.

Lemma sub_length d f g t0 T : (forall x t, length x = d -> t0 <= t <= T -> length (f x t) = d) -> forall ddt times, Forall (fun t => t0 <= t <= T) times ->
  forall rnds x, Forall (fun r => length r = d) rnds -> length x = d -> length (Sim.em_sub f g ddt x rnds times) = d.
Proof.
  intros Hlen ddt times HF. induction HF as [|t times Ht HF IH]; intros rnds x Hr Hx; [destruct rnds; exact Hx|]. destruct rnds as [|r rnds]; [exact Hx|]. apply Forall_cons_iff in Hr as [Hr Hrs].
  cbn [Sim.em_sub]. apply IH; [assumption|]. now apply em_move_nth; [apply Hlen| |].
Qed.

(** ** One interval *)
Section interval.
  Variables (d : nat) (f : list R -> R -> list R) (g : R -> R) (N : dist (list R)) (t0 T K B G Lg : R).
  Hypothesis HN : has_moments d N (fun _ => 0) mid.
  Hypothesis HT : t0 <= T.
  Hypothesis HK : 0 <= K.
  Hypothesis HB : 0 <= B.
  Hypothesis HLg : 0 <= Lg.
  Hypothesis Hlen : forall x t, length x = d -> t0 <= t <= T -> length (f x t) = d.
  Hypothesis Hlip : forall x y s t, length x = d -> length y = d -> t0 <= s <= T -> t0 <= t <= T ->
    nsq d (fun a => entry (f x s) a - entry (f y t) a) <= K * (nsq d (fun a => entry x a - entry y a) + (s - t) ^ 2 * (1 + nsq d (entry y))).
  Hypothesis Hgrow : forall y t, length y = d -> t0 <= t <= T -> nsq d (entry (f y t)) <= B * (1 + nsq d (entry y)).
  Hypothesis Hg : forall t, t0 <= t <= T -> g t ^ 2 <= G.
  Hypothesis Hgt : forall s t, t0 <= s <= T -> t0 <= t <= T -> (g s - g t) ^ 2 <= Lg * Rabs (s - t).

  Definition H : R := T - t0.
  Definition kappa : R := 4 * (1 + H) * K * G.
  Definition c1 : R := 1 + 2 * (1 + H) * K.
  Definition c2 : R := (1 + H) * K * (4 * H * B + H) + Lg * INR d + kappa * INR d.
  Lemma G_nonneg : 0 <= G.
  Proof using HT Hg. specialize (Hg t0 ltac:(lra)). pose proof (pow2_ge_0 (g t0)). lra. Qed.
  Lemma H_nonneg : 0 <= H.
  Proof using HT. unfold H. lra. Qed.
  Lemma kappa_nonneg : 0 <= kappa.
  Proof using HT HK Hg. pose proof G_nonneg. pose proof H_nonneg. unfold kappa. apply Rmult_le_pos; [|assumption]. apply Rmult_le_pos; lra. Qed.
  Lemma c1_nonneg : 0 <= c1.
  Proof using HT HK. pose proof H_nonneg. unfold c1. assert (0 <= (1 + H) * K) by (apply Rmult_le_pos; lra). lra. Qed.
  Lemma c2_nonneg : 0 <= c2.
  Proof using HT HK HB HLg Hg.
    pose proof H_nonneg. pose proof kappa_nonneg. pose proof (pos_INR d). unfold c2.
    apply Rplus_le_le_0_compat; [apply Rplus_le_le_0_compat|now apply Rmult_le_pos]; [|now apply Rmult_le_pos].
    apply Rmult_le_pos; [apply Rmult_le_pos; lra|]. assert (0 <= H * B) by now apply Rmult_le_pos. lra.
  Qed.

  (** the coarse step, part of the way *)
  Definition partway (y : list R) (t ddt : R) (i : nat) (z : nat -> R) : nat -> R := fun a => entry y a + INR i * ddt * entry (f y t) a + g t * sqrt ddt * z a.
  Definition potential (y : list R) (t ddt : R) (m i : nat) (x : list R) (z : nat -> R) : R :=
    nsq d (fun a => entry x a - partway y t ddt i z a) + kappa * ddt ^ 2 * INR (m - i) * nsq d z.

  Lemma one_sub y t h m i x z : (1 <= m)%nat -> (i < m)%nat -> 0 <= h -> t0 <= t -> t + h <= T -> length y = d -> length x = d -> let ddt := h / INR m in
    E N (fun r => potential y t ddt m (S i) (Sim.em_move f g ddt x (t + INR i * ddt) r) (fun a => z a + nth a r 0)) <=
    (1 + ddt * c1) * potential y t ddt m i x z + ddt * (h * c2 * (1 + nsq d (entry y))).
  Proof using HN HT HK HB HLg Hlen Hlip Hgrow Hg Hgt.
    intros Hm Hi Hh Ht HtT Hy Hx ddt. assert (Hm' : 0 < INR m) by (apply lt_0_INR; lia). assert (Hd0 : 0 <= ddt) by (apply Rmult_le_pos; [assumption|left; now apply Rinv_0_lt_compat]).
    assert (Emd : INR m * ddt = h) by (unfold ddt; field; lra). assert (Hi' : 0 <= INR i <= INR m) by (split; [apply pos_INR|apply le_INR; lia]).
    assert (Hid : 0 <= INR i * ddt <= h) by (split; [apply Rmult_le_pos; lra|rewrite <- Emd; apply Rmult_le_compat_r; lra]).
    assert (Hdh : ddt <= h) by (rewrite <- Emd; assert (1 <= INR m) by (apply (le_INR 1); lia); nra). assert (HhH : h <= H) by (unfold H; lra).
    set (s := t + INR i * ddt). assert (Hs : t0 <= s <= T) by (unfold s; lra). assert (Htt : t0 <= t <= T) by lra.
    set (p := fun a => entry x a - partway y t ddt i z a). set (df := fun a => entry (f x s) a - entry (f y t) a). set (dg := g s - g t). set (w' := kappa * ddt ^ 2 * INR (m - S i)).
    pose proof HN as (Np & Nl & _).
    assert (E1 : E N (fun r => potential y t ddt m (S i) (Sim.em_move f g ddt x s r) (fun a => z a + nth a r 0)) =
      nsq d (fun a => p a + ddt * df a) + (dg * sqrt ddt) ^ 2 * INR d + w' * (nsq d z + INR d)).
    { transitivity (E N (fun r => nsq d (fun a => (p a + ddt * df a) + (dg * sqrt ddt) * nth a r 0) + w' * nsq d (fun a => z a + 1 * nth a r 0))).
      - apply E_ext. intros r Hr. destruct (em_move_nth d f g ddt x s r (Hlen x s Hx Hs) Hx (Nl r Hr)) as [_ M]. unfold potential. fold w'. f_equal; [|f_equal; apply nsq_ext; intros; ring].
        apply nsq_ext. intros a Ha. unfold entry at 1. rewrite M by assumption. unfold p, df, dg, partway, entry. rewrite S_INR. ring.
      - rewrite E_plus, E_mult_l, !(white_sq d N HN). ring. }
    rewrite E1. clear E1. rewrite Rpow_mult_distr, <- (Rsqr_pow2 (sqrt ddt)), Rsqr_sqrt by assumption.
    pose proof (nsq_plus_weighted d p df ddt Hd0) as W.
    set (Y := 1 + nsq d (entry y)). assert (HY : 1 <= Y) by (unfold Y; pose proof (nsq_nonneg d (entry y)); lra).
    set (A := nsq d p) in *. assert (HA : 0 <= A) by apply nsq_nonneg. set (Z := nsq d z) in *. assert (HZ : 0 <= Z) by apply nsq_nonneg.
    (* the drift *)
    assert (F1 : nsq d (fun a => entry x a - entry y a) <= 2 * A + 2 * nsq d (fun a => partway y t ddt i z a - entry y a)).
    { eapply Rle_trans; [|apply nsq_plus2]. right. apply nsq_ext. intros a _. unfold p. ring. }
    assert (F2 : nsq d (fun a => partway y t ddt i z a - entry y a) <= 2 * (h ^ 2 * (B * Y)) + 2 * (G * ddt * Z)).
    { apply Rle_trans with (2 * nsq d (fun a => INR i * ddt * entry (f y t) a) + 2 * nsq d (fun a => g t * sqrt ddt * z a)).
      - eapply Rle_trans; [|apply nsq_plus2]. right. apply nsq_ext. intros a _. unfold partway. ring.
      - rewrite !nsq_scale. rewrite (Rpow_mult_distr (g t)), <- (Rsqr_pow2 (sqrt ddt)), Rsqr_sqrt by assumption. fold Z.
        apply Rplus_le_compat; apply Rmult_le_compat_l; try lra.
        + apply Rmult_le_compat; [apply pow2_ge_0|apply nsq_nonneg|apply pow_incr; lra|now apply Hgrow].
        + apply Rmult_le_compat_r; [assumption|]. apply Rmult_le_compat_r; [assumption|]. now apply Hg. }
    assert (F3 : nsq d df <= K * (2 * A + 2 * (2 * (h ^ 2 * (B * Y)) + 2 * (G * ddt * Z)) + h ^ 2 * Y)).
    { eapply Rle_trans; [exact (Hlip x y s t Hx Hy Hs Htt)|]. apply Rmult_le_compat_l; [assumption|]. apply Rplus_le_compat; [lra|]. fold Y. apply Rmult_le_compat_r; [lra|].
      replace (s - t) with (INR i * ddt) by (unfold s; ring). apply pow_incr. lra. }
    assert (F4 : dg ^ 2 <= Lg * h).
    { eapply Rle_trans; [exact (Hgt s t Hs Htt)|]. apply Rmult_le_compat_l; [assumption|]. replace (s - t) with (INR i * ddt) by (unfold s; ring). rewrite Rabs_pos_eq by lra. lra. }
    set (Q := nsq d df) in *. assert (HQ : 0 <= Q) by apply nsq_nonneg. pose proof H_nonneg as HH. pose proof G_nonneg as HG. pose proof (pos_INR d) as HD.
    assert (F5 : ddt * (1 + ddt) * Q <= ddt * ((1 + H) * (K * (2 * A + 2 * (2 * (h ^ 2 * (B * Y)) + 2 * (G * ddt * Z)) + h ^ 2 * Y)))).
    { rewrite Rmult_assoc. apply Rmult_le_compat_l; [assumption|]. apply Rmult_le_compat; lra. }
    assert (F6 : h ^ 2 <= H * h) by nra.
    assert (HBY : 0 <= B * Y) by (apply Rmult_le_pos; lra).
    assert (F7 : (1 + H) * (K * (2 * A + 2 * (2 * (h ^ 2 * (B * Y)) + 2 * (G * ddt * Z)) + h ^ 2 * Y)) <= 2 * (1 + H) * K * A + kappa * ddt * Z + h * ((1 + H) * K * (4 * H * B + H)) * Y).
    { apply Rle_trans with ((1 + H) * (K * (2 * A + 2 * (2 * (H * h * (B * Y)) + 2 * (G * ddt * Z)) + H * h * Y))).
      - apply Rmult_le_compat_l; [lra|]. apply Rmult_le_compat_l; [assumption|]. assert (h ^ 2 * (B * Y) <= H * h * (B * Y)) by (apply Rmult_le_compat_r; assumption). assert (h ^ 2 * Y <= H * h * Y) by (apply Rmult_le_compat_r; lra). lra.
      - right. unfold kappa. ring. }
    assert (F8 : dg ^ 2 * ddt * INR d <= ddt * (h * (Lg * INR d) * Y)).
    { replace (dg ^ 2 * ddt * INR d) with (ddt * (dg ^ 2 * INR d)) by ring. apply Rmult_le_compat_l; [assumption|]. apply Rle_trans with (Lg * h * INR d); [now apply Rmult_le_compat_r|].
      assert (0 <= h * (Lg * INR d)) by (apply Rmult_le_pos; [assumption|now apply Rmult_le_pos]). nra. }
    pose proof kappa_nonneg as Hkap.
    assert (F9 : w' * INR d <= ddt * (h * (kappa * INR d) * Y)).
    { unfold w'. assert (INR (m - S i) * ddt <= h) by (rewrite <- Emd; apply Rmult_le_compat_r; [assumption|apply le_INR; lia]).
      replace (kappa * ddt ^ 2 * INR (m - S i) * INR d) with (ddt * (kappa * INR d * (INR (m - S i) * ddt))) by ring. apply Rmult_le_compat_l; [assumption|].
      assert (0 <= kappa * INR d) by now apply Rmult_le_pos. apply Rle_trans with (kappa * INR d * h); [now apply Rmult_le_compat_l|]. assert (0 <= kappa * INR d * h) by now apply Rmult_le_pos. nra. }
    assert (F10 : w' = kappa * ddt ^ 2 * INR (m - i) - kappa * ddt ^ 2).
    { unfold w'. replace (m - i)%nat with (S (m - S i)) by lia. rewrite S_INR. ring. }
    unfold potential. fold p. fold A. fold Z. fold Y.
    assert (HW : 0 <= kappa * ddt ^ 2 * INR (m - i) * Z).
    { apply Rmult_le_pos; [|assumption]. apply Rmult_le_pos; [|apply pos_INR]. apply Rmult_le_pos; [assumption|apply pow2_ge_0]. }
    assert (F11 : (1 + ddt * c1) * (kappa * ddt ^ 2 * INR (m - i) * Z) >= kappa * ddt ^ 2 * INR (m - i) * Z).
    { assert (0 <= ddt * c1) by (apply Rmult_le_pos; [assumption|apply c1_nonneg]). nra. }
    rewrite (Rmult_plus_distr_l w'), (Rmult_plus_distr_l (1 + ddt * c1)). apply Rle_trans with ((1 + ddt) * A + ddt * (2 * (1 + H) * K * A + kappa * ddt * Z + h * ((1 + H) * K * (4 * H * B + H)) * Y) + ddt * (h * (Lg * INR d) * Y) + (w' * Z + ddt * (h * (kappa * INR d) * Y))).
    - assert (ddt * ((1 + H) * (K * (2 * A + 2 * (2 * (h ^ 2 * (B * Y)) + 2 * (G * ddt * Z)) + h ^ 2 * Y))) <= ddt * (2 * (1 + H) * K * A + kappa * ddt * Z + h * ((1 + H) * K * (4 * H * B + H)) * Y)) by (apply Rmult_le_compat_l; assumption).
      lra.
    - rewrite F10. unfold c1, c2 in *. lra.
  Qed.

  Lemma subs y t h m : (1 <= m)%nat -> 0 <= h -> t0 <= t -> t + h <= T -> length y = d -> let ddt := h / INR m in
    forall k i x z, (i + k = m)%nat -> length x = d ->
    E (dseq (repeat N k)) (fun rnds => nsq d (fun a => entry (Sim.em_sub f g ddt x rnds (map (fun i => t + INR i * ddt) (seq i k))) a - partway y t ddt m (fun a => z a + row_sum rnds a) a)) <=
    exp (c1 * (INR k * ddt)) * (potential y t ddt m i x z + INR k * ddt * (h * c2 * (1 + nsq d (entry y)))).
  Proof using HN HT HK HB HLg Hlen Hlip Hgrow Hg Hgt.
    intros Hm Hh Ht HtT Hy ddt. assert (Hm' : 0 < INR m) by (apply lt_0_INR; lia). assert (Hd0 : 0 <= ddt) by (apply Rmult_le_pos; [assumption|left; now apply Rinv_0_lt_compat]).
    assert (Emd : INR m * ddt = h) by (unfold ddt; field; lra). set (S0 := h * c2 * (1 + nsq d (entry y))).
    assert (HS0 : 0 <= S0) by (unfold S0; apply Rmult_le_pos; [apply Rmult_le_pos; [assumption|apply c2_nonneg]|pose proof (nsq_nonneg d (entry y)); lra]). pose proof c1_nonneg as Hc1.
    induction k as [|k IH]; intros i x z Hik Hx.
    - assert (i = m) as -> by lia. cbn [repeat dseq]. rewrite E_dret. cbn [seq map Sim.em_sub INR]. unfold potential. rewrite Nat.sub_diag. cbn [INR].
      replace (c1 * (0 * ddt)) with 0 by ring. rewrite exp_0. right. rewrite (nsq_ext d _ (fun a => entry x a - partway y t ddt m z a)); [ring|]. intros a _. unfold partway, row_sum. cbn [map Rsum]. ring.
    - cbn [repeat]. rewrite E_dseq_cons. cbn [seq map Sim.em_sub]. set (s := t + INR i * ddt).
      assert (Hi' : 0 <= INR i <= INR m) by (split; [apply pos_INR|apply le_INR; lia]). assert (Hid : 0 <= INR i * ddt <= h) by (split; [apply Rmult_le_pos; lra|rewrite <- Emd; apply Rmult_le_compat_r; lra]). assert (Hs : t0 <= s <= T) by (unfold s; lra).
      apply Rle_trans with (E N (fun r => exp (c1 * (INR k * ddt)) * (potential y t ddt m (S i) (Sim.em_move f g ddt x s r) (fun a => z a + nth a r 0) + INR k * ddt * S0))).
      + apply ResVariance.E_le; [apply HN|]. intros r Hr. assert (Hr' : length r = d) by now apply HN. destruct (em_move_nth d f g ddt x s r (Hlen x s Hx Hs) Hx Hr') as [Hl _].
        eapply Rle_trans; [|exact (IH (S i) (Sim.em_move f g ddt x s r) (fun a => z a + nth a r 0) ltac:(lia) Hl)]. right. apply E_ext'. intros rs. apply nsq_ext. intros a _. unfold partway, row_sum. cbn [map Rsum]. ring.
      + rewrite E_mult_l, E_plus, E_const by apply HN. replace (c1 * (INR (S k) * ddt)) with (c1 * (INR k * ddt) + ddt * c1) by (rewrite S_INR; ring). rewrite exp_plus, (Rmult_assoc (exp (c1 * (INR k * ddt)))).
        apply Rmult_le_compat_l; [left; apply exp_pos|]. pose proof (one_sub y t h m i x z Hm ltac:(lia) Hh Ht HtT Hy Hx) as O. cbv zeta in O. fold ddt in O. fold s in O. fold S0 in O.
        eapply Rle_trans; [apply Rplus_le_compat_r; exact O|]. pose proof (exp_lower (ddt * c1)) as Hex. assert (Hdc : 0 <= ddt * c1) by now apply Rmult_le_pos.
        assert (HP : 0 <= potential y t ddt m i x z).
        { unfold potential. apply Rplus_le_le_0_compat; [apply nsq_nonneg|]. apply Rmult_le_pos; [|apply nsq_nonneg]. apply Rmult_le_pos; [|apply pos_INR]. apply Rmult_le_pos; [apply kappa_nonneg|apply pow2_ge_0]. }
        assert (HkS : 0 <= INR k * ddt * S0) by (apply Rmult_le_pos; [apply Rmult_le_pos; [apply pos_INR|assumption]|assumption]). assert (HdS : 0 <= ddt * S0) by now apply Rmult_le_pos.
        rewrite S_INR. apply Rle_trans with ((1 + ddt * c1) * (potential y t ddt m i x z + (INR k + 1) * ddt * S0)).
        * assert (0 <= (ddt * c1) * ((INR k + 1) * ddt * S0)) by (apply Rmult_le_pos; [assumption|]; replace ((INR k + 1) * ddt * S0) with (INR k * ddt * S0 + ddt * S0) by ring; lra). lra.
        * apply Rmult_le_compat_r; [|assumption]. replace ((INR k + 1) * ddt * S0) with (INR k * ddt * S0 + ddt * S0) by ring. lra.
  Qed.

  Lemma coarse_step y t t' rnds : t <= t' -> t0 <= t <= T -> length y = d -> (1 <= length rnds)%nat -> let ddt := (t' - t) / INR (length rnds) in
    length (Sim.em_step f g 1 y t t' [merged d rnds]) = d /\
    forall a, (a < d)%nat -> entry (Sim.em_step f g 1 y t t' [merged d rnds]) a = partway y t ddt (length rnds) (row_sum rnds) a.
  Proof using Hlen.
    intros Htt Ht Hy Hr ddt. unfold Sim.em_step. cbn [INR Sde.linspace Sim.em_sub]. rewrite Rabs_pos_eq by lra. replace ((t' - t) / 1) with (t' - t) by field.
    assert (Hl : length (merged d rnds) = d) by (unfold merged; now rewrite map_length, seq_length).
    destruct (em_move_nth d f g (t' - t) y t (merged d rnds) (Hlen y t Hy Ht) Hy Hl) as [M1 M2]. split; [exact M1|]. intros a Ha. unfold entry at 1. rewrite M2 by assumption.
    assert (Hm : 0 < INR (length rnds)) by (apply lt_0_INR; lia). set (F := fun a => row_sum rnds a / sqrt (INR (length rnds))).
    assert (Hn : nth a (merged d rnds) 0 = F a).
    { unfold merged. fold F. rewrite (nth_indep (map F (seq 0 d)) 0 (F 0%nat)) by (rewrite map_length, seq_length; assumption). rewrite (map_nth F), seq_nth by assumption. reflexivity. }
    rewrite Hn. unfold F. unfold partway, ddt, entry. rewrite sqrt_div_alt by assumption. pose proof (sqrt_lt_R0 _ Hm). field. split; lra.
  Qed.

  Definition c3 : R := 1 + (1 + H) * B + G * INR d.
  Lemma c3_nonneg : 0 <= c3.
  Proof using HT HB Hg. pose proof H_nonneg. pose proof G_nonneg. pose proof (pos_INR d). unfold c3. assert (0 <= (1 + H) * B) by (apply Rmult_le_pos; lra). assert (0 <= G * INR d) by now apply Rmult_le_pos. lra. Qed.

  Lemma interval_close m x y t t' : (1 <= m)%nat -> t0 <= t <= t' -> t' <= T -> length x = d -> length y = d ->
    E (dseq (repeat N m)) (fun rnds => nsq d (fun a => entry (Sim.em_step f g m x t t' rnds) a - entry (Sim.em_step f g 1 y t t' [merged d rnds]) a)) <=
    exp (c1 * (t' - t)) * (nsq d (fun a => entry x a - entry y a) + (t' - t) * ((t' - t) * c2 * (1 + nsq d (entry y)))).
  Proof using HN HT HK HB HLg Hlen Hlip Hgrow Hg Hgt.
    intros Hm Htt HtT Hx Hy. assert (Hm' : 0 < INR m) by (apply lt_0_INR; lia). pose proof (subs y t (t' - t) m Hm ltac:(lra) ltac:(lra) ltac:(lra) Hy m 0 x (fun _ => 0) (Nat.add_0_l m) Hx) as S.
    replace (INR m * ((t' - t) / INR m)) with (t' - t) in S by (field; lra).
    replace (potential y t ((t' - t) / INR m) m 0 x (fun _ => 0)) with (nsq d (fun a => entry x a - entry y a)) in S.
    - eapply Rle_trans; [|exact S]. right. apply E_ext. intros rnds Hr. apply dseq_length in Hr. rewrite repeat_length in Hr. apply nsq_ext. intros a Ha.
      unfold Sim.em_step at 1. cbv zeta. rewrite (linspace_left t t' m Hm) by lra. rewrite Rabs_pos_eq by lra.
      destruct (coarse_step y t t' rnds ltac:(lra) ltac:(lra) Hy ltac:(lia)) as [_ C]. rewrite (C a Ha), Hr. f_equal. unfold partway. f_equal. f_equal. ring.
    - unfold potential. rewrite (nsq_ext d (fun _ => 0) (fun a => 0 * 0)) by (intros; ring). rewrite nsq_scale. rewrite (nsq_ext d (fun a => entry x a - partway y t ((t' - t) / INR m) 0 (fun _ => 0) a) (fun a => entry x a - entry y a)); [ring|].
      intros a _. unfold partway. cbn [INR]. ring.
  Qed.

  Lemma coarse_moment m y t t' : (1 <= m)%nat -> t0 <= t <= t' -> t' <= T -> length y = d ->
    E (dseq (repeat N m)) (fun rnds => 1 + nsq d (entry (Sim.em_step f g 1 y t t' [merged d rnds]))) <= exp (c3 * (t' - t)) * (1 + nsq d (entry y)).
  Proof using HN HT HB Hlen Hgrow Hg.
    intros Hm Htt HtT Hy. assert (Hm' : 0 < INR m) by (apply lt_0_INR; lia). set (h := t' - t). assert (Hh : 0 <= h) by (unfold h; lra). set (ddt := h / INR m).
    assert (Hd0 : 0 <= ddt) by (apply Rmult_le_pos; [assumption|left; now apply Rinv_0_lt_compat]). assert (Emd : INR m * ddt = h) by (unfold ddt; field; lra).
    rewrite E_plus, E_const by (apply (rows_prob d N HN)).
    assert (E1 : E (dseq (repeat N m)) (fun rnds => nsq d (entry (Sim.em_step f g 1 y t t' [merged d rnds]))) = nsq d (fun a => entry y a + h * entry (f y t) a) + (g t * sqrt ddt) ^ 2 * (INR m * INR d)).
    { rewrite <- (sum_sq d N HN). apply E_ext. intros rnds Hr. apply dseq_length in Hr. rewrite repeat_length in Hr. destruct (coarse_step y t t' rnds ltac:(lra) ltac:(lra) Hy ltac:(lia)) as [_ C]. apply nsq_ext. intros a Ha. rewrite (C a Ha), Hr.
      unfold partway. fold h. fold ddt. rewrite Emd. reflexivity. }
    rewrite E1, Rpow_mult_distr, <- (Rsqr_pow2 (sqrt ddt)), Rsqr_sqrt by assumption. replace (g t ^ 2 * ddt * (INR m * INR d)) with (h * (g t ^ 2 * INR d)) by (rewrite <- Emd; ring).
    pose proof (nsq_plus_weighted d (entry y) (entry (f y t)) h Hh) as W. pose proof (Hgrow y t Hy ltac:(lra)) as GB. pose proof (Hg t ltac:(lra)) as GG. pose proof (pos_INR d) as HD. pose proof (nsq_nonneg d (entry y)) as HY0. pose proof H_nonneg. assert (h <= H) by (unfold H, h; lra).
    set (Q := nsq d (entry (f y t))) in *. assert (0 <= Q) by apply nsq_nonneg. set (Y := nsq d (entry y)) in *. pose proof G_nonneg.
    assert (W1 : h * (1 + h) * Q <= h * ((1 + H) * (B * (1 + Y)))) by (rewrite Rmult_assoc; apply Rmult_le_compat_l; [assumption|]; apply Rmult_le_compat; lra).
    assert (W2 : h * (g t ^ 2 * INR d) <= h * (G * INR d * (1 + Y))).
    { apply Rmult_le_compat_l; [assumption|]. apply Rle_trans with (G * INR d); [now apply Rmult_le_compat_r|]. assert (0 <= G * INR d) by now apply Rmult_le_pos. nra. }
    pose proof (exp_lower (c3 * h)) as Hex. apply Rle_trans with ((1 + c3 * h) * (1 + Y)); [|apply Rmult_le_compat_r; lra]. unfold c3. nra.
  Qed.

  Definition rate2 : R := c1 + c3.
  Lemma grid_close m ts : (1 <= m)%nat -> forall t x y e, t0 <= t -> ascending (t :: ts) -> last (t :: ts) 0 <= T -> 0 <= e ->
    (forall k, (S k < length (t :: ts))%nat -> nth (S k) (t :: ts) 0 - nth k (t :: ts) 0 <= e) -> length x = d -> length y = d ->
    E (dseq (repeat (dseq (repeat N m)) (length ts))) (fun rndss => nsq d (fun a =>
      entry (Sim.em_carry f g m x (t :: ts) rndss) a - entry (Sim.em_carry f g 1 y (t :: ts) (map (fun rnds => [merged d rnds]) rndss)) a)) <=
    exp (rate2 * (last (t :: ts) 0 - t)) * (nsq d (fun a => entry x a - entry y a) + (last (t :: ts) 0 - t) * (e * c2 * (1 + nsq d (entry y)))).
  Proof using HN HT HK HB HLg Hlen Hlip Hgrow Hg Hgt.
    intros Hm. induction ts as [|t' ts IH]; intros t x y e Ht Ha Hl He Hmesh Hx Hy.
    - cbn [length repeat dseq]. rewrite E_dret. cbn [last Sim.em_carry map]. replace (rate2 * (t - t)) with 0 by ring. rewrite exp_0. right. ring.
    - pose proof (ascending_head _ _ _ Ha) as Htt. pose proof (ascending_last _ _ (ascending_tail _ _ Ha)) as Hll. change (last (t :: t' :: ts) 0) with (last (t' :: ts) 0) in *. set (L := last (t' :: ts) 0) in *.
      pose proof (Hmesh 0%nat ltac:(cbn [length]; lia)) as Hm0. cbn [nth] in Hm0. set (h := t' - t) in *. assert (Hh : 0 <= h) by (unfold h; lra).
      cbn [length repeat]. rewrite E_dseq_cons. pose proof c1_nonneg as Hc1. pose proof c2_nonneg as Hc2. pose proof c3_nonneg as Hc3.
      set (Y := 1 + nsq d (entry y)). assert (HY : 1 <= Y) by (unfold Y; pose proof (nsq_nonneg d (entry y)); lra).
      apply Rle_trans with (E (dseq (repeat N m)) (fun rnds => exp (rate2 * (L - t')) * (nsq d (fun a => entry (Sim.em_step f g m x t t' rnds) a - entry (Sim.em_step f g 1 y t t' [merged d rnds]) a)
         + (L - t') * (e * c2) * (1 + nsq d (entry (Sim.em_step f g 1 y t t' [merged d rnds])))))).
      + apply ResVariance.E_le; [apply (rows_prob d N HN)|]. intros rnds Hr.
        assert (Hrl : length rnds = m) by (apply dseq_length in Hr; now rewrite repeat_length in Hr).
        assert (Hrows : Forall (fun r => length r = d) rnds).
        { apply dseq_Forall2 in Hr. clear - Hr HN. destruct HN as (_ & Nl & _). revert rnds Hr. generalize m as k. induction k as [|k IHk]; intros rnds Hr; inversion Hr; subst; constructor; auto. }
        assert (L1 : length (Sim.em_step f g m x t t' rnds) = d).
        { unfold Sim.em_step. cbv zeta. apply (sub_length d f g t0 T); try assumption. eapply Forall_impl; [|exact (linspace_inside t t' m Hm Htt)]. cbv beta. intros; lra. }
        destruct (coarse_step y t t' rnds Htt ltac:(lra) Hy ltac:(lia)) as [L2 _].
        eapply Rle_trans; [|eapply Rle_trans; [exact (IH t' _ _ e ltac:(lra) (ascending_tail _ _ Ha) Hl He ltac:(intros k Hk; apply (Hmesh (S k)); cbn [length] in *; lia) L1 L2)|]].
        * right. apply E_ext'. intros rs. reflexivity.
        * right. fold L. ring.
      + rewrite E_mult_l, E_plus, E_mult_l. replace (rate2 * (L - t)) with (rate2 * (L - t') + rate2 * h) by (unfold h; ring). rewrite exp_plus, (Rmult_assoc (exp (rate2 * (L - t')))). apply Rmult_le_compat_l; [left; apply exp_pos|].
        pose proof (interval_close m x y t t' Hm ltac:(lra) ltac:(lra) Hx Hy) as I1. pose proof (coarse_moment m y t t' Hm ltac:(lra) ltac:(lra) Hy) as I2. fold h in I1, I2. fold Y in I1, I2.
        assert (X1 : exp (c1 * h) <= exp (rate2 * h)).
        { replace (rate2 * h) with (c1 * h + c3 * h) by (unfold rate2; ring). rewrite exp_plus. pose proof (exp_lower (c3 * h)). pose proof (exp_pos (c1 * h)). assert (0 <= c3 * h) by now apply Rmult_le_pos. nra. }
        assert (X3 : exp (c3 * h) <= exp (rate2 * h)).
        { replace (rate2 * h) with (c1 * h + c3 * h) by (unfold rate2; ring). rewrite exp_plus. pose proof (exp_lower (c1 * h)). pose proof (exp_pos (c3 * h)). assert (0 <= c1 * h) by now apply Rmult_le_pos. nra. }
        set (D0 := nsq d (fun a => entry x a - entry y a)) in *. assert (HD0 : 0 <= D0) by apply nsq_nonneg. set (W := exp (rate2 * h)) in *. assert (0 < W) by apply exp_pos.
        assert (J1 : exp (c1 * h) * (D0 + h * (h * c2 * Y)) <= W * (D0 + h * (e * c2 * Y))).
        { apply Rmult_le_compat; [left; apply exp_pos| |assumption|].
          - apply Rplus_le_le_0_compat; [assumption|]. repeat (apply Rmult_le_pos; try assumption); lra.
          - apply Rplus_le_compat_l. apply Rmult_le_compat_l; [assumption|]. apply Rmult_le_compat_r; [lra|]. now apply Rmult_le_compat_r. }
        assert (J2 : (L - t') * (e * c2) * (exp (c3 * h) * Y) <= W * ((L - t') * (e * c2 * Y))).
        { replace (W * ((L - t') * (e * c2 * Y))) with ((L - t') * (e * c2) * (W * Y)) by ring. apply Rmult_le_compat_l; [apply Rmult_le_pos; [lra|now apply Rmult_le_pos]|]. apply Rmult_le_compat_r; lra. }
        assert (J3 : (L - t') * (e * c2) * E (dseq (repeat N m)) (fun rnds => 1 + nsq d (entry (Sim.em_step f g 1 y t t' [merged d rnds]))) <= (L - t') * (e * c2) * (exp (c3 * h) * Y)).
        { apply Rmult_le_compat_l; [apply Rmult_le_pos; [lra|now apply Rmult_le_pos]|exact I2]. }
        replace (L - t) with (h + (L - t')) by (unfold h; ring). rewrite (Rmult_plus_distr_r h). rewrite <- (Rplus_assoc D0), (Rmult_plus_distr_l W). lra.
  Qed.
End interval.
