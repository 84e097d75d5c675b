(** The exact filter of the Euler chain (experiments/toy) against the GP posterior mean: one eigenvalue. *)
From Coq Require Import Reals List Lia Lra.
From Verif Require Import FilterRate.
Import ListNotations.
Open Scope R_scope.

Section scalar.
Variables (T : R) (U X W a g2 : R -> R) (C Ma Bg MU MX MW iw ip : R).
Let P := cond_var U X W.
Let cu := coef_u U X W a g2.
Let cv := coef_v U X W.
(** the coefficient of the reverse drift of v in v *)
Definition coef_w (s : R) : R := - a s - g2 s * (/ W s + X s ^ 2 / (W s ^ 2 * cond_var U X W s)).
(** the Kalman gain of one step, the regression coefficient of u on v, and the step of the mean *)
Definition gain (s dt p : R) : R := (1 + dt * coef_u U X W a g2 s) * p * coef_v U X W s / (1 + dt * (g2 s * coef_v U X W s ^ 2) * p).
Definition regr (s : R) : R := X s / W s.
Definition mean_step (s dt p m v v_prev : R) : R :=
  (1 + dt * coef_u U X W a g2 s) * m + dt * (g2 s * coef_v U X W s) * v_prev
  + gain s dt p * (v - (dt * (g2 s * coef_v U X W s) * m + (1 + dt * coef_w s) * v_prev)).

Hypothesis Ba : forall s, 0 <= s <= T -> Rabs (a s) <= Ma.
Hypothesis Bg2 : forall s, 0 <= s <= T -> Rabs (g2 s) <= Bg /\ 0 <= g2 s.
Hypothesis BU : forall s, 0 <= s <= T -> Rabs (U s) <= MU.
Hypothesis BX : forall s, 0 <= s <= T -> Rabs (X s) <= MX.
Hypothesis BW : forall s, 0 <= s <= T -> Rabs (W s) <= MW.
Hypothesis PW : forall s, 0 <= s <= T -> 0 < W s /\ Rabs (/ W s) <= iw.
Hypothesis PP : forall s, 0 <= s <= T -> 0 < P s /\ Rabs (/ P s) <= ip.
Hypothesis FU : forall s s', 0 <= s <= T -> 0 <= s' <= T -> Rabs (U s' - U s - (s' - s) * (2 * a s * U s + g2 s)) <= C * (s' - s) ^ 2.
Hypothesis FX : forall s s', 0 <= s <= T -> 0 <= s' <= T -> Rabs (X s' - X s - (s' - s) * (2 * a s * X s)) <= C * (s' - s) ^ 2.
Hypothesis FW : forall s s', 0 <= s <= T -> 0 <= s' <= T -> Rabs (W s' - W s - (s' - s) * (2 * a s * W s + g2 s)) <= C * (s' - s) ^ 2.

(** one step moves the distance to the regression on v by a factor 1 + L dt and two small terms *)
Lemma mean_local Kp : exists L, forall s dt p m v v_prev, 0 <= s <= T -> 0 < dt <= 1 -> 0 <= s - dt -> 0 <= p -> Rabs (p - P s) <= Kp * dt ->
  Rabs (mean_step s dt p m v v_prev - regr (s - dt) * v) <= (1 + L * dt) * Rabs (m - regr s * v_prev) + L * dt * (dt * Rabs v_prev + Rabs (v - v_prev)).
Proof using Ba Bg2 BU BX BW PW PP FX FW.
  assert (KEY : exists L1 L2 L3, forall s dt p, 0 <= s <= T -> 0 < dt <= 1 -> 0 <= s - dt -> 0 <= p -> Rabs (p - P s) <= Kp * dt -> exists q1 q2 q3,
    Rabs q1 <= L1 /\ Rabs q2 <= L2 /\ Rabs q3 <= L3 /\ forall m v v_prev, mean_step s dt p m v v_prev - regr (s - dt) * v = (1 + dt * q1) * (m - regr s * v_prev) + dt * (dt * (q2 * v_prev)) + dt * (q3 * (v - v_prev))).
  { do 3 eexists. intros s dt p Hs Hdt Hs' Hp Hpp. assert (Ht : 0 <= s - dt <= T) by lra.
    destruct (quotient C (X (s - dt) - X s - (s - dt - s) * (2 * a s * X s)) dt) as (e2 & E2 & B2); [lra| |].
    { replace (dt ^ 2) with ((s - dt - s) ^ 2) by ring. now apply FX. }
    destruct (quotient C (W (s - dt) - W s - (s - dt - s) * (2 * a s * W s + g2 s)) dt) as (e3 & E3 & B3); [lra| |].
    { replace (dt ^ 2) with ((s - dt - s) ^ 2) by ring. now apply FW. }
    destruct (PW s Hs) as [W1 W2]. destruct (PW (s - dt) Ht) as [W3 W4]. destruct (PP s Hs) as [P1 P2]. destruct (Bg2 s Hs) as [G1 G2].
    specialize (Ba s Hs). specialize (BU s Hs). specialize (BX s Hs). specialize (BW s Hs).
    assert (BP : Rabs (P s) <= MU + MX * MX * iw). { unfold P, cond_var. replace (U s - X s ^ 2 / W s) with (U s - X s * X s * / W s) by (field; lra). repeat (apply bd_minus || apply bd_mult); assumption. }
    assert (BA : Rabs (cu s) <= Ma + Bg * ip). { unfold cu, coef_u, Rdiv. apply bd_minus; [now apply bd_opp|]. fold P. now apply bd_mult. }
    assert (BV : Rabs (cv s) <= MX * (iw * ip)). { unfold cv, coef_v, Rdiv. rewrite Rinv_mult. fold P. repeat apply bd_mult; assumption. }
    assert (Bt : Rabs dt <= 1) by (rewrite Rabs_pos_eq; lra).
    set (q := (p - P s) / dt). assert (Hq : p = P s + dt * q) by (unfold q; field; lra).
    assert (Bq : Rabs q <= Kp). { unfold q, Rdiv. rewrite Rabs_mult, Rabs_inv, (Rabs_pos_eq dt) by lra. apply Rmult_le_reg_r with dt; [lra|]. rewrite Rmult_assoc, Rinv_l by lra. lra. }
    assert (Bp : Rabs p <= MU + MX * MX * iw + 1 * Kp). { rewrite Hq. apply bd_plus; [exact BP|]. now apply bd_mult. }
    set (y := g2 s * (cv s * cv s) * p).
    assert (By : Rabs y <= Bg * (MX * (iw * ip) * (MX * (iw * ip))) * (MU + MX * MX * iw + 1 * Kp)) by (unfold y; apply bd_mult; [apply bd_mult; [exact G1|apply bd_mult; exact BV]|exact Bp]).
    assert (Hy : 0 <= y). { unfold y. apply Rmult_le_pos; [|lra]. apply Rmult_le_pos; [exact G2|]. apply Rle_0_sqr. }
    set (z := / (1 + dt * y)). assert (Hy2 : 0 <= dt * y) by (apply Rmult_le_pos; lra). assert (Bz : Rabs z <= 1).
    { unfold z. rewrite Rabs_pos_eq by (left; apply Rinv_0_lt_compat; lra). rewrite <- Rinv_1. apply Rinv_le_contravar; lra. }
    set (dl := q * cv s - y * z * p * cv s + cu s * p * cv s * z).
    assert (HG : regr s = P s * cv s) by (unfold regr, cv, coef_v; fold P; field; lra).
    assert (Hk : gain s dt p = regr s + dt * dl).
    { unfold gain. fold cu. fold cv. replace (1 + dt * (g2 s * cv s ^ 2) * p) with (1 + dt * y) by (unfold y; ring). unfold Rdiv. fold z. assert (Hz : z = 1 - dt * y * z) by (unfold z; field; lra).
      transitivity (p * cv s * z + dt * (cu s * p * cv s * z)); [ring|]. replace (p * cv s * z) with (p * cv s - dt * (y * z * p * cv s)) by (rewrite Hz at 2; ring). rewrite HG. unfold dl. rewrite Hq at 1. ring. }
    set (rr := X s * g2 s * (2 * a s * W s + g2 s - dt * e3) * / W s * / W s * / W (s - dt) + (e2 * W s - e3 * X s) * / W s * / W (s - dt)).
    assert (HG' : regr (s - dt) = regr s + dt * (g2 s * regr s * / W s) + dt * (dt * rr)).
    { assert (X2 : X (s - dt) = X s - dt * (2 * a s * X s) + dt ^ 2 * e2) by lra. assert (W5 : W (s - dt) = W s - dt * (2 * a s * W s + g2 s) + dt ^ 2 * e3) by lra.
      unfold regr, rr. rewrite X2. set (W' := W (s - dt)) in *. apply Rmult_eq_reg_r with (W' * W s ^ 2); [|apply Rmult_integral_contrapositive; split; [lra|apply pow_nonzero; lra]].
      transitivity ((X s - dt * (2 * a s * X s) + dt ^ 2 * e2) * W s ^ 2); [field; lra|].
      transitivity (X s * (W s * W') + dt * g2 s * X s * W' + dt ^ 2 * (X s * g2 s * (2 * a s * W s + g2 s - dt * e3)) + dt ^ 2 * ((e2 * W s - e3 * X s) * W s)); [|field; lra]. rewrite W5. ring. }
    exists (cu s - g2 s * cv s * (P s * cv s + dt * dl)), (dl * (a s + g2 s * / W s) - rr), (dl - g2 s * (P s * cv s) * / W s - dt * rr).
    assert (Bdl : Rabs dl <= _) by (unfold dl; repeat (first [eassumption | eapply bd_minus | eapply bd_plus | eapply bd_mult])).
    assert (Brr : Rabs rr <= _) by (unfold rr; repeat (first [eassumption | apply bd_two | eapply bd_minus | eapply bd_plus | eapply bd_mult])).
    split; [repeat (first [eassumption | eapply bd_minus | eapply bd_plus | eapply bd_mult])|]. split; [repeat (first [eassumption | eapply bd_minus | eapply bd_plus | eapply bd_mult])|]. split; [repeat (first [eassumption | eapply bd_minus | eapply bd_plus | eapply bd_mult])|].
    intros m v v_prev. unfold mean_step. rewrite Hk, HG'. fold cu. fold cv.
    assert (Hcw : coef_w s = - a s - g2 s * / W s - g2 s * (cv s * regr s)) by (unfold coef_w, cv, coef_v, regr; fold P; field; lra).
    assert (Hcu : cu s * regr s = - a s * regr s - g2 s * cv s) by (unfold cu, coef_u, cv, coef_v, regr; fold P; field; lra).
    rewrite Hcw, <- HG. set (r := regr s) in *. set (c := cu s) in *.
    assert (Hm : m = (m - r * v_prev) + r * v_prev) by ring. set (e := m - r * v_prev) in *. rewrite Hm.
    transitivity (e + dt * c * e + r * v_prev + dt * (c * r) * v_prev + dt * (g2 s * cv s) * v_prev + (r + dt * dl) * (v - (dt * (g2 s * cv s) * (e + r * v_prev) + (1 + dt * (- a s - g2 s * / W s - g2 s * (cv s * r))) * v_prev)) - (r + dt * (g2 s * r * / W s) + dt * (dt * rr)) * v); [ring|].
    rewrite Hcu. ring. }
  destruct KEY as (L1 & L2 & L3 & KEY). exists (Rmax L1 (Rmax L2 L3)). set (L := Rmax L1 (Rmax L2 L3)). intros s dt p m v v_prev Hs Hdt Hs' Hp Hpp.
  destruct (KEY s dt p Hs Hdt Hs' Hp Hpp) as (q1 & q2 & q3 & B1 & B2 & B3 & ->).
  assert (C1 : Rabs q1 <= L) by (eapply Rle_trans; [exact B1|apply Rmax_l]). assert (C2 : Rabs q2 <= L) by (eapply Rle_trans; [exact B2|]; eapply Rle_trans; [apply Rmax_l|apply Rmax_r]). assert (C3 : Rabs q3 <= L) by (eapply Rle_trans; [exact B3|]; eapply Rle_trans; [apply Rmax_r|apply Rmax_r]).
  assert (Bt : Rabs dt <= dt) by (rewrite Rabs_pos_eq; lra). assert (B0 : Rabs 1 <= 1) by (rewrite Rabs_R1; lra).
  eapply Rle_trans; [apply bd_plus; [apply bd_plus|]|].
  - apply bd_mult; [apply bd_plus; [exact B0|apply bd_mult; [exact Bt|exact C1]]|apply Rle_refl].
  - apply bd_mult; [exact Bt|apply bd_mult; [exact Bt|apply bd_mult; [exact C2|apply Rle_refl]]].
  - apply bd_mult; [exact Bt|apply bd_mult; [exact C3|apply Rle_refl]].
  - right. ring.
Qed.
End scalar.
