(** The exact filter of the Euler chain (experiments/toy) against the GP posterior covariance: one eigenvalue. *)
From Coq Require Import Reals List Lia Lra.
Open Scope R_scope.

(** [U], [X], [W]: variances of u and v and their covariance at forward time s; [a], [g2]: drift coefficient, squared dispersion *)
Section scalar.
Variables (T : R) (U X W a g2 : R -> R) (C Ma Bg MU MX MW iw ip : R).
Definition cond_var (s : R) : R := U s - X s ^ 2 / W s.
Let P := cond_var.
(** the coefficients of the reverse drift of u in u, and of v in u divided by g2 *)
Definition coef_u (s : R) : R := - a s - g2 s / P s.
Definition coef_v (s : R) : R := X s / (W s * P s).
(** one filtering step of the Euler chain from time s to s - dt *)
Definition riccati (s dt p : R) : R := (1 + dt * coef_u s) ^ 2 * p / (1 + dt * (g2 s * coef_v s ^ 2) * p) + dt * g2 s.

Hypothesis Ba : forall s, 0 <= s <= T -> Rabs (a s) <= Ma.
Hypothesis Bg2 : forall s, 0 <= s <= T -> Rabs (g2 s) <= Bg /\ 0 <= g2 s.
Hypothesis BU : forall s, 0 <= s <= T -> Rabs (U s) <= MU.
Hypothesis BX : forall s, 0 <= s <= T -> Rabs (X s) <= MX.
Hypothesis BW : forall s, 0 <= s <= T -> Rabs (W s) <= MW.
Hypothesis PW : forall s, 0 <= s <= T -> 0 < W s /\ Rabs (/ W s) <= iw.
Hypothesis PP : forall s, 0 <= s <= T -> 0 < P s /\ Rabs (/ P s) <= ip.
Hypothesis FU : forall s s', 0 <= s <= T -> 0 <= s' <= T -> Rabs (U s' - U s - (s' - s) * (2 * a s * U s + g2 s)) <= C * (s' - s) ^ 2.
Hypothesis FX : forall s s', 0 <= s <= T -> 0 <= s' <= T -> Rabs (X s' - X s - (s' - s) * (2 * a s * X s)) <= C * (s' - s) ^ 2.
Hypothesis FW : forall s s', 0 <= s <= T -> 0 <= s' <= T -> Rabs (W s' - W s - (s' - s) * (2 * a s * W s + g2 s)) <= C * (s' - s) ^ 2.

Lemma bd_plus x y A B : Rabs x <= A -> Rabs y <= B -> Rabs (x + y) <= A + B.
Proof. intros. eapply Rle_trans; [apply Rabs_triang|]. lra. Qed.
Lemma bd_minus x y A B : Rabs x <= A -> Rabs y <= B -> Rabs (x - y) <= A + B.
Proof. intros. unfold Rminus. apply bd_plus; [assumption|]. now rewrite Rabs_Ropp. Qed.
Lemma bd_opp x A : Rabs x <= A -> Rabs (- x) <= A.
Proof. now rewrite Rabs_Ropp. Qed.
Lemma bd_mult x y A B : Rabs x <= A -> Rabs y <= B -> Rabs (x * y) <= A * B.
Proof. intros. rewrite Rabs_mult. apply Rmult_le_compat; auto using Rabs_pos. Qed.
Lemma bd_two : Rabs 2 <= 2.
Proof. rewrite Rabs_pos_eq; lra. Qed.

Lemma quotient e dt : 0 < dt -> Rabs e <= C * dt ^ 2 -> exists q, e = dt ^ 2 * q /\ Rabs q <= C.
Proof.
  clear. intros Hdt He. assert (H2 : 0 < dt ^ 2) by now apply pow_lt. exists (e / dt ^ 2). split; [field; lra|]. unfold Rdiv. rewrite Rabs_mult, Rabs_inv, (Rabs_pos_eq (dt ^ 2)) by lra.
  apply Rmult_le_reg_r with (dt ^ 2); [exact H2|]. rewrite Rmult_assoc, Rinv_l by lra. lra.
Qed.

Lemma local_error : exists K, forall s dt, 0 <= s <= T -> 0 < dt <= 1 -> 0 <= s - dt -> Rabs (riccati s dt (P s) - P (s - dt)) <= K * dt ^ 2.
Proof using Ba Bg2 BU BX BW PW PP FU FX FW.
  eexists. intros s dt Hs Hdt Hs'. assert (Ht : 0 <= s - dt <= T) by lra.
  destruct (quotient (U (s - dt) - U s - (s - dt - s) * (2 * a s * U s + g2 s)) dt) as (e1 & E1 & B1); [lra| |].
  { replace (dt ^ 2) with ((s - dt - s) ^ 2) by ring. now apply FU. }
  destruct (quotient (X (s - dt) - X s - (s - dt - s) * (2 * a s * X s)) dt) as (e2 & E2 & B2); [lra| |].
  { replace (dt ^ 2) with ((s - dt - s) ^ 2) by ring. now apply FX. }
  destruct (quotient (W (s - dt) - W s - (s - dt - s) * (2 * a s * W s + g2 s)) dt) as (e3 & E3 & B3); [lra| |].
  { replace (dt ^ 2) with ((s - dt - s) ^ 2) by ring. now apply FW. }
  destruct (PW s Hs) as [W1 W2]. destruct (PW (s - dt) Ht) as [W3 W4]. destruct (PP s Hs) as [P1 P2]. destruct (Bg2 s Hs) as [G1 G2].
  specialize (Ba s Hs). specialize (BU s Hs). specialize (BX s Hs). specialize (BW s Hs).
  assert (BP : Rabs (P s) <= MU + MX * MX * iw). { unfold P, cond_var. replace (U s - X s ^ 2 / W s) with (U s - X s * X s * / W s) by (field; lra). repeat (apply bd_minus || apply bd_mult); assumption. }
  assert (BA : Rabs (coef_u s) <= Ma + Bg * ip). { unfold coef_u, Rdiv. apply bd_minus; [now apply bd_opp|]. now apply bd_mult. }
  set (y := g2 s * (coef_v s * coef_v s) * P s).
  assert (By : Rabs y <= Bg * (MX * (iw * ip) * (MX * (iw * ip))) * (MU + MX * MX * iw)).
  { unfold y, coef_v, Rdiv. rewrite Rinv_mult. repeat apply bd_mult; assumption. }
  assert (Hy : 0 <= y). { unfold y. apply Rmult_le_pos; [|lra]. apply Rmult_le_pos; [exact G2|]. apply Rle_0_sqr. }
  set (z := / (1 + dt * y)). assert (Hy2 : 0 <= dt * y) by (apply Rmult_le_pos; lra). assert (Bz : Rabs z <= 1).
  { unfold z. rewrite Rabs_pos_eq by (left; apply Rinv_0_lt_compat; lra). rewrite <- Rinv_1. apply Rinv_le_contravar; lra. }
  assert (Bt : Rabs dt <= 1) by (rewrite Rabs_pos_eq; lra).
  set (R2 := y * y * P s * z - 2 * coef_u s * y * P s * z + coef_u s * coef_u s * P s * z).
  set (q := X s * g2 s + dt * (W s * e2 - X s * e3)).
  set (R1 := e1 - 2 * X s * / W s * e2 + X s * X s * / W s * / W s * e3 - q * q * / W s * / W s * / W (s - dt)).
  assert (HP : P (s - dt) = P s - dt * (2 * a s * P s + g2 s + g2 s * X s ^ 2 / W s ^ 2) + dt ^ 2 * R1).
  { assert (X2 : X (s - dt) = X s - dt * (2 * a s * X s) + dt ^ 2 * e2) by lra. assert (W5 : W (s - dt) = W s - dt * (2 * a s * W s + g2 s) + dt ^ 2 * e3) by lra.
    assert (U2 : U (s - dt) = U s - dt * (2 * a s * U s + g2 s) + dt ^ 2 * e1) by lra.
    unfold P, cond_var at 1. unfold R1. fold P. rewrite U2, X2. set (W' := W (s - dt)) in *.
    apply Rmult_eq_reg_r with (W'); [|lra]. unfold P, cond_var, q. field_simplify; [|lra|lra]. apply Rmult_eq_reg_r with (W s ^ 2); [|apply pow_nonzero; lra]. 
    unfold Rdiv. rewrite !Rmult_assoc, !Rinv_l by (try apply pow_nonzero; lra). rewrite W5. ring. }
  assert (HR : riccati s dt (P s) = P s - dt * (2 * a s * P s + g2 s + g2 s * X s ^ 2 / W s ^ 2) + dt ^ 2 * R2).
  { unfold riccati. replace (1 + dt * (g2 s * coef_v s ^ 2) * P s) with (1 + dt * y) by (unfold y; ring). unfold Rdiv at 1. fold z.
    assert (Hz : z = 1 - dt * y * z) by (unfold z; field; lra).
    assert (Hyp : y * P s = g2 s * X s ^ 2 / W s ^ 2) by (unfold y, coef_v; field; lra).
    assert (Hup : coef_u s * P s = - a s * P s - g2 s) by (unfold coef_u; field; lra).
    assert (Z1 : P s * z = P s - dt * (y * P s) + dt ^ 2 * (y * y * P s * z)). { rewrite Hz at 1. transitivity (P s - dt * y * P s * z); [ring|]. rewrite Hz at 1. ring. }
    assert (Z2 : coef_u s * P s * z = coef_u s * P s - dt * (coef_u s * y * P s * z)) by (rewrite Hz at 1; ring).
    transitivity (P s * z + 2 * dt * (coef_u s * P s * z) + dt ^ 2 * (coef_u s * coef_u s * P s * z) + dt * g2 s); [ring|]. rewrite Z1, Z2, Hyp, Hup. unfold R2. ring. }
  rewrite HR, HP. match goal with |- Rabs ?e <= _ => replace e with ((R2 - R1) * dt ^ 2) by ring end.
  rewrite Rabs_mult, (Rabs_pos_eq (dt ^ 2)) by apply pow2_ge_0. apply Rmult_le_compat_r; [apply pow2_ge_0|].
  unfold R2, R1, q. repeat (first [eassumption | apply bd_two | eapply bd_minus | eapply bd_plus | eapply bd_mult]).
Qed.

Lemma riccati_nonneg s dt p : 0 <= s <= T -> 0 <= dt -> 0 <= p -> 0 <= riccati s dt p.
Proof using Bg2.
  intros Hs Hdt Hp. destruct (Bg2 s Hs) as [_ G]. unfold riccati. assert (0 <= g2 s * coef_v s ^ 2) by (apply Rmult_le_pos; [exact G|apply pow2_ge_0]).
  assert (0 <= dt * (g2 s * coef_v s ^ 2) * p) by (apply Rmult_le_pos; [apply Rmult_le_pos; lra|lra]).
  apply Rplus_le_le_0_compat; [|now apply Rmult_le_pos]. apply Rmult_le_pos; [apply Rmult_le_pos; [apply pow2_ge_0|lra]|]. left. apply Rinv_0_lt_compat. lra.
Qed.
Lemma riccati_lipschitz s dt p q : 0 <= s <= T -> 0 <= dt -> 0 <= p -> 0 <= q -> Rabs (riccati s dt p - riccati s dt q) <= (1 + dt * (Ma + Bg * ip)) ^ 2 * Rabs (p - q).
Proof using Ba Bg2 PP.
  intros Hs Hdt Hp Hq. destruct (Bg2 s Hs) as [G1 G]. destruct (PP s Hs) as [P1 P2]. specialize (Ba s Hs). unfold riccati. set (c := g2 s * coef_v s ^ 2).
  assert (Hc : 0 <= dt * c) by (apply Rmult_le_pos; [lra|]; apply Rmult_le_pos; [exact G|apply pow2_ge_0]).
  assert (Hcp : 0 <= dt * c * p) by (apply Rmult_le_pos; lra). assert (Hcq : 0 <= dt * c * q) by (apply Rmult_le_pos; lra).
  replace ((1 + dt * coef_u s) ^ 2 * p / (1 + dt * c * p) + dt * g2 s - ((1 + dt * coef_u s) ^ 2 * q / (1 + dt * c * q) + dt * g2 s))
    with ((1 + dt * coef_u s) ^ 2 * ((p - q) * / ((1 + dt * c * p) * (1 + dt * c * q)))) by (field; lra).
  rewrite Rabs_mult, (Rabs_pos_eq ((1 + dt * coef_u s) ^ 2)) by apply pow2_ge_0.
  assert (BA : Rabs (coef_u s) <= Ma + Bg * ip). { unfold coef_u, Rdiv. apply bd_minus; [now apply bd_opp|]. now apply bd_mult. }
  apply Rmult_le_compat; [apply pow2_ge_0|apply Rabs_pos| |].
  - rewrite <- pow2_abs. apply pow_incr. split; [apply Rabs_pos|]. apply bd_plus; [rewrite Rabs_R1; lra|]. apply bd_mult; [rewrite Rabs_pos_eq; lra|exact BA].
  - rewrite Rabs_mult. rewrite <- (Rmult_1_r (Rabs (p - q))) at 2. apply Rmult_le_compat_l; [apply Rabs_pos|].
    assert (1 <= (1 + dt * c * p) * (1 + dt * c * q)) by (assert (0 <= (dt * c * p) * (dt * c * q)) by (now apply Rmult_le_pos); lra).
    rewrite Rabs_pos_eq by (left; apply Rinv_0_lt_compat; lra). rewrite <- Rinv_1 at 3. apply Rinv_le_contravar; lra.
Qed.

(** the filter on the grid of [n] steps *)
Fixpoint filter_var (dt : R) (k : nat) : R := match k with O => P T | S k => riccati (T - INR k * dt) dt (filter_var dt k) end.
Hypothesis HT : 0 < T.
Lemma path_error : exists K, 0 <= K /\ forall n, (1 <= n)%nat -> T / INR n <= 1 -> forall k, (k <= n)%nat ->
  0 <= filter_var (T / INR n) k /\ Rabs (filter_var (T / INR n) k - P (T - INR k * (T / INR n))) <= K * (T / INR n).
Proof using Ba Bg2 BU BX BW PW PP FU FX FW HT.
  destruct local_error as (K0 & HK0). set (K := Rmax K0 0). set (A := Ma + Bg * ip).
  assert (HK : 0 <= K) by apply Rmax_r.
  assert (HA : 0 <= A). { destruct (PP 0 ltac:(lra)) as [_ Q1]. destruct (Bg2 0 ltac:(lra)) as [Q2 _]. specialize (Ba 0 ltac:(lra)). pose proof (Rabs_pos (a 0)). pose proof (Rabs_pos (g2 0)). pose proof (Rabs_pos (/ P 0)). apply Rplus_le_le_0_compat; [lra|]. apply Rmult_le_pos; lra. }
  exists (K * T * exp (2 * A * T)). split; [apply Rmult_le_pos; [apply Rmult_le_pos; lra|left; apply exp_pos]|].
  intros n Hn Hdt1. assert (Hn0 : 0 < INR n) by (apply lt_0_INR; lia). set (dt := T / INR n) in *. assert (Hdt : 0 < dt) by (apply Rdiv_lt_0_compat; lra).
  assert (HTn : INR n * dt = T) by (unfold dt; field; lra).
  assert (I : forall k, (k <= n)%nat -> 0 <= filter_var dt k /\ Rabs (filter_var dt k - P (T - INR k * dt)) <= INR k * (K * dt ^ 2) * exp (2 * A * (INR k * dt))).
  { induction k as [|k IH]; intros Hk.
    - cbn [filter_var INR]. replace (T - 0 * dt) with T by ring. rewrite Rminus_eq_0, Rabs_R0. destruct (PP T ltac:(lra)). split; [lra|]. right. ring.
    - destruct (IH ltac:(lia)) as [I1 I2]. set (s := T - INR k * dt) in *. assert (Hkn : INR (S k) <= INR n) by (apply le_INR; lia). rewrite S_INR in Hkn. pose proof (pos_INR k) as Hk0.
      assert (Hkd : (INR k + 1) * dt <= INR n * dt) by (apply Rmult_le_compat_r; lra). assert (0 <= INR k * dt) by (apply Rmult_le_pos; lra).
      assert (Hs : 0 <= s <= T) by (unfold s; lra). assert (Hs1 : 0 <= s - dt) by (unfold s; lra). destruct (PP s Hs) as [Ps _].
      cbn [filter_var]. fold s. split; [apply riccati_nonneg; lra|]. replace (T - INR (S k) * dt) with (s - dt) by (unfold s; rewrite S_INR; ring).
      set (L := (1 + dt * A) ^ 2). set (E := exp (2 * A * (INR k * dt))) in *.
      assert (HL : L <= exp (2 * A * dt)).
      { unfold L. replace (2 * A * dt) with (dt * A + dt * A) by ring. rewrite exp_plus. assert (0 <= dt * A) by (apply Rmult_le_pos; lra). pose proof (exp_ineq1_le (dt * A)).
        replace ((1 + dt * A) ^ 2) with ((1 + dt * A) * (1 + dt * A)) by ring. apply Rmult_le_compat; lra. }
      assert (HL0 : 0 <= L) by apply pow2_ge_0.
      assert (EE : exp (2 * A * (INR (S k) * dt)) = exp (2 * A * dt) * E) by (unfold E; rewrite <- exp_plus; f_equal; rewrite S_INR; ring).
      assert (E1 : 1 <= exp (2 * A * dt) * E).
      { rewrite <- EE. rewrite <- exp_0 at 1. assert (Q : 0 <= 2 * A * (INR (S k) * dt)) by (apply Rmult_le_pos; [lra|apply Rmult_le_pos; [apply pos_INR|lra]]). destruct Q as [Q|Q]; [left; now apply exp_increasing|rewrite <- Q; lra]. }
      assert (E0 : 0 < E) by apply exp_pos.
      assert (KD : 0 <= K * dt ^ 2) by (apply Rmult_le_pos; [exact HK|apply pow2_ge_0]).
      apply Rle_trans with (L * Rabs (filter_var dt k - P s) + K * dt ^ 2).
      + replace (riccati s dt (filter_var dt k) - P (s - dt)) with ((riccati s dt (filter_var dt k) - riccati s dt (P s)) + (riccati s dt (P s) - P (s - dt))) by ring.
        eapply Rle_trans; [apply Rabs_triang|]. apply Rplus_le_compat; [apply riccati_lipschitz; lra|].
        eapply Rle_trans; [apply HK0; lra|]. apply Rmult_le_compat_r; [apply pow2_ge_0|apply Rmax_l].
      + rewrite EE, S_INR. apply Rle_trans with (exp (2 * A * dt) * (INR k * (K * dt ^ 2) * E) + K * dt ^ 2 * (exp (2 * A * dt) * E)); [|right; ring].
        apply Rplus_le_compat; [apply Rmult_le_compat; [exact HL0|apply Rabs_pos|exact HL|exact I2]|]. rewrite <- (Rmult_1_r (K * dt ^ 2)) at 1. now apply Rmult_le_compat_l. }
  intros k Hk. destruct (I k Hk) as [Q1 Q2]. split; [exact Q1|]. eapply Rle_trans; [exact Q2|]. assert (HI : INR k <= INR n) by now apply le_INR. pose proof (pos_INR k) as Hk0.
  apply Rle_trans with (INR n * (K * dt ^ 2) * exp (2 * A * T)).
  - apply Rmult_le_compat; [apply Rmult_le_pos; [lra|apply Rmult_le_pos; [lra|apply pow2_ge_0]]|left; apply exp_pos|apply Rmult_le_compat_r; [apply Rmult_le_pos; [lra|apply pow2_ge_0]|exact HI]|].
    assert (Q : 2 * A * (INR k * dt) <= 2 * A * T) by (apply Rmult_le_compat_l; [lra|]; rewrite <- HTn; apply Rmult_le_compat_r; lra). destruct Q as [Q|Q]; [left; now apply exp_increasing|rewrite Q; lra].
  - right. replace (dt ^ 2) with (dt * dt) by ring. transitivity (K * (INR n * dt) * exp (2 * A * T) * dt); [ring|]. now rewrite HTn.
Qed.
Lemma global_error : exists K, 0 <= K /\ forall n, (1 <= n)%nat -> T / INR n <= 1 -> Rabs (filter_var (T / INR n) n - P 0) <= K * (T / INR n).
Proof using Ba Bg2 BU BX BW PW PP FU FX FW HT.
  destruct path_error as (K & HK & H). exists K. split; [exact HK|]. intros n Hn Hdt. destruct (H n Hn Hdt n (le_n n)) as [_ Q]. assert (0 < INR n) by (apply lt_0_INR; lia).
  replace (T - INR n * (T / INR n)) with 0 in Q by (field; lra). exact Q.
Qed.
End scalar.
