(** The simulated Doob bridge (fbs/sdes/simulators.py 126-160): moments before the end, and how close the last point is to the target. *)
From Coquelicot Require Import Coquelicot.
From Coq Require Import Reals List Lia Lra Morphisms Setoid FunctionalExtensionality.
From Verif Require Sde SdeProofs SdeMore Sim SimMore.
From Verif Require Import Base Dist Prog Mat MatMore Cholesky GaussDiv GaussCond GaussSBMore Toy ToyCond EmMoments EmConverge.
Import ListNotations.
Open Scope R_scope.

Lemma compact_bound_on (f : R -> R) T : 0 <= T -> (forall t, 0 <= t <= T -> ex_derive f t) -> exists M, 0 <= M /\ forall t, 0 <= t <= T -> Rabs (f t) <= M.
Proof.
  intros HT Hc. assert (Hc' : forall c, 0 <= c <= T -> continuity_pt f c) by (intros c Hc1; apply continuity_pt_filterlim; apply (ex_derive_continuous f c (Hc c Hc1))).
  destruct (continuity_ab_maj f 0 T HT Hc') as (x & Hx & _). destruct (continuity_ab_min f 0 T HT Hc') as (y & Hy & _).
  exists (Rabs (f x) + Rabs (f y)). split; [pose proof (Rabs_pos (f x)); pose proof (Rabs_pos (f y)); lra|]. intros t Ht.
  specialize (Hx t Ht). specialize (Hy t Ht). pose proof (Rabs_pos (f x)). pose proof (Rabs_pos (f y)).
  pose proof (Rle_abs (f x)). pose proof (Rabs_maj2 (f y)). apply Rabs_le. lra.
Qed.
Lemma compact_min (f : R -> R) T : 0 <= T -> (forall t, ex_derive f t) -> (forall t, 0 <= t <= T -> 0 < f t) -> exists c, 0 < c /\ forall t, 0 <= t <= T -> c <= f t.
Proof.
  intros HT Hc Hp. assert (Hc' : forall c, 0 <= c <= T -> continuity_pt f c) by (intros c _; apply continuity_pt_filterlim; apply (ex_derive_continuous f c (Hc c))).
  destruct (continuity_ab_min f 0 T HT Hc') as (y & Hy & Iy). exists (f y). split; [now apply Hp|exact Hy].
Qed.

Section core.
  Context (rho a a' : R -> R) (kap T : R).
  Hypothesis (H1 : forall t, is_derive rho t (a t)) (H2 : forall t, is_derive a t (a' t)) (H3 : forall t, ex_derive a' t).
  Hypothesis (HT : 0 < T) (r0 : rho 0 = 0).
  Hypothesis Hpos : forall t, 0 <= t <= T -> 0 < -2 * a t * kap.
  (** variance left until the end, squared slope of the noise reaching the end, rate of the pull *)
  Definition left_var (t : R) : R := kap * (1 - exp (2 * (rho T - rho t))).
  Definition pull_num (t : R) : R := -2 * a t * kap * exp (2 * (rho T - rho t)).
  Definition pull (t : R) : R := pull_num t / left_var t.
  Lemma Er t : ex_derive rho t. Proof using H1. exists (a t); apply H1. Qed.
  Lemma Ea t : ex_derive a t. Proof using H2. exists (a' t); apply H2. Qed.
  Lemma Dr t : Derive (fun x => rho x) t = a t. Proof using H1. apply is_derive_unique, H1. Qed.
  Lemma Da t : Derive (fun x => a x) t = a' t. Proof using H2. apply is_derive_unique, H2. Qed.
  Lemma left_derive t : is_derive left_var t (- pull_num t).
  Proof using H1. unfold left_var, pull_num. auto_derive; [repeat split; apply Er|]. rewrite Dr. replace (2 * (rho T + - rho t)) with (2 * (rho T - rho t)) by ring. ring. Qed.
  Definition pull_num' (t : R) : R := -2 * kap * (a' t - 2 * (a t * a t)) * exp (2 * (rho T - rho t)).
  Lemma num_derive t : is_derive (fun u => - pull_num u) t (- pull_num' t).
  Proof using H1 H2. unfold pull_num, pull_num'. auto_derive; [repeat split; (apply Er || apply Ea)|]. rewrite Dr, Da. replace (2 * (rho T + - rho t)) with (2 * (rho T - rho t)) by ring. ring. Qed.
  Lemma num'_derive t : ex_derive (fun u => - pull_num' u) t.
  Proof using H1 H2 H3. unfold pull_num'. auto_derive. repeat split; (apply Er || apply Ea || apply H3). Qed.
  Lemma left_end : left_var T = 0.
  Proof using. unfold left_var. replace (2 * (rho T - rho T)) with 0 by ring. rewrite exp_0. ring. Qed.
  Lemma left_bounds : exists w0 M, 0 < w0 /\ 0 <= M /\ (forall t, 0 <= t <= T -> w0 * (T - t) <= left_var t) /\ forall t, 0 <= t <= T -> Rabs (left_var t - (T - t) * pull_num t) <= M * (T - t) ^ 2.
  Proof using H1 H2 H3 HT Hpos.
    destruct (compact_min pull_num T (Rlt_le _ _ HT)) as (w0 & W0 & W1).
    { intros t. unfold pull_num. auto_derive. repeat split; (apply Er || apply Ea). }
    { intros t Ht. unfold pull_num. apply Rmult_lt_0_compat; [now apply Hpos|apply exp_pos]. }
    destruct (taylor2 left_var (fun u => - pull_num u) (fun u => - pull_num' u) T (Rlt_le _ _ HT) left_derive num_derive num'_derive) as (M & M0 & M1).
    exists w0, M. split; [exact W0|]. split; [exact M0|]. split.
    - intros t Ht. destruct (mvt left_var (fun u => - pull_num u) t T left_derive) as (c & Hc & E). rewrite Rmin_left, Rmax_right in Hc by lra. rewrite left_end in E.
      pose proof (W1 c ltac:(lra)) as W. assert ((w0 - pull_num c) * (T - t) <= 0) by (apply Rmult_le_0_r; lra). lra.
    - intros t Ht. pose proof (M1 T t ltac:(lra) Ht) as H. rewrite left_end in H. rewrite <- Rabs_Ropp. replace (- (left_var t - (T - t) * pull_num t)) with (0 - left_var t - (T - t) * - pull_num t) by ring. exact H.
  Qed.
  Lemma left_pos t : 0 <= t < T -> 0 < left_var t.
  Proof using H1 H2 H3 HT Hpos. intros Ht. destruct left_bounds as (w0 & M & W0 & _ & W & _). specialize (W t ltac:(lra)). assert (0 < w0 * (T - t)) by (apply Rmult_lt_0_compat; lra). lra. Qed.
  (** one step of length [dt] moves at most the whole way to the target, up to a factor 1 + K dt *)
  Lemma pull_bounds : exists K, 0 <= K /\ forall t dt, 0 <= t -> 0 < dt -> t + dt <= T -> 0 <= dt * pull t <= 1 + K * dt /\ (t + dt = T -> Rabs (dt * pull t - 1) <= K * dt).
  Proof using H1 H2 H3 HT Hpos.
    destruct left_bounds as (w0 & M & W0 & M0 & WL & WM). exists (M / w0). split; [apply Rmult_le_pos; [exact M0|left; now apply Rinv_0_lt_compat]|].
    intros t dt Ht Hdt Hle. assert (HQ : 0 < left_var t) by (apply left_pos; lra). pose proof (WL t ltac:(lra)) as L. pose proof (WM t ltac:(lra)) as MM. set (s := T - t) in *. assert (Hs : 0 < s) by (unfold s; lra).
    assert (Hn : 0 < pull_num t) by (unfold pull_num; apply Rmult_lt_0_compat; [apply Hpos; lra|apply exp_pos]).
    assert (HK : Rabs (s * pull t - 1) <= M / w0 * s).
    { unfold pull. replace (s * (pull_num t / left_var t) - 1) with (- (left_var t - s * pull_num t) / left_var t) by (field; lra). unfold Rdiv. rewrite Rabs_mult, Rabs_Ropp, (Rabs_pos_eq (/ left_var t)) by (left; now apply Rinv_0_lt_compat).
      apply Rle_trans with (M * s ^ 2 * / (w0 * s)); [|right; field; lra].
      apply Rmult_le_compat; [apply Rabs_pos|left; now apply Rinv_0_lt_compat|exact MM|]. apply Rinv_le_contravar; [now apply Rmult_lt_0_compat|exact L]. }
    assert (HP : 0 <= pull t) by (unfold pull; apply Rmult_le_pos; [lra|left; now apply Rinv_0_lt_compat]).
    split; [|intros E; replace dt with s by (unfold s; lra); exact HK]. split; [apply Rmult_le_pos; lra|].
    assert (U : s * pull t <= 1 + M / w0 * s) by (pose proof (Rle_abs (s * pull t - 1)); lra).
    replace (dt * pull t) with (dt / s * (s * pull t)) by (field; lra). assert (Hr : 0 <= dt / s <= 1) by (split; [apply Rmult_le_pos; [lra|left; now apply Rinv_0_lt_compat]|apply (Rmult_le_reg_r s); [exact Hs|]; unfold Rdiv; rewrite Rmult_assoc, Rinv_l, Rmult_1_r by lra; unfold s; lra]).
    apply Rle_trans with (dt / s * (1 + M / w0 * s)); [apply Rmult_le_compat_l; [apply Hr|exact U]|]. replace (dt / s * (1 + M / w0 * s)) with (dt / s + M / w0 * dt) by (field; lra). lra.
  Qed.
  (** the moments of the bridge from [x] to [y] *)
  Let P := exp (rho T).
  Definition end_weight (x y : R) : R := P * (y - P * x) / (1 - P ^ 2).
  Definition bmean (x y t : R) : R := (x - end_weight x y) * exp (1 * rho t) + end_weight x y * exp (-1 * rho t).
  Definition bvar (t : R) : R := kap / (1 - P ^ 2) * (1 + P ^ 2 - exp (2 * rho t) - P ^ 2 * exp (-2 * rho t)).
  Definition slope (t : R) : R := a t - pull t.
  Definition shift (y t : R) : R := pull t * exp (rho t - rho T) * y.
  Lemma P_ne : 1 - P ^ 2 <> 0.
  Proof using H1 H2 H3 HT Hpos r0. intros E. pose proof (left_pos 0 ltac:(lra)) as H. unfold left_var in H. rewrite r0, Rminus_0_r in H. replace (2 * rho T) with (rho T + rho T) in H by ring. rewrite exp_plus in H. fold P in H. replace (1 - P * P) with (1 - P ^ 2) in H by ring. rewrite E in H. lra. Qed.
  Lemma exp_c c t : is_derive (fun t => exp (c * rho t)) t (c * a t * exp (c * rho t)).
  Proof using H1. auto_derive; [repeat split; apply Er|]. rewrite Dr. ring. Qed.
  Lemma exp_c2 c t : is_derive (fun t => c * a t * exp (c * rho t)) t ((c * a' t + c * c * (a t * a t)) * exp (c * rho t)).
  Proof using H1 H2. auto_derive; [repeat split; (apply Er || apply Ea)|]. rewrite Dr, Da. ring. Qed.
  Lemma exp_c3 c t : ex_derive (fun t => (c * a' t + c * c * (a t * a t)) * exp (c * rho t)) t.
  Proof using H1 H2 H3. auto_derive. repeat split; (apply Er || apply Ea || apply H3). Qed.
  Lemma exp_rules t : exp (1 * rho t) = exp (rho t) /\ exp (-1 * rho t) = / exp (rho t) /\ exp (2 * rho t) = exp (rho t) ^ 2 /\ exp (-2 * rho t) = / exp (rho t) ^ 2 /\
    exp (rho t - rho T) = exp (rho t) / P /\ exp (2 * (rho T - rho t)) = (P / exp (rho t)) ^ 2.
  Proof using.
    assert (N : forall x, exp (- x) = / exp x) by (intros; apply exp_Ropp).
    repeat split; [f_equal; ring|rewrite <- N; f_equal; ring|replace (2 * rho t) with (rho t + rho t) by ring; rewrite exp_plus; ring| | |].
    - replace (-2 * rho t) with (- (rho t + rho t)) by ring. rewrite N, exp_plus. f_equal. ring.
    - unfold Rminus. rewrite exp_plus, N. reflexivity.
    - replace (2 * (rho T - rho t)) with ((rho T - rho t) + (rho T - rho t)) by ring. rewrite exp_plus. unfold Rminus. rewrite exp_plus, N. fold P. unfold Rdiv. ring.
  Qed.
  Lemma moment_rates x y t : 0 <= t < T ->
    (x - end_weight x y) * (1 * a t * exp (1 * rho t)) + end_weight x y * (-1 * a t * exp (-1 * rho t)) = slope t * bmean x y t + shift y t /\
    kap / (1 - P ^ 2) * (0 - 2 * a t * exp (2 * rho t) - P ^ 2 * (-2 * a t * exp (-2 * rho t))) = 2 * slope t * bvar t + -2 * a t * kap.
  Proof using H1 H2 H3 HT Hpos r0.
    intros Ht. pose proof (left_pos t Ht) as HL. pose proof P_ne as HP. unfold slope, shift, bmean, bvar, pull, pull_num, left_var, end_weight in *.
    destruct (exp_rules t) as (E1 & E2 & E3 & E4 & E5 & E6). rewrite E6 in *. rewrite E1, E2, E3, E4, E5. clear E1 E2 E3 E4 E5 E6.
    assert (Hp : 0 < exp (rho t)) by apply exp_pos. assert (HPp : 0 < P) by apply exp_pos. set (p := exp (rho t)) in *.
    assert (Hk : kap <> 0) by (intros E; rewrite E, Rmult_0_l in HL; lra).
    assert (Hd : p ^ 2 - P ^ 2 <> 0). { intros E. replace (1 - (P / p) ^ 2) with ((p ^ 2 - P ^ 2) / p ^ 2) in HL by (field; lra). rewrite E in HL. unfold Rdiv in HL. rewrite Rmult_0_l, Rmult_0_r in HL. lra. }
    split; field; repeat split; try assumption; try lra.
  Qed.
  Lemma moments_taylor : exists M, 0 <= M /\ (forall x y s t, 0 <= s <= T -> 0 <= t < T -> Rabs (bmean x y s - bmean x y t - (s - t) * (slope t * bmean x y t + shift y t)) <= M * (Rabs (x - end_weight x y) + Rabs (end_weight x y)) * (s - t) ^ 2) /\
    (forall s t, 0 <= s <= T -> 0 <= t < T -> Rabs (bvar s - bvar t - (s - t) * (2 * slope t * bvar t + -2 * a t * kap)) <= M * (s - t) ^ 2).
  Proof using H1 H2 H3 HT Hpos r0.
    assert (HT' : 0 <= T) by lra.
    destruct (taylor2 _ _ _ T HT' (exp_c 1) (exp_c2 1) (exp_c3 1)) as (M1 & N1 & T1). destruct (taylor2 _ _ _ T HT' (exp_c (-1)) (exp_c2 (-1)) (exp_c3 (-1))) as (M2 & N2 & T2).
    destruct (taylor2 _ _ _ T HT' (exp_c 2) (exp_c2 2) (exp_c3 2)) as (M3 & N3 & T3). destruct (taylor2 _ _ _ T HT' (exp_c (-2)) (exp_c2 (-2)) (exp_c3 (-2))) as (M4 & N4 & T4).
    set (k := Rabs (kap / (1 - P ^ 2))). assert (K0 : 0 <= k) by apply Rabs_pos.
    assert (NP : 0 <= P ^ 2) by apply pow2_ge_0. assert (N5 : 0 <= k * (M3 + P ^ 2 * M4)) by (apply Rmult_le_pos; [exact K0|apply Rplus_le_le_0_compat; [exact N3|now apply Rmult_le_pos]]).
    exists (M1 + M2 + k * (M3 + P ^ 2 * M4)). split; [lra|]. split.
    - intros x y s t Hs Ht. rewrite <- (proj1 (moment_rates x y t Ht)). unfold bmean. set (u := x - end_weight x y). set (v := end_weight x y).
      replace (u * exp (1 * rho s) + v * exp (-1 * rho s) - (u * exp (1 * rho t) + v * exp (-1 * rho t)) - (s - t) * (u * (1 * a t * exp (1 * rho t)) + v * (-1 * a t * exp (-1 * rho t))))
        with (u * (exp (1 * rho s) - exp (1 * rho t) - (s - t) * (1 * a t * exp (1 * rho t))) + v * (exp (-1 * rho s) - exp (-1 * rho t) - (s - t) * (-1 * a t * exp (-1 * rho t)))) by ring.
      eapply Rle_trans; [apply Rabs_triang|]. rewrite !Rabs_mult. pose proof (T1 s t Hs ltac:(lra)) as B1. pose proof (T2 s t Hs ltac:(lra)) as B2. pose proof (pow2_ge_0 (s - t)) as S2.
      assert (C1 : Rabs u * Rabs (exp (1 * rho s) - exp (1 * rho t) - (s - t) * (1 * a t * exp (1 * rho t))) <= Rabs u * ((M1 + M2 + k * (M3 + P ^ 2 * M4)) * (s - t) ^ 2)).
      { apply Rmult_le_compat_l; [apply Rabs_pos|]. eapply Rle_trans; [exact B1|]. apply Rmult_le_compat_r; lra. }
      assert (C2 : Rabs v * Rabs (exp (-1 * rho s) - exp (-1 * rho t) - (s - t) * (-1 * a t * exp (-1 * rho t))) <= Rabs v * ((M1 + M2 + k * (M3 + P ^ 2 * M4)) * (s - t) ^ 2)).
      { apply Rmult_le_compat_l; [apply Rabs_pos|]. eapply Rle_trans; [exact B2|]. apply Rmult_le_compat_r; lra. }
      lra.
    - intros s t Hs Ht. rewrite <- (proj2 (moment_rates 0 0 t Ht)). unfold bvar.
      replace (kap / (1 - P ^ 2) * (1 + P ^ 2 - exp (2 * rho s) - P ^ 2 * exp (-2 * rho s)) - kap / (1 - P ^ 2) * (1 + P ^ 2 - exp (2 * rho t) - P ^ 2 * exp (-2 * rho t)) -
         (s - t) * (kap / (1 - P ^ 2) * (0 - 2 * a t * exp (2 * rho t) - P ^ 2 * (-2 * a t * exp (-2 * rho t)))))
        with (- (kap / (1 - P ^ 2)) * ((exp (2 * rho s) - exp (2 * rho t) - (s - t) * (2 * a t * exp (2 * rho t))) + P ^ 2 * (exp (-2 * rho s) - exp (-2 * rho t) - (s - t) * (-2 * a t * exp (-2 * rho t))))) by ring.
      rewrite Rabs_mult, Rabs_Ropp. fold k. pose proof (T3 s t Hs ltac:(lra)) as B3. pose proof (T4 s t Hs ltac:(lra)) as B4. pose proof (pow2_ge_0 (s - t)) as S2.
      apply Rle_trans with (k * ((M3 + P ^ 2 * M4) * (s - t) ^ 2)).
      + apply Rmult_le_compat_l; [exact K0|]. eapply Rle_trans; [apply Rabs_triang|]. rewrite Rabs_mult, (Rabs_pos_eq (P ^ 2)) by exact NP.
        assert (P ^ 2 * Rabs (exp (-2 * rho s) - exp (-2 * rho t) - (s - t) * (-2 * a t * exp (-2 * rho t))) <= P ^ 2 * (M4 * (s - t) ^ 2)) by (apply Rmult_le_compat_l; assumption). lra.
      + assert (0 <= (M1 + M2) * (s - t) ^ 2) by (apply Rmult_le_pos; lra). lra.
  Qed.
End core.

(** ** Invariants of the chain *)
Section invariant.
  Context (f : list R -> R -> list R) (g : R -> R) (N : dist (list R)) (h T : R) (Inv : R -> dist (list R) -> Prop).
  Hypothesis Hstep : forall t dt D, 0 <= t -> 0 < dt <= h -> t + dt <= T -> Inv t D -> Inv (t + dt) (step_law f g N dt t D).
  Lemma inv_sub t ddt : 0 < ddt <= h -> forall k i D, 0 <= t -> t + INR (i + k) * ddt <= T -> Inv (t + INR i * ddt) D ->
    Inv (t + INR (i + k) * ddt) (sub_law f g N ddt (map (fun i => t + INR i * ddt) (seq i k)) D).
  Proof using Hstep.
    intros Hd k. induction k as [|k IH]; intros i D Ht HT HD; cbn [seq map sub_law]; [now rewrite Nat.add_0_r|].
    replace (i + S k)%nat with (S i + k)%nat in * by lia.
    assert (A1 : t + INR (S i) * ddt <= T) by (eapply Rle_trans; [|exact HT]; apply Rplus_le_compat_l, Rmult_le_compat_r; [lra|]; apply le_INR; lia).
    rewrite S_INR in A1. assert (H0 : 0 <= INR i * ddt) by (apply Rmult_le_pos; [apply pos_INR|lra]).
    apply IH; try assumption. rewrite S_INR. replace (t + (INR i + 1) * ddt) with (t + INR i * ddt + ddt) by ring. apply Hstep; try assumption; lra.
  Qed.
  Lemma inv_chain n ts : (1 <= n)%nat -> forall t D, 0 <= t -> grid h n (t :: ts) -> last (t :: ts) 0 <= T -> Inv t D -> Inv (last (t :: ts) 0) (chain_law f g N n (t :: ts) D).
  Proof using Hstep.
    intros Hn. induction ts as [|t' ts IH]; intros t D Ht HG HT HD; [exact HD|].
    change (last (t :: t' :: ts) 0) with (last (t' :: ts) 0) in *. destruct HG as (Hlt & Hh & HG).
    change (chain_law f g N n (t :: t' :: ts) D) with (chain_law f g N n (t' :: ts) (sub_law f g N (Rabs (t' - t) / INR n) (Sde.linspace t (t' - Rabs (t' - t) / INR n) n) D)).
    assert (Hn' : 0 < INR n) by (apply lt_0_INR; lia). pose proof (grid_last h n ts t' HG) as Hl.
    apply IH; try assumption; [lra|]. rewrite (linspace_left t t' n Hn) by lra. rewrite Rabs_pos_eq by lra.
    assert (Hd : 0 < (t' - t) / INR n) by (apply Rdiv_lt_0_compat; lra).
    assert (E : t + INR (0 + n) * ((t' - t) / INR n) = t') by (cbn [Nat.add]; field; lra).
    pose proof (inv_sub t ((t' - t) / INR n) (conj Hd Hh) n 0 D Ht) as H. rewrite E in H.
    apply H; [lra|]. cbn [INR]. now rewrite Rmult_0_l, Rplus_0_r.
  Qed.
End invariant.

(** ** The path at one index *)
Lemma path_entry f g n (M : dist (list (list R))) (F : list R -> R) : is_prob M -> forall ts j x, (j < length ts)%nat ->
  E (dseq (repeat M (length ts - 1))) (fun rndss => F (nth j (Sim.em_path f g n x ts rndss) [])) = E (dseq (repeat M (length (firstn (S j) ts) - 1))) (fun rndss => F (Sim.em_terminal f g n x (firstn (S j) ts) rndss)).
Proof.
  intros HM. assert (HP : forall m, is_prob (dseq (repeat M m))) by (intros m; apply is_prob_dseq, Forall_forall; intros y Hy; apply repeat_spec in Hy; now subst).
  induction ts as [|t ts IH]; intros j x Hj; [cbn in Hj; lia|].
  destruct j as [|j]; [cbn [firstn length Nat.sub repeat dseq]; rewrite E_dret; cbn [nth Sim.em_path]; exact (E_const (F x) _ (HP _))|].
  destruct ts as [|t' ts]; [cbn in Hj; lia|].
  replace (length (t :: t' :: ts) - 1)%nat with (S (length (t' :: ts) - 1)) by (cbn [length]; lia).
  change (firstn (S (S j)) (t :: t' :: ts)) with (t :: firstn (S j) (t' :: ts)).
  replace (length (t :: firstn (S j) (t' :: ts)) - 1)%nat with (S (length (firstn (S j) (t' :: ts)) - 1)) by (cbn [length firstn]; lia).
  cbn [repeat]. rewrite !E_dseq_cons. apply E_ext'. intros r.
  set (x' := Sim.em_step f g n x t t' r). transitivity (E (dseq (repeat M (length (t' :: ts) - 1))) (fun rndss => F (nth j (Sim.em_path f g n x' (t' :: ts) rndss) []))); [reflexivity|].
  rewrite IH by (cbn [length] in *; lia). reflexivity.
Qed.

(** ** The linear SDEs with a bridge *)
Lemma sde_core sde T : SdeProofs.sde_defined sde -> SdeProofs.bridgeable sde -> 0 < T -> (forall t, 0 <= t <= T -> 0 < Sde.dispersion sde t ^ 2) ->
  exists rho a' kap, (forall t, is_derive rho t (Sde.drift_coef sde t)) /\ (forall t, is_derive (Sde.drift_coef sde) t (a' t)) /\ (forall t, ex_derive a' t) /\ rho 0 = 0 /\
    (forall t, 0 <= t <= T -> Sde.dispersion sde t ^ 2 = -2 * Sde.drift_coef sde t * kap) /\
    (forall t, fst (Sde.FQ sde t 0) = exp (rho t)) /\ (forall t, snd (Sde.FQ sde t 0) = kap * (1 - exp (2 * rho t))) /\
    (forall t, fst (Sde.FQ sde T t) = exp (rho T - rho t)) /\ (forall t, snd (Sde.FQ sde T t) = left_var rho kap T t) /\ (forall t, 0 <= t < T -> SdeProofs.noisy_between sde t T).
Proof.
  intros Hd Hb HT Hn. destruct (sde_exponents sde Hd) as (rho & a' & kap & H1 & H2 & H3 & HF & HQ & Hg). exists rho, a', kap.
  assert (FT : forall t, fst (Sde.FQ sde T t) = exp (rho T - rho t)).
  { intros t. destruct (SdeProofs.FQ_compose sde 0 t T Hd) as [C1 _]. rewrite !HF in C1. unfold Rminus. rewrite exp_plus, exp_Ropp. rewrite C1. pose proof (exp_pos (rho t)). field. lra. }
  split; [exact H1|]. split; [exact H2|]. split; [exact H3|]. split; [|split; [|split; [exact HF|split; [exact HQ|split; [exact FT|split]]]]].
  - apply exp_inv. rewrite <- HF, (SdeProofs.FQ_id sde 0 Hd), exp_0. reflexivity.
  - intros t Ht. apply Hg. specialize (Hn t Ht). destruct sde; try exact I. cbn [SdeProofs.nonneg_noise]. cbn [Sde.dispersion] in Hn.
    destruct (Rle_lt_dec 0 (Sde.beta beta_min beta_max t0 T0 t)) as [H|H]; [exact H|]. rewrite sqrt_neg_0 in Hn by lra. lra.
  - intros t. destruct (SdeProofs.FQ_compose sde 0 t T Hd) as [_ C2]. rewrite !HQ, FT in C2. unfold left_var.
    assert (X1 : exp (2 * rho T) = exp (rho T - rho t) * exp (rho T - rho t) * exp (2 * rho t)) by (rewrite <- !exp_plus; f_equal; ring).
    assert (X2 : exp (2 * (rho T - rho t)) = exp (rho T - rho t) * exp (rho T - rho t)) by (rewrite <- exp_plus; f_equal; ring). rewrite X1 in C2. rewrite X2. lra.
  - intros t Ht. pose proof (Hn t ltac:(lra)) as N1. pose proof (Hn T ltac:(lra)) as N2. destruct sde as [a b|m M t0 T0|a b c z|]; try easy; cbn [SdeProofs.noisy_between Sde.dispersion] in *; [intros ->; lra|].
    assert (Z : forall x, 0 < sqrt x ^ 2 -> 0 < x) by (intros x Hx; destruct (Rlt_dec 0 x) as [H|H]; [exact H|]; rewrite sqrt_neg_0 in Hx by lra; lra).
    apply Z in N1, N2. repeat split; lra.
Qed.
(** mean and variance of the bridge from [x] at 0 to [y] at [T] *)
Definition doob_mean (sde : Sde.linear_sde) (T : R) (x y t : R) : R :=
  fst (Sde.FQ sde t 0) * x + fst (Sde.FQ sde T t) * snd (Sde.FQ sde t 0) / snd (Sde.FQ sde T 0) * (y - fst (Sde.FQ sde T 0) * x).
Definition doob_var (sde : Sde.linear_sde) (T t : R) : R := snd (Sde.FQ sde t 0) * snd (Sde.FQ sde T t) / snd (Sde.FQ sde T 0).
(** simulators.py:126-160 with its keys *)
Definition doob_prog (normal : Sde.normal_sampler) (k : key) (sde : Sde.linear_sde) (x0 xT ts : list R) (n : nat) (replace : bool) : prog (list (list R)) :=
  rndss <- Sim.em_draws normal k 0 (length ts - 1) n (length x0) ;; Ret (Sim.doob_bridge_simulator sde x0 xT ts n replace rndss).

Lemma last_firstn (ts : list R) : forall j, (j < length ts)%nat -> last (firstn (S j) ts) 0 = nth j ts 0.
Proof.
  induction ts as [|t ts IH]; intros j Hj; [cbn in Hj; lia|]. destruct j as [|j]; [reflexivity|]. destruct ts as [|t' ts]; [cbn in Hj; lia|].
  change (last (t :: firstn (S j) (t' :: ts)) 0 = nth j (t' :: ts) 0). rewrite <- IH by (cbn [length] in *; lia). reflexivity.
Qed.
Lemma grid_firstn h n ts : forall k, grid h n ts -> grid h n (firstn k ts).
Proof.
  induction ts as [|t ts IH]; intros k H; [now rewrite firstn_nil|]. destruct k as [|k]; [exact I|]. destruct ts as [|t' ts]; [destruct k; exact I|]. destruct H as (G1 & G2 & G3).
  destruct k as [|k]; [exact I|]. change (firstn (S (S k)) (t :: t' :: ts)) with (t :: t' :: firstn k ts). split; [exact G1|]. split; [exact G2|]. exact (IH (S k) G3).
Qed.
Lemma dret_moments d x : length x = d -> has_moments d (dret x) (vec_of x) (fun _ _ => 0).
Proof. intros Hx. split; [apply is_prob_dret|]. split; [intros y [<-|[]]; exact Hx|]. split; [intros; now rewrite E_dret|intros; rewrite E_dret; unfold vec_of; ring]. Qed.
Lemma doob_law normal k sde x0 xT ts n replace N d j F : is_prob N -> length x0 = d -> (forall k, denotes (normal k n d) (dseq (repeat N n))) -> (j < length ts)%nat -> replace = false \/ (j < length ts - 1)%nat ->
  law (doob_prog normal k sde x0 xT ts n replace) (fun path => F (nth j path [])) = E (chain_law (Sim.bridge_fn sde xT (last ts 0)) (Sde.dispersion sde) N n (firstn (S j) ts) (dret x0)) F.
Proof.
  intros HN Hx Hden Hj Hr. unfold doob_prog. rewrite law_bind, Hx, (em_draws_law normal k n d N Hden). rewrite E_chain_law, E_dret.
  assert (HM : is_prob (dseq (repeat N n))) by (apply is_prob_dseq, Forall_forall; intros y Hy; apply repeat_spec in Hy; now subst).
  rewrite <- (path_entry _ _ n (dseq (repeat N n)) F HM ts j x0 Hj). apply E_ext. intros rndss Hin. cbn [law]. apply dseq_length in Hin. rewrite repeat_length in Hin.
  destruct Hr as [ ->|Hr]; [reflexivity|]. destruct (SimMore.doob_ends sde x0 xT ts n replace rndss ltac:(lia) Hin) as (_ & _ & _ & H). now rewrite (H j Hr).
Qed.

Section sde.
  Context (sde : Sde.linear_sde) (T : R) (d : nat) (x0 xT : list R).
  Hypothesis (Hd : SdeProofs.sde_defined sde) (Hb : SdeProofs.bridgeable sde) (HT : 0 < T) (Hn : forall t, 0 <= t <= T -> 0 < Sde.dispersion sde t ^ 2).
  Hypothesis (L0 : length x0 = d) (LT : length xT = d).
  Context (rho a' : R -> R) (kap : R).
  Let a := Sde.drift_coef sde.
  Let g := Sde.dispersion sde.
  Hypothesis (H1 : forall t, is_derive rho t (a t)) (H2 : forall t, is_derive a t (a' t)) (H3 : forall t, ex_derive a' t) (r0 : rho 0 = 0).
  Hypothesis Hg : forall t, 0 <= t <= T -> g t ^ 2 = -2 * a t * kap.
  Hypothesis (HF : forall t, fst (Sde.FQ sde t 0) = exp (rho t)) (HQ : forall t, snd (Sde.FQ sde t 0) = kap * (1 - exp (2 * rho t))).
  Hypothesis (FT : forall t, fst (Sde.FQ sde T t) = exp (rho T - rho t)) (QT : forall t, snd (Sde.FQ sde T t) = left_var rho kap T t).
  Hypothesis NB : forall t, 0 <= t < T -> SdeProofs.noisy_between sde t T.
  Lemma Hp t : 0 <= t <= T -> 0 < -2 * a t * kap.
  Proof using Hn Hg. intros Ht. rewrite <- (Hg t Ht). now apply Hn. Qed.
  Let sl := slope rho a kap T.
  Let sh := shift rho a kap T.
  Definition bdrift (x : vec) (t : R) : vec := fun i => sl t * x i + sh (nth i xT 0) t.
  Lemma bridge_is t : 0 <= t < T -> drift_is d (Sim.bridge_fn sde xT T) bdrift t.
  Proof using Hd Hb HT Hn LT H1 H2 H3 Hg FT QT NB.
    clear L0. intros Ht x Hx. destruct (SimMore.doob_regular sde xT T t x Hd Hb ltac:(lra) (NB t Ht) ltac:(congruence)) as (R1 & R2 & R3). split; [congruence|]. intros i Hi. rewrite R3 by lia.
    unfold bdrift, sl, sh, slope, shift, pull, pull_num, vec_of. fold a g. replace (g t * g t) with (g t ^ 2) by ring. rewrite Hg, FT, QT by lra. rewrite QT in R1.
    replace (exp (2 * (rho T - rho t))) with (exp (rho T - rho t) * exp (rho T - rho t)) by (rewrite <- exp_plus; f_equal; ring).
    replace (exp (rho t - rho T)) with (/ exp (rho T - rho t)) by (rewrite <- exp_Ropp; f_equal; ring). pose proof (exp_pos (rho T - rho t)). field. split; lra.
  Qed.
  Lemma mean_is x y t : 0 <= t <= T -> doob_mean sde T x y t = bmean rho T x y t.
  Proof using HT Hn H1 H2 H3 r0 Hg HF HQ FT.
    intros Ht. unfold doob_mean, bmean, end_weight. rewrite HF, FT, HQ, (HQ T), (HF T). destruct (exp_rules rho T t) as (E1 & E2 & E3 & E4 & E5 & E6). rewrite E1, E2, E3.
    replace (exp (2 * rho T)) with (exp (rho T) ^ 2) by (replace (2 * rho T) with (rho T + rho T) by ring; rewrite exp_plus; ring).
    replace (exp (rho T - rho t)) with (exp (rho T) / exp (rho t)) by (unfold Rminus; rewrite exp_plus, exp_Ropp; reflexivity).
    pose proof (P_ne rho a a' kap T H1 H2 H3 HT r0 Hp) as NE. cbv zeta in NE. pose proof (exp_pos (rho t)). pose proof (exp_pos (rho T)).
    assert (Hk : kap <> 0) by (intros E; pose proof (Hp 0 ltac:(lra)) as X; rewrite E, Rmult_0_r in X; lra). field. repeat split; try assumption; lra.
  Qed.
  Lemma var_is t : 0 <= t <= T -> doob_var sde T t = bvar rho kap T t.
  Proof using HT Hn H1 H2 H3 r0 Hg HQ QT.
    intros Ht. unfold doob_var, bvar. rewrite QT, HQ, (HQ T). unfold left_var. destruct (exp_rules rho T t) as (E1 & E2 & E3 & E4 & E5 & E6). rewrite E3, E4, E6.
    replace (exp (2 * rho T)) with (exp (rho T) ^ 2) by (replace (2 * rho T) with (rho T + rho T) by ring; rewrite exp_plus; ring).
    pose proof (P_ne rho a a' kap T H1 H2 H3 HT r0 Hp) as NE. cbv zeta in NE. pose proof (exp_pos (rho t)). pose proof (exp_pos (rho T)).
    assert (Hk : kap <> 0) by (intros E; pose proof (Hp 0 ltac:(lra)) as X; rewrite E, Rmult_0_r in X; lra). field. repeat split; try assumption; lra.
  Qed.
  Let m (t : R) : vec := fun i => bmean rho T (nth i x0 0) (nth i xT 0) t.
  Let P (t : R) : mat := mscale (bvar rho kap T t) mid.
  Lemma slope_affine t : affine_at d bdrift t (mscale (sl t) mid).
  Proof using. intros x x' i Hi. rewrite mvec_scale_l. rewrite (mvec_id d (vsub x x') i Hi). unfold bdrift, vsub, vscale. ring. Qed.
  Lemma bridge_flow T1 : 0 <= T1 < T -> exists Lam C V, 0 <= Lam /\ 0 <= C /\ 0 <= V /\ forall t, 0 <= t < T1 -> flow_at d bdrift g m P Lam C V T1 t.
  Proof using HT Hn H1 H2 H3 r0 Hg.
    intros HT1. destruct (compact_bound_on sl T1 ltac:(lra)) as (Lam & HL & BL).
    { intros t Ht. unfold sl, slope, pull. assert (NL : left_var rho kap T t <> 0) by (apply Rgt_not_eq, (left_pos rho a a' kap T H1 H2 H3 HT Hp); lra).
      apply (ex_derive_minus (V := R_NormedModule)); [exact (Ea a a' H2 t)|]. apply ex_derive_div; [|eexists; apply (left_derive rho a kap T H1)|exact NL].
      unfold pull_num. auto_derive. repeat split; [apply (Ea a a' H2)|apply (Er rho a H1)]. }
    destruct (moments_taylor rho a a' kap T H1 H2 H3 HT r0 Hp) as (M & HM & TM & TV).
    destruct (compact_bound (bvar rho kap T) T (Rlt_le _ _ HT)) as (V & HV & BV). { intros t. unfold bvar. auto_derive. repeat split; apply (Er rho a H1). }
    destruct (vector_bound d (fun i => Rabs (nth i x0 0 - end_weight rho T (nth i x0 0) (nth i xT 0)) + Rabs (end_weight rho T (nth i x0 0) (nth i xT 0)))) as (B & HB & BB).
    exists Lam, (M * B + M), V. repeat (split; [first [assumption|apply Rplus_le_le_0_compat; [now apply Rmult_le_pos|assumption]]|]).
    intros t Ht. exists (mscale (sl t) mid). split; [apply slope_affine|]. split; [|split].
    - intros i Hi. unfold mscale. rewrite (Rsum_map_ext _ (fun k => Rabs (sl t) * Rabs (mid i k))) by (intros; apply Rabs_mult). rewrite Rsum_map_mult_l, row_mid by exact Hi. rewrite Rmult_1_r. apply BL. lra.
    - intros i j Hi Hj. unfold P, mscale. rewrite Rabs_mult. assert (Rabs (mid i j) <= 1) by (unfold mid; destruct Nat.eqb; [rewrite Rabs_R1|rewrite Rabs_R0]; lra). pose proof (BV t ltac:(lra)). pose proof (Rabs_pos (mid i j)). pose proof (Rabs_pos (bvar rho kap T t)).
      apply Rle_trans with (V * 1); [apply Rmult_le_compat; assumption|lra].
    - intros s Hs. pose proof (pow2_ge_0 (s - t)) as S2. split.
      + intros i Hi. unfold bdrift. unfold m. eapply Rle_trans; [apply TM; lra|].
        specialize (BB i Hi). cbv beta in BB. rewrite Rabs_pos_eq in BB by (apply Rplus_le_le_0_compat; apply Rabs_pos).
        apply Rmult_le_compat_r; [exact S2|]. apply Rle_trans with (M * B); [now apply Rmult_le_compat_l|lra].
      + intros i j Hi Hj. change (mtr (mscale (sl t) mid)) with (mscale (sl t) (mtr mid)).
        rewrite mmul_scale_l, mmul_scale_r, mmul_id_l by exact Hi. rewrite (mmul_proper d _ _ (reflexivity _) (mtr mid) mid (mtr_mid d) i j Hi Hj), mmul_id_r by exact Hj.
        unfold P, mscale. rewrite (Hg t) by lra.
        replace (bvar rho kap T s * mid i j - bvar rho kap T t * mid i j - (s - t) * (sl t * (bvar rho kap T t * mid i j) + sl t * (bvar rho kap T t * mid i j) + -2 * a t * kap * mid i j))
          with ((bvar rho kap T s - bvar rho kap T t - (s - t) * (2 * sl t * bvar rho kap T t + -2 * a t * kap)) * mid i j) by ring.
        rewrite Rabs_mult. assert (Rabs (mid i j) <= 1) by (unfold mid; destruct Nat.eqb; [rewrite Rabs_R1|rewrite Rabs_R0]; lra).
        apply Rle_trans with (M * (s - t) ^ 2 * 1); [apply Rmult_le_compat; [apply Rabs_pos|apply Rabs_pos|apply TV; lra|assumption]|]. rewrite Rmult_1_r. apply Rmult_le_compat_r; [exact S2|]. assert (0 <= M * B) by now apply Rmult_le_pos. lra.
  Qed.
  Lemma start_moments : within d 0 (vec_of x0) (m 0) (fun _ _ => 0) (P 0).
  Proof using r0.
    split; [intros i Hi; unfold m, vec_of, bmean; rewrite r0, !Rmult_0_r, exp_0|intros i j Hi Hj; unfold P, mscale, bvar; rewrite r0, !Rmult_0_r, exp_0]; (match goal with |- Rabs ?x <= _ => replace x with 0 by (unfold Rdiv; ring) end); rewrite Rabs_R0; lra.
  Qed.
  (** before the end, the moments are those of the bridge up to a constant times the step *)
  Theorem doob_interior T1 : 0 <= T1 < T -> exists K, 0 <= K /\ forall N normal k n ts j h replace,
    has_moments d N (fun _ => 0) mid -> (forall k, denotes (normal k n d) (dseq (repeat N n))) -> (1 <= n)%nat -> hd 1 ts = 0 -> last ts 0 = T -> refined h n ts -> 0 <= h ->
    (j < length ts)%nat -> nth j ts 0 <= T1 ->
    let L F := law (doob_prog normal k sde x0 xT ts n replace) (fun path => F (nth j path [])) in
    within d (K * h) (mean_of L) (fun i => doob_mean sde T (nth i x0 0) (nth i xT 0) (nth j ts 0)) (cov_of L) (fun i j' => doob_var sde T (nth j ts 0) * mid i j').
  Proof using Hd Hb HT Hn L0 LT H1 H2 H3 r0 Hg HF HQ FT QT NB.
    intros HT1. destruct (bridge_flow T1 HT1) as (Lam & C & V & HL & HC & HV & Hfl).
    set (C' := C + Lam ^ 2 * V). assert (HC' : 0 <= C') by (unfold C'; apply Rplus_le_le_0_compat; [exact HC|apply Rmult_le_pos; [apply pow2_ge_0|exact HV]]).
    set (X := exp (2 * Lam * T)). assert (HX : 1 <= X) by (apply SdeProofs.exp_ge1; apply Rmult_le_pos; lra). assert (HCT : 0 <= C' * T) by (apply Rmult_le_pos; lra).
    exists (X * (C' * T)). split; [apply Rmult_le_pos; lra|]. intros N normal k n ts j h replace HN Hden Hn1 Hhd Hlast Href Hh Hj HjT L.
    pose proof (refined_grid h n ts Href) as HG. pose proof (grid_firstn h n ts (S j) HG) as HG'. pose proof (last_firstn ts j Hj) as HLj.
    assert (Hr : replace = false \/ (j < length ts - 1)%nat).
    { right. destruct (Nat.eq_dec j (length ts - 1)) as [E|E]; [|lia]. exfalso. pose proof (last_firstn ts j Hj) as Q. rewrite firstn_all2 in Q by lia. rewrite Hlast in Q. lra. }
    assert (LE : forall F, L F = E (chain_law (Sim.bridge_fn sde xT T) g N n (firstn (S j) ts) (dret x0)) F).
    { intros F. unfold L. rewrite (doob_law normal k sde x0 xT ts n replace N d j F (proj1 HN) L0 Hden Hj Hr). now rewrite Hlast. }
    destruct ts as [|t ts]; [cbn in Hj; lia|]. cbn [hd] in Hhd. subst t. change (firstn (S j) (0 :: ts)) with (0 :: firstn j ts) in *. set (tj := nth j (0 :: ts) 0) in *.
    assert (Hcl : close d m P Lam C V h 0 0 0 0 (dret x0)).
    { exists (vec_of x0), (fun _ _ => 0). split; [now apply dret_moments|]. unfold bound. rewrite Rminus_eq_0, !Rmult_0_r, exp_0, !Rmult_1_l, Rplus_0_r. exact start_moments. }
    assert (Ht0 : 0 <= tj) by (rewrite <- HLj; now apply (grid_last h n)).
    pose proof (close_chain d (Sim.bridge_fn sde xT T) bdrift g N m P Lam C V h 0 T1 0 0 HL HC HV (Rle_refl 0) (Rle_refl 0) HN (fun t Ht => bridge_is t ltac:(lra)) Hfl n (firstn j ts) Hn1 0 (dret x0) (Rle_refl 0) HG' ltac:(rewrite HLj; exact HjT) Hcl) as Hc.
    rewrite HLj in Hc. destruct Hc as (mh' & Sh' & HM & B1 & B2). destruct (moments_of d _ mh' Sh' L HM LE) as [E1 E2].
    assert (Hbd : forall La c, 0 <= La <= 2 * Lam -> 0 <= c <= C' -> bound h 0 La c 0 tj <= X * (C' * T) * h).
    { intros La c HLa Hc. unfold bound. rewrite Rminus_0_r, Rplus_0_l, (Rmult_assoc X).
      apply Rmult_le_compat; [left; apply exp_pos|apply Rmult_le_pos; [apply Rmult_le_pos|]; lra| |].
      - assert (Hle : La * tj <= 2 * Lam * T) by (apply Rmult_le_compat; lra). unfold X. destruct Hle as [Hlt| ->]; [left; now apply exp_increasing|apply Rle_refl].
      - replace (c * h * tj) with (c * (tj * h)) by ring. replace (C' * T * h) with (C' * (T * h)) by ring. apply Rmult_le_compat; [lra|apply Rmult_le_pos; lra|lra|]. apply Rmult_le_compat_r; lra. }
    assert (HCC : C <= C') by (unfold C'; assert (0 <= Lam ^ 2 * V) by (apply Rmult_le_pos; [apply pow2_ge_0|exact HV]); lra).
    split.
    - intros i Hi. rewrite E1 by exact Hi. rewrite mean_is by lra. eapply Rle_trans; [apply (B1 i Hi)|]. apply Hbd; lra.
    - intros i i' Hi Hi'. rewrite E2 by assumption. rewrite var_is by lra. eapply Rle_trans; [apply (B2 i i' Hi Hi')|]. apply (Hbd (2 * Lam) C'); lra.
  Qed.

  (** ** The last point *)
  Lemma second_moment D mh Sh i c : has_moments d D mh Sh -> (i < d)%nat -> E D (fun x => (nth i x 0 - c) ^ 2) = Sh i i + (mh i - c) ^ 2.
  Proof using.
    intros (Dp & _ & Dm & Dc) Hi. rewrite (E_ext' _ _ (fun x => (nth i x 0 - mh i) * (nth i x 0 - mh i) + (2 * (mh i - c) * nth i x 0 + (c ^ 2 - mh i ^ 2)))) by (intros; ring).
    rewrite !E_plus, (Dc i i Hi Hi), E_mult_l, (Dm i Hi), (E_const _ _ Dp). ring.
  Qed.
  Lemma step_one N dt t D mh Sh : 0 <= t < T -> 0 < dt -> has_moments d N (fun _ => 0) mid -> has_moments d D mh Sh ->
    exists mh' Sh', has_moments d (step_law (Sim.bridge_fn sde xT T) g N dt t D) mh' Sh' /\
      forall i, (i < d)%nat -> mh' i = (1 - dt * pull rho a kap T t) * mh i + dt * pull rho a kap T t * (exp (rho t - rho T) * nth i xT 0) + dt * a t * mh i /\
        Sh' i i = (1 - dt * pull rho a kap T t + dt * a t) ^ 2 * Sh i i + dt * g t ^ 2.
  Proof using Hd Hb HT Hn LT H1 H2 H3 Hg FT QT NB.
    intros Ht Hdt HN HD. exists (next_mean bdrift dt t mh), (next_cov d (mscale (sl t) mid) (g t) dt Sh). split; [apply (step_moments d _ bdrift g N dt t _ D mh Sh); [lra|now apply bridge_is|apply slope_affine|exact HN|exact HD]|].
    intros i Hi. split; [unfold next_mean, bdrift, sl, sh, slope, shift; ring|]. unfold next_cov. change (mtr (mscale (sl t) mid)) with (mscale (sl t) (mtr mid)).
    assert (R1 : mmul d Sh (mscale (sl t) (mtr mid)) i i = sl t * Sh i i) by (rewrite mmul_scale_r; rewrite (mmul_proper d _ _ (reflexivity _) (mtr mid) mid (mtr_mid d) i i Hi Hi), mmul_id_r by exact Hi; reflexivity).
    rewrite !mmul_scale_l, !mmul_id_l, R1 by exact Hi. assert (M1 : mid i i = 1) by (unfold mid; now rewrite Nat.eqb_refl). rewrite M1. unfold sl, slope. ring.
  Qed.
  Theorem doob_end_point : exists K, 0 <= K /\ forall N normal k n ts h,
    has_moments d N (fun _ => 0) mid -> (forall k, denotes (normal k n d) (dseq (repeat N n))) -> (1 <= n)%nat -> hd 1 ts = 0 -> last ts 0 = T -> refined h n ts -> 0 <= h ->
    forall i, (i < d)%nat -> 0 < law (doob_prog normal k sde x0 xT ts n false) (fun path => (nth i (nth (length ts - 1) path []) 0 - nth i xT 0) ^ 2) <= K * h.
  Proof using Hd Hb HT Hn L0 LT H1 H2 H3 r0 Hg HF HQ FT QT NB.
    destruct (pull_bounds rho a a' kap T H1 H2 H3 HT Hp) as (K & HK & BK).
    destruct (compact_bound a T (Rlt_le _ _ HT) ltac:(intros t; eexists; apply H2)) as (Ma & HMa & Ba).
    assert (De : forall t, is_derive (fun u => exp (rho u - rho T)) t (a t * exp (rho t - rho T))).
    { intros t. auto_derive; [repeat split; apply (Er rho a H1)|]. rewrite (Dr rho a H1). unfold Rminus. ring. }
    destruct (compact_bound (fun u => exp (rho u - rho T)) T (Rlt_le _ _ HT) ltac:(intros t; eexists; apply De)) as (MY & HMY & BY).
    destruct (compact_bound (fun u => a u * exp (rho u - rho T)) T (Rlt_le _ _ HT)) as (ME & HME & BE). { intros t. auto_derive. repeat split; [apply (Ea a a' H2)|apply (Er rho a H1)]. }
    destruct (compact_bound (fun t => -2 * a t * kap) T (Rlt_le _ _ HT)) as (G & HG & BG). { intros t. auto_derive. apply (Ea a a' H2). }
    destruct (vector_bound d (vec_of x0)) as (Bx & HBx & BBx). destruct (vector_bound d (vec_of xT)) as (Bt & HBt & BBt).
    set (M0 := Bx + MY * Bt). assert (HM0 : 0 <= M0) by (unfold M0; apply Rplus_le_le_0_compat; [exact HBx|now apply Rmult_le_pos]).
    set (C := 2 * K + Ma). assert (HC : 0 <= C) by (unfold C; lra).
    set (EC := exp (C * T)). assert (HEC : 1 <= EC) by (apply SdeProofs.exp_ge1; apply Rmult_le_pos; lra).
    set (EC2 := exp (2 * C * T)). assert (HEC2 : 1 <= EC2) by (apply SdeProofs.exp_ge1; apply Rmult_le_pos; lra).
    set (K2 := K * (EC * M0 + M0) + ME * Bt + Ma * (EC * M0)).
    assert (HEM : 0 <= EC * M0) by (apply Rmult_le_pos; lra).
    assert (HK2 : 0 <= K2) by (unfold K2; repeat apply Rplus_le_le_0_compat; apply Rmult_le_pos; lra).
    set (K3 := (K + Ma) ^ 2 * T * (EC2 * G * T) + G). assert (HEG : 0 <= EC2 * G * T) by (apply Rmult_le_pos; [apply Rmult_le_pos|]; lra).
    assert (HK3 : 0 <= K3) by (unfold K3; apply Rplus_le_le_0_compat; [apply Rmult_le_pos; [apply Rmult_le_pos; [apply pow2_ge_0|lra]|exact HEG]|exact HG]).
    exists (K3 + K2 ^ 2 * T). split; [apply Rplus_le_le_0_compat; [exact HK3|apply Rmult_le_pos; [apply pow2_ge_0|lra]]|].
    intros N normal k n ts h HN Hden Hn1 Hhd Hlast Href Hh i Hi.
    set (Inv := fun (t : R) (D : dist (list R)) => exists mh Sh, has_moments d D mh Sh /\ (forall i, (i < d)%nat -> Rabs (mh i) <= exp (C * t) * M0 /\ 0 <= Sh i i <= exp (2 * C * t) * G * t) /\
      (t = T -> forall i, (i < d)%nat -> 0 < Sh i i + (mh i - nth i xT 0) ^ 2 <= (K3 + K2 ^ 2 * T) * h)).
    assert (Hstep : forall t dt D, 0 <= t -> 0 < dt <= h -> t + dt <= T -> Inv t D -> Inv (t + dt) (step_law (Sim.bridge_fn sde xT T) g N dt t D)).
    { intros t dt D Ht Hdt Hle (mh & Sh & HD & HB & _). destruct (step_one N dt t D mh Sh ltac:(lra) (proj1 Hdt) HN HD) as (mh' & Sh' & HD' & HE).
      exists mh', Sh'. split; [exact HD'|]. destruct (BK t dt Ht (proj1 Hdt) Hle) as [T1 T2]. set (th := dt * pull rho a kap T t) in *.
      assert (Ht' : 0 <= t <= T) by lra. pose proof (Ba t Ht') as A1. pose proof (BG t Ht') as G1. rewrite <- (Hg t Ht') in G1. assert (G2 : 0 < g t ^ 2) by now apply Hn. rewrite Rabs_pos_eq in G1 by lra.
      assert (AA : Rabs (dt * a t) <= Ma * dt) by (rewrite Rabs_mult, Rabs_pos_eq by lra; rewrite Rmult_comm; apply Rmult_le_compat_r; lra).
      assert (TH : Rabs (1 - th) + th <= 1 + 2 * K * dt) by (assert (0 <= K * dt) by (apply Rmult_le_pos; lra); destruct (Rle_dec th 1); [rewrite Rabs_pos_eq|rewrite Rabs_left1]; lra).
      assert (TH2 : Rabs (1 - th + dt * a t) <= 1 + C * dt) by (eapply Rle_trans; [apply Rabs_triang|]; unfold C; lra).
      assert (EX : 1 + C * dt <= exp (C * dt)) by apply exp_lower.
      assert (Ep : 1 <= exp (C * t)) by (apply SdeProofs.exp_ge1; now apply Rmult_le_pos). set (Z := exp (C * t) * M0) in *.
      assert (HZ : M0 <= Z) by (unfold Z; rewrite <- (Rmult_1_l M0) at 1; now apply Rmult_le_compat_r).
      assert (YB : forall i, (i < d)%nat -> Rabs (exp (rho t - rho T) * nth i xT 0) <= M0).
      { intros i' Hi'. rewrite Rabs_mult. apply Rle_trans with (MY * Bt); [apply Rmult_le_compat; try apply Rabs_pos; [now apply BY|exact (BBt i' Hi')]|unfold M0; lra]. }
      split.
      - intros i' Hi'. destruct (HE i' Hi') as [E1 E2]. destruct (HB i' Hi') as [B1 [B2 B3]]. specialize (YB i' Hi'). rewrite E1, E2. split; [|split].
        + apply Rle_trans with (Rabs (1 - th) * Z + th * Z + Ma * dt * Z).
          * eapply Rle_trans; [apply Rabs_triang|]. apply Rplus_le_compat; [eapply Rle_trans; [apply Rabs_triang|]; apply Rplus_le_compat|]; rewrite Rabs_mult.
            -- apply Rmult_le_compat_l; [apply Rabs_pos|exact B1].
            -- rewrite (Rabs_pos_eq th) by lra. apply Rmult_le_compat_l; lra.
            -- apply Rmult_le_compat; try apply Rabs_pos; assumption.
          * replace (exp (C * (t + dt)) * M0) with (exp (C * dt) * Z) by (unfold Z; rewrite <- Rmult_assoc, <- exp_plus; f_equal; f_equal; ring).
            replace (Rabs (1 - th) * Z + th * Z + Ma * dt * Z) with ((Rabs (1 - th) + th + Ma * dt) * Z) by ring. apply Rmult_le_compat_r; [lra|]. unfold C in *. lra.
        + apply Rplus_le_le_0_compat; apply Rmult_le_pos; try apply pow2_ge_0; lra.
        + assert (Q1 : (1 - th + dt * a t) ^ 2 <= exp (2 * C * dt)).
          { rewrite <- pow2_abs. replace (exp (2 * C * dt)) with (exp (C * dt) ^ 2) by (replace (2 * C * dt) with (C * dt + C * dt) by ring; rewrite exp_plus; ring). apply pow_incr. split; [apply Rabs_pos|lra]. }
          assert (Q2 : (1 - th + dt * a t) ^ 2 * Sh i' i' <= exp (2 * C * dt) * (exp (2 * C * t) * G * t)) by (apply Rmult_le_compat; [apply pow2_ge_0|exact B2|exact Q1|exact B3]).
          replace (exp (2 * C * dt) * (exp (2 * C * t) * G * t)) with (exp (2 * C * (t + dt)) * G * t) in Q2 by (replace (2 * C * (t + dt)) with (2 * C * dt + 2 * C * t) by ring; rewrite exp_plus; ring).
          assert (Q3 : 1 <= exp (2 * C * (t + dt))) by (apply SdeProofs.exp_ge1; apply Rmult_le_pos; lra). set (W := exp (2 * C * (t + dt))) in *.
          assert (Q4 : dt * g t ^ 2 <= W * G * dt) by (replace (W * G * dt) with (dt * (W * G)) by ring; apply Rmult_le_compat_l; [lra|]; apply Rle_trans with (1 * G); [lra|apply Rmult_le_compat_r; lra]). lra.
      - intros ET i' Hi'. specialize (T2 ET). destruct (HE i' Hi') as [E1 E2]. destruct (HB i' Hi') as [B1 [B2 B3]]. specialize (YB i' Hi').
        assert (SP : 0 < Sh' i' i') by (rewrite E2; apply Rplus_le_lt_0_compat; [apply Rmult_le_pos; [apply pow2_ge_0|exact B2]|apply Rmult_lt_0_compat; lra]).
        assert (ZE : Z <= EC * M0). { unfold Z, EC. apply Rmult_le_compat_r; [exact HM0|]. assert (C * t <= C * T) by (apply Rmult_le_compat_l; lra). destruct (Req_dec (C * t) (C * T)) as [ ->|]; [apply Rle_refl|left; apply exp_increasing; lra]. }
        assert (ZE2 : exp (2 * C * t) * G * t <= EC2 * G * T). { apply Rmult_le_compat; [apply Rmult_le_pos; [left; apply exp_pos|exact HG]|lra| |lra]. apply Rmult_le_compat_r; [exact HG|]. unfold EC2. assert (2 * C * t <= 2 * C * T) by (apply Rmult_le_compat_l; lra). destruct (Req_dec (2 * C * t) (2 * C * T)) as [ ->|]; [apply Rle_refl|left; apply exp_increasing; lra]. }
        assert (MD : Rabs (mh' i' - nth i' xT 0) <= K2 * dt).
        { rewrite E1. replace ((1 - th) * mh i' + th * (exp (rho t - rho T) * nth i' xT 0) + dt * a t * mh i' - nth i' xT 0)
            with ((th - 1) * (exp (rho t - rho T) * nth i' xT 0 - mh i') + (exp (rho t - rho T) - 1) * nth i' xT 0 + dt * a t * mh i') by ring.
          assert (LP : Rabs (exp (rho t - rho T) - 1) <= ME * dt).
          { destruct (mvt (fun u => exp (rho u - rho T)) (fun u => a u * exp (rho u - rho T)) t T De) as (c & Hc & Ec). rewrite Rmin_left, Rmax_right in Hc by lra. rewrite (Rminus_diag_eq (rho T) (rho T)) in Ec by reflexivity. rewrite exp_0 in Ec.
            replace (exp (rho t - rho T) - 1) with (- (a c * exp (rho c - rho T) * dt)) by (replace dt with (T - t) by lra; lra). rewrite Rabs_Ropp, Rabs_mult, (Rabs_pos_eq dt) by lra. apply Rmult_le_compat_r; [lra|]. apply BE. lra. }
          eapply Rle_trans; [apply Rabs_triang|]. eapply Rle_trans; [apply Rplus_le_compat_r, Rabs_triang|]. rewrite !(Rabs_mult (th - 1)), (Rabs_mult (exp (rho t - rho T) - 1)), (Rabs_mult (dt * a t)).
          assert (U1 : Rabs (th - 1) * Rabs (exp (rho t - rho T) * nth i' xT 0 - mh i') <= K * dt * (EC * M0 + M0)).
          { apply Rmult_le_compat; try apply Rabs_pos; [exact T2|]. unfold Rminus at 1. eapply Rle_trans; [apply Rabs_triang|]. rewrite Rabs_Ropp. lra. }
          assert (U2 : Rabs (exp (rho t - rho T) - 1) * Rabs (nth i' xT 0) <= ME * dt * Bt) by (apply Rmult_le_compat; try apply Rabs_pos; [exact LP|exact (BBt i' Hi')]).
          assert (U3 : Rabs (dt * a t) * Rabs (mh i') <= Ma * dt * (EC * M0)) by (apply Rmult_le_compat; try apply Rabs_pos; lra).
          unfold K2. lra. }
        assert (dt <= T) by lra.
        assert (SD : Sh' i' i' <= K3 * dt).
        { rewrite E2. assert (V1 : Rabs (1 - th + dt * a t) <= (K + Ma) * dt) by (eapply Rle_trans; [apply Rabs_triang|]; rewrite (Rabs_minus_sym 1 th); lra).
          assert (V2 : (1 - th + dt * a t) ^ 2 <= (K + Ma) ^ 2 * T * dt).
          { rewrite <- pow2_abs. apply Rle_trans with (((K + Ma) * dt) ^ 2); [apply pow_incr; split; [apply Rabs_pos|exact V1]|]. replace (((K + Ma) * dt) ^ 2) with ((K + Ma) ^ 2 * dt * dt) by ring. apply Rmult_le_compat_r; [lra|]. apply Rmult_le_compat_l; [apply pow2_ge_0|lra]. }
          assert (V3 : (1 - th + dt * a t) ^ 2 * Sh i' i' <= (K + Ma) ^ 2 * T * dt * (EC2 * G * T)) by (apply Rmult_le_compat; [apply pow2_ge_0|exact B2|exact V2|lra]).
          assert (V4 : dt * g t ^ 2 <= dt * G) by (apply Rmult_le_compat_l; lra). unfold K3. lra. }
        assert (MD2 : (mh' i' - nth i' xT 0) ^ 2 <= K2 ^ 2 * T * dt).
        { rewrite <- pow2_abs. apply Rle_trans with ((K2 * dt) ^ 2); [apply pow_incr; split; [apply Rabs_pos|exact MD]|]. replace ((K2 * dt) ^ 2) with (K2 ^ 2 * dt * dt) by ring. apply Rmult_le_compat_r; [lra|]. apply Rmult_le_compat_l; [apply pow2_ge_0|lra]. }
        split; [pose proof (pow2_ge_0 (mh' i' - nth i' xT 0)); lra|].
        apply Rle_trans with ((K3 + K2 ^ 2 * T) * dt); [lra|]. apply Rmult_le_compat_l; [|lra]. apply Rplus_le_le_0_compat; [exact HK3|apply Rmult_le_pos; [apply pow2_ge_0|lra]]. }
    assert (I0 : Inv 0 (dret x0)).
    { exists (vec_of x0), (fun _ _ => 0). split; [now apply dret_moments|]. split; [|intros E; lra]. intros i' Hi'. rewrite !Rmult_0_r, exp_0, Rmult_1_l. split; [|lra]. eapply Rle_trans; [exact (BBx i' Hi')|]. unfold M0. assert (0 <= MY * Bt) by now apply Rmult_le_pos. lra. }
    assert (Hlen : (length ts - 1 < length ts)%nat) by (destruct ts; [cbn in Hhd; lra|cbn [length]; lia]).
    rewrite (doob_law normal k sde x0 xT ts n false N d (length ts - 1) (fun x => (nth i x 0 - nth i xT 0) ^ 2) (proj1 HN) L0 Hden Hlen (or_introl eq_refl)).
    rewrite firstn_all2 by lia. rewrite Hlast. destruct ts as [|t ts]; [cbn in Hlen; lia|]. cbn [hd] in Hhd. subst t.
    pose proof (inv_chain (Sim.bridge_fn sde xT T) g N h T Inv Hstep n ts Hn1 0 (dret x0) (Rle_refl 0) (refined_grid h n _ Href) ltac:(rewrite Hlast; lra) I0) as (mh & Sh & HD & _ & HE).
    fold g. rewrite (second_moment _ mh Sh i (nth i xT 0) HD Hi). apply HE; assumption.
  Qed.
End sde.
Theorem doob_before_end sde T d x0 xT : SdeProofs.sde_defined sde -> SdeProofs.bridgeable sde -> 0 < T -> (forall t, 0 <= t <= T -> 0 < Sde.dispersion sde t ^ 2) -> length x0 = d -> length xT = d ->
  forall T1, 0 <= T1 < T -> exists K, 0 <= K /\ forall N normal k n ts j h replace,
    has_moments d N (fun _ => 0) mid -> (forall k, denotes (normal k n d) (dseq (repeat N n))) -> (1 <= n)%nat -> hd 1 ts = 0 -> last ts 0 = T -> refined h n ts -> 0 <= h ->
    (j < length ts)%nat -> nth j ts 0 <= T1 ->
    let L F := law (doob_prog normal k sde x0 xT ts n replace) (fun path => F (nth j path [])) in
    within d (K * h) (mean_of L) (fun i => doob_mean sde T (nth i x0 0) (nth i xT 0) (nth j ts 0)) (cov_of L) (fun i j' => doob_var sde T (nth j ts 0) * mid i j').
Proof.
  intros Hd Hb HT Hn L0 LT T1 HT1. destruct (sde_core sde T Hd Hb HT Hn) as (rho & a' & kap & H1 & H2 & H3 & r0 & Hg & HF & HQ & FT & QT & NB).
  exact (doob_interior sde T d x0 xT Hd Hb HT Hn L0 LT rho a' kap H1 H2 H3 r0 Hg HF HQ FT QT NB T1 HT1).
Qed.
Theorem doob_at_end sde T d x0 xT : SdeProofs.sde_defined sde -> SdeProofs.bridgeable sde -> 0 < T -> (forall t, 0 <= t <= T -> 0 < Sde.dispersion sde t ^ 2) -> length x0 = d -> length xT = d ->
  exists K, 0 <= K /\ forall N normal k n ts h,
    has_moments d N (fun _ => 0) mid -> (forall k, denotes (normal k n d) (dseq (repeat N n))) -> (1 <= n)%nat -> hd 1 ts = 0 -> last ts 0 = T -> refined h n ts -> 0 <= h ->
    forall i, (i < d)%nat -> 0 < law (doob_prog normal k sde x0 xT ts n false) (fun path => (nth i (nth (length ts - 1) path []) 0 - nth i xT 0) ^ 2) <= K * h.
Proof.
  intros Hd Hb HT Hn L0 LT. destruct (sde_core sde T Hd Hb HT Hn) as (rho & a' & kap & H1 & H2 & H3 & r0 & Hg & HF & HQ & FT & QT & NB).
  exact (doob_end_point sde T d x0 xT Hd Hb HT Hn L0 LT rho a' kap H1 H2 H3 r0 Hg HF HQ FT QT NB).
Qed.
