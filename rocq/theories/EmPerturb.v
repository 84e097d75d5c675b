(** The chain of simulators.py:53-106 [euler_maruyama] with two drifts and the same noise. *)
From Coquelicot Require Import Coquelicot.
From Coq Require Import Reals List Lia Lra.
From Verif Require Sde SdeProofs Sim ResVariance.
From Verif Require Import Base Dist Prog Mat EmMoments EmStable EmStrong.
Import ListNotations.
Open Scope R_scope.

(** The drift evaluations of a run: step length, time, state. *)
Fixpoint sub_visits (f : list R -> R -> list R) (g : R -> R) (ddt : R) (x : list R) (rnds : list (list R)) (times : list R) : list (R * R * list R) :=
  match rnds, times with r :: rnds', t :: times' => (ddt, t, x) :: sub_visits f g ddt (Sim.em_move f g ddt x t r) rnds' times' | _, _ => [] end.
Definition step_visits f g (n : nat) (x : list R) (t t' : R) (rnds : list (list R)) : list (R * R * list R) :=
  let ddt := Rabs (t' - t) / INR n in sub_visits f g ddt x rnds (Sde.linspace t (t' - ddt) n).
Fixpoint visits f g (n : nat) (x : list R) (ts : list R) (rndss : list (list (list R))) : list (R * R * list R) :=
  match ts, rndss with
  | t :: ((t' :: _) as ts'), rnds :: rndss' => step_visits f g n x t t' rnds ++ visits f g n (Sim.em_step f g n x t t' rnds) ts' rndss'
  | _, _ => []
  end.
Definition total (w : list R -> R -> R) (vs : list (R * R * list R)) : R := Rsum (map (fun v => fst (fst v) * w (snd v) (snd (fst v))) vs).

Lemma total_app w a b : total w (a ++ b) = total w a + total w b.
Proof. unfold total. now rewrite map_app, Rsum_app. Qed.
Lemma total_nonneg w vs : Forall (fun v => 0 <= fst (fst v) /\ 0 <= w (snd v) (snd (fst v))) vs -> 0 <= total w vs.
Proof. intros H. unfold total. induction H as [|v vs [H1 H2] _ IH]; cbn [map Rsum]; [lra|]. assert (0 <= fst (fst v) * w (snd v) (snd (fst v))) by now apply Rmult_le_pos. lra. Qed.
Lemma total_square w vs : Forall (fun v => 0 <= fst (fst v) /\ 0 <= w (snd v) (snd (fst v))) vs -> total w vs ^ 2 <= total (fun _ _ => 1) vs * total (fun x t => w x t ^ 2) vs.
Proof.
  intros H. induction H as [|v vs [H1 H2] HF IH]; [unfold total; cbn; lra|]. pose proof (total_nonneg w vs HF) as HA.
  assert (HS : 0 <= total (fun _ _ => 1) vs) by (apply total_nonneg; eapply Forall_impl; [|exact HF]; cbv beta; intros ? [? _]; split; [assumption|lra]).
  assert (HQ : 0 <= total (fun x t => w x t ^ 2) vs) by (apply total_nonneg; eapply Forall_impl; [|exact HF]; cbv beta; intros ? [? _]; split; [assumption|apply pow2_ge_0]).
  assert (Ec : forall u, total u (v :: vs) = fst (fst v) * u (snd v) (snd (fst v)) + total u vs) by reflexivity. rewrite !Ec. cbv beta. set (a := fst (fst v)) in *. set (x := w (snd v) (snd (fst v))) in *.
  set (A := total w vs) in *. set (S := total (fun _ _ => 1) vs) in *. set (Q := total (fun x t => w x t ^ 2) vs) in *.
  assert (B : 2 * A * x <= S * x ^ 2 + Q).
  { apply Rsqr_incr_0_var; [|apply Rplus_le_le_0_compat; [apply Rmult_le_pos; [assumption|apply pow2_ge_0]|assumption]]. unfold Rsqr. apply Rle_trans with (4 * (S * Q) * x ^ 2).
    - replace (2 * A * x * (2 * A * x)) with (4 * A ^ 2 * x ^ 2) by ring. apply Rmult_le_compat_r; [apply pow2_ge_0|lra].
    - pose proof (pow2_ge_0 (S * x ^ 2 - Q)). lra. }
  assert (a * (2 * A * x) <= a * (S * x ^ 2 + Q)) by now apply Rmult_le_compat_l. lra.
Qed.

Section perturb.
  Variables (d : nat) (f f' : list R -> R -> list R) (g : R -> R) (t0 T K : R) (w : list R -> R -> R).
  Hypothesis HK : 0 <= K.
  Hypothesis Hf : lipschitz_on d t0 T K f.
  Hypothesis Hf' : forall y t, length y = d -> t0 <= t <= T -> length (f' y t) = d.
  Hypothesis Hw : forall y t, length y = d -> t0 <= t <= T -> 0 <= w y t /\ near (w y t) (f y t) (f' y t).

  Lemma near_le e e' x y : e <= e' -> near e x y -> near e' x y.
  Proof using. clear. intros He [H1 H2]. split; [assumption|]. intros i Hi. eapply Rle_trans; [now apply H2|assumption]. Qed.
  Lemma growth s : 0 <= s -> 1 <= exp (K * s).
  Proof using HK. intros Hs. pose proof (exp_lower (K * s)). assert (0 <= K * s) by now apply Rmult_le_pos. lra. Qed.

  Lemma move_gap ddt t r x y e : 0 <= ddt -> t0 <= t <= T -> length r = d -> length x = d -> 0 <= e -> near e x y ->
    length (Sim.em_move f g ddt x t r) = d /\ length (Sim.em_move f' g ddt y t r) = d /\ near (exp (K * ddt) * (e + ddt * w y t)) (Sim.em_move f g ddt x t r) (Sim.em_move f' g ddt y t r).
  Proof using HK Hf Hf' Hw.
    intros Hd Ht Hr Hx He [Hl Hn]. destruct (Hf t Ht) as [Hlen HL]. destruct (HL e x y Hx He (conj Hl Hn)) as [Fl Fn]. assert (Hy : length y = d) by congruence. destruct (Hw y t Hy Ht) as [Hw0 [_ Hw1]].
    destruct (em_move_nth d f g ddt x t r (Hlen x Hx) Hx Hr) as [A1 A2]. destruct (em_move_nth d f' g ddt y t r (Hf' y t Hy Ht) Hy Hr) as [B1 B2].
    split; [exact A1|]. split; [exact B1|]. split; [congruence|]. rewrite A1. intros i Hi. rewrite A2, B2 by assumption. rewrite (Hlen x Hx) in Fn. rewrite (Hlen y Hy) in Hw1. rewrite Hx in Hn. specialize (Hn i Hi). specialize (Fn i Hi). specialize (Hw1 i Hi).
    replace (_ - _) with ((nth i x 0 - nth i y 0) + (ddt * (nth i (f x t) 0 - nth i (f y t) 0) + ddt * (nth i (f y t) 0 - nth i (f' y t) 0))) by ring.
    eapply Rle_trans; [apply Rabs_triang|]. eapply Rle_trans; [apply Rplus_le_compat_l, Rabs_triang|]. rewrite !Rabs_mult, (Rabs_pos_eq ddt) by assumption.
    assert (P1 : ddt * Rabs (nth i (f x t) 0 - nth i (f y t) 0) <= ddt * (K * e)) by now apply Rmult_le_compat_l. assert (P2 : ddt * Rabs (nth i (f y t) 0 - nth i (f' y t) 0) <= ddt * w y t) by now apply Rmult_le_compat_l.
    assert (Q : 0 <= ddt * w y t) by now apply Rmult_le_pos. apply Rle_trans with ((1 + K * ddt) * (e + ddt * w y t)).
    - assert (0 <= K * ddt * (ddt * w y t)) by (apply Rmult_le_pos; [now apply Rmult_le_pos|assumption]). lra.
    - apply Rmult_le_compat_r; [lra|]. apply exp_lower.
  Qed.

  Lemma sub_gap ddt times : 0 <= ddt -> Forall (fun t => t0 <= t <= T) times -> forall rnds x y e, Forall (fun r => length r = d) rnds -> length x = d -> 0 <= e -> near e x y ->
    length (Sim.em_sub f g ddt x rnds times) = d /\ Forall (fun v => (fst (fst v) = ddt /\ t0 <= snd (fst v) <= T) /\ length (snd v) = d) (sub_visits f' g ddt y rnds times) /\
    near (exp (K * (ddt * INR (length times))) * (e + total w (sub_visits f' g ddt y rnds times))) (Sim.em_sub f g ddt x rnds times) (Sim.em_sub f' g ddt y rnds times).
  Proof using HK Hf Hf' Hw.
    intros Hd HF. induction HF as [|t times Ht HF IH]; intros rnds x y e Hr Hx He Hn.
    - split; [destruct rnds; exact Hx|]. split; [destruct rnds; constructor|]. cbn [length INR]. replace (K * (ddt * 0)) with 0 by ring. rewrite exp_0, Rmult_1_l. replace (sub_visits f' g ddt y rnds []) with (@nil (R * R * list R)) by (destruct rnds; reflexivity).
      unfold total. cbn [map Rsum]. rewrite Rplus_0_r. destruct rnds; exact Hn.
    - destruct rnds as [|r rnds].
      { split; [exact Hx|]. split; [constructor|]. cbn [Sim.em_sub sub_visits]. unfold total. cbn [map Rsum]. rewrite Rplus_0_r. apply (near_le e); [|assumption].
        pose proof (growth (ddt * INR (length (t :: times))) ltac:(apply Rmult_le_pos; [assumption|apply pos_INR])). nra. }
      apply Forall_cons_iff in Hr as [Hr Hrs]. cbn [Sim.em_sub sub_visits]. assert (Hy : length y = d) by (destruct Hn; congruence). destruct (Hw y t Hy Ht) as [Hw0 _]. assert (Q : 0 <= ddt * w y t) by now apply Rmult_le_pos.
      destruct (move_gap ddt t r x y e Hd Ht Hr Hx He Hn) as (M1 & M2 & M3).
      destruct (IH rnds _ _ (exp (K * ddt) * (e + ddt * w y t)) Hrs M1 ltac:(apply Rmult_le_pos; [left; apply exp_pos|lra]) M3) as (I1 & I2 & I3). split; [exact I1|]. split; [now constructor|].
      eapply near_le; [|exact I3]. set (V := sub_visits f' g ddt (Sim.em_move f' g ddt y t r) rnds times) in *.
      assert (TV : 0 <= total w V) by (apply total_nonneg; eapply Forall_impl; [|exact I2]; cbv beta; intros v [[-> Hv] Hlv]; split; [assumption|now apply Hw]).
      replace (total w ((ddt, t, y) :: V)) with (ddt * w y t + total w V) by reflexivity.
      replace (exp (K * (ddt * INR (length (t :: times))))) with (exp (K * (ddt * INR (length times))) * exp (K * ddt)) by (rewrite <- exp_plus; f_equal; cbn [length]; rewrite S_INR; ring).
      rewrite Rmult_assoc. apply Rmult_le_compat_l; [left; apply exp_pos|]. pose proof (growth ddt Hd). nra.
  Qed.

  Lemma step_gap n t t' rnds x y e : (1 <= n)%nat -> t0 <= t -> t <= t' -> t' <= T -> Forall (fun r => length r = d) rnds -> length x = d -> 0 <= e -> near e x y ->
    length (Sim.em_step f g n x t t' rnds) = d /\ Forall (fun v => (0 <= fst (fst v) /\ t0 <= snd (fst v) <= T) /\ length (snd v) = d) (step_visits f' g n y t t' rnds) /\
    near (exp (K * (t' - t)) * (e + total w (step_visits f' g n y t t' rnds))) (Sim.em_step f g n x t t' rnds) (Sim.em_step f' g n y t t' rnds).
  Proof using HK Hf Hf' Hw.
    intros Hn H1 H2 H3 Hr Hx He Hxy. assert (Hi : 0 < INR n) by (apply lt_0_INR; lia). unfold Sim.em_step, step_visits. cbv zeta.
    assert (Hdd : 0 <= Rabs (t' - t) / INR n) by (apply Rmult_le_pos; [apply Rabs_pos|left; now apply Rinv_0_lt_compat]).
    assert (HF : Forall (fun s => t0 <= s <= T) (Sde.linspace t (t' - Rabs (t' - t) / INR n) n)) by (eapply Forall_impl; [|exact (linspace_inside t t' n Hn H2)]; cbv beta; intros; lra).
    destruct (sub_gap _ _ Hdd HF rnds x y e Hr Hx He Hxy) as (A1 & A2 & A3). split; [exact A1|]. split; [eapply Forall_impl; [|exact A2]; cbv beta; intros v [[-> ?] ?]; auto|].
    rewrite Sim.length_linspace in A3. replace (Rabs (t' - t) / INR n * INR n) with (t' - t) in A3 by (rewrite Rabs_pos_eq by lra; field; lra). exact A3.
  Qed.
  Lemma sub_visits_length ddt times : forall rnds y, total (fun _ _ => 1) (sub_visits f' g ddt y rnds times) = ddt * INR (Nat.min (length rnds) (length times)).
  Proof using. clear.
    induction times as [|t times IH]; intros [|r rnds] y; cbn [sub_visits length Nat.min]; try (unfold total; cbn; ring). change (ddt * 1 + total (fun _ _ => 1) (sub_visits f' g ddt (Sim.em_move f' g ddt y t r) rnds times) = ddt * INR (S (Nat.min (length rnds) (length times)))). rewrite IH, S_INR. ring.
  Qed.
  Lemma step_visits_length n y t t' rnds : (1 <= n)%nat -> t <= t' -> total (fun _ _ => 1) (step_visits f' g n y t t' rnds) <= t' - t.
  Proof using. clear.
    intros Hn Ht. unfold step_visits. cbv zeta. rewrite sub_visits_length, Sim.length_linspace, Rabs_pos_eq by lra. assert (Hi : 0 < INR n) by (apply lt_0_INR; lia).
    apply Rle_trans with ((t' - t) / INR n * INR n); [|right; field; lra]. apply Rmult_le_compat_l; [apply Rmult_le_pos; [lra|left; now apply Rinv_0_lt_compat]|]. apply le_INR. lia.
  Qed.

  Lemma carry_gap n ts : (1 <= n)%nat -> forall t rndss x y e, t0 <= t -> ascending (t :: ts) -> last (t :: ts) 0 <= T -> Forall (Forall (fun r => length r = d)) rndss -> length x = d -> 0 <= e -> near e x y ->
    Forall (fun v => (0 <= fst (fst v) /\ t0 <= snd (fst v) <= T) /\ length (snd v) = d) (visits f' g n y (t :: ts) rndss) /\
    total (fun _ _ => 1) (visits f' g n y (t :: ts) rndss) <= last (t :: ts) 0 - t /\ length (Sim.em_carry f g n x (t :: ts) rndss) = d /\
    near (exp (K * (last (t :: ts) 0 - t)) * (e + total w (visits f' g n y (t :: ts) rndss))) (Sim.em_carry f g n x (t :: ts) rndss) (Sim.em_carry f' g n y (t :: ts) rndss).
  Proof using HK Hf Hf' Hw.
    intros Hn. induction ts as [|t' ts IH]; intros t rndss x y e Ht Ha Hl Hr Hx He Hxy.
    - cbn [visits Sim.em_carry last]. split; [constructor|]. split; [unfold total; cbn; lra|]. split; [assumption|]. rewrite Rminus_eq_0, Rmult_0_r, exp_0. unfold total. cbn [map Rsum]. now rewrite Rmult_1_l, Rplus_0_r.
    - pose proof (ascending_head _ _ _ Ha) as Htt. pose proof (ascending_last _ _ (ascending_tail _ _ Ha)) as Hll. change (last (t :: t' :: ts) 0) with (last (t' :: ts) 0) in *.
      destruct rndss as [|rnds rndss].
      { cbn [visits Sim.em_carry]. split; [constructor|]. split; [unfold total; cbn [map Rsum]; lra|]. split; [assumption|]. unfold total. cbn [map Rsum]. rewrite Rplus_0_r. apply (near_le e); [|assumption]. pose proof (growth (last (t' :: ts) 0 - t) ltac:(lra)). nra. }
      apply Forall_cons_iff in Hr as [Hr Hrs]. destruct (step_gap n t t' rnds x y e Hn Ht Htt ltac:(lra) Hr Hx He Hxy) as (S1 & S2 & S3).
      assert (TS : 0 <= total w (step_visits f' g n y t t' rnds)) by (apply total_nonneg; eapply Forall_impl; [|exact S2]; cbv beta; intros v [[Hv1 Hv] Hlv]; split; [assumption|now apply Hw]).
      destruct (IH t' rndss _ _ (exp (K * (t' - t)) * (e + total w (step_visits f' g n y t t' rnds))) ltac:(lra) (ascending_tail _ _ Ha) Hl Hrs S1 ltac:(apply Rmult_le_pos; [left; apply exp_pos|lra]) S3) as (C1 & C2 & C3 & C4).
      change (visits f' g n y (t :: t' :: ts) (rnds :: rndss)) with (step_visits f' g n y t t' rnds ++ visits f' g n (Sim.em_step f' g n y t t' rnds) (t' :: ts) rndss). rewrite !Sim.em_carry_cons, !total_app.
      split; [now apply Forall_app|]. split; [pose proof (step_visits_length n y t t' rnds Hn Htt); lra|]. split; [exact C3|]. eapply near_le; [|exact C4].
      set (V := visits f' g n (Sim.em_step f' g n y t t' rnds) (t' :: ts) rndss) in *. assert (TV : 0 <= total w V) by (apply total_nonneg; eapply Forall_impl; [|exact C1]; cbv beta; intros v [[Hv1 Hv] Hlv]; split; [assumption|now apply Hw]).
      replace (exp (K * (last (t' :: ts) 0 - t))) with (exp (K * (last (t' :: ts) 0 - t')) * exp (K * (t' - t))) by (rewrite <- exp_plus; f_equal; ring).
      rewrite Rmult_assoc. apply Rmult_le_compat_l; [left; apply exp_pos|]. pose proof (growth (t' - t) ltac:(lra)) as Hg. pose proof (Rmult_le_compat_r _ _ _ TV Hg) as Hg'. lra.
  Qed.

  (** squared distance, same initial value *)
  Lemma carry_gap_sq n t ts rndss x : (1 <= n)%nat -> t0 <= t -> ascending (t :: ts) -> last (t :: ts) 0 <= T -> Forall (Forall (fun r => length r = d)) rndss -> length x = d ->
    length (Sim.em_carry f g n x (t :: ts) rndss) = d /\ length (Sim.em_carry f' g n x (t :: ts) rndss) = d /\
    sq_norm (Sde.vmap2 Rminus (Sim.em_carry f g n x (t :: ts) rndss) (Sim.em_carry f' g n x (t :: ts) rndss)) <=
      INR d * (exp (K * (last (t :: ts) 0 - t)) ^ 2 * ((last (t :: ts) 0 - t) * total (fun y s => w y s ^ 2) (visits f' g n x (t :: ts) rndss))).
  Proof using HK Hf Hf' Hw.
    intros Hn Ht Ha Hl Hr Hx. assert (N0 : near 0 x x) by (split; [reflexivity|]; intros i Hi; rewrite Rminus_eq_0, Rabs_R0; lra).
    destruct (carry_gap n ts Hn t rndss x x 0 Ht Ha Hl Hr Hx (Rle_refl 0) N0) as (C1 & C2 & C3 & C4). set (V := visits f' g n x (t :: ts) rndss) in *. destruct C4 as [L C4]. rewrite C3 in L, C4.
    set (X := Sim.em_carry f g n x (t :: ts) rndss) in *. set (Y := Sim.em_carry f' g n x (t :: ts) rndss) in *. split; [assumption|]. split; [congruence|].
    rewrite (sq_norm_entry d) by (rewrite SdeProofs.length_vmap2; congruence). pose proof (ascending_last _ _ Ha) as Htl.
    assert (HV : Forall (fun v => 0 <= fst (fst v) /\ 0 <= w (snd v) (snd (fst v))) V) by (eapply Forall_impl; [|exact C1]; cbv beta; intros v [[Hv1 Hv] Hlv]; split; [assumption|now apply Hw]).
    pose proof (total_nonneg w V HV) as TV. pose proof (total_square w V HV) as TS.
    assert (TQ : 0 <= total (fun y s => w y s ^ 2) V) by (apply total_nonneg; eapply Forall_impl; [|exact HV]; cbv beta; intros v [Hv _]; split; [assumption|apply pow2_ge_0]).
    rewrite Rplus_0_l in C4. set (ex := exp (K * (last (t :: ts) 0 - t))) in *. assert (Hex : 0 < ex) by apply exp_pos.
    eapply Rle_trans; [apply (nsq_le d _ (fun _ => ex ^ 2 * ((last (t :: ts) 0 - t) * total (fun y s => w y s ^ 2) V)))|rewrite Rsum_map_const, seq_length; right; ring].
    intros i Hi. unfold entry. rewrite SdeProofs.nth_vmap2 by (congruence || lia). specialize (C4 i Hi). set (z := nth i X 0 - nth i Y 0) in *. replace (z * z) with (Rabs z ^ 2) by (rewrite pow2_abs; ring).
    apply Rle_trans with ((ex * total w V) ^ 2); [apply pow_incr; split; [apply Rabs_pos|assumption]|]. rewrite Rpow_mult_distr. apply Rmult_le_compat_l; [apply pow2_ge_0|].
    eapply Rle_trans; [exact TS|]. now apply Rmult_le_compat_r.
  Qed.
End perturb.
