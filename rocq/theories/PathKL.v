(** The density of a run of simulators.py:53-106 [euler_maruyama] and its ratio under two drifts. *)
From Coquelicot Require Import Coquelicot.
From Coq Require Import Reals List Lia Lra.
From Verif Require Sde SdeProofs Sim ResVariance.
From Verif Require Import Base Dist Prog Mat EmMoments EmStable EmStrong EmPerturb.
Import ListNotations.
Open Scope R_scope.

(** ** Specification *)
(** The moves of a run: step length, time, state before, state after. *)
Definition move := (R * R * list R * list R)%type.
Fixpoint sub_moves (f : list R -> R -> list R) (g : R -> R) (ddt : R) (x : list R) (rnds : list (list R)) (times : list R) : list move :=
  match rnds, times with
  | r :: rnds', t :: times' => let y := Sim.em_move f g ddt x t r in (ddt, t, x, y) :: sub_moves f g ddt y rnds' times'
  | _, _ => []
  end.
Definition step_moves f g (n : nat) (x : list R) (t t' : R) (rnds : list (list R)) : list move :=
  let ddt := Rabs (t' - t) / INR n in sub_moves f g ddt x rnds (Sde.linspace t (t' - ddt) n).
Fixpoint moves f g (n : nat) (x : list R) (ts : list R) (rndss : list (list (list R))) : list move :=
  match ts, rndss with
  | t :: ((t' :: _) as ts'), rnds :: rndss' => step_moves f g n x t t' rnds ++ moves f g n (Sim.em_step f g n x t t' rnds) ts' rndss'
  | _, _ => []
  end.
(** The log-density of moving from x to y in a step of length h at time t: y is normal with mean x + f(x, t) h and standard deviation
    g(t) sqrt(h) in every coordinate. *)
Definition move_logpdf (d : nat) (f : list R -> R -> list R) (g : R -> R) (m : move) : R :=
  let '(h, t, x, y) := m in Rsum (map (fun i => Sde.norm_logpdf (nth i y 0) (nth i x 0 + nth i (f x t) 0 * h) (g t * sqrt h)) (seq 0 d)).
(** The log-density of the run given its initial value. *)
Definition run_logpdf d f g (ms : list move) : R := Rsum (map (move_logpdf d f g) ms).
Definition strictly_ascending (ts : list R) : Prop := forall k, (S k < length ts)%nat -> nth k ts 0 < nth (S k) ts 0.

(** ** Proofs *)
Lemma strictly_ascending_ascending ts : strictly_ascending ts -> ascending ts.
Proof. intros H k Hk. left. now apply H. Qed.
Lemma strictly_tail t ts : strictly_ascending (t :: ts) -> strictly_ascending ts.
Proof. intros H k Hk. apply (H (S k)). cbn [length]. lia. Qed.
Lemma strictly_head t t' ts : strictly_ascending (t :: t' :: ts) -> t < t'.
Proof. intros H. apply (H 0%nat). cbn [length]. lia. Qed.
Lemma run_logpdf_app d f g a b : run_logpdf d f g (a ++ b) = run_logpdf d f g a + run_logpdf d f g b.
Proof. unfold run_logpdf. now rewrite map_app, Rsum_app. Qed.
Lemma E_minus {A} (D : dist A) u v : E D (fun a => u a - v a) = E D u - E D v.
Proof. transitivity (E D (fun a => u a + (-1) * v a)); [apply E_ext'; intros; ring|]. rewrite E_plus, E_mult_l. ring. Qed.

Section ratio.
  Variables (d : nat) (f f' : list R -> R -> list R) (g : R -> R) (t0 T : R) (N : dist (list R)).
  Hypothesis Hf : forall x t, length x = d -> t0 <= t <= T -> length (f x t) = d.
  Hypothesis Hf' : forall x t, length x = d -> t0 <= t <= T -> length (f' x t) = d.
  Hypothesis Hg : forall t, t0 <= t <= T -> 0 < g t.
  Hypothesis HN : has_moments d N (fun _ => 0) mid.

  (** the weighted squared distance of the drifts *)
  Definition drift_gap (x : list R) (t : R) : R := sq_norm (Sde.vmap2 Rminus (f x t) (f' x t)) / g t ^ 2.

  (** one step, for every noise *)
  Lemma move_ratio h t x r : 0 < h -> t0 <= t <= T -> length x = d -> length r = d ->
    let m := (h, t, x, Sim.em_move f g h x t r) in
    move_logpdf d f g m - move_logpdf d f' g m =
      sqrt h / g t * Rsum (map (fun i => (nth i (f x t) 0 - nth i (f' x t) 0) * nth i r 0) (seq 0 d)) + h / 2 * drift_gap x t.
  Proof using Hf Hf' Hg.
    intros Hh Ht Hx Hr m. pose proof (Hg t Ht) as G. pose proof (sqrt_lt_R0 h Hh) as S. pose proof (sqrt_sqrt h (Rlt_le _ _ Hh)) as SS. pose proof (Hf x t Hx Ht) as L. pose proof (Hf' x t Hx Ht) as L'.
    destruct (em_move_nth d f g h x t r L Hx Hr) as [_ M]. unfold m, move_logpdf, drift_gap.
    set (dl := fun i => nth i (f x t) 0 - nth i (f' x t) 0).
    assert (Q : sq_norm (Sde.vmap2 Rminus (f x t) (f' x t)) = Rsum (map (fun i => dl i * dl i) (seq 0 d))).
    { rewrite (sq_norm_entry d) by (rewrite SdeProofs.length_vmap2; congruence). unfold nsq, entry. apply Rsum_map_ext. intros i Hi. apply in_seq in Hi. rewrite SdeProofs.nth_vmap2 by (congruence || lia). reflexivity. }
    rewrite Q. clear Q. change (fun i => (nth i (f x t) 0 - nth i (f' x t) 0) * nth i r 0) with (fun i => dl i * nth i r 0).
    replace (h / 2 * (Rsum (map (fun i => dl i * dl i) (seq 0 d)) / g t ^ 2)) with (h / 2 * / g t ^ 2 * Rsum (map (fun i => dl i * dl i) (seq 0 d))) by (unfold Rdiv; ring).
    rewrite <- !Rsum_map_mult_l, <- Rsum_map_plus. apply Rplus_eq_reg_r with (Rsum (map (fun i => Sde.norm_logpdf (nth i (Sim.em_move f g h x t r) 0) (nth i x 0 + nth i (f' x t) 0 * h) (g t * sqrt h)) (seq 0 d))).
    rewrite <- Rsum_map_plus. unfold Rminus. rewrite Rplus_assoc, Rplus_opp_l, Rplus_0_r. apply Rsum_map_ext.
 intros i Hi. apply in_seq in Hi. rewrite M by lia. unfold Sde.norm_logpdf. fold (dl i).
    replace (nth i (f' x t) 0) with (nth i (f x t) 0 - dl i) by (unfold dl; ring). set (a := nth i (f x t) 0). set (ri := nth i r 0). set (s := sqrt h) in *. rewrite <- SS. field. split; apply Rgt_not_eq; assumption.
  Qed.
  Lemma move_kl h t x : 0 < h -> t0 <= t <= T -> length x = d ->
    E N (fun r => let m := (h, t, x, Sim.em_move f g h x t r) in move_logpdf d f g m - move_logpdf d f' g m) = h / 2 * drift_gap x t.
  Proof using Hf Hf' Hg HN.
    intros Hh Ht Hx. pose proof HN as (Np & Nl & Nm & _).
    rewrite (E_ext _ _ (fun r => sqrt h / g t * Rsum (map (fun i => (nth i (f x t) 0 - nth i (f' x t) 0) * nth i r 0) (seq 0 d)) + h / 2 * drift_gap x t)) by (intros r Hr; apply move_ratio; auto).
    rewrite E_plus, E_const, E_mult_l, E_Rsum by assumption. rewrite (Rsum_map_ext _ (fun _ => 0)); [rewrite Rsum_map_const; ring|]. intros i Hi. apply in_seq in Hi. rewrite E_mult_l, Nm by lia. ring.
  Qed.

  Lemma in_rows n rnds : In rnds (map snd (dseq (repeat N n))) -> Forall (fun r => length r = d) rnds /\ length rnds = n.
  Proof using HN.
    clear Hf Hf' Hg. pose proof HN as (_ & Nl & _). revert rnds. induction n as [|n IH]; cbn [repeat dseq]; intros rnds H.
    - unfold dret in H. cbn in H. destruct H as [<-|[]]. split; [constructor|reflexivity].
    - apply in_dbind in H as (a & Ha & H). apply in_dmap in H as (b & Hb & ->). destruct (IH b Hb) as [I1 I2]. split; [constructor; [now apply Nl|assumption]|cbn [length]; now f_equal].
  Qed.

  Lemma sub_kl h : 0 < h -> forall times x, Forall (fun t => t0 <= t <= T) times -> length x = d ->
    E (dseq (repeat N (length times))) (fun rnds => run_logpdf d f g (sub_moves f g h x rnds times) - run_logpdf d f' g (sub_moves f g h x rnds times)) =
    / 2 * E (dseq (repeat N (length times))) (fun rnds => total drift_gap (sub_visits f g h x rnds times)).
  Proof using Hf Hf' Hg HN.
    intros Hh. induction times as [|t times IH]; intros x HF Hx.
    - cbn [length repeat dseq]. rewrite !E_dret. unfold run_logpdf, total. cbn. ring.
    - apply Forall_cons_iff in HF as [Ht HF]. cbn [length repeat]. rewrite !E_dseq_cons. pose proof HN as (Np & Nl & _).
      set (W := dseq (repeat N (length times))) in *. assert (HW : is_prob W) by (apply (rows_prob d N HN)).
      transitivity (E N (fun r => (let m := (h, t, x, Sim.em_move f g h x t r) in move_logpdf d f g m - move_logpdf d f' g m) + / 2 * E W (fun rnds => total drift_gap (sub_visits f g h (Sim.em_move f g h x t r) rnds times)))).
      + apply E_ext. intros r Hr. rewrite <- IH; [|assumption|apply em_move_nth; auto]. rewrite <- (E_const (let m := (h, t, x, Sim.em_move f g h x t r) in move_logpdf d f g m - move_logpdf d f' g m) W HW), <- E_plus.
        apply E_ext'. intros rnds. cbn [sub_moves]. cbv zeta. unfold run_logpdf. cbn [map Rsum]. ring.
      + pose proof (move_kl h t x Hh Ht Hx) as MK. cbv beta zeta in MK. cbv beta zeta. rewrite E_plus. rewrite MK, E_mult_l. rewrite <- (E_const (h / 2 * drift_gap x t) N Np), <- E_mult_l, <- E_mult_l, <- E_plus.
        apply E_ext'. intros r. rewrite <- E_mult_l. transitivity (E W (fun rnds => h / 2 * drift_gap x t + / 2 * total drift_gap (sub_visits f g h (Sim.em_move f g h x t r) rnds times))); [now rewrite E_plus, (E_const _ W HW)|].
        rewrite <- E_mult_l. apply E_ext'. intros rnds. cbn [sub_visits]. unfold total. cbn [map Rsum fst snd]. field.
  Qed.

  Lemma step_length n t t' x rnds : (1 <= n)%nat -> t0 <= t -> t < t' -> t' <= T -> length x = d -> Forall (fun r => length r = d) rnds -> length (Sim.em_step f g n x t t' rnds) = d.
  Proof using Hf.
    intros Hn H0 Ht HT Hx Hr. unfold Sim.em_step. cbv zeta. apply (sub_length d f g t0 T Hf); [|assumption|assumption].
    eapply Forall_impl; [|exact (linspace_inside t t' n Hn (Rlt_le _ _ Ht))]; cbv beta; intros; lra.
  Qed.
  Lemma step_kl n t t' x : (1 <= n)%nat -> t0 <= t -> t < t' -> t' <= T -> length x = d ->
    E (dseq (repeat N n)) (fun rnds => run_logpdf d f g (step_moves f g n x t t' rnds) - run_logpdf d f' g (step_moves f g n x t t' rnds)) =
    / 2 * E (dseq (repeat N n)) (fun rnds => total drift_gap (step_visits f g n x t t' rnds)).
  Proof using Hf Hf' Hg HN.
    intros Hn H0 Ht HT Hx. unfold step_moves, step_visits. cbv zeta. assert (Hi : 0 < INR n) by (apply lt_0_INR; lia).
    assert (Hh : 0 < Rabs (t' - t) / INR n) by (apply Rdiv_lt_0_compat; [rewrite Rabs_pos_eq; lra|assumption]).
    pose proof (sub_kl _ Hh (Sde.linspace t (t' - Rabs (t' - t) / INR n) n) x) as K. rewrite Sim.length_linspace in K. apply K; [|assumption].
    eapply Forall_impl; [|exact (linspace_inside t t' n Hn (Rlt_le _ _ Ht))]; cbv beta; intros; lra.
  Qed.

  (** the whole run *)
  Lemma run_kl n ts : (1 <= n)%nat -> forall t x, t0 <= t -> strictly_ascending (t :: ts) -> last (t :: ts) 0 <= T -> length x = d ->
    let W := dseq (repeat (dseq (repeat N n)) (length ts)) in
    E W (fun rndss => run_logpdf d f g (moves f g n x (t :: ts) rndss) - run_logpdf d f' g (moves f g n x (t :: ts) rndss)) =
    / 2 * E W (fun rndss => total drift_gap (visits f g n x (t :: ts) rndss)).
  Proof using Hf Hf' Hg HN.
    intros Hn. induction ts as [|t' ts IH]; intros t x Ht Ha Hl Hx W.
    - unfold W. cbn [length repeat dseq]. rewrite !E_dret. unfold run_logpdf, total. cbn. ring.
    - pose proof (strictly_head _ _ _ Ha) as Htt. pose proof (ascending_last _ _ (ascending_tail _ _ (strictly_ascending_ascending _ Ha))) as Hll. change (last (t :: t' :: ts) 0) with (last (t' :: ts) 0) in *.
      unfold W. cbn [length repeat]. rewrite !E_dseq_cons. set (Nn := dseq (repeat N n)). assert (HNn : is_prob Nn) by (apply (rows_prob d N HN)). set (V := dseq (repeat Nn (length ts))) in *.
      assert (HV : is_prob V) by (apply is_prob_dseq, Forall_forall; intros y Hy; apply repeat_spec in Hy; now subst).
      transitivity (E Nn (fun rnds => (run_logpdf d f g (step_moves f g n x t t' rnds) - run_logpdf d f' g (step_moves f g n x t t' rnds)) + / 2 * E V (fun rndss => total drift_gap (visits f g n (Sim.em_step f g n x t t' rnds) (t' :: ts) rndss)))).
      + apply E_ext. intros rnds Hr. apply in_rows in Hr as [Hr _]. assert (Hy : length (Sim.em_step f g n x t t' rnds) = d) by (apply step_length; assumption || lra).
        pose proof (IH t' _ ltac:(lra) (strictly_tail _ _ Ha) Hl Hy) as I. cbv zeta in I. fold Nn in I. fold V in I. rewrite <- I.
        rewrite <- (E_const (run_logpdf d f g (step_moves f g n x t t' rnds) - run_logpdf d f' g (step_moves f g n x t t' rnds)) V HV), <- E_plus. apply E_ext'. intros rndss.
        change (moves f g n x (t :: t' :: ts) (rnds :: rndss)) with (step_moves f g n x t t' rnds ++ moves f g n (Sim.em_step f g n x t t' rnds) (t' :: ts) rndss). rewrite !run_logpdf_app. ring.
      + rewrite E_plus. unfold Nn at 1. rewrite (step_kl n t t' x Hn Ht Htt ltac:(lra) Hx). fold Nn. rewrite E_mult_l, <- Rmult_plus_distr_l, <- E_plus. f_equal. apply E_ext'. intros rnds.
        rewrite <- (E_const (total drift_gap (step_visits f g n x t t' rnds)) V HV) at 1. rewrite <- E_plus. apply E_ext'. intros rndss.
        change (visits f g n x (t :: t' :: ts) (rnds :: rndss)) with (step_visits f g n x t t' rnds ++ visits f g n (Sim.em_step f g n x t t' rnds) (t' :: ts) rndss). now rewrite total_app.
  Qed.
End ratio.

(** the moves visit the states of the run and end at its terminal value *)
Lemma sub_moves_visits f g h times : forall rnds x, map fst (sub_moves f g h x rnds times) = sub_visits f g h x rnds times /\ last (map snd (sub_moves f g h x rnds times)) x = Sim.em_sub f g h x rnds times.
Proof.
  induction times as [|t times IH]; intros [|r rnds] x; cbn [sub_moves sub_visits Sim.em_sub map last]; try (split; reflexivity). cbv zeta. destruct (IH rnds (Sim.em_move f g h x t r)) as [I1 I2]. split; [cbn [map fst]; now rewrite I1|].
  rewrite <- I2. cbn [map snd]. set (l := map snd _). clearbody l. clear. revert l. induction l as [|a l IH]; [reflexivity|]. cbn [last]. destruct l; [reflexivity|]. cbn [last] in IH. exact IH.
Qed.
Lemma last_app_default {A} (a b : list A) (x : A) : last (a ++ b) x = last b (last a x).
Proof.
  revert x. induction a as [|u a IH]; intros x; [reflexivity|]. cbn [app]. destruct a as [|v a]; [|exact (IH x)]. cbn [app last]. destruct b as [|w b]; [reflexivity|]. clear. revert w. induction b as [|z b IH]; intros w; [reflexivity|]. exact (IH z).
Qed.
Lemma moves_visits f g n ts : forall rndss x, map fst (moves f g n x ts rndss) = visits f g n x ts rndss /\ last (map snd (moves f g n x ts rndss)) x = Sim.em_terminal f g n x ts rndss.
Proof.
  induction ts as [|t ts IH]; intros rndss x; [split; reflexivity|]. destruct ts as [|t' ts]; [destruct rndss; split; reflexivity|]. destruct rndss as [|rnds rndss]; [split; reflexivity|].
  change (moves f g n x (t :: t' :: ts) (rnds :: rndss)) with (step_moves f g n x t t' rnds ++ moves f g n (Sim.em_step f g n x t t' rnds) (t' :: ts) rndss).
  change (visits f g n x (t :: t' :: ts) (rnds :: rndss)) with (step_visits f g n x t t' rnds ++ visits f g n (Sim.em_step f g n x t t' rnds) (t' :: ts) rndss).
  unfold Sim.em_terminal. rewrite Sim.em_carry_cons, !map_app, last_app_default. destruct (IH rndss (Sim.em_step f g n x t t' rnds)) as [I1 I2]. unfold step_moves, step_visits. cbv zeta. destruct (sub_moves_visits f g (Rabs (t' - t) / INR n) (Sde.linspace t (t' - Rabs (t' - t) / INR n) n) rnds x) as [S1 S2].
  split; [exact (f_equal2 (@app _) S1 I1)|]. etransitivity; [exact (f_equal (last _) S2)|]. exact I2.
Qed.
