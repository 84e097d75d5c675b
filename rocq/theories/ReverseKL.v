(** simulators.py:8-50 [reverse_simulator]: the log-density ratio of a run under two scores; the densities of gp_pmcmc.py 117-127. *)
From Coquelicot Require Import Coquelicot.
From Coq Require Import Reals List Lia Lra.
From Verif Require Import UNetVal UNetShape UNetScore UNetStrong.
From Verif Require Sde SdeProofs Sim ResVariance.
From Verif Require Import Base Dist Prog Mat MatMore GaussDiv GaussCond ToyKf EmMoments EmStable EmStrong EmPerturb UNetError PathKL.
Import ListNotations.
Open Scope R_scope.

(** ** Specification *)
(** the log-density, under the score [s], of a run of the reverse simulator with the moves [ms] *)
Definition score_logpdf (d : nat) (s : list R -> R -> list R) (sde : Sde.linear_sde) (T : R) (ms : list move) : R :=
  run_logpdf d (Sim.reverse_drift s (Sde.drift sde) (Sde.dispersion sde) T) (Sim.reverse_dispersion (Sde.dispersion sde) T) ms.
(** the moves of the run with the score [s] *)
Definition reverse_moves (s : list R -> R -> list R) (sde : Sde.linear_sde) (n : nat) (u0 ts : list R) (rndss : list (list (list R))) : list move :=
  let T := last ts 0 in moves (Sim.reverse_drift s (Sde.drift sde) (Sde.dispersion sde) T) (Sim.reverse_dispersion (Sde.dispersion sde) T) n u0 ts rndss.

(** ** Proofs *)
Lemma total_ext_in w w' vs : (forall v, In v vs -> w (snd v) (snd (fst v)) = w' (snd v) (snd (fst v))) -> total w vs = total w' vs.
Proof. intros H. unfold total. apply Rsum_map_ext. intros v Hv. now rewrite (H v Hv). Qed.
Lemma total_le w w' vs : Forall (fun v => 0 <= fst (fst v) /\ w (snd v) (snd (fst v)) <= w' (snd v) (snd (fst v))) vs -> total w vs <= total w' vs.
Proof. intros H. unfold total. induction H as [|v vs [H1 H2] _ IH]; cbn [map Rsum]; [lra|]. apply Rplus_le_compat; [now apply Rmult_le_compat_l|assumption]. Qed.

Section visit_facts.
  Variables (d : nat) (f : list R -> R -> list R) (g : R -> R) (t0 T : R).
  Hypothesis Hf : forall x t, length x = d -> t0 <= t <= T -> length (f x t) = d.
  Definition visit_ok (v : R * R * list R) : Prop := 0 <= fst (fst v) /\ t0 <= snd (fst v) <= T /\ length (snd v) = d.
  Lemma sub_visit_ok h times : 0 <= h -> Forall (fun t => t0 <= t <= T) times -> forall rnds x, Forall (fun r => length r = d) rnds -> length x = d -> Forall visit_ok (sub_visits f g h x rnds times).
  Proof using Hf.
    intros Hh HF. induction HF as [|t times Ht HF IH]; intros [|r rnds] x Hr Hx; cbn [sub_visits]; try constructor.
    - now split.
    - apply Forall_cons_iff in Hr as [Hr Hrs]. apply IH; [assumption|]. apply em_move_nth; auto.
  Qed.
  Lemma visit_ok_all n ts : (1 <= n)%nat -> forall t rndss x, t0 <= t -> ascending (t :: ts) -> last (t :: ts) 0 <= T -> Forall (Forall (fun r => length r = d)) rndss -> length x = d ->
    Forall visit_ok (visits f g n x (t :: ts) rndss).
  Proof using Hf.
    intros Hn. induction ts as [|t' ts IH]; intros t rndss x Ht Ha Hl Hr Hx; [constructor|]. destruct rndss as [|rnds rndss]; [constructor|].
    pose proof (ascending_head _ _ _ Ha) as Htt. pose proof (ascending_last _ _ (ascending_tail _ _ Ha)) as Hll. change (last (t :: t' :: ts) 0) with (last (t' :: ts) 0) in *. apply Forall_cons_iff in Hr as [Hr Hrs].
    change (visits f g n x (t :: t' :: ts) (rnds :: rndss)) with (step_visits f g n x t t' rnds ++ visits f g n (Sim.em_step f g n x t t' rnds) (t' :: ts) rndss). assert (Hi : 0 < INR n) by (apply lt_0_INR; lia).
    assert (HF : Forall (fun s => t0 <= s <= T) (Sde.linspace t (t' - Rabs (t' - t) / INR n) n)) by (eapply Forall_impl; [|exact (linspace_inside t t' n Hn Htt)]; cbv beta; intros; lra).
    apply Forall_app. split.
    - unfold step_visits. cbv zeta. apply sub_visit_ok; try assumption. apply Rmult_le_pos; [apply Rabs_pos|left; now apply Rinv_0_lt_compat].
    - apply IH; try assumption; [lra|now apply ascending_tail in Ha|]. unfold Sim.em_step. cbv zeta. now apply (sub_length d f g t0 T Hf).
  Qed.
End visit_facts.

Lemma in_row_blocks d N n m rndss : has_moments d N (fun _ => 0) mid -> In rndss (map snd (dseq (repeat (dseq (repeat N n)) m))) -> Forall (Forall (fun r => length r = d)) rndss.
Proof.
  intros HN. revert rndss. induction m as [|m IH]; cbn [repeat dseq]; intros rndss H; [unfold dret in H; cbn in H; destruct H as [<-|[]]; constructor|].
  apply in_dbind in H as (a & Ha & H). apply in_dmap in H as (b & Hb & ->). constructor; [|now apply IH]. now apply (in_rows d N HN) in Ha.
Qed.

Section scores.
  Variables (d : nat) (sde : Sde.linear_sde) (T : R) (N : dist (list R)) (s s' : list R -> R -> list R).
  Hypothesis HT : forall t, 0 <= t <= T -> 0 < Sde.dispersion sde t.
  Hypothesis HN : has_moments d N (fun _ => 0) mid.
  Hypothesis Hs : forall x t, length x = d -> length (s x t) = d.
  Hypothesis Hs' : forall x t, length x = d -> length (s' x t) = d.

  Lemma reverse_kl n ts u : (1 <= n)%nat -> ts <> [] -> 0 <= nth 0 ts 0 -> strictly_ascending ts -> last ts 0 = T -> length u = d ->
    let W := dseq (repeat (dseq (repeat N n)) (length ts - 1)) in
    E W (fun rndss => score_logpdf d s sde T (reverse_moves s sde n u ts rndss) - score_logpdf d s' sde T (reverse_moves s sde n u ts rndss)) =
    / 2 * E W (fun rndss => total (fun x t => Sde.dispersion sde (T - t) ^ 2 * score_diff s s' T x t) (reverse_visits s sde n u ts rndss)).
  Proof using HT HN Hs Hs'.
    intros Hn Hne H0 Ha Hl Hu. unfold reverse_moves, reverse_visits, score_logpdf. rewrite Hl. cbv zeta. destruct ts as [|t ts]; [easy|]. cbn [nth] in H0.
    set (f := Sim.reverse_drift s (Sde.drift sde) (Sde.dispersion sde) T). set (f' := Sim.reverse_drift s' (Sde.drift sde) (Sde.dispersion sde) T). set (g := Sim.reverse_dispersion (Sde.dispersion sde) T).
    assert (Hf : forall x r, length x = d -> 0 <= r <= T -> length (f x r) = d) by (intros x r Hx _; apply reverse_nth; [assumption|now apply Hs]).
    assert (Hf' : forall x r, length x = d -> 0 <= r <= T -> length (f' x r) = d) by (intros x r Hx _; apply reverse_nth; [assumption|now apply Hs']).
    assert (Hg : forall r, 0 <= r <= T -> 0 < g r) by (intros r Hr; unfold g, Sim.reverse_dispersion; apply HT; lra).
    replace (length (t :: ts) - 1)%nat with (length ts) by (cbn [length]; lia). pose proof (run_kl d f f' g 0 T N Hf Hf' Hg HN n ts Hn t u H0 Ha ltac:(lra) Hu) as K. cbv zeta in K. rewrite K. f_equal. apply E_ext. intros rndss Hr.
    apply in_row_blocks with (d := d) in Hr; [|assumption]. pose proof (visit_ok_all d f g 0 T Hf n ts Hn t rndss u H0 (strictly_ascending_ascending _ Ha) ltac:(lra) Hr Hu) as V. rewrite Forall_forall in V.
    apply total_ext_in. intros v Hv. destruct (V v Hv) as (_ & Hv2 & Hv3). set (x := snd v) in *. set (r := snd (fst v)) in *. unfold drift_gap, score_diff. pose proof (Hg r Hv2) as G.
    destruct (reverse_nth d s sde T x r Hv3 (Hs _ _ Hv3)) as [A1 A2]. destruct (reverse_nth d s' sde T x r Hv3 (Hs' _ _ Hv3)) as [B1 B2]. fold f in A1, A2. fold f' in B1, B2. fold (Sim.reverse_dispersion (Sde.dispersion sde) T r). fold g.
    rewrite (sq_norm_entry d) by (rewrite SdeProofs.length_vmap2; congruence). rewrite (sq_norm_entry d (Sde.vmap2 Rminus (s x (T - r)) _)) by (rewrite SdeProofs.length_vmap2; rewrite (Hs x (T - r) Hv3); [reflexivity|symmetry; now apply Hs']).
    rewrite (nsq_ext d _ (fun a => g r ^ 2 * entry (Sde.vmap2 Rminus (s x (T - r)) (s' x (T - r))) a)); [rewrite nsq_scale; field; lra|].
    intros i Hi. pose proof (Hs x (T - r) Hv3). pose proof (Hs' x (T - r) Hv3). unfold entry. rewrite !SdeProofs.nth_vmap2 by (congruence || lia). rewrite A2, B2 by assumption. unfold g, Sim.reverse_dispersion. ring.
  Qed.
  Lemma reverse_kl_bounds n ts u : (1 <= n)%nat -> ts <> [] -> 0 <= nth 0 ts 0 -> strictly_ascending ts -> last ts 0 = T -> length u = d ->
    let W := dseq (repeat (dseq (repeat N n)) (length ts - 1)) in
    let kl := E W (fun rndss => score_logpdf d s sde T (reverse_moves s sde n u ts rndss) - score_logpdf d s' sde T (reverse_moves s sde n u ts rndss)) in
    let err := E W (fun rndss => total (score_diff s s' T) (reverse_visits s sde n u ts rndss)) in
    0 <= kl /\ forall lo hi, (forall t, 0 <= t <= T -> lo <= Sde.dispersion sde t ^ 2 <= hi) -> lo / 2 * err <= kl <= hi / 2 * err.
  Proof using HT HN Hs Hs'.
    intros Hn Hne H0 Ha Hl Hu W kl err. unfold kl. pose proof (reverse_kl n ts u Hn Hne H0 Ha Hl Hu) as K. cbv zeta in K. fold W in K. rewrite K.
    assert (HW : is_prob W) by (apply is_prob_dseq, Forall_forall; intros y Hy; apply repeat_spec in Hy; rewrite Hy; apply (rows_prob d N HN)). destruct ts as [|t ts]; [easy|]. cbn [nth] in H0.
    assert (V : forall rndss, In rndss (map snd W) -> Forall (visit_ok d 0 T) (reverse_visits s sde n u (t :: ts) rndss)).
    { intros rndss Hr. apply in_row_blocks with (d := d) in Hr; [|assumption]. unfold reverse_visits. rewrite Hl. cbv zeta. apply visit_ok_all; try assumption; [|now apply strictly_ascending_ascending|lra]. intros x r Hx _. apply reverse_nth; [assumption|now apply Hs]. }
    split.
    - apply Rmult_le_pos; [lra|]. apply Rle_trans with (E W (fun _ => 0)); [rewrite E_const by assumption; lra|]. apply ResVariance.E_le; [apply HW|]. intros rndss Hr. apply total_nonneg. eapply Forall_impl; [|exact (V rndss Hr)].
      intros v (H1 & _ & _). split; [assumption|]. apply Rmult_le_pos; [apply pow2_ge_0|apply score_diff_nonneg].
    - intros lo hi B. unfold err.
      assert (L : E W (fun rndss => lo * total (score_diff s s' T) (reverse_visits s sde n u (t :: ts) rndss)) <= E W (fun rndss => total (fun x r => Sde.dispersion sde (T - r) ^ 2 * score_diff s s' T x r) (reverse_visits s sde n u (t :: ts) rndss))
        <= E W (fun rndss => hi * total (score_diff s s' T) (reverse_visits s sde n u (t :: ts) rndss))).
      { split; (apply ResVariance.E_le; [apply HW|]); intros rndss Hr; rewrite <- total_scale; apply total_le; (eapply Forall_impl; [|exact (V rndss Hr)]); intros v (H1 & H2 & _); (split; [assumption|]); (apply Rmult_le_compat_r; [apply score_diff_nonneg|]); apply B; lra. }
      rewrite !E_mult_l in L. lra.
  Qed.
End scores.

(** ** The densities of the filters (toy experiments) *)
Definition vlist (n : nat) (w : vec) : list R := map w (seq 0 n).
(** the drift of the scripts, on (u, v), as a function on arrays *)
Definition on_vec (n : nat) (f : list R -> R -> list R) (w : vec) (t : R) : vec := fun i => nth i (f (vlist n w) t) 0.

Lemma nth_vlist n w i : (i < n)%nat -> nth i (vlist n w) 0 = w i.
Proof. intros H. unfold vlist. rewrite (nth_indep _ 0 (w 0%nat)) by (rewrite map_length, seq_length; exact H). now rewrite map_nth, seq_nth. Qed.
Lemma norm_logpdf_normal x m s : 0 < s -> Sde.norm_logpdf x m s = normal_logpdf x m s.
Proof.
  intros Hs. unfold Sde.norm_logpdf, normal_logpdf. pose proof PI_RGT_0. rewrite (ln_mult (2 * PI)) by (try apply Rmult_lt_0_compat; lra). rewrite (ln_mult s s) by assumption. field. lra.
Qed.
Lemma filter_densities d f b dt t u v u' v' : 0 < dt -> 0 < b t ->
  move_logpdf (d + d) f b (dt, t, vlist (d + d) (vcat d u v), vlist (d + d) (vcat d u' v')) =
  transition_logpdf d (on_vec (d + d) f) b dt u' u v t + likelihood_logpdf d (on_vec (d + d) f) b dt v' u v t.
Proof.
  intros Hdt Hb. assert (S : 0 < b t * sqrt dt) by (apply Rmult_lt_0_compat; [assumption|now apply sqrt_lt_R0]). unfold move_logpdf, transition_logpdf, likelihood_logpdf. rewrite seq_app, map_app, Rsum_app. f_equal.
  - apply Rsum_map_ext. intros i Hi. apply in_seq in Hi. rewrite norm_logpdf_normal by assumption. rewrite !nth_vlist by lia. unfold vcat at 1 2. destruct (Nat.ltb_spec i d); [|lia]. rewrite (Rmult_comm (b t)). reflexivity.
  - cbn [Nat.add]. replace (seq d d) with (map (fun i => (d + i)%nat) (seq 0 d)) by (rewrite <- (Nat.add_0_r d) at 2; generalize 0%nat; generalize d at 2 4; induction d0 as [|k IH]; intros a; cbn; [reflexivity|]; rewrite IH, Nat.add_succ_r; reflexivity).
    rewrite map_map. apply Rsum_map_ext. intros i Hi. apply in_seq in Hi. rewrite norm_logpdf_normal by assumption. rewrite !nth_vlist by lia. unfold vcat at 1 2. destruct (Nat.ltb_spec (d + i) d); [lia|]. replace (d + i - d)%nat with i by lia. rewrite (Rmult_comm (b t)). reflexivity.
Qed.
