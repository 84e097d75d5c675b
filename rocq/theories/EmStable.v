(** The chain of simulators.py:53-106 [euler_maruyama] for a drift that is Lipschitz and grows linearly:
    dependence on the initial value, and a bound of the second moment that does not depend on the grid. *)
From Coquelicot Require Import Coquelicot.
From Coq Require Import Reals List Lia Lra.
From Verif Require Sde SdeProofs Sim ResVariance.
From Verif Require Import Base Dist Prog Mat EmMoments.
Import ListNotations.
Open Scope R_scope.

(** arrays of the same length that differ by at most [e] in every entry *)
Definition near (e : R) (x y : list R) : Prop := length x = length y /\ forall i, (i < length x)%nat -> Rabs (nth i x 0 - nth i y 0) <= e.
Definition sq_norm (x : list R) : R := Rsum (map (fun a => a * a) x).

Definition ascending (ts : list R) : Prop := forall k, (S k < length ts)%nat -> nth k ts 0 <= nth (S k) ts 0.
Lemma ascending_tail t ts : ascending (t :: ts) -> ascending ts.
Proof. intros H k Hk. apply (H (S k)). cbn [length]. lia. Qed.
Lemma ascending_head t t' ts : ascending (t :: t' :: ts) -> t <= t'.
Proof. intros H. apply (H 0%nat). cbn [length]. lia. Qed.
Lemma ascending_last ts : forall t, ascending (t :: ts) -> t <= last (t :: ts) 0.
Proof.
  induction ts as [|t' ts IH]; intros t H; [cbn; lra|]. pose proof (ascending_head _ _ _ H). specialize (IH t' (ascending_tail _ _ H)).
  change (last (t :: t' :: ts) 0) with (last (t' :: ts) 0). lra.
Qed.

Lemma linspace_inside t t' n : (1 <= n)%nat -> t <= t' -> Forall (fun s => t <= s <= t') (Sde.linspace t (t' - Rabs (t' - t) / INR n) n).
Proof.
  intros Hn Ht. rewrite (linspace_left t t' n Hn Ht). apply Forall_forall. intros s Hs. apply in_map_iff in Hs as (i & <- & Hi). apply in_seq in Hi.
  assert (0 < INR n) by (apply lt_0_INR; lia). assert (INR i <= INR n) by (apply le_INR; lia). pose proof (pos_INR i).
  assert (0 <= (t' - t) / INR n) by (apply Rmult_le_pos; [lra|left; now apply Rinv_0_lt_compat]).
  assert (E : INR n * ((t' - t) / INR n) = t' - t) by (field; lra). nra.
Qed.

Lemma em_move_nth d f g ddt x t r : length (f x t) = d -> length x = d -> length r = d ->
  length (Sim.em_move f g ddt x t r) = d /\
  forall i, (i < d)%nat -> nth i (Sim.em_move f g ddt x t r) 0 = nth i x 0 + ddt * nth i (f x t) 0 + g t * sqrt ddt * nth i r 0.
Proof.
  intros Hf Hx Hr. unfold Sim.em_move, Sde.vadd.
  assert (L1 : length (Sde.vscale ddt (f x t)) = d) by now rewrite SdeProofs.length_vscale.
  assert (L2 : length (Sde.vscale (g t * sqrt ddt) r) = d) by now rewrite SdeProofs.length_vscale.
  assert (L3 : length (Sde.vmap2 Rplus x (Sde.vscale ddt (f x t))) = d) by (rewrite SdeProofs.length_vmap2; congruence).
  split; [rewrite SdeProofs.length_vmap2; congruence|]. intros i Hi.
  rewrite SdeProofs.nth_vmap2 by (congruence || lia). rewrite SdeProofs.nth_vmap2 by (congruence || lia). rewrite !SdeProofs.nth_vscale by assumption. ring.
Qed.

(** ** The initial value *)
Definition lipschitz_on (d : nat) (t0 T K : R) (f : list R -> R -> list R) : Prop :=
  forall t, t0 <= t <= T -> (forall x, length x = d -> length (f x t) = d) /\
  forall e x y, length x = d -> 0 <= e -> near e x y -> near (K * e) (f x t) (f y t).

Section start.
  Variables (d : nat) (f : list R -> R -> list R) (g : R -> R) (t0 T K : R).
  Hypothesis HK : 0 <= K.
  Hypothesis Hf : lipschitz_on d t0 T K f.

  Lemma move_near ddt t r x y e : 0 <= ddt -> t0 <= t <= T -> length r = d -> length x = d -> 0 <= e -> near e x y ->
    length (Sim.em_move f g ddt x t r) = d /\ near (exp (K * ddt) * e) (Sim.em_move f g ddt x t r) (Sim.em_move f g ddt y t r).
  Proof using HK Hf.
    intros Hd Ht Hr Hx He [Hl Hn]. destruct (Hf t Ht) as [Hlen HL]. destruct (HL e x y Hx He (conj Hl Hn)) as [Fl Fn]. assert (Hy : length y = d) by congruence.
    destruct (em_move_nth d f g ddt x t r (Hlen x Hx) Hx Hr) as [A1 A2]. destruct (em_move_nth d f g ddt y t r (Hlen y Hy) Hy Hr) as [B1 B2].
    split; [exact A1|]. split; [congruence|]. rewrite A1. intros i Hi. rewrite A2, B2 by assumption. rewrite Hlen in Fn by assumption. rewrite Hx in Hn.
    replace (_ - _) with ((nth i x 0 - nth i y 0) + ddt * (nth i (f x t) 0 - nth i (f y t) 0)) by ring.
    eapply Rle_trans; [apply Rabs_triang|]. rewrite Rabs_mult, (Rabs_pos_eq ddt) by assumption. specialize (Hn i Hi). specialize (Fn i Hi).
    pose proof (exp_lower (K * ddt)). apply Rle_trans with (e + ddt * (K * e)); [apply Rplus_le_compat; [assumption|now apply Rmult_le_compat_l]|].
    replace (e + ddt * (K * e)) with ((1 + K * ddt) * e) by ring. now apply Rmult_le_compat_r.
  Qed.

  Lemma sub_near ddt times : 0 <= ddt -> Forall (fun t => t0 <= t <= T) times -> forall rnds x y e, Forall (fun r => length r = d) rnds -> length x = d -> 0 <= e -> near e x y ->
    length (Sim.em_sub f g ddt x rnds times) = d /\ near (exp (K * (ddt * INR (length times))) * e) (Sim.em_sub f g ddt x rnds times) (Sim.em_sub f g ddt y rnds times).
  Proof using HK Hf.
    intros Hd HF. induction HF as [|t times Ht HF IH]; intros rnds x y e Hr Hx He Hn.
    - split; [destruct rnds; exact Hx|]. cbn [length INR]. replace (K * (ddt * 0)) with 0 by ring. rewrite exp_0, Rmult_1_l. destruct rnds; exact Hn.
    - assert (W : forall m, e <= exp (K * (ddt * INR m)) * e).
      { intros m. pose proof (exp_lower (K * (ddt * INR m))) as Hl. assert (0 <= K * (ddt * INR m)) by (apply Rmult_le_pos; [assumption|apply Rmult_le_pos; [assumption|apply pos_INR]]). nra. }
      destruct rnds as [|r rnds]; [split; [exact Hx|]|].
      { cbn [Sim.em_sub]. destruct Hn as [Hl Hn]. split; [assumption|]. intros i Hi. eapply Rle_trans; [now apply Hn|apply W]. }
      apply Forall_cons_iff in Hr as [Hr Hrs]. cbn [Sim.em_sub]. destruct (move_near ddt t r x y e Hd Ht Hr Hx He Hn) as [M1 M2].
      destruct (IH rnds _ _ (exp (K * ddt) * e) Hrs M1 ltac:(apply Rmult_le_pos; [left; apply exp_pos|assumption]) M2) as [I1 I2]. split; [exact I1|].
      replace (exp (K * (ddt * INR (length (t :: times)))) * e) with (exp (K * (ddt * INR (length times))) * (exp (K * ddt) * e)); [exact I2|].
      rewrite <- Rmult_assoc, <- exp_plus. f_equal. f_equal. cbn [length]. rewrite S_INR. ring.
  Qed.

  Lemma carry_near n ts : (1 <= n)%nat -> forall t rndss x y e, t0 <= t -> ascending (t :: ts) -> last (t :: ts) 0 <= T ->
    Forall (Forall (fun r => length r = d)) rndss -> length x = d -> 0 <= e -> near e x y ->
    length (Sim.em_carry f g n x (t :: ts) rndss) = d /\
    near (exp (K * (last (t :: ts) 0 - t)) * e) (Sim.em_carry f g n x (t :: ts) rndss) (Sim.em_carry f g n y (t :: ts) rndss).
  Proof using HK Hf.
    intros Hn. induction ts as [|t' ts IH]; intros t rndss x y e Ht Ha Hl Hr Hx He Hxy.
    - cbn [last Sim.em_carry]. replace (K * (t - t)) with 0 by ring. rewrite exp_0, Rmult_1_l. split; assumption.
    - pose proof (ascending_head _ _ _ Ha) as Htt. pose proof (ascending_last _ _ (ascending_tail _ _ Ha)) as Hll. pose proof (ascending_last _ _ Ha) as Hl0. change (last (t :: t' :: ts) 0) with (last (t' :: ts) 0) in *.
      destruct rndss as [|r rs].
      { split; [exact Hx|]. destruct Hxy as [H1 H2]. split; [assumption|]. intros i Hi. eapply Rle_trans; [now apply H2|].
        pose proof (exp_lower (K * (last (t' :: ts) 0 - t))). assert (0 <= K * (last (t' :: ts) 0 - t)) by (apply Rmult_le_pos; lra). nra. }
      apply Forall_cons_iff in Hr as [Hr Hrs]. rewrite !Sim.em_carry_cons. unfold Sim.em_step. cbv zeta.
      assert (0 < INR n) by (apply lt_0_INR; lia).
      destruct (sub_near (Rabs (t' - t) / INR n) (Sde.linspace t (t' - Rabs (t' - t) / INR n) n) ltac:(apply Rmult_le_pos; [apply Rabs_pos|left; now apply Rinv_0_lt_compat])
        ltac:(eapply Forall_impl; [|exact (linspace_inside t t' n Hn Htt)]; cbv beta; intros; lra) r x y e Hr Hx He Hxy) as [S1 S2].
      rewrite Sim.length_linspace in S2. replace (Rabs (t' - t) / INR n * INR n) with (t' - t) in S2 by (rewrite Rabs_pos_eq by lra; field; lra).
      destruct (IH t' rs _ _ (exp (K * (t' - t)) * e) ltac:(lra) (ascending_tail _ _ Ha) Hl Hrs S1 ltac:(apply Rmult_le_pos; [left; apply exp_pos|assumption]) S2) as [I1 I2].
      split; [exact I1|]. replace (exp (K * (last (t' :: ts) 0 - t)) * e) with (exp (K * (last (t' :: ts) 0 - t')) * (exp (K * (t' - t)) * e)); [exact I2|].
      rewrite <- Rmult_assoc, <- exp_plus. f_equal. f_equal. ring.
  Qed.
End start.

(** ** The second moment *)
Lemma sq_norm_seq x d : length x = d -> sq_norm x = Rsum (map (fun i => nth i x 0 * nth i x 0) (seq 0 d)).
Proof.
  intros <-. unfold sq_norm. induction x as [|a x IH]; [reflexivity|]. cbn [map length seq Rsum nth]. rewrite IH. f_equal. rewrite <- seq_shift, map_map. reflexivity.
Qed.
Lemma sq_norm_nonneg x : 0 <= sq_norm x.
Proof. unfold sq_norm. induction x as [|a x IH]; cbn [map Rsum]; nra. Qed.
Lemma nth_sq_norm x i : (i < length x)%nat -> Rabs (nth i x 0) <= sqrt (sq_norm x).
Proof.
  intros Hi. rewrite <- sqrt_Rsqr_abs. apply sqrt_le_1_alt. revert i Hi. unfold sq_norm. induction x as [|a x IH]; intros i Hi; [cbn in Hi; lia|].
  pose proof (sq_norm_nonneg x) as Hn. unfold sq_norm in Hn. cbn [map Rsum]. destruct i as [|i]; cbn [nth]; [unfold Rsqr; lra|]. specialize (IH i ltac:(cbn [length] in Hi; lia)). nra.
Qed.

Definition grows_on (d : nat) (t0 T a k : R) (f : list R -> R -> list R) : Prop :=
  forall t, t0 <= t <= T -> forall x, length x = d -> length (f x t) = d /\
  forall M, 0 <= M -> (forall i, (i < d)%nat -> Rabs (nth i x 0) <= M) -> forall i, (i < d)%nat -> Rabs (nth i (f x t) 0) <= a + k * M.

Section moment.
  Variables (d : nat) (f : list R -> R -> list R) (g : R -> R) (N : dist (list R)) (t0 T a k G : R).
  Hypothesis Ha : 0 <= a.
  Hypothesis Hk : 0 <= k.
  Hypothesis HT : t0 <= T.
  Hypothesis Hf : grows_on d t0 T a k f.
  Hypothesis Hg : forall t, t0 <= t <= T -> g t ^ 2 <= G.
  Hypothesis HN : has_moments d N (fun _ => 0) mid.

  Definition rate : R := 1 + (1 + (T - t0)) * (2 * INR d * k ^ 2).
  Definition source : R := (1 + (T - t0)) * (2 * INR d * a ^ 2) + G * INR d.
  Lemma rate_nonneg : 0 <= rate.
  Proof using HT. unfold rate. pose proof (pos_INR d). pose proof (pow2_ge_0 k). assert (0 <= 2 * INR d * k ^ 2) by nra. nra. Qed.
  Lemma source_nonneg : 0 <= source.
  Proof using HT Hg. unfold source. pose proof (pos_INR d). pose proof (pow2_ge_0 a). assert (0 <= 2 * INR d * a ^ 2) by nra. specialize (Hg t0 ltac:(lra)). pose proof (pow2_ge_0 (g t0)). nra. Qed.

  Lemma drift_sq t x : t0 <= t <= T -> length x = d -> sq_norm (f x t) <= 2 * INR d * a ^ 2 + 2 * INR d * k ^ 2 * sq_norm x.
  Proof using Hf Ha Hk.
    intros Ht Hx. destruct (Hf t Ht x Hx) as [Hl HB]. rewrite (sq_norm_seq _ d Hl).
    assert (B : forall i, (i < d)%nat -> nth i (f x t) 0 * nth i (f x t) 0 <= 2 * a ^ 2 + 2 * k ^ 2 * sq_norm x).
    { intros i Hi. specialize (HB (sqrt (sq_norm x)) (sqrt_pos _) ltac:(intros j Hj; apply nth_sq_norm; lia) i Hi). pose proof (Rabs_pos (nth i (f x t) 0)).
      replace (nth i (f x t) 0 * nth i (f x t) 0) with (Rabs (nth i (f x t) 0) * Rabs (nth i (f x t) 0)) by (rewrite <- Rabs_mult, Rabs_pos_eq; [reflexivity|apply Rle_0_sqr]).
      apply Rle_trans with ((a + k * sqrt (sq_norm x)) * (a + k * sqrt (sq_norm x))); [apply Rmult_le_compat; assumption|].
      pose proof (sqrt_sqrt (sq_norm x) (sq_norm_nonneg x)) as S. set (r := sqrt (sq_norm x)) in *. rewrite <- S. pose proof (pow2_ge_0 (a - k * r)). nra. }
    apply Rle_trans with (Rsum (map (fun _ => 2 * a ^ 2 + 2 * k ^ 2 * sq_norm x) (seq 0 d))); [apply Rsum_map_le; intros i Hi; apply in_seq in Hi; apply B; lia|].
    rewrite Rsum_map_const, seq_length. right. ring.
  Qed.

  Definition law_ok (D : dist (list R)) : Prop := is_prob D /\ forall x, In x (map snd D) -> length x = d.
  Lemma step_ok ddt t D : t0 <= t <= T -> law_ok D -> law_ok (step_law f g N ddt t D).
  Proof using Hf HN.
    intros Ht [Dp Dl]. destruct HN as (Np & Nl & _). split.
    - unfold step_law. apply is_prob_dbind; [exact Dp|]. intros. now apply is_prob_dmap.
    - intros x Hx. apply in_dbind in Hx as (y & Hy & Hx). apply in_dmap in Hx as (r & Hr & ->). apply (em_move_nth d); [apply Hf; auto|auto|auto].
  Qed.
  Lemma step_moment ddt t D : 0 <= ddt <= T - t0 -> t0 <= t <= T -> law_ok D ->
    E (step_law f g N ddt t D) sq_norm <= (1 + ddt * rate) * E D sq_norm + ddt * source.
  Proof using Hf HN Ha Hk HT Hg.
    intros Hd Ht [Dp Dl]. pose proof HN as (Np & Nl & Nm & Nc). rewrite E_step_law.
    apply Rle_trans with (E D (fun x => (1 + ddt * rate) * sq_norm x + ddt * source)); [|rewrite E_plus, E_mult_l, E_const by assumption; lra].
    apply ResVariance.E_le; [apply Dp|]. intros x Hx. pose proof (Dl x Hx) as Hlx. destruct (Hf t Ht x Hlx) as [Hfl _]. pose proof (drift_sq t x Ht Hlx) as HB.
    set (sg := g t * sqrt ddt). assert (Hsg : sg * sg = g t ^ 2 * ddt) by (unfold sg; transitivity (g t ^ 2 * (sqrt ddt * sqrt ddt)); [ring|]; now rewrite sqrt_sqrt by lra).
    assert (E1 : E N (fun r => sq_norm (Sim.em_move f g ddt x t r)) = Rsum (map (fun i => (nth i x 0 + ddt * nth i (f x t) 0) * (nth i x 0 + ddt * nth i (f x t) 0) + g t ^ 2 * ddt) (seq 0 d))).
    { transitivity (E N (fun r => Rsum (map (fun i => (nth i x 0 + ddt * nth i (f x t) 0) * (nth i x 0 + ddt * nth i (f x t) 0) + (2 * (nth i x 0 + ddt * nth i (f x t) 0) * sg * nth i r 0 + sg * sg * ((nth i r 0 - 0) * (nth i r 0 - 0)))) (seq 0 d)))).
      - apply E_ext. intros r Hr. destruct (em_move_nth d f g ddt x t r Hfl Hlx (Nl r Hr)) as [M1 M2]. rewrite (sq_norm_seq _ d M1). apply Rsum_map_ext. intros i Hi. apply in_seq in Hi. rewrite M2 by lia. fold sg. ring.
      - rewrite E_Rsum. apply Rsum_map_ext. intros i Hi. apply in_seq in Hi. rewrite !E_plus, E_const, !E_mult_l, Nm, Nc by (assumption || lia). rewrite Hsg. unfold mid. rewrite Nat.eqb_refl. ring. }
    rewrite E1, Rsum_map_plus, Rsum_map_const, seq_length.
    assert (E2 : Rsum (map (fun i => (nth i x 0 + ddt * nth i (f x t) 0) * (nth i x 0 + ddt * nth i (f x t) 0)) (seq 0 d)) <= (1 + ddt) * sq_norm x + ddt * (1 + ddt) * sq_norm (f x t)).
    { rewrite (sq_norm_seq x d Hlx), (sq_norm_seq _ d Hfl), <- !Rsum_map_mult_l, <- Rsum_map_plus. apply Rsum_map_le. intros i _.
      set (p := nth i x 0). set (q := nth i (f x t) 0). pose proof (Rle_0_sqr (p - q)) as S. unfold Rsqr in S. nra. }
    eapply Rle_trans; [apply Rplus_le_compat_r; exact E2|]. pose proof (Hg t Ht) as HG. pose proof (pos_INR d) as Hd0. pose proof (sq_norm_nonneg x) as Hx0. pose proof (sq_norm_nonneg (f x t)) as Hf0.
    assert (S1 : ddt * (1 + ddt) * sq_norm (f x t) <= ddt * ((1 + (T - t0)) * (2 * INR d * a ^ 2 + 2 * INR d * k ^ 2 * sq_norm x))).
    { rewrite Rmult_assoc. apply Rmult_le_compat_l; [lra|]. apply Rmult_le_compat; lra. }
    assert (S2 : INR d * (g t ^ 2 * ddt) <= ddt * (G * INR d)) by (replace (INR d * (g t ^ 2 * ddt)) with (ddt * (g t ^ 2 * INR d)) by ring; apply Rmult_le_compat_l; [lra|]; now apply Rmult_le_compat_r).
    unfold rate, source. nra.
  Qed.

  Definition moment_bound (e t : R) : R := exp (rate * (t - t0)) * (e + source * (t - t0)).
  Lemma moment_bound_step e t ddt : 0 <= ddt -> t0 <= t -> 0 <= e -> (1 + ddt * rate) * moment_bound e t + ddt * source <= moment_bound e (t + ddt).
  Proof using HT Hg.
    intros Hd Ht He. pose proof rate_nonneg as Hr. pose proof source_nonneg as Hs. unfold moment_bound. replace (rate * (t + ddt - t0)) with (rate * ddt + rate * (t - t0)) by ring. rewrite exp_plus.
    set (A := exp (rate * (t - t0))). assert (1 <= A) by (unfold A; pose proof (exp_lower (rate * (t - t0))); assert (0 <= rate * (t - t0)) by (apply Rmult_le_pos; lra); lra).
    pose proof (exp_lower (rate * ddt)) as Hl. set (B := exp (rate * ddt)) in *. assert (0 <= rate * ddt) by (apply Rmult_le_pos; lra).
    set (V := e + source * (t - t0)). assert (0 <= V) by (unfold V; apply Rplus_le_le_0_compat; [assumption|apply Rmult_le_pos; lra]).
    replace (B * A * (e + source * (t + ddt - t0))) with (B * (A * V) + B * A * (source * ddt)) by (unfold V; ring).
    assert (0 <= A * V) by nra. assert (0 <= source * ddt) by (apply Rmult_le_pos; lra). assert (1 <= B * A) by nra.
    apply Rplus_le_compat; [apply Rmult_le_compat_r; lra|]. nra.
  Qed.
  Definition bounded_at (e t : R) (D : dist (list R)) : Prop := law_ok D /\ E D sq_norm <= moment_bound e t.

  Lemma sub_bounded e t ddt : 0 <= e -> 0 <= ddt <= T - t0 -> t0 <= t -> forall m i D, t + INR (i + m) * ddt <= T -> bounded_at e (t + INR i * ddt) D ->
    bounded_at e (t + INR (i + m) * ddt) (sub_law f g N ddt (map (fun i => t + INR i * ddt) (seq i m)) D).
  Proof using Hf HN Ha Hk HT Hg.
    intros He Hd Ht. induction m as [|m IH]; intros i D Hm HD; [rewrite Nat.add_0_r; exact HD|]. cbn [seq map sub_law].
    assert (Hi0 : 0 <= INR i * ddt) by (apply Rmult_le_pos; [apply pos_INR|lra]). assert (Him : INR i * ddt <= INR (i + S m) * ddt) by (apply Rmult_le_compat_r; [lra|apply le_INR; lia]).
    replace (i + S m)%nat with (S i + m)%nat in * by lia. apply IH; [assumption|]. destruct HD as [Dok HD]. split; [apply step_ok; [lra|assumption]|].
    eapply Rle_trans; [apply step_moment; [lra|lra|assumption]|]. rewrite S_INR. replace (t + (INR i + 1) * ddt) with (t + INR i * ddt + ddt) by ring.
    eapply Rle_trans; [|apply moment_bound_step; lra]. apply Rplus_le_compat_r. apply Rmult_le_compat_l; [|assumption]. pose proof rate_nonneg. nra.
  Qed.

  Lemma chain_bounded e n ts : 0 <= e -> (1 <= n)%nat -> forall t D, t0 <= t -> ascending (t :: ts) -> last (t :: ts) 0 <= T -> bounded_at e t D ->
    bounded_at e (last (t :: ts) 0) (chain_law f g N n (t :: ts) D).
  Proof using Hf HN Ha Hk HT Hg.
    intros He Hn. induction ts as [|t' ts IH]; intros t D Ht Has Hl HD; [exact HD|].
    pose proof (ascending_head _ _ _ Has) as Htt. pose proof (ascending_last _ _ (ascending_tail _ _ Has)) as Hll. change (last (t :: t' :: ts) 0) with (last (t' :: ts) 0) in *.
    change (chain_law f g N n (t :: t' :: ts) D) with (chain_law f g N n (t' :: ts) (sub_law f g N (Rabs (t' - t) / INR n) (Sde.linspace t (t' - Rabs (t' - t) / INR n) n) D)).
    assert (Hn' : 0 < INR n) by (apply lt_0_INR; lia). apply IH; [lra|now apply ascending_tail in Has|assumption|]. rewrite (linspace_left t t' n Hn Htt), Rabs_pos_eq by lra.
    assert (Hn1 : 1 <= INR n) by (apply (le_INR 1); lia). assert (Eq : INR n * ((t' - t) / INR n) = t' - t) by (field; lra).
    assert (H0 : 0 <= (t' - t) / INR n) by (apply Rmult_le_pos; [lra|left; now apply Rinv_0_lt_compat]).
    pose proof (sub_bounded e t ((t' - t) / INR n) He ltac:(split; [assumption|nra]) Ht n 0 D) as S. cbn [Nat.add INR] in S. rewrite Eq, Rmult_0_l, Rplus_0_r in S.
    replace (t + (t' - t)) with t' in S by ring. apply S; [lra|assumption].
  Qed.
End moment.
