(** Mean and covariance of the chain of simulators.py:53-106 [euler_maruyama] when the drift is
    affine in the state, for any number of sub-steps and any grid, and their distance to a pair
    (mean, covariance) that follows the moment equations of the SDE.

    The standard normal rows are any finite law with mean zero and identity covariance, as in Toy.v. *)
From Coquelicot Require Import Coquelicot.
From Coq Require Import Reals List Lia Lra Morphisms Setoid FunctionalExtensionality.
From Verif Require Sde SdeProofs SdeMore Sim SimMore.
From Verif Require Import Base Dist Prog Mat MatMore Cholesky GaussDiv GaussCond GaussSBMore.
Import ListNotations.
Open Scope R_scope.

Definition vec_of (x : list R) : vec := fun i => nth i x 0.

(** A law of arrays of length [d] with mean [m] and covariance [S]. *)
Definition has_moments (d : nat) (D : dist (list R)) (m : vec) (S : mat) : Prop :=
  is_prob D /\ (forall x, In x (map snd D) -> length x = d) /\
  (forall i, (i < d)%nat -> E D (fun x => nth i x 0) = m i) /\
  (forall i j, (i < d)%nat -> (j < d)%nat -> E D (fun x => (nth i x 0 - m i) * (nth j x 0 - m j)) = S i j).

(** The array function [f] is, at time [t], the vector function [b], which is affine with matrix [A]. *)
Definition drift_is (d : nat) (f : list R -> R -> list R) (b : vec -> R -> vec) (t : R) : Prop :=
  forall x, length x = d -> length (f x t) = d /\ forall i, (i < d)%nat -> nth i (f x t) 0 = b (vec_of x) t i.
Definition affine_at (d : nat) (b : vec -> R -> vec) (t : R) (A : mat) : Prop :=
  forall x x', veq d (vsub (b x t) (b x' t)) (mvec d A (vsub x x')).

(** ** One sub-step *)
Definition step_law (f : list R -> R -> list R) (g : R -> R) (N : dist (list R)) (ddt t : R) (D : dist (list R)) : dist (list R) :=
  dbind D (fun x => dmap (fun r => Sim.em_move f g ddt x t r) N).

Lemma E_step_law f g N ddt t D F : E (step_law f g N ddt t D) F = E D (fun x => E N (fun r => F (Sim.em_move f g ddt x t r))).
Proof. unfold step_law. rewrite E_dbind. apply E_ext'. intros x. apply E_dmap. Qed.

Lemma em_move_shape d f b g ddt x t r : drift_is d f b t -> length x = d -> length r = d ->
  length (Sim.em_move f g ddt x t r) = d /\
  forall i, (i < d)%nat -> nth i (Sim.em_move f g ddt x t r) 0 = nth i x 0 + ddt * b (vec_of x) t i + g t * sqrt ddt * nth i r 0.
Proof.
  intros Hf Hx Hr. destruct (Hf x Hx) as [Hl Hn]. unfold Sim.em_move, Sde.vadd.
  assert (L1 : length (Sde.vscale ddt (f x t)) = d) by now rewrite SdeProofs.length_vscale.
  assert (L2 : length (Sde.vscale (g t * sqrt ddt) r) = d) by now rewrite SdeProofs.length_vscale.
  assert (L3 : length (Sde.vmap2 Rplus x (Sde.vscale ddt (f x t))) = d) by (rewrite SdeProofs.length_vmap2; congruence).
  split; [rewrite SdeProofs.length_vmap2; congruence|]. intros i Hi.
  rewrite SdeProofs.nth_vmap2 by (congruence || lia). rewrite SdeProofs.nth_vmap2 by (congruence || lia). rewrite !SdeProofs.nth_vscale, Hn by assumption. ring.
Qed.

Lemma in_dbind {A B} (d : dist A) (k : A -> dist B) b : In b (map snd (dbind d k)) -> exists a, In a (map snd d) /\ In b (map snd (k a)).
Proof.
  unfold dbind. intros H. apply in_map_iff in H as ([p b'] & <- & H). apply in_flat_map in H as ([q a] & Ha & H).
  exists a. split; [now apply (in_map snd) in Ha|]. apply in_map_iff in H as ([r c] & E & H). cbn in E. injection E as _ <-. now apply (in_map snd) in H.
Qed.
Lemma in_dmap {A B} (g : A -> B) (d : dist A) b : In b (map snd (dmap g d)) -> exists a, In a (map snd d) /\ b = g a.
Proof.
  unfold dmap. rewrite map_map. intros H. apply in_map_iff in H as ([p a] & <- & H). exists a. split; [now apply (in_map snd) in H|reflexivity].
Qed.

Lemma affine_mean d b t A (D : dist (list R)) m S i : affine_at d b t A -> has_moments d D m S -> (i < d)%nat -> E D (fun x => b (vec_of x) t i) = b m t i.
Proof.
  intros HA (Hp & _ & Hm & _) Hi.
  transitivity (E D (fun x => b m t i + mvec d A (vsub (vec_of x) m) i)).
  - apply E_ext'. intros x. pose proof (HA (vec_of x) m i Hi) as H. unfold vsub at 1 in H. lra.
  - rewrite E_plus, E_const by exact Hp. unfold mvec. rewrite E_Rsum.
    rewrite (Rsum_map_ext _ (fun _ => 0)); [rewrite Rsum_map_const; ring|]. intros k Hk. apply in_seq in Hk.
    rewrite E_mult_l. unfold vsub, vec_of, Rminus. rewrite E_plus, Hm, E_const by (lia || exact Hp). ring.
Qed.

Definition next_mean (b : vec -> R -> vec) (ddt t : R) (m : vec) : vec := fun i => m i + ddt * b m t i.
Definition next_cov (d : nat) (A : mat) (g ddt : R) (S : mat) : mat := fun i j =>
  S i j + ddt * (mmul d A S i j + mmul d S (mtr A) i j + g ^ 2 * mid i j) + ddt ^ 2 * mmul d A (mmul d S (mtr A)) i j.

Lemma step_moments d f b g N ddt t A D m S : 0 <= ddt -> drift_is d f b t -> affine_at d b t A ->
  has_moments d N (fun _ => 0) mid -> has_moments d D m S ->
  has_moments d (step_law f g N ddt t D) (next_mean b ddt t m) (next_cov d A (g t) ddt S).
Proof.
  intros Hdt Hf HA HN HD. pose proof HN as (Np & Nl & Nm & Nc). pose proof HD as (Dp & Dl & Dm & Dc).
  set (G := madd mid (mscale ddt A)). set (sg := g t * sqrt ddt).
  assert (Hsg : sg * sg = g t ^ 2 * ddt).
  { unfold sg. transitivity (g t ^ 2 * (sqrt ddt * sqrt ddt)); [ring|]. now rewrite sqrt_sqrt. }
  assert (Hdev : forall x r i, length x = d -> length r = d -> (i < d)%nat ->
    nth i (Sim.em_move f g ddt x t r) 0 - next_mean b ddt t m i = mvec d G (vsub (vec_of x) m) i + sg * nth i r 0).
  { intros x r i Hx Hr Hi. destruct (em_move_shape d f b g ddt x t r Hf Hx Hr) as [_ Hn]. rewrite Hn by assumption.
    unfold G, mvec. rewrite (Rsum_map_ext _ (fun k => mid i k * vsub (vec_of x) m k + ddt * (A i k * vsub (vec_of x) m k))) by (intros; unfold madd, mscale; ring).
    rewrite Rsum_map_plus, Rsum_map_mult_l. fold (mvec d mid (vsub (vec_of x) m) i). fold (mvec d A (vsub (vec_of x) m) i).
    rewrite (mvec_id d _ i Hi). rewrite <- (HA (vec_of x) m i Hi). unfold next_mean, vsub, vec_of. unfold sg. ring. }
  split; [|split; [|split]].
  - unfold step_law. apply is_prob_dbind; [exact Dp|]. intros. now apply is_prob_dmap.
  - intros x Hx. apply in_dbind in Hx as (y & Hy & Hx). apply in_dmap in Hx as (r & Hr & ->). eapply em_move_shape; eauto.
  - intros i Hi. rewrite E_step_law.
    transitivity (E D (fun x => nth i x 0 + ddt * b (vec_of x) t i)).
    + apply E_ext. intros x Hx.
      transitivity (E N (fun r => (nth i x 0 + ddt * b (vec_of x) t i) + sg * nth i r 0)).
      * apply E_ext. intros r Hr. destruct (em_move_shape d f b g ddt x t r Hf (Dl x Hx) (Nl r Hr)) as [_ Hn]. now apply Hn.
      * rewrite E_plus, E_const, E_mult_l, Nm by assumption. ring.
    + rewrite E_plus, E_mult_l, Dm by assumption. rewrite (affine_mean d b t A D m S i HA HD Hi). reflexivity.
  - intros i j Hi Hj. rewrite E_step_law.
    transitivity (E D (fun x => mvec d G (vsub (vec_of x) m) i * mvec d G (vsub (vec_of x) m) j + g t ^ 2 * ddt * mid i j)).
    + apply E_ext. intros x Hx. set (Yi := mvec d G (vsub (vec_of x) m) i). set (Yj := mvec d G (vsub (vec_of x) m) j).
      transitivity (E N (fun r => Yi * Yj + (Yi * sg * nth j r 0 + (Yj * sg * nth i r 0 + sg * sg * ((nth i r 0 - 0) * (nth j r 0 - 0)))))).
      * apply E_ext. intros r Hr. rewrite !Hdev by auto. fold Yi Yj. ring.
      * rewrite !E_plus, E_const, !E_mult_l, !Nm, Nc, Hsg by assumption. ring.
    + rewrite E_plus, (E_const _ D Dp).
      pose proof (E_bilinear d D (fun x => vsub (vec_of x) m) (fun x => vsub (vec_of x) m) S (fun k => G i k) (fun k => G j k) Dc) as HB.
      change (E D (fun x => mvec d G (vsub (vec_of x) m) i * mvec d G (vsub (vec_of x) m) j) = mmul d G (mmul d S (mtr G)) i j) in HB. rewrite HB.
      assert (E0 : mmul d G (mmul d S (mtr G)) i j = mmul d S (mtr G) i j + ddt * mmul d A (mmul d S (mtr G)) i j).
      { unfold G at 1. rewrite mmul_add_l, mmul_scale_l, mmul_id_l by exact Hi. reflexivity. }
      assert (E1 : forall k, (k < d)%nat -> mmul d S (mtr G) k j = S k j + ddt * mmul d S (mtr A) k j).
      { intros k Hk. change (mtr G) with (madd (mtr mid) (mscale ddt (mtr A))). rewrite mmul_add_r, mmul_scale_r.
        rewrite (mmul_proper d S S (reflexivity _) (mtr mid) mid (mtr_mid d) k j Hk Hj), mmul_id_r by exact Hj. reflexivity. }
      rewrite E0, E1 by exact Hi. unfold mmul at 2. rewrite (Rsum_map_ext _ (fun k => A i k * S k j + ddt * (A i k * mmul d S (mtr A) k j))).
      2:{ intros k Hk. apply in_seq in Hk. rewrite E1 by lia. ring. }
      rewrite Rsum_map_plus, Rsum_map_mult_l. fold (mmul d A S i j). fold (mmul d A (mmul d S (mtr A)) i j). unfold next_cov. ring.
Qed.

(** ** The law of the whole chain *)
Fixpoint sub_law (f : list R -> R -> list R) (g : R -> R) (N : dist (list R)) (ddt : R) (times : list R) (D : dist (list R)) : dist (list R) :=
  match times with [] => D | t :: times' => sub_law f g N ddt times' (step_law f g N ddt t D) end.
Fixpoint chain_law (f : list R -> R -> list R) (g : R -> R) (N : dist (list R)) (n : nat) (ts : list R) (D : dist (list R)) : dist (list R) :=
  match ts with
  | t :: ((t' :: _) as ts') => let ddt := Rabs (t' - t) / INR n in
      chain_law f g N n ts' (sub_law f g N ddt (Sde.linspace t (t' - ddt) n) D)
  | _ => D
  end.

Lemma E_sub_law f g N ddt times : forall D F,
  E (sub_law f g N ddt times D) F = E D (fun x => E (dseq (repeat N (length times))) (fun rnds => F (Sim.em_sub f g ddt x rnds times))).
Proof.
  induction times as [|t times IH]; intros D F; cbn [sub_law length repeat].
  - apply E_ext'. intros x. cbn [dseq]. now rewrite E_dret.
  - rewrite IH, E_step_law. apply E_ext'. intros x. rewrite E_dseq_cons. reflexivity.
Qed.

Lemma E_chain_law f g N n ts : forall D F,
  E (chain_law f g N n ts D) F =
  E D (fun x => E (dseq (repeat (dseq (repeat N n)) (length ts - 1))) (fun rndss => F (Sim.em_terminal f g n x ts rndss))).
Proof.
  induction ts as [|t ts IH]; intros D F.
  - cbn [chain_law length repeat Nat.sub dseq]. apply E_ext'. intros x. now rewrite E_dret.
  - destruct ts as [|t' ts]; [cbn [chain_law length repeat Nat.sub dseq]; apply E_ext'; intros x; now rewrite E_dret|].
    change (chain_law f g N n (t :: t' :: ts) D) with (chain_law f g N n (t' :: ts) (sub_law f g N (Rabs (t' - t) / INR n) (Sde.linspace t (t' - Rabs (t' - t) / INR n) n) D)).
    rewrite IH, E_sub_law, Sim.length_linspace. apply E_ext'. intros x.
    replace (length (t :: t' :: ts) - 1)%nat with (S (length (t' :: ts) - 1)) by (cbn [length]; lia). cbn [repeat]. rewrite E_dseq_cons. reflexivity.
Qed.

(** the noise of [euler_maruyama], one key per interval *)
Lemma em_draws_law normal k n d N : (forall k, denotes (normal k n d) (dseq (repeat N n))) ->
  forall m i, denotes (Sim.em_draws normal k i m n d) (dseq (repeat (dseq (repeat N n)) m)).
Proof.
  intros H. induction m as [|m IH]; intros i F; cbn [Sim.em_draws repeat]; [cbn [law dseq]; now rewrite E_dret|].
  rewrite law_bind, (H (split_key k i)), E_dseq_cons. apply E_ext'. intros r. rewrite law_bind, (IH (S i)). reflexivity.
Qed.
Lemma em_terminal_law normal k n d N x ts f g F : length x = d -> (forall k, denotes (normal k n d) (dseq (repeat N n))) ->
  law (Sim.euler_maruyama_terminal normal k x ts f g n) F =
  E (dseq (repeat (dseq (repeat N n)) (length ts - 1))) (fun rndss => F (Sim.em_terminal f g n x ts rndss)).
Proof.
  intros Hx H. unfold Sim.euler_maruyama_terminal. rewrite law_bind, Hx, (em_draws_law normal k n d N H). reflexivity.
Qed.

(** ** Distance to the solution of the moment equations *)
Lemma Rsum_abs_le (a y : nat -> R) d M : (forall k, (k < d)%nat -> Rabs (y k) <= M) ->
  Rabs (Rsum (map (fun k => a k * y k) (seq 0 d))) <= Rsum (map (fun k => Rabs (a k)) (seq 0 d)) * M.
Proof.
  intros H. rewrite <- Rsum_map_mult_r. apply Rle_trans with (Rsum (map (fun k => Rabs (a k * y k)) (seq 0 d))).
  - generalize (seq 0 d) as l. induction l as [|k l IH]; simpl; [rewrite Rabs_R0; lra|].
    eapply Rle_trans; [apply Rabs_triang|]. lra.
  - apply Rsum_map_le. intros k Hk. apply in_seq in Hk. rewrite Rabs_mult. apply Rmult_le_compat_l; [apply Rabs_pos|]. apply H. lia.
Qed.

Definition row_bound (d : nat) (A : mat) (Lam : R) : Prop := forall i, (i < d)%nat -> Rsum (map (fun k => Rabs (A i k)) (seq 0 d)) <= Lam.

Section bounds.
Variables (d : nat) (A : mat) (Lam : R).
Hypothesis HA : row_bound d A Lam.
Lemma mvec_bound y M i : (i < d)%nat -> 0 <= M -> (forall k, (k < d)%nat -> Rabs (y k) <= M) -> Rabs (mvec d A y i) <= Lam * M.
Proof. intros Hi HM H. eapply Rle_trans; [apply Rsum_abs_le, H|]. apply Rmult_le_compat_r; [exact HM|now apply HA]. Qed.
Lemma mmul_bound_l S M i j : (i < d)%nat -> (j < d)%nat -> 0 <= M -> (forall i j, (i < d)%nat -> (j < d)%nat -> Rabs (S i j) <= M) -> Rabs (mmul d A S i j) <= Lam * M.
Proof. intros Hi Hj HM H. apply (mvec_bound (fun k => S k j)); auto. Qed.
Lemma mmul_bound_r S M i j : (i < d)%nat -> (j < d)%nat -> 0 <= M -> (forall i j, (i < d)%nat -> (j < d)%nat -> Rabs (S i j) <= M) -> Rabs (mmul d S (mtr A) i j) <= Lam * M.
Proof.
  intros Hi Hj HM H. replace (mmul d S (mtr A) i j) with (mvec d A (fun k => S i k) j); [apply mvec_bound; auto|].
  unfold mvec, mmul, mtr. apply Rsum_map_ext. intros; ring.
Qed.
End bounds.

(** [m], [P] solve the moment equations up to a second-order remainder, on [t, T] *)
Definition flow_at (d : nat) (b : vec -> R -> vec) (g : R -> R) (m : R -> vec) (P : R -> mat) (Lam C V T t : R) : Prop :=
  exists A, affine_at d b t A /\ row_bound d A Lam /\
    (forall i j, (i < d)%nat -> (j < d)%nat -> Rabs (P t i j) <= V) /\
    forall s, t <= s <= T ->
      (forall i, (i < d)%nat -> Rabs (m s i - m t i - (s - t) * b (m t) t i) <= C * (s - t) ^ 2) /\
      (forall i j, (i < d)%nat -> (j < d)%nat ->
         Rabs (P s i j - P t i j - (s - t) * (mmul d A (P t) i j + mmul d (P t) (mtr A) i j + g t ^ 2 * mid i j)) <= C * (s - t) ^ 2).

Section converge.
Variables (d : nat) (f : list R -> R -> list R) (b : vec -> R -> vec) (g : R -> R) (N : dist (list R)) (m : R -> vec) (P : R -> mat).
Variables (Lam C V h t0 T e0 e1 : R).
Hypothesis HLam : 0 <= Lam.
Hypothesis HC : 0 <= C.
Hypothesis HV : 0 <= V.
Hypothesis He0 : 0 <= e0.
Hypothesis He1 : 0 <= e1.
Hypothesis HN : has_moments d N (fun _ => 0) mid.
Hypothesis Hf : forall t, t0 <= t < T -> drift_is d f b t.
Hypothesis Hflow : forall t, t0 <= t < T -> flow_at d b g m P Lam C V T t.

Definition bound (La c e t : R) : R := exp (La * (t - t0)) * (e + c * h * (t - t0)).
Definition close (t : R) (D : dist (list R)) : Prop := exists mh Sh, has_moments d D mh Sh /\
  (forall i, (i < d)%nat -> Rabs (mh i - m t i) <= bound Lam C e0 t) /\
  (forall i j, (i < d)%nat -> (j < d)%nat -> Rabs (Sh i j - P t i j) <= bound (2 * Lam) (C + Lam ^ 2 * V) e1 t).

Lemma bound_nonneg La c e t : 0 <= c -> 0 <= h -> 0 <= e -> t0 <= t -> 0 <= bound La c e t.
Proof.
  intros Hc Hh He Ht. apply Rmult_le_pos; [left; apply exp_pos|]. apply Rplus_le_le_0_compat; [exact He|].
  apply Rmult_le_pos; [now apply Rmult_le_pos|lra].
Qed.
Lemma bound_step La c e t ddt : 0 <= La -> 0 <= c -> 0 <= ddt <= h -> t0 <= t ->
  exp (La * ddt) * bound La c e t + c * ddt ^ 2 <= bound La c e (t + ddt).
Proof.
  intros HL Hc Hd Ht. unfold bound. replace (La * (t + ddt - t0)) with (La * ddt + La * (t - t0)) by ring. rewrite exp_plus.
  set (X := exp (La * ddt)). set (Y := exp (La * (t - t0))).
  assert (HX : 1 <= X) by (apply SdeProofs.exp_ge1; apply Rmult_le_pos; lra). assert (HY : 1 <= Y) by (apply SdeProofs.exp_ge1; apply Rmult_le_pos; lra).
  assert (HXY : 1 <= X * Y) by (replace 1 with (1 * 1) by ring; apply Rmult_le_compat; lra).
  assert (H1 : c * ddt ^ 2 <= c * h * ddt) by (replace (c * ddt ^ 2) with (c * ddt * ddt) by ring; apply Rmult_le_compat_r; [lra|]; apply Rmult_le_compat_l; lra).
  assert (H2 : c * h * ddt <= X * Y * (c * h * ddt)).
  { rewrite <- (Rmult_1_l (c * h * ddt)) at 1. apply Rmult_le_compat_r; [|exact HXY]. apply Rmult_le_pos; [apply Rmult_le_pos|]; lra. }
  replace (X * Y * (e + c * h * (t + ddt - t0))) with (X * (Y * (e + c * h * (t - t0))) + X * Y * (c * h * ddt)) by ring. lra.
Qed.
Lemma exp_lower x : 1 + x <= exp x.
Proof. destruct (Req_dec x 0) as [ ->|Hx]; [rewrite exp_0; lra|]. left. now apply exp_ineq1. Qed.

Lemma close_step t ddt D : t0 <= t -> 0 <= ddt <= h -> t + ddt <= T -> t < T -> close t D -> close (t + ddt) (step_law f g N ddt t D).
Proof.
  intros Ht Hd HT Hlt (mh & Sh & HD & Hm & HS). assert (Hin : t0 <= t < T) by lra.
  destruct (Hflow t Hin) as (A & HA & HR & HPV & Htay). destruct (Htay (t + ddt) ltac:(lra)) as [Tm TP].
  exists (next_mean b ddt t mh), (next_cov d A (g t) ddt Sh). split; [now apply (step_moments d f b g N ddt t A D mh Sh); try apply Hf|].
  replace (t + ddt - t) with ddt in Tm, TP by ring.
  assert (HLd : 0 <= Lam * ddt) by (apply Rmult_le_pos; lra).
  split.
  - intros i Hi. eapply Rle_trans; [|apply bound_step; lra]. set (B := bound Lam C e0 t) in *.
    assert (HB : 0 <= B) by (apply bound_nonneg; lra).
    assert (HX : (1 + Lam * ddt) * B <= exp (Lam * ddt) * B) by (apply Rmult_le_compat_r; [exact HB|apply exp_lower]).
    pose proof (mvec_bound d A Lam HR (vsub mh (m t)) B i Hi HB Hm) as H1. pose proof (HA mh (m t) i Hi) as H2. unfold vsub at 1 in H2.
    specialize (Tm i Hi). specialize (Hm i Hi).
    replace (next_mean b ddt t mh i - m (t + ddt) i) with
      ((mh i - m t i) + ddt * mvec d A (vsub mh (m t)) i - (m (t + ddt) i - m t i - ddt * b (m t) t i)) by (unfold next_mean; rewrite <- H2; ring).
    eapply Rle_trans; [unfold Rminus at 1; apply Rabs_triang|]. rewrite Rabs_Ropp. eapply Rle_trans; [apply Rplus_le_compat; [apply Rabs_triang|exact Tm]|].
    rewrite Rabs_mult, (Rabs_pos_eq ddt) by lra. assert (ddt * Rabs (mvec d A (vsub mh (m t)) i) <= ddt * (Lam * B)) by (apply Rmult_le_compat_l; lra). lra.
  - intros i j Hi Hj. eapply Rle_trans; [|apply bound_step; try lra; apply Rplus_le_le_0_compat; [lra|]; apply Rmult_le_pos; [apply pow2_ge_0|lra]].
    set (B := bound (2 * Lam) (C + Lam ^ 2 * V) e1 t) in *.
    assert (HB : 0 <= B). { apply bound_nonneg; try lra. apply Rplus_le_le_0_compat; [lra|]. apply Rmult_le_pos; [apply pow2_ge_0|lra]. }
    assert (HX : (1 + Lam * ddt) * (1 + Lam * ddt) * B <= exp (2 * Lam * ddt) * B).
    { apply Rmult_le_compat_r; [exact HB|]. replace (2 * Lam * ddt) with (Lam * ddt + Lam * ddt) by ring. rewrite exp_plus.
      pose proof (exp_lower (Lam * ddt)). apply Rmult_le_compat; lra. }
    set (DS := msub Sh (P t)). assert (HDS : forall i j, (i < d)%nat -> (j < d)%nat -> Rabs (DS i j) <= B) by exact HS.
    pose proof (mmul_bound_l d A Lam HR DS B i j Hi Hj HB HDS) as H1. pose proof (mmul_bound_r d A Lam HR DS B i j Hi Hj HB HDS) as H2.
    assert (H3 : Rabs (mmul d A (mmul d DS (mtr A)) i j) <= Lam * (Lam * B)).
    { apply mmul_bound_l; try assumption; [apply Rmult_le_pos; lra|]. intros k l Hk Hl. now apply mmul_bound_r. }
    assert (H4 : Rabs (mmul d A (mmul d (P t) (mtr A)) i j) <= Lam * (Lam * V)).
    { apply mmul_bound_l; try assumption; [apply Rmult_le_pos; lra|]. intros k l Hk Hl. now apply mmul_bound_r. }
    specialize (TP i j Hi Hj). pose proof (HDS i j Hi Hj) as H0.
    assert (F1 : mmul d A DS i j = mmul d A Sh i j - mmul d A (P t) i j) by apply mmul_sub_r.
    assert (F2 : mmul d DS (mtr A) i j = mmul d Sh (mtr A) i j - mmul d (P t) (mtr A) i j) by apply mmul_sub_l.
    assert (F3 : mmul d A (mmul d DS (mtr A)) i j = mmul d A (mmul d Sh (mtr A)) i j - mmul d A (mmul d (P t) (mtr A)) i j).
    { rewrite <- mmul_sub_r. apply mmul_proper; try assumption; [reflexivity|]. intros k l Hk Hl. apply mmul_sub_l. }
    set (rem := P (t + ddt) i j - P t i j - ddt * (mmul d A (P t) i j + mmul d (P t) (mtr A) i j + g t ^ 2 * mid i j)) in *.
    replace (next_cov d A (g t) ddt Sh i j - P (t + ddt) i j) with
      (DS i j + ddt * mmul d A DS i j + ddt * mmul d DS (mtr A) i j + ddt ^ 2 * mmul d A (mmul d DS (mtr A)) i j + ddt ^ 2 * mmul d A (mmul d (P t) (mtr A)) i j + - rem)
      by (rewrite F1, F2, F3; unfold next_cov, rem, DS, msub; ring).
    assert (K : forall c x M, 0 <= c -> Rabs x <= M -> Rabs (c * x) <= c * M).
    { intros c x M Hc Hx. rewrite Rabs_mult, (Rabs_pos_eq c) by assumption. now apply Rmult_le_compat_l. }
    assert (Hd2 : 0 <= ddt ^ 2) by apply pow2_ge_0.
    apply (K ddt) in H1; [|lra]. apply (K ddt) in H2; [|lra]. apply (K (ddt ^ 2)) in H3; [|lra]. apply (K (ddt ^ 2)) in H4; [|lra]. rewrite <- Rabs_Ropp in TP.
    assert (tri : forall x y X Y, Rabs x <= X -> Rabs y <= Y -> Rabs (x + y) <= X + Y) by (intros x y X Y Hx Hy; eapply Rle_trans; [apply Rabs_triang|lra]).
    eapply Rle_trans; [exact (tri _ _ _ _ (tri _ _ _ _ (tri _ _ _ _ (tri _ _ _ _ (tri _ _ _ _ H0 H1) H2) H3) H4) TP)|].
    eapply Rle_trans; [|apply Rplus_le_compat_r, HX]. right. ring.
Qed.

Lemma close_sub t ddt : 0 <= ddt <= h -> forall k i D, t0 <= t -> (0 < ddt \/ k = 0%nat) -> t + INR (i + k) * ddt <= T -> close (t + INR i * ddt) D ->
  close (t + INR (i + k) * ddt) (sub_law f g N ddt (map (fun i => t + INR i * ddt) (seq i k)) D).
Proof.
  intros Hd k. induction k as [|k IH]; intros i D Ht Hpos HT HD; cbn [seq map sub_law].
  - now rewrite Nat.add_0_r.
  - replace (i + S k)%nat with (S i + k)%nat in * by lia. assert (Hp : 0 < ddt) by (destruct Hpos; [assumption|discriminate]).
    assert (H1 : t + INR (S i) * ddt <= T).
    { eapply Rle_trans; [|exact HT]. apply Rplus_le_compat_l, Rmult_le_compat_r; [lra|]. apply le_INR. lia. }
    rewrite S_INR in H1. assert (H0 : 0 <= INR i * ddt) by (apply Rmult_le_pos; [apply pos_INR|lra]).
    apply IH; try assumption; [now left|]. rewrite S_INR. replace (t + (INR i + 1) * ddt) with (t + INR i * ddt + ddt) by ring.
    apply close_step; try assumption; lra.
Qed.

Lemma linspace_left t t' n : (1 <= n)%nat -> t <= t' ->
  Sde.linspace t (t' - Rabs (t' - t) / INR n) n = map (fun i => t + INR i * ((t' - t) / INR n)) (seq 0 n).
Proof.
  intros Hn Ht. apply (nth_ext _ _ 0 0); [rewrite Sim.length_linspace, map_length, seq_length; reflexivity|].
  intros i Hi. rewrite Sim.length_linspace in Hi. rewrite (Sim.linspace_increasing t t' n i Hn Ht Hi).
  set (F := fun i => t + INR i * ((t' - t) / INR n)). rewrite (nth_indep _ 0 (F 0%nat)) by (rewrite map_length, seq_length; lia).
  rewrite (map_nth F), seq_nth by lia. reflexivity.
Qed.

Fixpoint grid (n : nat) (ts : list R) : Prop :=
  match ts with t :: ((t' :: _) as ts') => t < t' /\ (t' - t) / INR n <= h /\ grid n ts' | _ => True end.

Lemma grid_last n ts : forall t, grid n (t :: ts) -> t <= last (t :: ts) 0.
Proof.
  induction ts as [|t' ts IH]; intros t; [cbn; lra|]. intros (H & _ & H'). specialize (IH t' H').
  change (last (t :: t' :: ts) 0) with (last (t' :: ts) 0). lra.
Qed.

Lemma close_chain n ts : (1 <= n)%nat -> forall t D, t0 <= t -> grid n (t :: ts) -> last (t :: ts) 0 <= T -> close t D ->
  close (last (t :: ts) 0) (chain_law f g N n (t :: ts) D).
Proof.
  intros Hn. induction ts as [|t' ts IH]; intros t D Ht HG HT HD; [exact HD|].
  change (last (t :: t' :: ts) 0) with (last (t' :: ts) 0) in *. destruct HG as (Hlt & Hh & HG).
  change (chain_law f g N n (t :: t' :: ts) D) with (chain_law f g N n (t' :: ts) (sub_law f g N (Rabs (t' - t) / INR n) (Sde.linspace t (t' - Rabs (t' - t) / INR n) n) D)).
  assert (Hn' : 0 < INR n) by (apply lt_0_INR; lia). pose proof (grid_last n ts t' HG) as Hl.
  apply IH; try assumption; [lra|]. rewrite (linspace_left t t' n Hn) by lra. rewrite Rabs_pos_eq by lra.
  assert (Hd : 0 < (t' - t) / INR n) by (apply Rdiv_lt_0_compat; lra).
  assert (E : t + INR (0 + n) * ((t' - t) / INR n) = t') by (cbn [Nat.add]; field; lra).
  pose proof (close_sub t ((t' - t) / INR n) (conj (Rlt_le _ _ Hd) Hh) n 0 D Ht (or_introl Hd)) as H. rewrite E in H.
  apply H; [lra|]. cbn [INR]. now rewrite Rmult_0_l, Rplus_0_r.
Qed.
End converge.
