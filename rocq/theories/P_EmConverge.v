(** How far the Euler-Maruyama simulators (fbs/sdes/simulators.py) are from the SDEs they discretise. *)
From Coquelicot Require Import Coquelicot.
From Coq Require Import Reals List Lia Lra.
From Verif Require Sde SdeProofs Sim Demo.
From Verif Require Import Base Dist Prog Mat MatMore Cholesky GaussSBMore Toy ToyCond EmMoments EmConverge ReverseStep.
Import ListNotations.
Open Scope R_scope.

(** ** C112 *)
(** Forwards: the law at the last time, started from a law within [e] of (m0, C0), is within K (e + h) of the exact
    mean and covariance, [h] bounding the length of the sub-steps; [K] depends on the SDE, the horizon and (m0, C0) only. *)
Theorem C112_forward_converges : forall sde T d m0 C0, (exists p, Sde.discretise sde T 0 = Some p) -> 0 <= T ->
  (forall t, 0 <= t <= T -> SdeProofs.nonneg_noise sde t) ->
  exists K, 0 <= K /\ forall N normal k n ts D mh Sh h e,
    has_moments d N (fun _ => 0) mid -> (forall k, denotes (normal k n d) (dseq (repeat N n))) ->
    (1 <= n)%nat -> hd 1 ts = 0 -> last ts 0 = T -> refined h n ts ->
    0 <= h -> 0 <= e -> has_moments d D mh Sh -> within d e mh m0 Sh C0 ->
    let L F := E D (fun x0 => law (Sim.euler_maruyama_terminal normal k x0 ts (Sde.drift sde) (Sde.dispersion sde) n) F) in
    within d (K * (e + h)) (mean_of L) (fun i => fst (Sde.FQ sde T 0) * m0 i)
      (cov_of L) (fun i j => fst (Sde.FQ sde T 0) ^ 2 * C0 i j + snd (Sde.FQ sde T 0) * (if Nat.eqb i j then 1 else 0)).
Proof. intros sde T d m0 C0 H. apply SdeProofs.discretise_defined in H. exact (forward_converges sde T d m0 C0 H). Qed.
Print Assumptions C112_forward_converges.

(** Backwards: with the exact score of data with mean m0 and covariance C0, started within [e] of the marginal at T,
    the reverse simulator ends within K (e + h) of (m0, C0). *)
Theorem C112_reverse_converges : forall sde T d m0 C0 inv, (exists p, Sde.discretise sde T 0 = Some p) -> 0 <= T ->
  (forall t, 0 <= t <= T -> SdeProofs.nonneg_noise sde t) ->
  symmetric d C0 -> posdef d C0 -> (forall t, 0 <= t <= T -> inverse_at d (fwd_cov sde C0) inv t) ->
  exists K, 0 <= K /\ forall score N normal k n ts D mh Sh h e,
    (forall t x, 0 < t <= T -> length x = d -> length (score x t) = d /\
       forall i, (i < d)%nat -> nth i (score x t) 0 = - mvec d (inv (fwd_cov sde C0 t)) (fun j => nth j x 0 - fwd_mean sde m0 t j) i) ->
    has_moments d N (fun _ => 0) mid -> (forall k, denotes (normal k n d) (dseq (repeat N n))) ->
    (1 <= n)%nat -> hd 1 ts = 0 -> last ts 0 = T -> refined h n ts ->
    0 <= h -> 0 <= e -> has_moments d D mh Sh -> within d e mh (fwd_mean sde m0 T) Sh (fwd_cov sde C0 T) ->
    let L F := E D (fun u0 => law (reverse_prog normal k u0 ts score (Sde.drift sde) (Sde.dispersion sde) n) (on_some F)) in
    within d (K * (e + h)) (mean_of L) m0 (cov_of L) C0.
Proof.
  intros sde T d m0 C0 inv H HT Hn HS HP HI. apply SdeProofs.discretise_defined in H.
  destruct (reverse_converges sde T d m0 C0 inv H HT Hn HS HP HI) as (K & HK & HR). exists K. split; [exact HK|].
  intros score N normal k n ts D mh Sh h e Hsc. apply (HR score N normal k n ts D mh Sh h e).
  intros t Ht x Hx. destruct (Hsc t x Ht Hx) as [H1 H2]. split; [exact H1|]. intros i Hi. rewrite (H2 i Hi). unfold Toy.score, vscale, vsub, vec_of. ring.
Qed.
Print Assumptions C112_reverse_converges.

(** The error is there: one Euler step of the constant SDE never has the mean of the transition. *)
Theorem C112_exact_refuted : forall a b x0 T, a <> 0 -> x0 <> 0 -> 0 < T ->
  forall N normal k, has_moments 1 N (fun _ => 0) mid -> (forall k, denotes (normal k 1%nat 1%nat) (dseq (repeat N 1))) ->
  law (Sim.euler_maruyama_terminal normal k [x0] [0; T] (Sde.drift (Sde.ConstSDE a b)) (Sde.dispersion (Sde.ConstSDE a b)) 1) (fun x => nth 0 x 0)
    <> fst (Sde.FQ (Sde.ConstSDE a b) T 0) * x0.
Proof.
  intros a b x0 T Ha Hx HT N normal k. exact (one_step_not_exact a b x0 T N normal k Ha Hx HT).
Qed.
Print Assumptions C112_exact_refuted.

(** fair signs as noise, one-dimensional data with mean 2 and variance 3, the grid 0, 1/2, 1 with two sub-steps *)
Example C112_example : let sde := Sde.ConstSDE (Ropp (1/2)) 1 in let C0 : mat := fun _ _ => 3 in let inv (M : mat) : mat := fun i j => / M i j in
  let normal (k : key) (m d : nat) := Demo.fin_draws [] k 0 (repeat pm1 m) in
  let score (x : list R) (t : R) := map (fun u => - (/ fwd_cov sde C0 t 0%nat 0%nat * (u - fwd_mean sde (fun _ => 2) t 0%nat))) x in
  (exists p, Sde.discretise sde 1 0 = Some p) /\ (forall t, 0 <= t <= 1 -> SdeProofs.nonneg_noise sde t) /\ symmetric 1 C0 /\ posdef 1 C0 /\
  (forall t, 0 <= t <= 1 -> inverse_at 1 (fwd_cov sde C0) inv t) /\
  (forall t x, 0 < t <= 1 -> length x = 1%nat -> length (score x t) = 1%nat /\
       forall i, (i < 1)%nat -> nth i (score x t) 0 = - mvec 1 (inv (fwd_cov sde C0 t)) (fun j => nth j x 0 - fwd_mean sde (fun _ => 2) t j) i) /\
  has_moments 1 pm1 (fun _ => 0) mid /\ (forall k, denotes (normal k 2%nat 1%nat) (dseq (repeat pm1 2))) /\ refined (1/4) 2 [0; 1/2; 1] /\
  exists K, within 1 (K * (0 + 1/4)) (mean_of (fun F => E (dret [2 * exp (Ropp (1/2))]) (fun x0 => law (Sim.euler_maruyama_terminal normal [7%nat] x0 [0; 1/2; 1] (Sde.drift sde) (Sde.dispersion sde) 2) F)))
     (fun _ => exp (Ropp (1/2)) * (2 * exp (Ropp (1/2)))) (cov_of (fun F => E (dret [2 * exp (Ropp (1/2))]) (fun x0 => law (Sim.euler_maruyama_terminal normal [7%nat] x0 [0; 1/2; 1] (Sde.drift sde) (Sde.dispersion sde) 2) F)))
     (fun _ _ => snd (Sde.FQ sde 1 0)).
Proof.
  intros sde C0 inv normal score. assert (Hd : SdeProofs.sde_defined sde) by (cbn; lra).
  assert (Hpos : forall t, 0 <= t <= 1 -> 0 < fwd_cov sde C0 t 0%nat 0%nat).
  { intros t Ht. unfold fwd_cov, madd, mscale, mid. cbn [Nat.eqb]. assert (0 <= snd (Sde.FQ sde t 0)) by (apply SdeProofs.Q_nonneg; [exact Hd|lra|exact I]).
    assert (0 < fst (Sde.FQ sde t 0)) by (cbn; apply exp_pos). assert (0 < fst (Sde.FQ sde t 0) ^ 2) by now apply pow_lt. unfold C0. lra. }
  assert (Hnorm : forall k, denotes (normal k 2%nat 1%nat) (dseq (repeat pm1 2))) by (intros k; apply Demo.fin_draws_denotes).
  assert (Href : refined (1/4) 2 [0; 1/2; 1]).
  { intros [|[|k]] Hk; cbn [length nth INR] in *; [lra|lra|lia]. }
  split; [apply SdeProofs.discretise_defined, Hd|]. split; [intros; exact I|]. split; [intros i j _ _; reflexivity|].
  split; [|split; [|split; [|split; [exact pm1_moments|split; [exact Hnorm|split; [exact Href|]]]]]].
  - intros x Hx. unfold quad, mvec, C0. cbn. assert (x 0%nat <> 0) by (intros E0; apply Hx; intros [|i] Hi; [exact E0|lia]).
    assert (0 < x 0%nat * x 0%nat) by (apply Rsqr_pos_lt in H; exact H). lra.
  - intros t Ht. specialize (Hpos t Ht). split; intros [|i] [|j] Hi Hj; try lia; unfold mmul, inv, mid; cbn [seq map Rsum fold_right Nat.eqb]; field; lra.
  - intros t x Ht Hx. destruct x as [|u [|]]; try discriminate. split; [reflexivity|]. intros [|i] Hi; [|lia]. unfold mvec, inv, score. cbn [seq map nth Rsum fold_right]. ring.
  - destruct (C112_forward_converges sde 1 1 (fun _ => 2 * exp (Ropp (1/2))) (fun _ _ => 0) ltac:(apply SdeProofs.discretise_defined, Hd) ltac:(lra) ltac:(intros; exact I)) as (K & _ & H).
    exists K. specialize (H pm1 normal [7%nat] 2%nat [0; 1/2; 1] (dret [2 * exp (Ropp (1/2))]) _ _ (1/4) 0 pm1_moments Hnorm ltac:(lia) eq_refl eq_refl Href ltac:(lra) ltac:(lra) (point_moments _)).
    destruct H as [H1 H2]; [split; intros; rewrite Rminus_eq_0, Rabs_R0; lra|]. split.
    + intros i Hi. specialize (H1 i Hi). cbn [Sde.FQ fst sde] in H1. replace (Ropp (1/2) * (1 - 0)) with (Ropp (1/2)) in H1 by ring. exact H1.
    + intros [|i] [|j] Hi Hj; try lia. specialize (H2 0%nat 0%nat Hi Hj). cbn [Nat.eqb] in H2. rewrite Rmult_0_r, Rplus_0_l, Rmult_1_r in H2. exact H2.
Qed.

(** ** C113 *)
(** The joint second moments of (X_s, X_t) produced by one Euler step of the reverse simulator from the exact marginal at t,
    with the exact score, are never those of the forward pair: Cov = F v_s and Var X_s = v_s. *)
Theorem C113_euler_step_refuted : forall a b m0 v0 s t T score (D N : dist R), a < 0 -> b <> 0 -> 0 <= s < t -> 0 < v0 ->
  let sde := Sde.ConstSDE a b in let m u := fst (Sde.FQ sde u 0) * m0 in let v u := fst (Sde.FQ sde u 0) ^ 2 * v0 + snd (Sde.FQ sde u 0) in
  (forall x, score [x] t = [- (x - m t) / v t]) ->
  is_prob D -> E D (fun x => x) = m t -> E D (fun x => (x - m t) ^ 2) = v t ->
  is_prob N -> E N (fun r => r) = 0 -> E N (fun r => r ^ 2) = 1 ->
  let step x r := nth 0 (Sim.em_move (Sim.reverse_drift score (Sde.drift sde) (Sde.dispersion sde) T) (Sim.reverse_dispersion (Sde.dispersion sde) T) (t - s) [x] (T - t) [r]) 0 in
  let L f := E D (fun x => E N (fun r => f x (step x r))) in
  ~ (L (fun x y => (x - m t) * (y - L (fun _ y => y))) = fst (Sde.FQ sde t s) * v s /\ L (fun _ y => (y - L (fun _ y => y)) ^ 2) = v s).
Proof. exact euler_step_not_reversal. Qed.
Print Assumptions C113_euler_step_refuted.

Example C113_example : let D : dist R := [(/ 2, 1); (/ 2, -1)] in let sde := Sde.ConstSDE (Ropp (1/2)) 1 in
  is_prob D /\ E D (fun x => x) = fst (Sde.FQ sde 1 0) * 0 /\ E D (fun x => (x - fst (Sde.FQ sde 1 0) * 0) ^ 2) = fst (Sde.FQ sde 1 0) ^ 2 * 1 + snd (Sde.FQ sde 1 0).
Proof.
  intros D sde. split; [split; [repeat constructor; cbn; lra|unfold E, D; cbn; lra]|]. split; [unfold E, D; cbn; lra|].
  cbn [Sde.FQ fst snd sde]. replace (2 * Ropp (1/2) * (1 - 0)) with (Ropp (1/2) * (1 - 0) + Ropp (1/2) * (1 - 0)) by ring. rewrite exp_plus. generalize (exp (Ropp (1/2) * (1 - 0))). intros r.
  unfold E, D. cbn [map fst snd Rsum fold_right]. field.
Qed.
