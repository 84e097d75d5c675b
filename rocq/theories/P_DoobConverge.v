(** How far the simulated Doob bridge (fbs/sdes/simulators.py 126-160) is from the bridge it discretises. *)
From Coquelicot Require Import Coquelicot.
From Coq Require Import Reals List Lia Lra.
From Verif Require Sde SdeProofs Sim SimMore Demo.
From Verif Require Import Base Dist Prog Mat MatMore Cholesky GaussSBMore Toy ToyCond EmMoments EmConverge ReverseStep DoobConverge.
Import ListNotations.
Open Scope R_scope.

(** ** C139 *)
(** On [0, T1] with T1 < T the mean and covariance of every point of the path are those of the SDE conditioned on its two
    end points, up to K h; [K] depends on the SDE, T, T1 and the two end points only.  [replace] plays no part. *)
Theorem C139_before_end : forall sde T d x0 xT, (exists p, Sde.discretise sde T 0 = Some p) -> (exists v, Sde.sde_variance sde T 0 = Some v) -> 0 < T ->
  (forall t, 0 <= t <= T -> 0 < Sde.dispersion sde t ^ 2) -> length x0 = d -> length xT = d -> forall T1, 0 <= T1 < T ->
  exists K, 0 <= K /\ forall N normal k n ts j h replace,
    has_moments d N (fun _ => 0) mid -> (forall k, denotes (normal k n d) (dseq (repeat N n))) ->
    (1 <= n)%nat -> hd 1 ts = 0 -> last ts 0 = T -> refined h n ts -> 0 <= h -> (j < length ts)%nat -> nth j ts 0 <= T1 ->
    let L F := law (doob_prog normal k sde x0 xT ts n replace) (fun path => F (nth j path [])) in let t := nth j ts 0 in
    let F u s := fst (Sde.FQ sde u s) in let Q u s := snd (Sde.FQ sde u s) in
    within d (K * h) (mean_of L) (fun i => F t 0 * nth i x0 0 + F T t * Q t 0 / Q T 0 * (nth i xT 0 - F T 0 * nth i x0 0))
      (cov_of L) (fun i j => Q t 0 * Q T t / Q T 0 * (if Nat.eqb i j then 1 else 0)).
Proof.
  intros sde T d x0 xT H [v Hv] HT Hn L0 LT T1 HT1. apply SdeProofs.discretise_defined in H. assert (Hb : SdeProofs.bridgeable sde) by (destruct sde; cbn in *; try exact I; discriminate).
  exact (doob_before_end sde T d x0 xT H Hb HT Hn L0 LT T1 HT1).
Qed.
Print Assumptions C139_before_end.

(** With [replace = False] the last point of the path is within K h of the target in mean square, at every step size. *)
Theorem C139_end_point : forall sde T d x0 xT, (exists p, Sde.discretise sde T 0 = Some p) -> (exists v, Sde.sde_variance sde T 0 = Some v) -> 0 < T ->
  (forall t, 0 <= t <= T -> 0 < Sde.dispersion sde t ^ 2) -> length x0 = d -> length xT = d ->
  exists K, 0 <= K /\ forall N normal k n ts h,
    has_moments d N (fun _ => 0) mid -> (forall k, denotes (normal k n d) (dseq (repeat N n))) ->
    (1 <= n)%nat -> hd 1 ts = 0 -> last ts 0 = T -> refined h n ts -> 0 <= h -> forall i, (i < d)%nat ->
    law (doob_prog normal k sde x0 xT ts n false) (fun path => (nth i (nth (length ts - 1) path []) 0 - nth i xT 0) ^ 2) <= K * h.
Proof.
  intros sde T d x0 xT H [v Hv] HT Hn L0 LT. apply SdeProofs.discretise_defined in H. assert (Hb : SdeProofs.bridgeable sde) by (destruct sde; cbn in *; try exact I; discriminate).
  destruct (doob_at_end sde T d x0 xT H Hb HT Hn L0 LT) as (K & HK & HE). exists K. split; [exact HK|]. intros. now apply (HE N normal k n ts h).
Qed.
Print Assumptions C139_end_point.

(** It never is the target: the mean square distance is positive on every grid, in every dimension. *)
Theorem C139_hits_target_refuted : forall sde T d x0 xT, (exists p, Sde.discretise sde T 0 = Some p) -> (exists v, Sde.sde_variance sde T 0 = Some v) -> 0 < T ->
  (forall t, 0 <= t <= T -> 0 < Sde.dispersion sde t ^ 2) -> length x0 = d -> length xT = d ->
  forall N normal k n ts h, has_moments d N (fun _ => 0) mid -> (forall k, denotes (normal k n d) (dseq (repeat N n))) ->
    (1 <= n)%nat -> hd 1 ts = 0 -> last ts 0 = T -> refined h n ts -> 0 <= h -> forall i, (i < d)%nat ->
    0 < law (doob_prog normal k sde x0 xT ts n false) (fun path => (nth i (nth (length ts - 1) path []) 0 - nth i xT 0) ^ 2).
Proof.
  intros sde T d x0 xT H [v Hv] HT Hn L0 LT. apply SdeProofs.discretise_defined in H. assert (Hb : SdeProofs.bridgeable sde) by (destruct sde; cbn in *; try exact I; discriminate).
  destruct (doob_at_end sde T d x0 xT H Hb HT Hn L0 LT) as (K & HK & HE). intros. now apply (HE N normal k n ts h).
Qed.
Print Assumptions C139_hits_target_refuted.

(** fair signs as noise, the linear SDE of the experiments from (1) to (3), the grid 0, 1, 2 with two sub-steps *)
Example C139_example : let sde := Sde.LinSDE (2/100) 5 0 2 in let normal (k : key) (m d : nat) := Demo.fin_draws [] k 0 (repeat pm1 m) in
  (exists p, Sde.discretise sde 2 0 = Some p) /\ (exists v, Sde.sde_variance sde 2 0 = Some v) /\ (forall t, 0 <= t <= 2 -> 0 < Sde.dispersion sde t ^ 2) /\
  has_moments 1 pm1 (fun _ => 0) mid /\ (forall k, denotes (normal k 2%nat 1%nat) (dseq (repeat pm1 2))) /\ refined (1/2) 2 [0; 1; 2] /\
  (exists K, 0 <= K /\ within 1 (K * (1/2)) (mean_of (fun F => law (doob_prog normal [7%nat] sde [1] [3] [0; 1; 2] 2 true) (fun path => F (nth 1 path []))))
     (fun _ => exp (Ropp (1/2) * (251/200 + 2/200)) * 1 + exp (Ropp (1/2) * (251/200 + 500/200)) * (1 - exp (- (251/200 + 2/200))) / (1 - exp (- (502/100))) * (3 - exp (Ropp (1/2) * (502/100)) * 1))
     (cov_of (fun F => law (doob_prog normal [7%nat] sde [1] [3] [0; 1; 2] 2 true) (fun path => F (nth 1 path []))))
     (fun _ _ => (1 - exp (- (251/200 + 2/200))) * (1 - exp (- (251/200 + 500/200))) / (1 - exp (- (502/100))))) /\
  0 < law (doob_prog normal [7%nat] sde [1] [3] [0; 1; 2] 2 false) (fun path => (nth 0 (nth 2 path []) 0 - 3) ^ 2).
Proof.
  intros sde normal. assert (Hd : exists p, Sde.discretise sde 2 0 = Some p) by (apply SdeProofs.discretise_defined; cbn; lra).
  assert (Hv : exists v, Sde.sde_variance sde 2 0 = Some v) by (eexists; reflexivity).
  assert (Hp : forall t, 0 <= t <= 2 -> 0 < Sde.dispersion sde t ^ 2).
  { intros t Ht. cbn [Sde.dispersion sde]. assert (0 < Sde.beta (2/100) 5 0 2 t) by (unfold Sde.beta; lra). apply pow_lt, sqrt_lt_R0. assumption. }
  assert (Hnorm : forall k, denotes (normal k 2%nat 1%nat) (dseq (repeat pm1 2))) by (intros k; apply Demo.fin_draws_denotes).
  assert (Href : refined (1/2) 2 [0; 1; 2]) by (intros [|[|k]] Hk; cbn [length nth INR] in *; [lra|lra|lia]).
  split; [exact Hd|]. split; [exact Hv|]. split; [exact Hp|]. split; [exact pm1_moments|]. split; [exact Hnorm|]. split; [exact Href|]. split.
  - destruct (C139_before_end sde 2 1 [1] [3] Hd Hv ltac:(lra) Hp eq_refl eq_refl 1 ltac:(lra)) as (K & HK & H). exists K. split; [exact HK|].
    destruct (H pm1 normal [7%nat] 2%nat [0; 1; 2] 1%nat (1/2) true pm1_moments Hnorm ltac:(lia) eq_refl eq_refl Href ltac:(lra) ltac:(cbn; lia) ltac:(cbn; lra)) as [B1 B2].
    cbn [Sde.FQ sde fst snd nth] in B1, B2.
    assert (I1 : Sde.beta_integral (2/100) 5 0 2 1 0 = 251/200 + 2/200) by (unfold Sde.beta_integral; lra). assert (I2 : Sde.beta_integral (2/100) 5 0 2 2 1 = 251/200 + 500/200) by (unfold Sde.beta_integral; lra). assert (I3 : Sde.beta_integral (2/100) 5 0 2 2 0 = 502/100) by (unfold Sde.beta_integral; lra).
    rewrite I1, I2, I3 in B1, B2. split.
    + intros [|i] Hi; [|lia]. exact (B1 0%nat Hi).
    + intros [|i] [|j] Hi Hj; try lia. specialize (B2 0%nat 0%nat Hi Hj). cbn [Nat.eqb] in B2. rewrite Rmult_1_r in B2. exact B2.
  - exact (C139_hits_target_refuted sde 2 1 [1] [3] Hd Hv ltac:(lra) Hp eq_refl eq_refl pm1 normal [7%nat] 2%nat [0; 1; 2] (1/2) pm1_moments Hnorm ltac:(lia) eq_refl eq_refl Href ltac:(lra) 0%nat ltac:(lia)).
Qed.
