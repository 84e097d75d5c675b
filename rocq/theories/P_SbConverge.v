(** C140: simulating the closed form Gaussian bridge with Euler-Maruyama, forwards and backwards. *)
From Coquelicot Require Import Coquelicot.
From Coq Require Import Reals List Lia Lra.
From Verif Require Sde Sim Demo.
From Verif Require Import Base Dist Prog Mat MatMore Cholesky Bures GaussSB GaussSBMore Toy ToyCond CholFun SbTotal SbOptimal EmMoments EmConverge ReverseStep BuresStat SbConverge.
Import ListNotations.
Open Scope R_scope.

(** ** C140 *)
(** Forwards from a law within [e] of (mean0, cov0): at every grid time the moments are those returned by [marginal_mean] and
    [marginal_cov] up to K (e + h); [K] depends on the two Gaussians and the diffusion only. *)
Theorem C140_forward_path : forall d m0 c0 m1 c1 sig S D X, symmetric d c0 -> posdef d c0 -> symmetric d c1 -> posdef d c1 ->
  sqrtm_returns d c0 S -> sqrtm_returns d (sb_D_arg d c1 sig S) D -> meq d (mmul d (mtr S) (mtr X)) (mtr D) ->
  let b := sb_drift d m0 c0 m1 c1 sig (sb_C d sig S X) (cho_inv d) in
  let drift x t := map (b (fun i => nth i x 0) t) (seq 0 d) in
  exists K, 0 <= K /\ forall N normal k n ts j D0 mh Sh h e,
    has_moments d N (fun _ => 0) mid -> (forall k, denotes (normal k n d) (dseq (repeat N n))) ->
    (1 <= n)%nat -> hd 1 ts = 0 -> last ts 0 = 1 -> refined h n ts -> (j < length ts)%nat ->
    0 <= h -> 0 <= e -> has_moments d D0 mh Sh -> within d e mh m0 Sh c0 ->
    let L F := E D0 (fun x0 => law (Sim.euler_maruyama_path normal k x0 ts drift (fun _ => sig) n) (fun path => F (nth j path []))) in
    within d (K * (e + h)) (mean_of L) (marginal_mean m0 m1 (nth j ts 0)) (cov_of L) (marginal_cov c0 c1 sig (sb_C d sig S X) (nth j ts 0)).
Proof. exact sb_forward. Qed.
Print Assumptions C140_forward_path.

(** Backwards with the drift of the scripts, from a law within [e] of (mean1, cov1): at every grid time the moments are those of the
    bridge at the mirrored time up to K (e + h). *)
Theorem C140_reverse_path : forall d m0 c0 m1 c1 sig S D X, symmetric d c0 -> posdef d c0 -> symmetric d c1 -> posdef d c1 ->
  sqrtm_returns d c0 S -> sqrtm_returns d (sb_D_arg d c1 sig S) D -> meq d (mmul d (mtr S) (mtr X)) (mtr D) ->
  let b := sb_drift d m0 c0 m1 c1 sig (sb_C d sig S X) (cho_inv d) in
  let mt := marginal_mean m0 m1 in let P := marginal_cov c0 c1 sig (sb_C d sig S X) in
  let drift x t := map (b (fun i => nth i x 0) t) (seq 0 d) in
  let score x t := map (Toy.score d mt P (cho_inv d) (fun i => nth i x 0) t) (seq 0 d) in
  exists K, 0 <= K /\ forall N normal k n ts j D0 mh Sh h e,
    has_moments d N (fun _ => 0) mid -> (forall k, denotes (normal k n d) (dseq (repeat N n))) ->
    (1 <= n)%nat -> hd 1 ts = 0 -> last ts 0 = 1 -> refined h n ts -> (j < length ts)%nat ->
    0 <= h -> 0 <= e -> has_moments d D0 mh Sh -> within d e mh m1 Sh c1 ->
    let L F := E D0 (fun x0 => law (Sim.euler_maruyama_path normal k x0 ts (Sim.reverse_drift score drift (fun _ => sig) 1) (fun _ => sig) n) (fun path => F (nth j path []))) in
    within d (K * (e + h)) (mean_of L) (mt (1 - nth j ts 0)) (cov_of L) (P (1 - nth j ts 0)).
Proof. exact sb_backward. Qed.
Print Assumptions C140_reverse_path.

(** Hence the two ends are reached: (mean1, cov1) forwards and (mean0, cov0) backwards. *)
Theorem C140_ends : forall d m0 c0 m1 c1 sig S D X, symmetric d c0 -> posdef d c0 -> symmetric d c1 -> posdef d c1 ->
  sqrtm_returns d c0 S -> sqrtm_returns d (sb_D_arg d c1 sig S) D -> meq d (mmul d (mtr S) (mtr X)) (mtr D) ->
  let b := sb_drift d m0 c0 m1 c1 sig (sb_C d sig S X) (cho_inv d) in
  let mt := marginal_mean m0 m1 in let P := marginal_cov c0 c1 sig (sb_C d sig S X) in
  let drift x t := map (b (fun i => nth i x 0) t) (seq 0 d) in
  let score x t := map (Toy.score d mt P (cho_inv d) (fun i => nth i x 0) t) (seq 0 d) in
  exists K, 0 <= K /\ forall N normal k n ts mh Sh h e,
    has_moments d N (fun _ => 0) mid -> (forall k, denotes (normal k n d) (dseq (repeat N n))) ->
    (1 <= n)%nat -> hd 1 ts = 0 -> last ts 0 = 1 -> refined h n ts -> 0 <= h -> 0 <= e -> forall D0, has_moments d D0 mh Sh ->
    let end_of f F := E D0 (fun x0 => law (Sim.euler_maruyama_path normal k x0 ts f (fun _ => sig) n) (fun path => F (nth (length ts - 1) path []))) in
    (within d e mh m0 Sh c0 -> within d (K * (e + h)) (mean_of (end_of drift)) m1 (cov_of (end_of drift)) c1) /\
    (within d e mh m1 Sh c1 -> within d (K * (e + h)) (mean_of (end_of (Sim.reverse_drift score drift (fun _ => sig) 1))) m0 (cov_of (end_of (Sim.reverse_drift score drift (fun _ => sig) 1))) c0).
Proof. exact sb_ends. Qed.
Print Assumptions C140_ends.

(** one dimension, variances 1 and 6, means 0 and 3, fair signs as noise and as data *)
Example C140_example : let c0 : mat := fun _ _ => 1 in let c1 : mat := fun _ _ => 6 in let S : mat := fun _ _ => 1 in let D : mat := fun _ _ => 5 in
  let normal (k : key) (m d : nat) := Demo.fin_draws [] k 0 (repeat pm1 m) in
  symmetric 1 c0 /\ posdef 1 c0 /\ symmetric 1 c1 /\ posdef 1 c1 /\ sqrtm_returns 1 c0 S /\ sqrtm_returns 1 (sb_D_arg 1 c1 1 S) D /\ meq 1 (mmul 1 (mtr S) (mtr D)) (mtr D) /\
  has_moments 1 pm1 (fun _ => 0) mid /\ (forall k, denotes (normal k 2%nat 1%nat) (dseq (repeat pm1 2))) /\ refined (1/4) 2 [0; 1/2; 1] /\
  within 1 0 (fun _ => 0) (fun _ => 0) mid c0 /\
  let b := sb_drift 1 (fun _ => 0) c0 (fun _ => 3) c1 1 (sb_C 1 1 S D) (cho_inv 1) in
  exists K, 0 <= K /\ let L F := E pm1 (fun x0 => law (Sim.euler_maruyama_path normal [7%nat] x0 [0; 1/2; 1] (fun x t => map (b (fun i => nth i x 0) t) (seq 0 1)) (fun _ => 1) 2) (fun path => F (nth 1 path []))) in
    within 1 (K * (0 + 1/4)) (mean_of L) (fun _ => 3/2) (cov_of L) (fun _ _ => 3).
Proof.
  intros c0 c1 S D normal.
  assert (A1 : symmetric 1 c0) by (intros i j _ _; reflexivity). assert (A2 : symmetric 1 c1) by (intros i j _ _; reflexivity).
  assert (Q : forall v, 0 < v -> posdef 1 (fun _ _ => v)).
  { intros v Hv x Hx. unfold quad, mvec. cbn. assert (x 0%nat <> 0) by (intros E0; apply Hx; intros [|i] Hi; [exact E0|lia]). assert (0 < x 0%nat * x 0%nat) by (apply Rsqr_pos_lt in H; exact H). assert (0 < v * (x 0%nat * x 0%nat)) by now apply Rmult_lt_0_compat. lra. }
  assert (A3 : posdef 1 c0) by (apply Q; lra). assert (A4 : posdef 1 c1) by (apply Q; lra).
  assert (B1 : sqrtm_returns 1 c0 S) by (apply sqrtm_one; unfold S, c0; now rewrite sqrt_1).
  assert (B2 : sqrtm_returns 1 (sb_D_arg 1 c1 1 S) D).
  { apply sqrtm_one. unfold D, sb_D_arg, S, c1, madd, mmul, mscale, mid. cbn. match goal with |- _ = sqrt ?z => replace z with (5 * 5) by ring end. rewrite sqrt_square; lra. }
  assert (B3 : meq 1 (mmul 1 (mtr S) (mtr D)) (mtr D)) by (intros [|i] [|j] Hi Hj; try lia; unfold mmul, mtr, S, D; cbn; ring).
  assert (Hnorm : forall k, denotes (normal k 2%nat 1%nat) (dseq (repeat pm1 2))) by (intros k; apply Demo.fin_draws_denotes).
  assert (Href : refined (1/4) 2 [0; 1/2; 1]) by (intros [|[|k]] Hk; cbn [length nth INR] in *; [lra|lra|lia]).
  assert (Hw : within 1 0 (fun _ => 0) (fun _ => 0) mid c0).
  { split; [intros; rewrite Rminus_eq_0, Rabs_R0; lra|]. intros [|i] [|j] Hi Hj; try lia. unfold mid, c0. cbn [Nat.eqb]. rewrite Rminus_eq_0, Rabs_R0. lra. }
  split; [exact A1|]. split; [exact A3|]. split; [exact A2|]. split; [exact A4|]. split; [exact B1|]. split; [exact B2|]. split; [exact B3|]. split; [exact pm1_moments|]. split; [exact Hnorm|]. split; [exact Href|]. split; [exact Hw|].
  intros b. destruct (C140_forward_path 1 (fun _ => 0) c0 (fun _ => 3) c1 1 S D D A1 A3 A2 A4 B1 B2 B3) as (K & HK & H). exists K. split; [exact HK|]. intros L.
  destruct (H pm1 normal [7%nat] 2%nat [0; 1/2; 1] 1%nat pm1 (fun _ => 0) mid (1/4) 0 pm1_moments Hnorm ltac:(lia) eq_refl eq_refl Href ltac:(cbn; lia) ltac:(lra) ltac:(lra) pm1_moments Hw) as [B4 B5]. split.
  - intros i Hi. specialize (B4 i Hi). cbn [nth] in B4. unfold marginal_mean, vadd, vscale, r, r_bar in B4. replace ((1 - 1/2) * 0 + 1/2 * 3) with (3/2) in B4 by lra. exact B4.
  - intros [|i] [|j] Hi Hj; try lia. specialize (B5 0%nat 0%nat Hi Hj). cbn [nth] in B5.
    match type of B5 with Rabs (_ - ?z) <= _ => replace z with 3 in B5 end; [exact B5|].
    unfold marginal_cov, sb_C, madd, msub, mscale, mtr, mmul, mid, r, r_bar, kappa, rho, c0, c1, S, D. cbn. lra.
Qed.
