(** The KL column of experiments/tabulators/tabulate_toy.py. *)
From Coquelicot Require Import Coquelicot.
From Coq Require Import Reals List Lia Lra.
From Verif Require Import Base Dist Prog Mat MatMore GaussDiv CholFun BuresBound ScriptRuns SampleStats BuresStat KlStat.
Import ListNotations.
Open Scope R_scope.

(** ** C144 *)
(** Near the reference covariance, kl has a value and is bounded on both sides by the squared errors of the moments. *)
Theorem C144_kl_sandwich : forall d c0 c1 lam, symmetric d c0 -> 0 < lam -> (forall x, lam * dot d x x <= quad d c0 x) -> symmetric d c1 ->
  frob d (msub c1 c0) <= lam ^ 2 / 4 -> forall m0 m1,
  let e := Rsum (map (fun i => (m0 i - m1 i) ^ 2) (seq 0 d)) in
  (exists r, kl_returns d m0 c0 m1 c1 r) /\ forall r, kl_returns d m0 c0 m1 c1 r ->
    r <= 2 * frob d (msub c1 c0) / lam ^ 2 + 3 / lam * e /\
    forall Lam, 0 < Lam -> (forall x, quad d c0 x <= Lam * dot d x x) -> e / (Lam + lam / 2) <= r.
Proof.
  intros d c0 c1 lam S0 Hl P0 S1 HF m0 m1 e. split; [exact (kl_defined d c0 c1 lam S0 Hl P0 S1 HF m0 m1)|]. intros r Hr.
  split; [exact (kl_upper d c0 c1 lam S0 Hl P0 S1 HF m0 m1 r Hr)|]. intros Lam HL HU. exact (kl_lower d c0 c1 lam S0 Hl P0 S1 HF Lam m0 m1 r HL HU Hr).
Qed.
Print Assumptions C144_kl_sandwich.

(** kl has at most one value, so the column is a function of the samples. *)
Theorem C144_column_exists : forall d n gp_mean gp_cov, exists r, kl_column d n gp_mean gp_cov r.
Proof. exact kl_column_exists. Qed.
Print Assumptions C144_column_exists.

(** On n independent draws of D the column has a value but for a probability of order eC ... *)
Theorem C144_column_defined : forall d n D B, is_prob D -> 0 <= B ->
  (forall x, In x (map snd D) -> forall i, (i < d)%nat -> Rabs (x i - mean_vec D i) <= B) -> (2 <= n)%nat ->
  forall gp_mean gp_cov lam r sampler, symmetric d gp_cov -> 0 < lam -> (forall x, lam * dot d x x <= quad d gp_cov x) ->
  kl_column d n gp_mean gp_cov r -> (forall k, denotes (sampler k) D) ->
  let eC := frob d (msub (cov_mat D) gp_cov) + 16 * INR d ^ 2 * B ^ 4 / INR n in
  forall k, law (sample_loop sampler k n) (fun l => if cov_ok d lam gp_cov l then 0 else 1) <= 4 * eC / lam ^ 2 /\
    forall l, length l = n -> cov_ok d lam gp_cov l = true -> kl_returns d gp_mean gp_cov (approx_mean l) (approx_cov l) (r l).
Proof. exact column_defined. Qed.
Print Assumptions C144_column_defined.

(** ... and elsewhere an expectation of order eC + eM, so of order 1 / n for a sampler with the reference moments. *)
Theorem C144_column_small : forall d n D B, is_prob D -> 0 <= B ->
  (forall x, In x (map snd D) -> forall i, (i < d)%nat -> Rabs (x i - mean_vec D i) <= B) -> (2 <= n)%nat ->
  forall gp_mean gp_cov lam r sampler, symmetric d gp_cov -> 0 < lam -> (forall x, lam * dot d x x <= quad d gp_cov x) ->
  kl_column d n gp_mean gp_cov r -> (forall k, denotes (sampler k) D) ->
  let eC := frob d (msub (cov_mat D) gp_cov) + 16 * INR d ^ 2 * B ^ 4 / INR n in
  let eM := Rsum (map (fun i => (gp_mean i - mean_vec D i) ^ 2) (seq 0 d)) + mtrace d (cov_mat D) / INR n in
  forall k, 0 <= law (sample_loop sampler k n) (fun l => if cov_ok d lam gp_cov l then r l else 0) <= 2 * eC / lam ^ 2 + 3 / lam * eM.
Proof. exact column_small. Qed.
Print Assumptions C144_column_small.

(** With no more samples than dimensions there is no value at all. *)
Theorem C144_no_value : forall d gp_mean gp_cov l, (2 <= length l <= d)%nat -> ~ exists v, kl_returns d gp_mean gp_cov (approx_mean l) (approx_cov l) v.
Proof. exact kl_no_value. Qed.
Print Assumptions C144_no_value.

(** Four draws of a fair sign with mean zero: sample variance 4/3 and a column of ln (4/3) - 1/4. *)
Example C144_example : let l : list vec := [fun _ => 1; fun _ => -1; fun _ => 1; fun _ => -1] in
  is_prob coin /\ (forall x, In x (map snd coin) -> forall i, (i < 1)%nat -> Rabs (x i - mean_vec coin i) <= 1) /\
  symmetric 1 (cov_mat coin) /\ (forall x, 1 * dot 1 x x <= quad 1 (cov_mat coin) x) /\ cov_ok 1 1 (cov_mat coin) l = true /\
  kl_returns 1 (mean_vec coin) (cov_mat coin) (approx_mean l) (approx_cov l) (ln (4 / 3) - 1 / 4).
Proof.
  intros l. split; [exact coin_prob|]. split.
  { intros x [<-|[<-|[]]] i _; rewrite coin_mean; cbn [snd]; [replace (1 - 0) with 1 by ring; rewrite Rabs_R1; lra|replace (-1 - 0) with (-(1)) by ring; rewrite Rabs_Ropp, Rabs_R1; lra]. }
  split; [intros i j _ _; unfold mtr; now rewrite !coin_cov|]. split; [intros x; unfold quad, mvec, dot; cbn [seq map Rsum]; rewrite coin_cov; lra|].
  assert (Em : forall i, approx_mean l i = 0) by (intros i; unfold approx_mean, Rmean, l; cbn; lra).
  assert (Ec : forall i j, approx_cov l i j = 4 / 3) by (intros i j; unfold approx_cov; rewrite !Em; unfold l; cbn; lra).
  split.
  { unfold cov_ok, frob, msub. cbn [seq map Rsum fold_right]. rewrite Ec, coin_cov. destruct Rle_dec as [H|H]; [reflexivity|]. exfalso. apply H. lra. }
  assert (Hs : 0 < sqrt (4 / 3)) by (apply sqrt_lt_R0; lra). assert (Hq : sqrt (4 / 3) * sqrt (4 / 3) = 4 / 3) by (apply sqrt_sqrt; lra).
  exists (fun _ _ => 1), (fun _ _ => sqrt (4 / 3)), (fun _ _ => 3 / 4), (fun _ => 0).
  unfold cho_factor, cho_solve, cho_solve_v, lower, diag_pos, meq, veq, mmul, mvec, mtr, vsub, mtrace, dot, log_det. cbn [seq map Rsum fold_right].
  split; [|split; [|split; [|split]]].
  - split; [intros i j Hi Hj Hij; lia|]. split; [intros; lra|]. intros i j _ _. rewrite coin_cov. ring.
  - split; [intros i j Hi Hj Hij; lia|]. split; [intros; exact Hs|]. intros i j _ _. rewrite Ec. lra.
  - intros i j _ _. rewrite coin_cov, Hq. lra.
  - intros i _. rewrite Em, coin_mean. ring.
  - rewrite Em, coin_mean, (Rabs_pos_eq (sqrt (4 / 3))), Rabs_R1, ln_1 by lra.
    replace (4 / 3) with (sqrt (4 / 3) * sqrt (4 / 3)) at 1 by exact Hq. rewrite ln_mult by exact Hs. cbn [INR]. lra.
Qed.
