(** The Bures and variance columns of the tables on independent samples. *)
From Coquelicot Require Import Coquelicot.
From Coq Require Import Reals List Lia Lra.
From Verif Require Import Base Dist Prog FinLaw Mat MatMore Bures BuresBound ScriptRuns SampleStats BuresStat.
Import ListNotations.
Open Scope R_scope.

(** bures_dist lies between the squared distance of the means and that plus the squared Frobenius distance of the covariances
    over the least eigenvalue of the first; the second covariance may be singular (a sample covariance of few samples). *)
Theorem C137_bures_sandwich : forall d c0 c1 lam, symmetric d c0 -> 0 < lam -> (forall x, lam * dot d x x <= quad d c0 x) -> symmetric d c1 -> psd d c1 ->
  forall m0 m1 r, bures_returns d m0 c0 m1 c1 r ->
  Rsum (map (fun i => (m0 i - m1 i) ^ 2) (seq 0 d)) <= r <= Rsum (map (fun i => (m0 i - m1 i) ^ 2) (seq 0 d)) + frob d (msub c1 c0) / lam.
Proof. exact bures_bounds. Qed.
Print Assumptions C137_bures_sandwich.

(** The column is a function of the samples. *)
Theorem C137_column_exists : forall d n gp_mean gp_cov, symmetric d gp_cov -> psd d gp_cov -> (2 <= n)%nat -> exists r, bures_column d n gp_mean gp_cov r.
Proof. exact column_exists. Qed.
Print Assumptions C137_column_exists.

(** Its expectation over n independent draws of D, whose coordinates stay within B of their means. *)
Theorem C137_bures_column : forall d n D B, is_prob D -> 0 <= B ->
  (forall x, In x (map snd D) -> forall i, (i < d)%nat -> Rabs (x i - mean_vec D i) <= B) -> (2 <= n)%nat ->
  forall gp_mean gp_cov lam r sampler, symmetric d gp_cov -> 0 < lam -> (forall x, lam * dot d x x <= quad d gp_cov x) ->
  bures_column d n gp_mean gp_cov r -> (forall k, denotes (sampler k) D) ->
  let floor := Rsum (map (fun i => (gp_mean i - mean_vec D i) ^ 2) (seq 0 d)) + mtrace d (cov_mat D) / INR n in
  forall k, floor <= law (sample_loop sampler k n) r <= floor + (frob d (msub (cov_mat D) gp_cov) + 16 * INR d ^ 2 * B ^ 4 / INR n) / lam.
Proof. exact bures_bias. Qed.
Print Assumptions C137_bures_column.

(** Even a sampler with exactly the reference moments is charged tr(cov) / n, and at most a constant over n. *)
Theorem C137_exact_sampler : forall d n D B, is_prob D -> 0 <= B ->
  (forall x, In x (map snd D) -> forall i, (i < d)%nat -> Rabs (x i - mean_vec D i) <= B) -> (2 <= n)%nat ->
  forall lam r sampler, symmetric d (cov_mat D) -> 0 < lam -> (forall x, lam * dot d x x <= quad d (cov_mat D) x) ->
  bures_column d n (mean_vec D) (cov_mat D) r -> (forall k, denotes (sampler k) D) -> forall k,
  mtrace d (cov_mat D) / INR n <= law (sample_loop sampler k n) r <= (mtrace d (cov_mat D) + 16 * INR d ^ 2 * B ^ 4 / lam) / INR n.
Proof. exact bures_exact_sampler. Qed.
Print Assumptions C137_exact_sampler.

(** The sample covariance entry has variance at most 16 B^4 / n, ... *)
Theorem C137_cov_variance : forall d n D B, is_prob D -> 0 <= B ->
  (forall x, In x (map snd D) -> forall i, (i < d)%nat -> Rabs (x i - mean_vec D i) <= B) -> (2 <= n)%nat ->
  forall i j, (i < d)%nat -> (j < d)%nat -> E (dseq (repeat D n)) (fun l => (approx_cov l i j - cov_mat D i j) ^ 2) <= 16 * B ^ 4 / INR n.
Proof. exact cov_variance. Qed.
Print Assumptions C137_cov_variance.
(** ... so the variance column is within 4 B^2 / sqrt n of the true error. *)
Theorem C137_var_column : forall d n D B, is_prob D -> 0 <= B ->
  (forall x, In x (map snd D) -> forall i, (i < d)%nat -> Rabs (x i - mean_vec D i) <= B) -> (2 <= n)%nat ->
  forall gp_cov sampler, (forall k, denotes (sampler k) D) -> forall k,
  Rmean (map (fun i => Rabs (cov_mat D i i - gp_cov i i)) (seq 0 d)) <= law (sample_loop sampler k n) (err_var d gp_cov) <=
  Rmean (map (fun i => Rabs (cov_mat D i i - gp_cov i i) + 4 * B ^ 2 / sqrt (INR n)) (seq 0 d)).
Proof. exact var_column. Qed.
Print Assumptions C137_var_column.

(** The fair sign meets all hypotheses; with two samples the column has expectation 5/2 - sqrt 2, between 1/2 and 17/2. *)
Example C137_instance : is_prob coin /\ (forall x, In x (map snd coin) -> forall i, (i < 1)%nat -> Rabs (x i - mean_vec coin i) <= 1) /\
  symmetric 1 (cov_mat coin) /\ (forall x, 1 * dot 1 x x <= quad 1 (cov_mat coin) x) /\ (forall n, (2 <= n)%nat -> bures_column 1 n (mean_vec coin) (cov_mat coin) coin_r) /\
  mtrace 1 (cov_mat coin) / INR 2 = 1 / 2 /\ E (dseq (repeat coin 2)) coin_r = 5 / 2 - sqrt 2.
Proof.
  split; [exact coin_prob|]. split.
  { intros x [<-|[<-|[]]] i _; rewrite coin_mean; cbn [snd]; [replace (1 - 0) with 1 by ring; rewrite Rabs_R1; lra|replace (-1 - 0) with (-(1)) by ring; rewrite Rabs_Ropp, Rabs_R1; lra]. }
  split; [intros i j _ _; unfold mtr; now rewrite !coin_cov|]. split; [intros x; unfold quad, mvec, dot; cbn [seq map Rsum]; rewrite coin_cov; lra|].
  split; [exact coin_column|]. split; [unfold mtrace; cbn [seq map Rsum]; rewrite coin_cov; replace (INR 2) with 2 by (cbn; ring); lra|]. exact coin_two.
Qed.
