(** The statistics of experiments/tabulators/tabulate_toy.py, and what they are on independent samples and on chains. *)
From Coquelicot Require Import Coquelicot.
From Coq Require Import FunctionalExtensionality.
From Verif Require Import Base Dist Prog FinLaw Hygiene Mat MatMore Cholesky Expm ResVariance GaussDiv FilterLimit TwistedLimit SmcProofs ScriptRuns.
From Verif Require ForceMoveExact FilterConsistent.
Open Scope R_scope.

(** tabulate_toy.py:54 [np.mean(samples, axis=0)] *)
Definition approx_mean (samples : list vec) : vec := fun i => Rmean (map (fun s : vec => s i) samples).
(** tabulate_toy.py:55 [np.cov(samples, rowvar=False)]: divisor [nsamples - 1] *)
Definition approx_cov (samples : list vec) : mat := fun i j =>
  Rsum (map (fun s : vec => (s i - approx_mean samples i) * (s j - approx_mean samples j)) samples) / (INR (length samples) - 1).
(** tabulate_toy.py:57 [np.mean(jnp.abs(approx_mean - gp_mean))] *)
Definition err_m (d : nat) (gp_mean : vec) (samples : list vec) : R :=
  Rmean (map (fun i => Rabs (approx_mean samples i - gp_mean i)) (seq 0 d)).
(** tabulate_toy.py:58 *)
Definition err_var (d : nat) (gp_cov : mat) (samples : list vec) : R :=
  Rmean (map (fun i => Rabs (approx_cov samples i i - gp_cov i i)) (seq 0 d)).
(** tabulate_toy.py:43-46: with several chains the mean is over chains and coordinates (all chains have the same length) *)
Definition err_m_chains (d : nat) (gp_mean : vec) (chains : list (list vec)) : R := Rmean (map (err_m d gp_mean) chains).

(** ** Algebra *)
Lemma centred_products (l : list vec) i j a b : l <> [] ->
  Rsum (map (fun s : vec => (s i - approx_mean l i) * (s j - approx_mean l j)) l) =
  Rsum (map (fun s : vec => (s i - a) * (s j - b)) l) - Rsum (map (fun s : vec => s i - a) l) * Rsum (map (fun s : vec => s j - b) l) / INR (length l).
Proof.
  intros Hl. assert (Hn : INR (length l) <> 0) by (apply not_0_INR; destruct l; [congruence|discriminate]).
  unfold approx_mean, Rmean. rewrite !map_length.
  assert (H1 : forall (l : list vec) a b, Rsum (map (fun s : vec => (s i - a) * (s j - b)) l) =
     Rsum (map (fun s : vec => s i * s j) l) - b * Rsum (map (fun s : vec => s i) l) - a * Rsum (map (fun s : vec => s j) l) + INR (length l) * (a * b)).
  { clear. intros l a b. induction l as [|s l IH]; [cbn; ring|]. cbn [map Rsum length]. rewrite IH, S_INR. ring. }
  assert (H2 : forall (l : list vec) i a, Rsum (map (fun s : vec => s i - a) l) = Rsum (map (fun s : vec => s i) l) - INR (length l) * a).
  { clear. intros l i a. induction l as [|s l IH]; [cbn; ring|]. cbn [map Rsum length]. rewrite IH, S_INR. ring. }
  rewrite !H1, !H2. unfold vec in *. field. assumption.
Qed.

Lemma sum_nth (l : list vec) (f : vec -> R) : Rsum (map f l) = Rsum (map (fun t => f (nth t l (fun _ => 0))) (seq 0 (length l))).
Proof. apply Rsum_gather. Qed.
Lemma prod_sums {A} (f g : A -> R) l : Rsum (map f l) * Rsum (map g l) = Rsum (map (fun s => Rsum (map (fun t => f s * g t) l)) l).
Proof.
  rewrite <- (Rsum_map_mult_r (Rsum (map g l)) f). apply Rsum_map_ext. intros s _. now rewrite <- Rsum_map_mult_l.
Qed.

(** ** A run of [n] samples: means and covariances of the [d] coordinates *)
Record run_moments (d n : nat) (W : dist (list vec)) (mu : vec) (Gam : nat -> nat -> mat) : Prop := {
  rm_prob : is_prob W;
  rm_len : forall l, In l (map snd W) -> length l = n;
  rm_mean : forall t i, (t < n)%nat -> (i < d)%nat -> E W (fun l => nth t l (fun _ => 0) i) = mu i;
  rm_cov : forall s t i j, (s < n)%nat -> (t < n)%nat -> (i < d)%nat -> (j < d)%nat ->
    E W (fun l => (nth s l (fun _ => 0) i - mu i) * (nth t l (fun _ => 0) j - mu j)) = Gam s t i j }.

Section moments.
Variables (d n : nat) (W : dist (list vec)) (mu : vec) (Gam : nat -> nat -> mat).
Hypothesis HW : run_moments d n W mu Gam.
Hypothesis Hn : (0 < n)%nat.
Let INRn : 0 < INR n.
Proof. apply lt_0_INR; lia. Qed.

Lemma E_sum_run (f : vec -> R) : E W (fun l => Rsum (map f l)) = Rsum (map (fun t => E W (fun l => f (nth t l (fun _ => 0)))) (seq 0 n)).
Proof.
  rewrite <- E_Rsum. apply E_ext. intros l Hl. rewrite sum_nth, (rm_len _ _ _ _ _ HW l Hl). reflexivity.
Qed.

Theorem mean_unbiased i : (i < d)%nat -> E W (fun l => approx_mean l i) = mu i.
Proof.
  intros Hi. unfold approx_mean, Rmean.
  rewrite (E_ext _ _ (fun l => / INR n * Rsum (map (fun s : vec => s i) l))).
  2:{ intros l Hl. rewrite map_length, (rm_len _ _ _ _ _ HW l Hl). unfold Rdiv. ring. }
  rewrite E_mult_l, E_sum_run. rewrite (Rsum_map_ext _ (fun _ => mu i)).
  - rewrite Rsum_map_const, seq_length. field. lra.
  - intros t Ht. apply in_seq in Ht. apply (rm_mean _ _ _ _ _ HW); [lia|assumption].
Qed.

Lemma cov_double i j : (i < d)%nat -> (j < d)%nat ->
  E W (fun l => Rsum (map (fun s : vec => s i - mu i) l) * Rsum (map (fun s : vec => s j - mu j) l)) =
  Rsum (map (fun s => Rsum (map (fun t => Gam s t i j) (seq 0 n))) (seq 0 n)).
Proof.
  intros Hi Hj.
  rewrite (E_ext _ _ (fun l => Rsum (map (fun s => Rsum (map (fun t => (nth s l (fun _ => 0) i - mu i) * (nth t l (fun _ => 0) j - mu j)) (seq 0 n))) (seq 0 n)))).
  2:{ intros l Hl. rewrite !(sum_nth l), (rm_len _ _ _ _ _ HW l Hl). apply prod_sums. }
  rewrite E_Rsum. apply Rsum_map_ext. intros s Hs. rewrite E_Rsum. apply Rsum_map_ext. intros t Ht.
  apply in_seq in Hs. apply in_seq in Ht. apply (rm_cov _ _ _ _ _ HW); try lia; assumption.
Qed.

(** expectation of the sample covariance: average variance minus the average of the autocovariances *)
Theorem cov_mean i j : (2 <= n)%nat -> (i < d)%nat -> (j < d)%nat ->
  E W (fun l => approx_cov l i j) =
  (Rsum (map (fun t => Gam t t i j) (seq 0 n)) - Rsum (map (fun s => Rsum (map (fun t => Gam s t i j) (seq 0 n))) (seq 0 n)) / INR n) / (INR n - 1).
Proof.
  intros Hn2 Hi Hj. assert (H1 : 1 < INR n) by (apply (lt_INR 1); lia). unfold approx_cov.
  rewrite (E_ext _ _ (fun l => / (INR n - 1) * (Rsum (map (fun s : vec => (s i - mu i) * (s j - mu j)) l) +
     (- / INR n) * (Rsum (map (fun s : vec => s i - mu i) l) * Rsum (map (fun s : vec => s j - mu j) l))))).
  - rewrite E_mult_l, E_plus, E_mult_l, (cov_double i j Hi Hj), E_sum_run. unfold Rdiv.
    rewrite (Rsum_map_ext _ (fun t => Gam t t i j)); [ring|].
    intros t Ht. apply in_seq in Ht. apply (rm_cov _ _ _ _ _ HW); try lia; assumption.
  - intros l Hl. assert (El : length l = n) by exact (rm_len _ _ _ _ _ HW l Hl).
    rewrite (centred_products l i j (mu i) (mu j)) by (destruct l; [cbn in El; lia|discriminate]). rewrite El. field. lra.
Qed.

(** mean-square error of the sample mean *)
Theorem mean_square i : (i < d)%nat ->
  E W (fun l => (approx_mean l i - mu i) ^ 2) = Rsum (map (fun s => Rsum (map (fun t => Gam s t i i) (seq 0 n))) (seq 0 n)) / INR n ^ 2.
Proof.
  intros Hi. rewrite <- (cov_double i i Hi Hi).
  transitivity (E W (fun l => / INR n ^ 2 * (Rsum (map (fun s : vec => s i - mu i) l) * Rsum (map (fun s : vec => s i - mu i) l)))).
  - apply E_ext. intros l Hl. assert (El : length l = n) by exact (rm_len _ _ _ _ _ HW l Hl).
    assert (H2 : forall (l : list vec) a, Rsum (map (fun s : vec => s i - a) l) = Rsum (map (fun s : vec => s i) l) - INR (length l) * a).
    { clear. intros l a. induction l as [|s l IH]; [cbn; ring|]. cbn [map Rsum length]. rewrite IH, S_INR. ring. }
    unfold approx_mean, Rmean. rewrite H2, map_length, El. field. lra.
  - rewrite E_mult_l. unfold Rdiv. ring.
Qed.

Lemma E_abs_lower {A} (D : dist A) f : is_prob D -> Rabs (E D f) <= E D (fun a => Rabs (f a)).
Proof.
  intros [Hd _]. apply Rabs_le. split.
  - assert (H : E D (fun a => (-(1)) * Rabs (f a)) <= E D f); [|rewrite E_mult_l in H; lra].
    apply E_le; [assumption|]. intros a _. pose proof (Rle_abs (- f a)). rewrite Rabs_Ropp in H. lra.
  - apply E_le; [assumption|]. intros a _. apply Rle_abs.
Qed.
Lemma E_abs_upper {A} (D : dist A) f v : is_prob D -> E D (fun a => f a ^ 2) <= v -> E D (fun a => Rabs (f a)) <= sqrt v.
Proof.
  intros HD Hv. pose proof (E_cauchy_schwarz D (fun _ => 1) (fun a => Rabs (f a)) HD) as H. cbv beta in H.
  rewrite (E_ext' D (fun _ => 1 ^ 2) (fun _ => 1)) in H by (intros; ring). rewrite (E_const _ _ HD) in H.
  rewrite (E_ext' D (fun a => Rabs (f a) ^ 2) (fun a => f a ^ 2)) in H by (intros; apply pow2_abs).
  rewrite (E_ext' D (fun a => 1 * Rabs (f a)) (fun a => Rabs (f a))) in H by (intros; ring).
  assert (H0 : 0 <= E D (fun a => Rabs (f a))) by (apply E_nonneg; [apply HD|intros; apply Rabs_pos]).
  rewrite <- (sqrt_pow2 _ H0). apply sqrt_le_1_alt. lra.
Qed.
Lemma E_Rmean {A B} (D : dist A) (f : A -> B -> R) l : E D (fun a => Rmean (map (f a) l)) = Rmean (map (fun b => E D (fun a => f a b)) l).
Proof.
  unfold Rmean. rewrite map_length. rewrite (E_ext' _ _ (fun a => / INR (length l) * Rsum (map (f a) l))).
  - rewrite E_mult_l, E_Rsum. unfold Rdiv. ring.
  - intros a. rewrite map_length. unfold Rdiv. ring.
Qed.
Lemma Rmean_le {B} (f g : B -> R) l : (forall b, In b l -> f b <= g b) -> Rmean (map f l) <= Rmean (map g l).
Proof.
  intros H. unfold Rmean. rewrite !map_length. destruct l as [|b l]; [cbn; lra|].
  apply Rmult_le_compat_r; [left; apply Rinv_0_lt_compat, lt_0_INR; cbn; lia|]. now apply Rsum_map_le.
Qed.

(** the tabulated error of the mean, in expectation *)
Theorem err_m_bounds gp_mean v : (forall i, (i < d)%nat -> E W (fun l => (approx_mean l i - mu i) ^ 2) <= v i) ->
  Rmean (map (fun i => Rabs (mu i - gp_mean i)) (seq 0 d)) <= E W (err_m d gp_mean) <=
  Rmean (map (fun i => Rabs (mu i - gp_mean i) + sqrt (v i)) (seq 0 d)).
Proof.
  intros Hv. unfold err_m. rewrite E_Rmean. assert (HP := rm_prob _ _ _ _ _ HW). split; apply Rmean_le; intros i Hi; apply in_seq in Hi; destruct Hi as [_ Hi]; cbn in Hi.
  - eapply Rle_trans; [|apply E_abs_lower; exact HP]. rewrite E_minus, (E_const _ _ HP), (mean_unbiased i Hi). apply Rle_refl.
  - pose proof (E_abs_upper W (fun l => approx_mean l i - mu i) (v i) HP (Hv i Hi)) as H.
    eapply Rle_trans; [|apply Rplus_le_compat_l, H].
    eapply Rle_trans; [apply (E_le W _ (fun l => Rabs (mu i - gp_mean i) + Rabs (approx_mean l i - mu i)))|].
    + apply HP.
    + intros l _. eapply Rle_trans; [|apply Rabs_triang]. right. f_equal. ring.
    + rewrite E_plus, (E_const _ _ HP). apply Rle_refl.
Qed.
End moments.

(** ** Independent samples *)
Definition zero_vec : vec := fun _ => 0.
Definition mean_vec (D : dist vec) : vec := fun i => E D (fun x => x i).
Definition cov_mat (D : dist vec) : mat := fun i j => E D (fun x => (x i - mean_vec D i) * (x j - mean_vec D j)).

Lemma E_iid_one {A} (D : dist A) dflt n : is_prob D -> forall t f, (t < n)%nat -> E (dseq (repeat D n)) (fun l => f (nth t l dflt)) = E D f.
Proof.
  intros HD. induction n as [|n IH]; intros [|t] f Ht; try lia; cbn [repeat]; rewrite E_dseq_cons; cbn [nth].
  - apply E_ext'. intros a. apply E_const. apply is_prob_dseq, Forall_forall. intros x Hx. apply repeat_spec in Hx. now subst.
  - rewrite (IH t f) by lia. now apply E_const.
Qed.
Lemma E_iid_two {A} (D : dist A) dflt n : is_prob D -> forall s t f g, (s < n)%nat -> (t < n)%nat -> s <> t ->
  E (dseq (repeat D n)) (fun l => f (nth s l dflt) * g (nth t l dflt)) = E D f * E D g.
Proof.
  intros HD. induction n as [|n IH]; intros [|s] [|t] f g Hs Ht Hst; try lia; cbn [repeat]; rewrite E_dseq_cons; cbn [nth].
  - rewrite (E_ext' _ _ (fun a => E D g * f a)).
    + rewrite E_mult_l. ring.
    + intros a. rewrite E_mult_l, (E_iid_one D dflt n HD t g) by lia. ring.
  - rewrite (E_ext' _ _ (fun a => E D f * g a)).
    + rewrite E_mult_l. ring.
    + intros a. rewrite (E_ext' _ _ (fun l => g a * f (nth s l dflt))) by (intros; ring). rewrite E_mult_l, (E_iid_one D dflt n HD s f) by lia. ring.
  - rewrite (E_ext' _ _ (fun _ => E D f * E D g)) by (intros a; apply IH; lia). now apply E_const.
Qed.

Lemma iid_moments d n (D : dist vec) : is_prob D ->
  run_moments d n (dseq (repeat D n)) (mean_vec D) (fun s t => if Nat.eqb s t then cov_mat D else fun _ _ => 0).
Proof.
  intros HD. constructor.
  - apply is_prob_dseq, Forall_forall. intros x Hx. apply repeat_spec in Hx. now subst.
  - intros l Hl. apply dseq_length in Hl. now rewrite repeat_length in Hl.
  - intros t i Ht Hi. exact (E_iid_one D (fun _ => 0) n HD t (fun x => x i) Ht).
  - intros s t i j Hs Ht Hi Hj. destruct (Nat.eqb_spec s t) as [<-|Hst].
    + exact (E_iid_one D (fun _ => 0) n HD s (fun x => (x i - mean_vec D i) * (x j - mean_vec D j)) Hs).
    + rewrite (E_iid_two D (fun _ => 0) n HD s t (fun x => x i - mean_vec D i) (fun x => x j - mean_vec D j) Hs Ht Hst).
      rewrite E_minus, (E_const _ _ HD). unfold mean_vec at 1. ring.
Qed.

Lemma diag_sum (c : R) n : forall m, Rsum (map (fun s => Rsum (map (fun t => if Nat.eqb s t then c else 0) (seq m n))) (seq m n)) = INR n * c.
Proof.
  induction n as [|n IH]; intros m; [cbn; ring|]. cbn [seq map Rsum]. rewrite Nat.eqb_refl, S_INR.
  rewrite (Rsum_map_ext (fun t => if Nat.eqb m t then c else 0) (fun _ => 0)).
  2:{ intros t Ht. apply in_seq in Ht. destruct (Nat.eqb_spec m t); [lia|reflexivity]. }
  rewrite Rsum_map_const, Rmult_0_r.
  rewrite (Rsum_map_ext _ (fun s => Rsum (map (fun t => if Nat.eqb s t then c else 0) (seq (S m) n)))).
  2:{ intros s Hs. apply in_seq in Hs. destruct (Nat.eqb_spec s m); [lia|]. ring. }
  rewrite (IH (S m)). ring.
Qed.

Section iid.
Variables (d n : nat) (D : dist vec) (sampler : key -> prog vec).
Hypothesis HD : is_prob D.
Hypothesis Hs : forall k, denotes (sampler k) D.

Theorem table_mean k i : (0 < n)%nat -> (i < d)%nat -> law (sample_loop sampler k n) (fun l => approx_mean l i) = mean_vec D i.
Proof. intros Hn Hi. rewrite (sample_loop_denotes sampler D Hs n k _). exact (mean_unbiased d n _ _ _ (iid_moments d n D HD) Hn i Hi). Qed.

Theorem table_cov k i j : (2 <= n)%nat -> (i < d)%nat -> (j < d)%nat -> law (sample_loop sampler k n) (fun l => approx_cov l i j) = cov_mat D i j.
Proof.
  intros Hn Hi Hj. assert (H1 : 1 < INR n) by (apply (lt_INR 1); lia).
  rewrite (sample_loop_denotes sampler D Hs n k _), (cov_mean d n _ _ _ (iid_moments d n D HD) ltac:(lia) i j Hn Hi Hj).
  rewrite (Rsum_map_ext _ (fun _ => cov_mat D i j)) by (intros t _; now rewrite Nat.eqb_refl).
  rewrite Rsum_map_const, seq_length.
  rewrite (Rsum_map_ext _ (fun s => Rsum (map (fun t => if Nat.eqb s t then cov_mat D i j else 0) (seq 0 n)))).
  - rewrite diag_sum. field. lra.
  - intros s _. apply Rsum_map_ext. intros t _. destruct (Nat.eqb s t); reflexivity.
Qed.

Theorem table_err_m k gp_mean : (0 < n)%nat ->
  Rmean (map (fun i => Rabs (mean_vec D i - gp_mean i)) (seq 0 d)) <= law (sample_loop sampler k n) (err_m d gp_mean) <=
  Rmean (map (fun i => Rabs (mean_vec D i - gp_mean i) + sqrt (cov_mat D i i / INR n)) (seq 0 d)).
Proof.
  intros Hn. rewrite (sample_loop_denotes sampler D Hs n k _).
  apply (err_m_bounds d n _ _ _ (iid_moments d n D HD) Hn gp_mean (fun i => cov_mat D i i / INR n)).
  intros i Hi. rewrite (mean_square d n _ _ _ (iid_moments d n D HD) Hn i Hi).
  rewrite (Rsum_map_ext _ (fun s => Rsum (map (fun t => if Nat.eqb s t then cov_mat D i i else 0) (seq 0 n)))).
  - rewrite diag_sum. right. assert (0 < INR n) by (apply lt_0_INR; lia). field. lra.
  - intros s _. apply Rsum_map_ext. intros t _. destruct (Nat.eqb s t); reflexivity.
Qed.
End iid.

(** ** Too few samples: the sample covariance is singular *)
Lemma dot_S d (a x : vec) : dot (S d) a x = dot d a x + a d * x d.
Proof. unfold dot. apply Rsum_seq_S. Qed.
Lemma dot_vsub_scale d (a b x : vec) c : dot d (vsub b (vscale c a)) x = dot d b x - c * dot d a x.
Proof.
  unfold dot. rewrite <- Rsum_map_mult_l. transitivity (Rsum (map (fun i => b i * x i + -1 * (c * (a i * x i))) (seq 0 d))).
  - apply Rsum_map_ext. intros i _. unfold vsub, vscale. ring.
  - rewrite Rsum_map_plus, Rsum_map_mult_l. ring.
Qed.
Lemma dot_ext d (a x y : vec) : veq d x y -> dot d a x = dot d a y.
Proof. intros H. unfold dot. apply Rsum_map_ext. intros i Hi. apply in_seq in Hi. rewrite (H i) by lia. reflexivity. Qed.

Lemma underdetermined d : forall rows, (length rows < d)%nat -> exists x, ~ veq d x (fun _ => 0) /\ Forall (fun a => dot d a x = 0) rows.
Proof.
  induction d as [|d IH]; intros rows Hl; [lia|].
  destruct (Exists_dec (fun a : vec => a d <> 0) rows) as [He|He].
  { intros a. destruct (Req_EM_T (a d) 0); [right; tauto|left; assumption]. }
  - apply Exists_exists in He. destruct He as (a & Ha & Had). apply in_split in Ha. destruct Ha as (r1 & r2 & ->).
    destruct (IH (map (fun b => vsub b (vscale (b d / a d) a)) (r1 ++ r2))) as (x & Hx & Hrows).
    { rewrite map_length. rewrite app_length in *. cbn in Hl. lia. }
    set (x' := fun i => if Nat.eqb i d then - dot d a x / a d else x i).
    assert (Hxx : veq d x' x).
    { intros i Hi. unfold x'. destruct (Nat.eqb_spec i d); [lia|reflexivity]. }
    assert (Hd : x' d = - dot d a x / a d) by (unfold x'; now rewrite Nat.eqb_refl).
    assert (Ha : dot (S d) a x' = 0) by (rewrite dot_S, (dot_ext d a x' x Hxx), Hd; field; assumption).
    assert (Hb : forall b, In b (r1 ++ r2) -> dot (S d) b x' = 0).
    { intros b Hb. apply Forall_map in Hrows. rewrite Forall_forall in Hrows. specialize (Hrows b Hb). cbv beta in Hrows.
      rewrite dot_vsub_scale in Hrows. rewrite dot_S, (dot_ext d b x' x Hxx), Hd.
      replace (dot d b x) with (b d / a d * dot d a x) by lra. field. assumption. }
    exists x'. split.
    + intros H. apply Hx. intros i Hi. rewrite <- (Hxx i Hi). apply H. lia.
    + apply Forall_app. split; [apply Forall_forall; intros b H; apply Hb, in_app_iff; now left|].
      constructor; [exact Ha|]. apply Forall_forall. intros b H. apply Hb, in_app_iff. now right.
  - exists (fun i => if Nat.eqb i d then 1 else 0). split.
    + intros H. specialize (H d ltac:(lia)). cbv beta in H. rewrite Nat.eqb_refl in H. lra.
    + apply Forall_forall. intros a Ha. rewrite dot_S, Nat.eqb_refl.
      assert (Had : a d = 0). { destruct (Req_dec (a d) 0); [assumption|]. exfalso. apply He, Exists_exists. eauto. }
      rewrite Had. rewrite (dot_ext d a _ (fun _ => 0)).
      * unfold dot. rewrite (Rsum_map_ext _ (fun _ => 0)) by (intros; ring). rewrite Rsum_map_const. ring.
      * intros i Hi. destruct (Nat.eqb_spec i d); [lia|reflexivity].
Qed.

Definition centre (l : list vec) (s : vec) : vec := fun i => s i - approx_mean l i.
Lemma quad_cov d l x : l <> [] -> quad d (approx_cov l) x = Rsum (map (fun s => dot d x (centre l s) ^ 2) l) / (INR (length l) - 1).
Proof.
  intros Hl. unfold quad, mvec, approx_cov.
  transitivity (Rsum (map (fun i => Rsum (map (fun j => Rsum (map (fun s => (x i * centre l s i) * (x j * centre l s j)) l)) (seq 0 d))) (seq 0 d)) / (INR (length l) - 1)).
  - unfold Rdiv at 2. rewrite <- Rsum_map_mult_r. apply Rsum_map_ext. intros i _. rewrite <- Rsum_map_mult_l, <- Rsum_map_mult_r.
    apply Rsum_map_ext. intros j _. unfold Rdiv.
    transitivity (x i * x j * Rsum (map (fun s : vec => (s i - approx_mean l i) * (s j - approx_mean l j)) l) * / (INR (length l) - 1)); [ring|].
    f_equal. rewrite <- Rsum_map_mult_l. apply Rsum_map_ext. intros s _. unfold centre. ring.
  - f_equal. rewrite (Rsum_map_ext _ (fun i => Rsum (map (fun s => Rsum (map (fun j => x i * centre l s i * (x j * centre l s j)) (seq 0 d))) l))).
    2:{ intros i _. apply Rsum_exchange. }
    rewrite Rsum_exchange. apply Rsum_map_ext. intros s _. unfold dot. rewrite <- Rsum_map_mult_r with (c := Rsum (map (fun i => x i * centre l s i) (seq 0 d))) || idtac.
    rewrite <- prod_sums. ring.
Qed.

Theorem cov_psd d l : (2 <= length l)%nat -> symmetric d (approx_cov l) /\ psd d (approx_cov l).
Proof.
  intros Hl. split.
  - intros i j _ _. unfold mtr, approx_cov. f_equal. apply Rsum_map_ext. intros. ring.
  - intros x. rewrite quad_cov by (destruct l; [cbn in Hl; lia|discriminate]).
    assert (1 < INR (length l)) by (apply (lt_INR 1); lia). apply Rmult_le_pos; [|left; apply Rinv_0_lt_compat; lra].
    apply Rsum_nonneg, Forall_map, Forall_forall. intros s _. apply pow2_ge_0.
Qed.

Lemma centre_sum d l x : l <> [] -> Rsum (map (fun s => dot d x (centre l s)) l) = 0.
Proof.
  intros Hl. unfold dot. rewrite Rsum_exchange. rewrite (Rsum_map_ext _ (fun _ => 0)); [rewrite Rsum_map_const; ring|].
  intros i _. rewrite Rsum_map_mult_l. replace (Rsum (map (fun s => centre l s i) l)) with 0; [ring|]. unfold centre.
  assert (Hn : INR (length l) <> 0) by (apply not_0_INR; destruct l; [congruence|discriminate]).
  assert (H2 : forall (l' : list vec) a, Rsum (map (fun s : vec => s i - a) l') = Rsum (map (fun s : vec => s i) l') - INR (length l') * a).
  { clear. intros l a. induction l as [|s l IH]; [cbn; ring|]. cbn [map Rsum length]. rewrite IH, S_INR. ring. }
  rewrite H2. unfold approx_mean, Rmean. rewrite map_length. field. assumption.
Qed.

Theorem cov_singular d l : (2 <= length l <= d)%nat -> ~ posdef d (approx_cov l).
Proof.
  intros [H1 H2] Hp. assert (Hl : l <> []) by (destruct l; [cbn in H1; lia|discriminate]).
  destruct (underdetermined d (map (centre l) (removelast l))) as (x & Hx & Hz).
  { rewrite map_length. pose proof (@app_removelast_last vec l (fun _ => 0) Hl) as El. apply (f_equal (@length vec)) in El. rewrite app_length in El. change (length [last l (fun _ => 0)]) with 1%nat in El. unfold vec in *. lia. }
  specialize (Hp x Hx). rewrite (quad_cov d l x Hl) in Hp.
  assert (Hall : forall s, In s (removelast l) -> dot d x (centre l s) = 0).
  { intros s Hs. rewrite dot_comm. apply Forall_map in Hz. rewrite Forall_forall in Hz. now apply Hz. }
  assert (Hsplit : forall f : vec -> R, Rsum (map f l) = Rsum (map f (removelast l)) + f (last l (fun _ => 0))).
  { intros f. rewrite (@app_removelast_last vec l (fun _ => 0) Hl) at 1. rewrite map_app, Rsum_app. cbn [map Rsum]. ring. }
  assert (Hlast : dot d x (centre l (last l (fun _ => 0))) = 0).
  { pose proof (centre_sum d l x Hl) as Hsum. rewrite Hsplit, (Rsum_map_ext _ (fun _ => 0)), Rsum_map_const in Hsum by exact Hall. lra. }
  rewrite Hsplit, Hlast, (Rsum_map_ext _ (fun _ => 0)), Rsum_map_const in Hp.
  - replace ((INR (length (removelast l)) * 0 + 0 ^ 2) / (INR (length l) - 1)) with 0 in Hp by (unfold Rdiv; ring). lra.
  - intros s Hs. rewrite (Hall s Hs). ring.
Qed.

(** ** Chains: identically distributed, correlated *)
Section chain.
Variables (d n : nat) (W : dist (list vec)) (mu : vec) (Gam : nat -> nat -> mat).
Hypothesis HW : run_moments d n W mu Gam.
Variable c : mat.
Hypothesis Hc : forall t i, (t < n)%nat -> (i < d)%nat -> Gam t t i i = c i i.

(** the sample variance falls short of the variance by what the sample mean varies more than under independence *)
Theorem var_shortfall i : (2 <= n)%nat -> (i < d)%nat ->
  E W (fun l => approx_cov l i i) = INR n / (INR n - 1) * (c i i - E W (fun l => (approx_mean l i - mu i) ^ 2)).
Proof.
  intros Hn Hi. assert (H1 : 1 < INR n) by (apply (lt_INR 1); lia).
  rewrite (cov_mean d n W mu Gam HW ltac:(lia) i i Hn Hi Hi), (mean_square d n W mu Gam HW ltac:(lia) i Hi).
  rewrite (Rsum_map_ext (fun t => Gam t t i i) (fun _ => c i i)) by (intros t Ht; apply in_seq in Ht; apply Hc; [lia|assumption]).
  rewrite Rsum_map_const, seq_length. field. lra.
Qed.

(** non-negative autocovariances, one of them positive: the variance is underestimated *)
Theorem var_underestimated i s t : (i < d)%nat -> (s < n)%nat -> (t < n)%nat -> s <> t ->
  (forall s t, (s < n)%nat -> (t < n)%nat -> 0 <= Gam s t i i) -> 0 < Gam s t i i -> E W (fun l => approx_cov l i i) < c i i.
Proof.
  intros Hi Hs Ht Hst H0 Hp. assert (Hn : (2 <= n)%nat) by lia. assert (H1 : 1 < INR n) by (apply (lt_INR 1); lia).
  rewrite (var_shortfall i Hn Hi), (mean_square d n W mu Gam HW ltac:(lia) i Hi).
  assert (Hsum : INR n * c i i < Rsum (map (fun s => Rsum (map (fun t => Gam s t i i) (seq 0 n))) (seq 0 n))).
  { rewrite <- (diag_sum (c i i) n 0).
    assert (Hle : forall s' t', In s' (seq 0 n) -> In t' (seq 0 n) -> (if Nat.eqb s' t' then c i i else 0) <= Gam s' t' i i).
    { intros s' t' Hs' Ht'. apply in_seq in Hs'. apply in_seq in Ht'. destruct (Nat.eqb_spec s' t') as [<-|]; [|apply H0; lia].
      right. symmetry. apply Hc; [lia|assumption]. }
    assert (Is : In s (seq 0 n)) by (apply in_seq; lia). assert (It : In t (seq 0 n)) by (apply in_seq; lia).
    apply (ForceMoveExact.Rsum_map_lt _ _ _ s); [|assumption|].
    - intros s' Hs'. apply Rsum_map_le. intros t' Ht'. now apply Hle.
    - apply (ForceMoveExact.Rsum_map_lt _ _ _ t); [|assumption|].
      + intros t' Ht'. now apply Hle.
      + destruct (Nat.eqb_spec s t); [contradiction|assumption]. }
  apply (Rmult_lt_reg_r (INR n * (INR n - 1))); [apply Rmult_lt_0_compat; lra|].
  match goal with |- ?a < ?b => replace a with (INR n * (INR n * c i i) - Rsum (map (fun s => Rsum (map (fun t => Gam s t i i) (seq 0 n))) (seq 0 n))) by (field; lra) end.
  lra.
Qed.
End chain.

(** gp_gibbs.py:180-186, gp_pmcmc.py:168-174: the recorded states of one chain *)
Section record.
Context {S : Type} (kern : key -> S -> prog S).
Fixpoint chain_record (j : nat) (k : key) (m : nat) (s : S) : prog (list S) :=
  match m with
  | O => Ret []
  | Datatypes.S m' => s' <- kern (split_key (split_key k 1) j) s ;; r <- chain_record j (split_key k 0) m' s' ;; Ret (s' :: r)
  end.
Variable Inv : S -> Prop.
Hypothesis Hlaw : forall s, Inv s -> has_laws Inv (fun k => kern k s).
Lemma chain_record_laws m j : forall s, Inv s -> has_laws (Forall Inv) (fun k => chain_record j k m s).
Proof.
  induction m as [|m IH]; intros s Hs; cbn [chain_record]; [apply has_laws_ret; constructor|].
  apply (has_laws_bind Inv _ (fun k => kern k s) (fun s' k => r <- chain_record j k m s' ;; Ret (s' :: r)) (fun k => split_key (split_key k 1) j) (fun k => split_key k 0)); [now apply Hlaw|].
  intros s' Hs'. apply (has_laws_bind _ _ (fun k => chain_record j k m s') (fun r k => Ret (s' :: r)) (fun k => k) (fun k => k) (IH s' Hs')).
  intros r Hr. apply has_laws_ret. now constructor.
Qed.
Lemma chain_record_good j : (forall k s, good [k] (kern k s)) -> forall m k s, good [k] (chain_record j k m s).
Proof.
  intros H. induction m as [|m IH]; intros k s; cbn [chain_record]; [apply good_ret|].
  apply (good_under k [0; 1]%nat). apply (good_seq k [1%nat] [0%nat]); [key_disjoint|keys_in| |].
  - apply (good_under (split_key k 1) [j]), H.
  - intros s'. apply good_bind_ret, IH.
Qed.

(** started from a stationary law, the sample mean of any function is unbiased *)
Theorem record_mean pi j m (phi : S -> R) : is_prob pi -> (forall s, In s (map snd pi) -> Inv s) ->
  (forall k f, E pi (fun s => law (kern k s) f) = E pi f) ->
  forall k, E pi (fun s => law (chain_record j k m s) (fun l => Rsum (map phi l))) = INR m * E pi phi.
Proof.
  intros Hpi Hsup Hst. induction m as [|m IH]; intros k.
  - cbn [chain_record law map Rsum INR]. rewrite (E_const _ _ Hpi). ring.
  - rewrite (E_ext _ _ (fun s => law (kern (split_key (split_key k 1) j) s) (fun s' => phi s' + law (chain_record j (split_key k 0) m s') (fun l => Rsum (map phi l))))).
    + rewrite Hst, E_plus, IH, S_INR. ring.
    + intros s Hs. cbn [chain_record]. rewrite law_bind.
      apply (has_laws_ext Inv (fun k => kern k s)); [now apply Hlaw, Hsup|]. intros s' Hs'. rewrite law_bind. cbn [law map Rsum].
      pose proof (has_laws_lin _ (fun k => chain_record j k m s') (split_key k 0) (phi s') 1 (fun _ => 1) (fun l => Rsum (map phi l)) (chain_record_laws m j s' Hs')) as Hlin.
      cbv beta in Hlin. rewrite (FilterConsistent.has_laws_const _ (fun k => chain_record j k m s') (split_key k 0) 1 (chain_record_laws m j s' Hs')) in Hlin.
      rewrite Rmult_1_r, Rmult_1_l in Hlin. rewrite <- Hlin. apply law_ext. intros l. ring.
Qed.
End record.
