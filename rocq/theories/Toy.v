(** experiments/toy/gp_*.py and experiments/sb/*.py: Gaussian process regression by
    diffusions.  The part made of linear algebra: data covariance, forward marginals, scores,
    reverse drifts, reference laws, reference samplers and the Kalman filter script.

    Simplifications: [cho_solve] with the factor of a matrix P is multiplication by an
    inverse of P ([inv]), or the solution relation of GaussDiv.v; [jnp.linalg.cholesky] is the
    relation "lower triangular, positive diagonal, L L^T = C"; standard normal draws are any
    finite law with mean 0 and identity covariance (the statements about draws concern first
    and second moments only); [ts[0]] is 0. *)
From Coquelicot Require Import Coquelicot.
From Coq Require Import Reals List Lia Lra Morphisms Setoid FunctionalExtensionality.
From Verif Require Sde SdeProofs SdeMore.
From Verif Require Import Base Dist Mat MatMore Expm Lti Cholesky GaussDiv GaussCond GaussSB GaussSBMore.
Import ListNotations.
Open Scope R_scope.

(** ** Model *)

(** gp_pmcmc.py 35-36 (and every other script): [sigma ** 2 * exp(-abs(z1[None, :] - z2[:, None]) / ell)] *)
Definition cov_fn (sigma ell : R) (z1 z2 : vec) : mat := fun i j => sigma ^ 2 * exp (- Rabs (z1 j - z2 i) / ell).

(** gp_pmcmc.py 31: [linspace(0., 5., d)] *)
Definition zs_grid (d : nat) : vec := fun i => nth i (Sde.linspace 0 5 d) 0.

(** gp_pmcmc.py 46-49: GP regression; [inv] inverts cov + obs_var I *)
Definition gp_mean (d : nat) (C : mat) (inv : mat -> mat) (obs_var : R) (y0 : vec) : vec :=
  mvec d C (mvec d (inv (madd C (mscale obs_var mid))) y0).
Definition gp_cov (d : nat) (C : mat) (inv : mat -> mat) (obs_var : R) : mat :=
  msub C (mmul d C (mmul d (inv (madd C (mscale obs_var mid))) C)).

(** gp_pmcmc.py 52-54 *)
Definition joint_cov (d : nat) (C : mat) (obs_var : R) : mat := blk d C C C (madd C (mscale obs_var mid)).

(** gp_pmcmc.py 69-71 [forward_m_cov], for joint moments (m, C) *)
Definition fwd_mean (sde : Sde.linear_sde) (m : vec) (t : R) : vec := vscale (fst (Sde.FQ sde t 0)) m.
Definition fwd_cov (sde : Sde.linear_sde) (C : mat) (t : R) : mat :=
  madd (mscale (fst (Sde.FQ sde t 0) ^ 2) C) (mscale (snd (Sde.FQ sde t 0)) mid).

(** gp_pmcmc.py 74-77 [score]; sb/gibbs.py 82-85 has the same form *)
Definition score (d : nat) (m : R -> vec) (P : R -> mat) (inv : mat -> mat) (z : vec) (t : R) : vec :=
  vscale (-(1)) (mvec d (inv (P t)) (vsub z (m t))).

(** gp_pmcmc.py 86-87, sb/gibbs.py 93-94 [reverse_drift] *)
Definition reverse_drift (d : nat) (b : vec -> R -> vec) (disp : R -> R) (T : R) (m : R -> vec) (P : R -> mat) (inv : mat -> mat)
  (uv : vec) (t : R) : vec :=
  vadd (vscale (-(1)) (b uv (T - t))) (vscale (disp (T - t) ^ 2) (score d m P inv uv (T - t))).

(** linear.py 22-23 etc. [sde.drift] on vectors *)
Definition vdrift (sde : Sde.linear_sde) (x : vec) (t : R) : vec := vscale (Sde.drift_coef sde t) x.

(** gp_pmcmc.py 130-132 (gp_gibbs, gp_filter, gp_kf [ref_solver], sb): the conditional moments of
    u given v under a joint law (m_ref, cov_ref) of (u, v) *)
Definition ref_moments (d : nat) (m_ref : vec) (cov_ref : mat) (yT : vec) (m_ : vec) (cov_ : mat) : Prop :=
  exists U sol X, cho_factor d (m_hh d cov_ref) U /\ cho_solve_v d U (vsub yT (vhi d m_ref)) sol /\ cho_solve d U (m_hl d cov_ref) X /\
    veq d m_ (vadd m_ref (mvec d (m_lh d cov_ref) sol)) /\ meq d cov_ (msub cov_ref (mmul d (m_lh d cov_ref) X)).

(** [jnp.linalg.cholesky] *)
Definition cholesky (d : nat) (C L : mat) : Prop := lower d L /\ diag_pos d L /\ meq d (mmul d L (mtr L)) C.

(** gp_pmcmc.py 133, sb/gibbs.py 138, gp_kf.py 156: [m_ + normal @ cholesky(cov_)] *)
Definition row_draw (d : nat) (m : vec) (L : mat) (z : vec) : vec := fun i => m i + Rsum (map (fun j => z j * L j i) (seq 0 d)).
(** gp_twisted.py 107-110 [init_sampler] (einsum 'ij,nj->ni'), gp_pmcmc.py 41 ([fs]): cholesky @ normal *)
Definition col_draw (d : nat) (m : vec) (L : mat) (z : vec) : vec := fun i => m i + Rsum (map (fun j => L i j * z j) (seq 0 d)).

(** gp_csgm.py 69-72 *)
Definition csgm_ref_mean (d : nat) (sde : Sde.linear_sde) (T : R) (m : vec) (C : mat) (inv : mat -> mat) (obs_var : R) (y0 : vec) : vec :=
  let F := fst (Sde.FQ sde T 0) in
  vadd (vscale F m) (mvec d (mscale F C) (mvec d (inv (madd C (mscale obs_var mid))) (vsub y0 m))).
Definition csgm_ref_cov (d : nat) (sde : Sde.linear_sde) (T : R) (C : mat) (inv : mat -> mat) (obs_var : R) : mat :=
  let '(F, Q) := Sde.FQ sde T 0 in
  msub (madd (mscale (F ^ 2) C) (mscale Q mid)) (mmul d (mscale F C) (mmul d (inv (madd C (mscale obs_var mid))) (mscale F C))).
(** gp_csgm.py 75-76 [cond_ref_sampler]: mean + cov @ normal *)
Definition csgm_ref_draw (d : nat) (m : vec) (C : mat) (z : vec) : vec := col_draw d m C z.

(** [jax.grad] *)
Definition is_grad (d : nat) (f : vec -> R) (x g : vec) : Prop :=
  forall i, (i < d)%nat -> is_derive (fun h => f (fun k => if Nat.eqb k i then h else x k)) (x i) (g i).

(** gp_csgm.py 80-91 [reverse_drift]; [inv] is used for the factor of F^2 C + Q I *)
Definition csgm_cond_mean (d : nat) (F : R) (m : vec) (C Pinv : mat) (x : vec) : vec :=
  vadd m (mvec d (mscale F C) (mvec d Pinv (vsub x (vscale F m)))).
Definition csgm_cond_cov (d : nat) (F : R) (C Pinv : mat) (obs_var : R) : mat :=
  msub (madd C (mscale obs_var mid)) (mmul d (mscale F C) (mmul d Pinv (mscale F C))).
Definition csgm_drift (d : nat) (sde : Sde.linear_sde) (T : R) (m : vec) (C : mat) (inv : mat -> mat) (obs_var : R) (y0 u : vec) (t : R) (r : vec) : Prop :=
  let F := fst (Sde.FQ sde (T - t) 0) in
  let Pinv := inv (fwd_cov sde C (T - t)) in
  let score_x := vscale (-(1)) (mvec d Pinv (vsub u (vscale F m))) in
  exists lp g, (forall x, gauss_logpdf d (csgm_cond_mean d F m C Pinv x) (csgm_cond_cov d F C Pinv obs_var) y0 (lp x)) /\
    is_grad d lp u g /\
    veq d r (vadd (vscale (-(1)) (vdrift sde u (T - t))) (vscale (Sde.dispersion sde (T - t) ^ 2) (vadd score_x g))).

(** ** Drawing *)
Definition standard (d : nat) (law : dist vec) : Prop := is_prob law /\ has_mean d law (fun _ => 0) /\ has_cov d law (fun _ => 0) mid.

Lemma standard_exists d : (0 < d)%nat -> exists law, standard d law.
Proof.
  intros Hd. exists (two_point d (fun _ => 0) mid). split; [now apply two_point_prob|]. split; [now apply two_point_mean|].
  intros i j Hi Hj. rewrite (two_point_cov d _ mid Hd i j Hi Hj). now rewrite (mmul_proper d mid mid (reflexivity _) (mtr mid) mid (mtr_mid d) i j Hi Hj), mmul_id_l.
Qed.

Lemma E_sum_std d law (a : vec) : standard d law -> E law (fun z => Rsum (map (fun j => a j * z j) (seq 0 d))) = 0.
Proof.
  intros (_ & Hm & _). rewrite (E_Rsum law (fun z j => a j * z j)). rewrite (Rsum_map_ext _ (fun _ => 0)).
  - rewrite Rsum_map_const. ring.
  - intros j Hj. apply in_seq in Hj. rewrite E_mult_l, Hm by lia. ring.
Qed.

Lemma E_prod_std d law (a b : vec) : standard d law ->
  E law (fun z => Rsum (map (fun j => a j * z j) (seq 0 d)) * Rsum (map (fun j => b j * z j) (seq 0 d))) = Rsum (map (fun j => a j * b j) (seq 0 d)).
Proof.
  intros (_ & _ & Hc).
  rewrite (E_ext' _ _ (fun z => Rsum (map (fun j => Rsum (map (fun k => (a j * b k) * (z j * z k)) (seq 0 d))) (seq 0 d)))).
  - rewrite (E_Rsum law (fun z j => Rsum (map (fun k => (a j * b k) * (z j * z k)) (seq 0 d)))). apply Rsum_map_ext. intros j Hj. apply in_seq in Hj.
    rewrite (E_Rsum law (fun z k => (a j * b k) * (z j * z k))).
    rewrite <- (Rsum_indicator d j (fun k => a j * b k)) by lia. apply Rsum_map_ext. intros k Hk. apply in_seq in Hk. rewrite E_mult_l.
    specialize (Hc j k ltac:(lia) ltac:(lia)). cbv beta in Hc. rewrite (E_ext' _ (fun z : vec => z j * z k) (fun z => (z j - 0) * (z k - 0))) by (intros; ring). rewrite Hc. unfold mid. rewrite Nat.eqb_sym. ring.
  - intros z. rewrite <- Rsum_map_mult_r. apply Rsum_map_ext. intros j _. rewrite <- Rsum_map_mult_l. apply Rsum_map_ext. intros; ring.
Qed.

(** A draw x = m + A z. *)
Lemma col_draw_moments d m A law : standard d law ->
  has_mean d (dmap (col_draw d m A) law) m /\ has_cov d (dmap (col_draw d m A) law) m (mmul d A (mtr A)).
Proof.
  intros H. split.
  - intros i Hi. rewrite E_dmap. unfold col_draw. rewrite E_plus, E_const by apply H. rewrite (E_sum_std d law (fun j => A i j) H). ring.
  - intros i j Hi Hj. rewrite E_dmap. unfold col_draw.
    transitivity (E law (fun z => Rsum (map (fun k => A i k * z k) (seq 0 d)) * Rsum (map (fun k => A j k * z k) (seq 0 d)))); [apply E_ext'; intros; ring|].
    exact (E_prod_std d law (fun k => A i k) (fun k => A j k) H).
Qed.
Lemma row_draw_col d m L z : row_draw d m L z = col_draw d m (mtr L) z.
Proof.
  apply functional_extensionality. intros i. unfold row_draw, col_draw, mtr. f_equal. apply Rsum_map_ext. intros; ring.
Qed.
Lemma row_draw_moments d m L law : standard d law ->
  has_mean d (dmap (row_draw d m L) law) m /\ has_cov d (dmap (row_draw d m L) law) m (mmul d (mtr L) L).
Proof.
  intros H. replace (row_draw d m L) with (col_draw d m (mtr L)).
  - apply (col_draw_moments d m (mtr L) law H).
  - apply functional_extensionality. intros z. now rewrite row_draw_col.
Qed.

Lemma has_cov_unique d law m C C' : has_cov d law m C -> has_cov d law m C' -> meq d C C'.
Proof. intros H H' i j Hi Hj. now rewrite <- (H i j Hi Hj), <- (H' i j Hi Hj). Qed.

(** A lower triangular matrix commuting with its transpose is diagonal. *)
Lemma normal_lower_diagonal d L : lower d L -> meq d (mmul d (mtr L) L) (mmul d L (mtr L)) ->
  forall i j, (i < d)%nat -> (j < d)%nat -> i <> j -> L i j = 0.
Proof.
  intros HL HN.
  assert (G : forall j, (j < d)%nat -> forall i, (i < d)%nat -> (j < i)%nat -> L i j = 0).
  { intros j. induction j as [j IH] using (well_founded_induction lt_wf). intros Hj i Hi Hij.
    pose proof (HN j j Hj Hj) as H. unfold mmul, mtr in H.
    assert (Hr : Rsum (map (fun k => L j k * L j k) (seq 0 d)) = L j j * L j j).
    { rewrite <- (Rsum_indicator d j (fun k => L j k * L j k)) by exact Hj. apply Rsum_map_ext. intros k Hk. apply in_seq in Hk.
      destruct (Nat.eqb_spec k j) as [ ->|Hn]; [ring|]. destruct (Nat.lt_ge_cases k j).
      - rewrite (IH k) by lia. ring.
      - rewrite (HL j k) by lia. ring. }
    rewrite Hr in H.
    assert (Hz : Rsum (map (fun k => if Nat.eqb k j then 0 else L k j * L k j) (seq 0 d)) = 0).
    { rewrite (Rsum_map_ext _ (fun k => L k j * L k j + (-(1)) * ((if Nat.eqb k j then 1 else 0) * (L k j * L k j)))) by (intros k _; destruct (Nat.eqb k j); ring).
      rewrite Rsum_map_plus, Rsum_map_mult_l, Rsum_indicator by exact Hj. rewrite H. ring. }
    assert (Hp : forall k, In k (seq 0 d) -> 0 <= (if Nat.eqb k j then 0 else L k j * L k j)) by (intros k _; destruct (Nat.eqb k j); [lra|apply Rle_0_sqr]).
    pose proof (Rsum_zero_nonneg _ _ Hp Hz i ltac:(apply in_seq; lia)) as K.
    cbv beta in K. destruct (Nat.eqb_spec i j); [lia|]. apply Rsqr_0_uniq. exact K. }
  intros i j Hi Hj Hn. destruct (Nat.lt_ge_cases j i); [now apply G|apply HL; lia].
Qed.
Lemma diagonal_cholesky d C L : cholesky d C L -> (forall i j, (i < d)%nat -> (j < d)%nat -> i <> j -> C i j = 0) ->
  forall i j, (i < d)%nat -> (j < d)%nat -> i <> j -> L i j = 0.
Proof.
  intros (HL & HP & HC) HD.
  assert (E : meq d L (mdiag (fun i => sqrt (C i i)))).
  { assert (Q : forall i, (i < d)%nat -> 0 < C i i).
    { intros i Hi. rewrite <- (HC i i Hi Hi). unfold mmul, mtr. apply Rlt_le_trans with (L i i * L i i); [pose proof (HP i Hi); nra|].
      apply Rsum_In_le; [apply Forall_map, Forall_forall; intros; apply Rle_0_sqr|]. apply (in_map (fun k => L i k * L i k) (seq 0 d) i), in_seq; lia. }
    apply cholesky_unique; try assumption.
    - intros i j Hi Hj H. unfold mdiag. destruct (Nat.eqb_spec i j); [lia|reflexivity].
    - intros i Hi. unfold mdiag. rewrite Nat.eqb_refl. now apply sqrt_lt_R0, Q.
    - rewrite HC. intros i j Hi Hj. unfold mmul, mdiag, mtr.
      transitivity (if Nat.eqb i j then C i i else 0).
      + destruct (Nat.eqb_spec i j) as [ ->|Hn]; [reflexivity|now apply HD].
      + rewrite (Rsum_map_ext _ (fun k => (if Nat.eqb k i then 1 else 0) * (if Nat.eqb i j then C i i else 0))).
        * now rewrite (Rsum_indicator d i (fun _ => if Nat.eqb i j then C i i else 0) Hi).
        * intros k Hk. rewrite (Nat.eqb_sym k i). destruct (Nat.eqb_spec i k) as [ <-|Hn]; [|ring]. rewrite (Nat.eqb_sym j i).
          destruct (Nat.eqb_spec i j) as [ <-|Hn]; [|ring]. rewrite sqrt_sqrt; [ring|left; now apply Q]. }
  intros i j Hi Hj Hn. rewrite E by assumption. unfold mdiag. destruct (Nat.eqb_spec i j); [lia|reflexivity].
Qed.

Lemma row_draw_iff d m C L law : cholesky d C L -> standard d law ->
  (has_cov d (dmap (row_draw d m L) law) m C <-> forall i j, (i < d)%nat -> (j < d)%nat -> i <> j -> C i j = 0).
Proof.
  intros HC Hs. destruct (row_draw_moments d m L law Hs) as [_ Hr]. split.
  - intros H. pose proof (has_cov_unique _ _ _ _ _ Hr H) as He. pose proof HC as (HL & HP & HE).
    assert (HD : forall i j, (i < d)%nat -> (j < d)%nat -> i <> j -> L i j = 0) by (apply normal_lower_diagonal; [exact HL|now rewrite He, HE]).
    intros i j Hi Hj Hn. rewrite <- (HE i j Hi Hj). unfold mmul, mtr. rewrite (Rsum_map_ext _ (fun _ => 0)); [rewrite Rsum_map_const; ring|].
    intros k Hk. apply in_seq in Hk. destruct (Nat.eq_dec i k) as [ <-|Hk'].
    + rewrite (HD j i) by congruence. ring.
    + rewrite (HD i k) by (try lia; congruence). ring.
  - intros HD. pose proof (diagonal_cholesky d C L HC HD) as HLD. pose proof HC as (HL & HP & HE).
    intros i j Hi Hj. rewrite (Hr i j Hi Hj). rewrite <- (HE i j Hi Hj). unfold mmul, mtr. apply Rsum_map_ext. intros k Hk. apply in_seq in Hk.
    destruct (Nat.eq_dec i k) as [Hi'|Hi']; destruct (Nat.eq_dec j k) as [Hj'|Hj'].
    + subst. ring.
    + subst k. rewrite (HLD i j), (HLD j i) by congruence. ring.
    + subst k. rewrite (HLD i j), (HLD j i) by congruence. ring.
    + rewrite (HLD k i), (HLD i k) by (try lia; congruence). ring.
Qed.

(** The total variance is right although the covariance is not. *)
Lemma row_draw_trace d C L : cholesky d C L -> mtrace d (mmul d (mtr L) L) = mtrace d C.
Proof. intros (_ & _ & HE). rewrite <- HE. apply mtrace_comm. Qed.
