(** The Cholesky factorisation as a function, the inverse that cho_factor and cho_solve apply, and its derivative along a path. *)
From Coquelicot Require Import Coquelicot.
From Coq Require Import Reals List Lia Lra Morphisms Setoid.
From Verif Require Import Base Dist Mat MatMore Cholesky.
From Verif Require ToyCond.
Import ListNotations.
Open Scope R_scope.

(** The row-by-row algorithm (jax.scipy.linalg.cho_factor as called in fbs/sdes/linear.py 454): row d solves against the
    factor of the leading block, the diagonal entry is the root of what is left. *)
Fixpoint chol (d : nat) (M : mat) : mat :=
  match d with
  | O => mid
  | S d' => let L0 := chol d' M in let z := fsolve L0 (fun i => M i d') in
            fun i j => if Nat.ltb i d' then (if Nat.ltb j d' then L0 i j else 0)
                       else (if Nat.ltb j d' then z j else sqrt (M d' d' - dot d' z z))
  end.
(** cho_solve with this factor: two triangular solves, that is, this matrix applied to the right-hand side *)
Definition cho_inv (d : nat) (M : mat) : mat := let L := chol d M in mmul d (mtr (tri_inv L)) (tri_inv L).

Theorem chol_correct d M : symmetric d M -> posdef d M -> lower d (chol d M) /\ diag_pos d (chol d M) /\ meq d (mmul d (chol d M) (mtr (chol d M))) M.
Proof.
  induction d as [|d IH]; intros HS HP.
  - repeat split; intros i; intros; lia.
  - destruct IH as (A1 & A2 & A3); [|now apply posdef_restrict|].
    { intros i j Hi Hj. apply HS; lia. }
    cbn [chol]. set (L0 := chol d M) in *. set (z := fsolve L0 (fun i => M i d)). set (s := M d d - dot d z z).
    pose proof (fsolve_correct d L0 (fun i => M i d) A1 A2) as Hz. fold z in Hz.
    assert (Ps : 0 < s).
    { set (y := mvec d (mtr (tri_inv L0)) (fun i => - z i)). set (x := fun i => if Nat.ltb i d then y i else 1).
      assert (Ex : veq d x y) by (intros i Hi; unfold x; destruct (Nat.ltb_spec i d); [reflexivity|lia]).
      assert (Ed : x d = 1) by (unfold x; destruct (Nat.ltb_spec d d); [lia|reflexivity]).
      assert (P : 0 < quad (S d) M x) by (apply HP; intros Z; specialize (Z d ltac:(lia)); cbv beta in Z; lra).
      rewrite quad_S, Ed in P.
      assert (Hy : veq d (mvec d (mtr L0) y) (fun i => - z i)).
      { unfold y. rewrite mvec_mul, <- mtr_mul. rewrite tri_inv_left by assumption. rewrite mtr_mid.
        intros i Hi. unfold mvec. rewrite <- (Rsum_indicator d i (fun k => - z k)) by exact Hi. apply Rsum_map_ext. intros k _.
        unfold mid. rewrite Nat.eqb_sym. reflexivity. }
      assert (Q1 : quad d M x = dot d z z).
      { rewrite Ex, <- A3, quad_gram, Hy. unfold dot. apply Rsum_map_ext. intros; ring. }
      assert (Q2 : Rsum (map (fun k => M d k * x k + M k d * x k) (seq 0 d)) = -(2) * dot d z z).
      { transitivity (2 * dot d y (mvec d L0 z)).
        - rewrite Hz. unfold dot. rewrite <- Rsum_map_mult_l. apply Rsum_map_ext. intros k Hk. apply in_seq in Hk.
          rewrite Ex by lia. pose proof (HS k d ltac:(lia) ltac:(lia)) as E. unfold mtr in E. rewrite E. ring.
        - rewrite dot_mvec, Hy. unfold dot. rewrite <- !Rsum_map_mult_l. apply Rsum_map_ext. intros; ring. }
      rewrite Q1, Q2 in P. unfold s. lra. }
    split; [|split].
    + intros i j Hi Hj H. destruct (Nat.ltb_spec i d); [|lia]. destruct (Nat.ltb_spec j d); [apply A1; lia|reflexivity].
    + intros i Hi. destruct (Nat.ltb_spec i d); [now apply A2|now apply sqrt_lt_R0].
    + intros i j Hi Hj. unfold mmul, mtr. rewrite Rsum_seq_S.
      destruct (Nat.ltb_spec i d) as [Li|Li], (Nat.ltb_spec j d) as [Lj|Lj]; destruct (Nat.ltb_spec d d); try lia.
      * rewrite (Rsum_map_ext _ (fun k => L0 i k * L0 j k)).
        -- rewrite Rmult_0_l, Rplus_0_r. apply (A3 i j Li Lj).
        -- intros k Hk. apply in_seq in Hk. destruct (Nat.ltb_spec k d); [reflexivity|lia].
      * replace j with d by lia. rewrite (Rsum_map_ext _ (fun k => L0 i k * z k)).
        -- rewrite Rmult_0_l, Rplus_0_r. apply (Hz i Li).
        -- intros k Hk. apply in_seq in Hk. destruct (Nat.ltb_spec k d); [reflexivity|lia].
      * replace i with d by lia. rewrite (Rsum_map_ext _ (fun k => L0 j k * z k)).
        -- rewrite Rmult_0_r, Rplus_0_r. rewrite <- (HS d j) by lia. apply (Hz j Lj).
        -- intros k Hk. apply in_seq in Hk. destruct (Nat.ltb_spec k d); [ring|lia].
      * replace i with d by lia. replace j with d by lia. rewrite sqrt_sqrt by lra.
        rewrite (Rsum_map_ext _ (fun k => z k * z k)).
        -- fold (dot d z z). unfold s. ring.
        -- intros k Hk. apply in_seq in Hk. destruct (Nat.ltb_spec k d); [reflexivity|lia].
Qed.
Theorem cho_inv_correct d M : symmetric d M -> posdef d M -> meq d (mmul d (cho_inv d M) M) mid /\ meq d (mmul d M (cho_inv d M)) mid.
Proof.
  intros HS HP. destruct (chol_correct d M HS HP) as (A1 & A2 & A3). unfold cho_inv. set (L := chol d M) in *.
  assert (R1 : meq d (mmul d L (tri_inv L)) mid) by now apply tri_inv_right.
  assert (T1 : meq d (mmul d (mtr (tri_inv L)) (mtr L)) mid) by (rewrite <- mtr_mul, R1; apply mtr_mid).
  assert (T2 : meq d (mmul d (mtr L) (mtr (tri_inv L))) mid) by (rewrite <- mtr_mul, tri_inv_left by assumption; apply mtr_mid).
  split; rewrite <- A3.
  - rewrite <- (mmul_assoc d (mtr (tri_inv L))). rewrite (mmul_assoc d (tri_inv L) L), tri_inv_left, mmul_1_l by assumption. exact T1.
  - rewrite <- (mmul_assoc d L). rewrite (mmul_assoc d (mtr L)), T2, mmul_1_l. exact R1.
Qed.

(** ** Derivative of an inverse *)
Lemma derive_prod0 (f g : R -> R) t l : continuous f t -> is_derive g t l -> g t = 0 -> is_derive (fun u => f u * g u) t (f t * l).
Proof.
  intros Hf Hg G0. apply is_derive_Reals. apply is_derive_Reals in Hg. intros eps He.
  set (e1 := Rmin 1 (eps / (2 * (Rabs (f t) + 1)))). set (e2 := eps / (2 * (Rabs l + 1))).
  pose proof (Rabs_pos (f t)) as F0. pose proof (Rabs_pos l) as L0.
  assert (E1 : 0 < e1) by (apply Rmin_glb_lt; [lra|apply Rdiv_lt_0_compat; lra]). assert (E2 : 0 < e2) by (apply Rdiv_lt_0_compat; lra).
  destruct (Hg e1 E1) as (d1 & H1). apply continuity_pt_filterlim in Hf. destruct (Hf e2 E2) as (d2 & D2 & H2).
  assert (Dp : 0 < Rmin d1 d2) by (apply Rmin_glb_lt; [apply cond_pos|exact D2]). exists (mkposreal _ Dp). cbn. intros h Hh Hb.
  assert (B1 : Rabs h < d1) by (eapply Rlt_le_trans; [exact Hb|apply Rmin_l]). assert (B2 : Rabs h < d2) by (eapply Rlt_le_trans; [exact Hb|apply Rmin_r]).
  specialize (H1 h Hh B1). rewrite G0 in *. set (q := (g (t + h) - 0) / h) in *.
  assert (F : Rabs (f (t + h) - f t) < e2).
  { specialize (H2 (t + h)). unfold D_x, no_cond, dist in H2. cbn in H2. unfold R_dist in H2. apply H2. split; [split; [exact I|]|]; [intros Q; apply Hh; lra|]. replace (t + h - t) with h by ring. exact B2. }
  replace ((f (t + h) * g (t + h) - f t * 0) / h - f t * l) with ((f (t + h) - f t) * q + f t * (q - l)) by (unfold q; field; exact Hh).
  eapply Rle_lt_trans; [apply Rabs_triang|]. rewrite !Rabs_mult.
  assert (Q1 : Rabs (q - l) < 1) by (eapply Rlt_le_trans; [exact H1|apply Rmin_l]). assert (Q2 : Rabs (q - l) < eps / (2 * (Rabs (f t) + 1))) by (eapply Rlt_le_trans; [exact H1|apply Rmin_r]).
  assert (Q3 : Rabs q < Rabs l + 1). { replace q with (l + (q - l)) by ring. eapply Rle_lt_trans; [apply Rabs_triang|]. lra. }
  assert (T1 : Rabs (f (t + h) - f t) * Rabs q < eps / 2).
  { apply Rle_lt_trans with (Rabs (f (t + h) - f t) * (Rabs l + 1)); [apply Rmult_le_compat_l; [apply Rabs_pos|lra]|]. apply Rlt_le_trans with (e2 * (Rabs l + 1)); [apply Rmult_lt_compat_r; lra|]. unfold e2. right. field. lra. }
  assert (T2 : Rabs (f t) * Rabs (q - l) <= eps / 2).
  { apply Rle_trans with ((Rabs (f t) + 1) * (eps / (2 * (Rabs (f t) + 1)))); [apply Rmult_le_compat; try apply Rabs_pos; lra|]. right. field. lra. }
  lra.
Qed.
Definition nrm (d : nat) (A : mat) : R := Rsum (map (fun i => Rsum (map (fun j => Rabs (A i j)) (seq 0 d))) (seq 0 d)).
Lemma sum_abs_nonneg (f : nat -> R) d : (forall i, (i < d)%nat -> 0 <= f i) -> 0 <= Rsum (map f (seq 0 d)).
Proof. intros H. apply Rsum_nonneg. apply Forall_forall. intros x Hx. apply in_map_iff in Hx as (i & <- & Hi). apply in_seq in Hi. apply H. lia. Qed.
Lemma sum_mono (f g : nat -> R) d : (forall i, (i < d)%nat -> f i <= g i) -> Rsum (map f (seq 0 d)) <= Rsum (map g (seq 0 d)).
Proof. induction d; intros H; [cbn; lra|]. rewrite !Rsum_seq_S. pose proof (H d ltac:(lia)). pose proof (IHd ltac:(intros; apply H; lia)). lra. Qed.
Lemma sum_abs_le (f : nat -> R) d : Rabs (Rsum (map f (seq 0 d))) <= Rsum (map (fun i => Rabs (f i)) (seq 0 d)).
Proof. induction d; [cbn; rewrite Rabs_R0; lra|]. rewrite !Rsum_seq_S. eapply Rle_trans; [apply Rabs_triang|]. lra. Qed.
Lemma nrm_nonneg d A : 0 <= nrm d A.
Proof. apply sum_abs_nonneg. intros i Hi. apply sum_abs_nonneg. intros j Hj. apply Rabs_pos. Qed.
Lemma sum_member (f : nat -> R) d i : (forall k, (k < d)%nat -> 0 <= f k) -> (i < d)%nat -> f i <= Rsum (map f (seq 0 d)).
Proof.
  induction d; intros H Hi; [lia|]. rewrite Rsum_seq_S. destruct (Nat.eq_dec i d) as [->|N].
  - pose proof (sum_abs_nonneg f d ltac:(intros; apply H; lia)). lra.
  - pose proof (IHd ltac:(intros; apply H; lia) ltac:(lia)). pose proof (H d ltac:(lia)). lra.
Qed.
Lemma nrm_entry d A i j : (i < d)%nat -> (j < d)%nat -> Rabs (A i j) <= nrm d A.
Proof.
  intros Hi Hj. apply Rle_trans with (Rsum (map (fun j => Rabs (A i j)) (seq 0 d))).
  - apply (sum_member (fun j => Rabs (A i j))); [intros; apply Rabs_pos|exact Hj].
  - apply (sum_member (fun i => Rsum (map (fun j => Rabs (A i j)) (seq 0 d)))); [|exact Hi]. intros k _. apply sum_abs_nonneg. intros; apply Rabs_pos.
Qed.
Lemma nrm_proper d A B : meq d A B -> nrm d A = nrm d B.
Proof. intros H. unfold nrm. apply Rsum_map_ext. intros i Hi. apply in_seq in Hi. apply Rsum_map_ext. intros j Hj. apply in_seq in Hj. rewrite H by lia. reflexivity. Qed.
Lemma nrm_sub d A B : nrm d A <= nrm d B + nrm d (msub A B).
Proof.
  unfold nrm. rewrite <- Rsum_map_plus. apply sum_mono. intros i _. rewrite <- Rsum_map_plus. apply sum_mono. intros j _. unfold msub.
  replace (A i j) with (B i j + (A i j - B i j)) at 1 by ring. apply Rabs_triang.
Qed.
Lemma nrm_mul d A B : nrm d (mmul d A B) <= nrm d A * nrm d B.
Proof.
  unfold nrm at 1 2. rewrite <- Rsum_map_mult_r. apply sum_mono. intros i _.
  apply Rle_trans with (Rsum (map (fun j => Rsum (map (fun k => Rabs (A i k) * Rabs (B k j)) (seq 0 d))) (seq 0 d))).
  - apply sum_mono. intros j _. unfold mmul. eapply Rle_trans; [apply sum_abs_le|]. right. apply Rsum_map_ext. intros; apply Rabs_mult.
  - rewrite Rsum_exchange. rewrite <- Rsum_map_mult_r. apply sum_mono. intros k Hk. rewrite Rsum_map_mult_l. apply Rmult_le_compat_l; [apply Rabs_pos|].
    apply (sum_member (fun i => Rsum (map (fun j => Rabs (B i j)) (seq 0 d)))); [|exact Hk]. intros q _. apply sum_abs_nonneg. intros; apply Rabs_pos.
Qed.
Lemma inv_diff d P Pi P' Pi' : meq d (mmul d Pi P) mid -> meq d (mmul d P' Pi') mid -> meq d (msub Pi' Pi) (mscale (-(1)) (mmul d (mmul d Pi (msub P' P)) Pi')).
Proof.
  intros H1 H2 i j Hi Hj. unfold mscale.
  rewrite (mmul_proper d _ (msub (mmul d Pi P') mid)) with (y := Pi') by (try reflexivity; try assumption; intros a b Ha Hb; rewrite mmul_sub_r; unfold msub; now rewrite (H1 a b Ha Hb)).
  rewrite mmul_sub_l. rewrite (mmul_1_l d Pi' i j Hi Hj). assert (E : mmul d (mmul d Pi P') Pi' i j = Pi i j).
  { rewrite <- (mmul_assoc d Pi P' Pi' i j Hi Hj). rewrite (mmul_proper d Pi Pi (reflexivity _) _ _ H2 i j Hi Hj). apply (mmul_1_r d Pi i j Hi Hj). }
  rewrite E. unfold msub. ring.
Qed.
Section path.
  Context (d : nat) (P : R -> mat) (P' : mat) (inv : mat -> mat) (t : R).
  Hypothesis (HP : forall i j, (i < d)%nat -> (j < d)%nat -> is_derive (fun u => P u i j) t (P' i j)).
  Hypothesis (HI : locally t (fun u => meq d (mmul d (inv (P u)) (P u)) mid /\ meq d (mmul d (P u) (inv (P u))) mid)).
  Lemma path_nrm_small eps : 0 < eps -> locally t (fun u => nrm d (msub (P u) (P t)) < eps).
  Proof using HP.
    intros He.
    assert (C : continuous (fun u => nrm d (msub (P u) (P t))) t).
    { unfold nrm. assert (S : forall n (f : nat -> R -> R), (forall i, (i < n)%nat -> continuous (f i) t) -> continuous (fun u => Rsum (map (fun i => f i u) (seq 0 n))) t).
      { induction n; intros f Hf; [apply continuous_const|]. apply (continuous_ext (fun u => Rsum (map (fun i => f i u) (seq 0 n)) + f n u)); [intros u; now rewrite Rsum_seq_S|].
        apply (continuous_plus (V := R_NormedModule)); [apply IHn; intros; apply Hf; lia|apply Hf; lia]. }
      apply (S d (fun i u => Rsum (map (fun j => Rabs (msub (P u) (P t) i j)) (seq 0 d)))). intros i Hi. apply (S d (fun j u => Rabs (msub (P u) (P t) i j))). intros j Hj. unfold msub.
      apply (continuous_comp (fun u => P u i j - P t i j) Rabs); [|apply continuous_Rabs].
      apply (continuous_minus (V := R_NormedModule)); [|apply continuous_const]. apply (ex_derive_continuous (V := R_NormedModule)). eexists. now apply HP. }
    assert (Z : nrm d (msub (P t) (P t)) = 0).
    { unfold nrm. rewrite (Rsum_map_ext _ (fun _ => 0)); [rewrite Rsum_map_const; ring|]. intros i _. rewrite (Rsum_map_ext _ (fun _ => 0)); [rewrite Rsum_map_const; ring|]. intros j _. unfold msub. rewrite Rminus_diag_eq by reflexivity. apply Rabs_R0. }
    specialize (C (fun y => y < eps)). apply C. rewrite Z. apply (locally_interval _ 0 m_infty eps); [exact I|exact He|]. intros y _ Hy. exact Hy.
  Qed.
  Lemma path_inv_continuous i j : (i < d)%nat -> (j < d)%nat -> continuous (fun u => inv (P u) i j) t.
  Proof using HP HI.
    intros Hi Hj. apply filterlim_locally. intros eps. pose proof (locally_singleton _ _ HI) as [T1 T2]. set (N := nrm d (inv (P t))). pose proof (nrm_nonneg d (inv (P t))) as N0. fold N in N0.
    set (e := Rmin (1 / (2 * (N + 1))) (eps / (2 * (N * N + 1)))).
    assert (Ep : 0 < e). { apply Rmin_glb_lt; apply Rdiv_lt_0_compat; try apply cond_pos; nra. }
    generalize (filter_and _ _ HI (path_nrm_small e Ep)). apply filter_imp. intros u [[U1 U2] Hu].
    pose proof (inv_diff d (P u) (inv (P u)) (P t) (inv (P t)) U1 T2) as D1. pose proof (inv_diff d (P t) (inv (P t)) (P u) (inv (P u)) T1 U2) as D2.
    set (M := nrm d (inv (P u))). pose proof (nrm_nonneg d (inv (P u))) as M0. fold M in M0. set (x := nrm d (msub (P u) (P t))) in *. pose proof (nrm_nonneg d (msub (P u) (P t))) as X0. fold x in X0.
    assert (B : nrm d (msub (inv (P u)) (inv (P t))) <= N * x * M).
    { rewrite (nrm_proper d _ _ D2). rewrite (nrm_proper d _ (mmul d (mmul d (mscale (-(1)) (inv (P t))) (msub (P u) (P t))) (inv (P u)))).
      - eapply Rle_trans; [apply nrm_mul|]. apply Rmult_le_compat_r; [exact M0|]. eapply Rle_trans; [apply nrm_mul|]. apply Rmult_le_compat_r; [exact X0|]. right. unfold N, nrm. apply Rsum_map_ext. intros a _. apply Rsum_map_ext. intros b _. unfold mscale. rewrite Rabs_mult. rewrite Rabs_Ropp, Rabs_R1. ring.
      - intros a b Ha Hb. unfold mscale at 1. rewrite <- mmul_scale_l. apply mmul_proper; [|reflexivity|exact Ha|exact Hb]. intros p q _ _. unfold mscale at 1. now rewrite <- mmul_scale_l. }
    assert (Hx : N * x <= 1 / 2).
    { assert (x <= 1 / (2 * (N + 1))) by (apply Rlt_le, Rlt_le_trans with e; [exact Hu|apply Rmin_l]). apply Rle_trans with ((N + 1) * (1 / (2 * (N + 1)))); [apply Rmult_le_compat; lra|]. right. field. lra. }
    assert (BM : M <= 2 * N). { pose proof (nrm_sub d (inv (P u)) (inv (P t))) as Q. fold M N in Q. assert (N * x * M <= 1 / 2 * M) by (apply Rmult_le_compat_r; lra). lra. }
    assert (F : nrm d (msub (inv (P u)) (inv (P t))) < eps).
    { apply Rle_lt_trans with (N * x * (2 * N)); [eapply Rle_trans; [exact B|]; apply Rmult_le_compat_l; [apply Rmult_le_pos; assumption|exact BM]|].
      assert (x < eps / (2 * (N * N + 1))) by (eapply Rlt_le_trans; [exact Hu|apply Rmin_r]). assert (G : 0 < N * N + 1) by nra.
      apply Rle_lt_trans with (2 * (N * N) * (eps / (2 * (N * N + 1)))); [|].
      - replace (N * x * (2 * N)) with (2 * (N * N) * x) by ring. apply Rmult_le_compat_l; [nra|lra].
      - pose proof (cond_pos eps). replace (2 * (N * N) * (eps / (2 * (N * N + 1)))) with (eps - eps / (N * N + 1)) by (field; lra). assert (0 < eps / (N * N + 1)) by (apply Rdiv_lt_0_compat; lra). lra. }
    change (Rabs (inv (P u) i j - inv (P t) i j) < eps). eapply Rle_lt_trans; [|exact F]. apply (nrm_entry d (msub (inv (P u)) (inv (P t))) i j Hi Hj).
  Qed.
  Theorem path_inv_derive i j : (i < d)%nat -> (j < d)%nat -> ex_derive (fun u => inv (P u) i j) t.
  Proof using HP HI.
    intros Hi Hj. pose proof (locally_singleton _ _ HI) as [T1 T2].
    set (F := fun u => inv (P t) i j + - Rsum (map (fun k => Rsum (map (fun l => inv (P u) i l * (P u l k - P t l k)) (seq 0 d)) * inv (P t) k j) (seq 0 d))).
    apply (ex_derive_ext_loc F).
    - generalize HI. apply filter_imp. intros u [U1 U2]. pose proof (inv_diff d (P u) (inv (P u)) (P t) (inv (P t)) U1 T2 i j Hi Hj) as D. unfold msub at 1 in D. unfold mscale in D.
      assert (E : mmul d (mmul d (inv (P u)) (msub (P t) (P u))) (inv (P t)) i j = - Rsum (map (fun k => Rsum (map (fun l => inv (P u) i l * (P u l k - P t l k)) (seq 0 d)) * inv (P t) k j) (seq 0 d))).
      { unfold mmul, msub. match goal with |- _ = - ?a => replace (- a) with ((-(1)) * a) by ring end. rewrite <- Rsum_map_mult_l. apply Rsum_map_ext. intros k _. rewrite <- Rmult_assoc. f_equal. rewrite <- Rsum_map_mult_l. apply Rsum_map_ext. intros; ring. }
      unfold F. rewrite <- E. lra.
    - unfold F. apply (ex_derive_plus (V := R_NormedModule)); [apply (ex_derive_const (V := R_NormedModule))|]. apply (ex_derive_opp (V := R_NormedModule)).
      assert (S : forall n (f : nat -> R -> R), (forall i, (i < n)%nat -> ex_derive (f i) t) -> ex_derive (fun u => Rsum (map (fun i => f i u) (seq 0 n))) t).
      { induction n; intros f Hf; [cbn; apply (ex_derive_const (V := R_NormedModule))|]. apply (ex_derive_ext (fun u => Rsum (map (fun i => f i u) (seq 0 n)) + f n u)); [intros u; now rewrite Rsum_seq_S|].
        apply (ex_derive_plus (V := R_NormedModule)); [apply IHn; intros; apply Hf; lia|apply Hf; lia]. }
      apply (S d (fun k u => Rsum (map (fun l => inv (P u) i l * (P u l k - P t l k)) (seq 0 d)) * inv (P t) k j)). intros k Hk. apply ex_derive_mult; [|apply (ex_derive_const (V := R_NormedModule))].
      apply (S d (fun l u => inv (P u) i l * (P u l k - P t l k))). intros l Hl. eexists. apply (derive_prod0 (fun u => inv (P u) i l) (fun u => P u l k - P t l k)); [now apply path_inv_continuous| |apply Rminus_diag_eq; reflexivity].
      apply (is_derive_minus (V := R_NormedModule)); [now apply HP|apply (is_derive_const (V := R_NormedModule))].
  Qed.
End path.
