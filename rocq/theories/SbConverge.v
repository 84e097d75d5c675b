(** Euler-Maruyama simulation of the closed form Gaussian bridge (fbs/sdes/linear.py 397-457 with fbs/sdes/simulators.py 53-106), forwards and
    backwards (experiments/sb/filter.py 76-102, gibbs.py 78-108). *)
From Coquelicot Require Import Coquelicot.
From Coq Require Import Reals List Lia Lra Morphisms Setoid FunctionalExtensionality.
From Verif Require Sde SdeProofs Sim.
From Verif Require Import Base Dist Prog Mat MatMore Cholesky Bures GaussSB GaussSBMore Toy ToyCond CholFun SbTotal SbOptimal EmMoments EmConverge DoobConverge.
Import ListNotations.
Open Scope R_scope.

(** a vector field on arrays *)
Definition on_lists (d : nat) (b : vec -> R -> vec) (x : list R) (t : R) : list R := map (b (vec_of x) t) (seq 0 d).
Lemma on_lists_is d b t : drift_is d (on_lists d b) b t.
Proof. intros x Hx. unfold on_lists. split; [now rewrite map_length, seq_length|]. intros i Hi. rewrite (nth_indep _ 0 (b (vec_of x) t 0%nat)) by (rewrite map_length, seq_length; exact Hi). rewrite map_nth, seq_nth by exact Hi. reflexivity. Qed.

(** ** The whole path, at every index *)
Lemma path_converges d b g m P Lam C V T : 0 <= T -> 0 <= Lam -> 0 <= C -> 0 <= V ->
  (forall t, 0 <= t < T -> flow_at d b g m P Lam C V T t) ->
  exists K, 0 <= K /\ forall f N normal k n ts j D mh Sh h e,
    (forall t, 0 <= t < T -> drift_is d f b t) -> has_moments d N (fun _ => 0) mid -> (forall k, denotes (normal k n d) (dseq (repeat N n))) ->
    (1 <= n)%nat -> hd 1 ts = 0 -> refined h n ts -> (j < length ts)%nat -> nth j ts 0 <= T ->
    0 <= h -> 0 <= e -> has_moments d D mh Sh -> within d e mh (m 0) Sh (P 0) ->
    let L F := E D (fun x0 => law (Sim.euler_maruyama_path normal k x0 ts f g n) (fun path => F (nth j path []))) in
    within d (K * (e + h)) (mean_of L) (m (nth j ts 0)) (cov_of L) (P (nth j ts 0)).
Proof.
  intros HT HL HC HV Hfl. set (C' := C + Lam ^ 2 * V). assert (HC' : 0 <= C') by (unfold C'; apply Rplus_le_le_0_compat; [exact HC|apply Rmult_le_pos; [apply pow2_ge_0|exact HV]]).
  set (X := exp (2 * Lam * T)). exists (X * (1 + C' * T)). assert (HX : 1 <= X) by (apply SdeProofs.exp_ge1; apply Rmult_le_pos; lra).
  assert (HCT : 0 <= C' * T) by now apply Rmult_le_pos.
  split; [apply Rmult_le_pos; lra|]. intros f N normal k n ts j D mh Sh h e Hf HN Hnorm Hn Hhd Href Hj HjT Hh He HD [W1 W2] L.
  pose proof (refined_grid h n ts Href) as HG. pose proof (grid_firstn h n ts (S j) HG) as HG'. pose proof (last_firstn ts j Hj) as HLj.
  assert (HM : is_prob (dseq (repeat N n))) by (apply is_prob_dseq, Forall_forall; intros y Hy; apply repeat_spec in Hy; subst; exact (proj1 HN)).
  assert (LE : forall F, L F = E (chain_law f g N n (firstn (S j) ts) D) F).
  { intros F. unfold L. rewrite E_chain_law. apply E_ext. intros x Hx. destruct HD as (_ & Hl & _). unfold Sim.euler_maruyama_path. rewrite law_bind, (Hl x Hx), (em_draws_law normal k n d N Hnorm).
    exact (path_entry f g n (dseq (repeat N n)) F HM ts j x Hj). }
  destruct ts as [|t ts]; [cbn in Hj; lia|]. cbn [hd] in Hhd. subst t. change (firstn (S j) (0 :: ts)) with (0 :: firstn j ts) in *. set (tj := nth j (0 :: ts) 0) in *.
  assert (Hcl : close d m P Lam C V h 0 e e 0 D).
  { exists mh, Sh. split; [exact HD|]. unfold bound. rewrite Rminus_eq_0, !Rmult_0_r, exp_0, !Rmult_1_l, Rplus_0_r. split; assumption. }
  assert (Ht0 : 0 <= tj) by (rewrite <- HLj; now apply (grid_last h n)).
  pose proof (close_chain d f b g N m P Lam C V h 0 T e e HL HC HV He He HN Hf Hfl n (firstn j ts) Hn 0 D (Rle_refl 0) HG' ltac:(rewrite HLj; exact HjT) Hcl) as Hc.
  rewrite HLj in Hc. destruct Hc as (mh' & Sh' & HM' & B1 & B2).
  destruct (moments_of d _ mh' Sh' L HM' LE) as [E1 E2].
  assert (Hb : forall La c, 0 <= La <= 2 * Lam -> 0 <= c <= C' -> bound h 0 La c e tj <= X * (1 + C' * T) * (e + h)).
  { intros La c HLa Hc. unfold bound. rewrite Rminus_0_r. rewrite (Rmult_assoc X).
    assert (Hch : 0 <= c * h * tj) by (apply Rmult_le_pos; [apply Rmult_le_pos|]; lra).
    apply Rmult_le_compat; [left; apply exp_pos|lra| |].
    - assert (Hle : La * tj <= 2 * Lam * T) by (apply Rmult_le_compat; lra). unfold X. destruct Hle as [Hlt| ->]; [left; now apply exp_increasing|apply Rle_refl].
    - assert (c * h * tj <= C' * T * h). { replace (c * h * tj) with (c * (tj * h)) by ring. replace (C' * T * h) with (C' * (T * h)) by ring. apply Rmult_le_compat; [lra|apply Rmult_le_pos; lra|lra|]. apply Rmult_le_compat_r; lra. }
      assert (0 <= C' * T * e) by now apply Rmult_le_pos. replace ((1 + C' * T) * (e + h)) with (e + h + C' * T * e + C' * T * h) by ring. lra. }
  assert (HCC : C <= C') by (unfold C'; assert (0 <= Lam ^ 2 * V) by (apply Rmult_le_pos; [apply pow2_ge_0|exact HV]); lra).
  split.
  - intros i Hi. rewrite E1 by exact Hi. eapply Rle_trans; [apply (B1 i Hi)|]. apply Hb; lra.
  - intros i i' Hi Hi'. rewrite E2 by assumption. eapply Rle_trans; [apply (B2 i i' Hi Hi')|]. apply (Hb (2 * Lam) C'); lra.
Qed.

Lemma index_below h n ts j : refined h n ts -> last ts 0 = 1 -> (j < length ts)%nat -> nth j ts 0 <= 1.
Proof.
  intros Href Hlast Hj. assert (Hend : nth (length ts - 1) ts 0 = 1) by (rewrite <- (last_firstn ts (length ts - 1) ltac:(lia)), firstn_all2 by lia; exact Hlast).
  assert (Q : forall k, (j + k < length ts)%nat -> nth j ts 0 <= nth (j + k) ts 0).
  { induction k as [|k IH]; intros Hk; [rewrite Nat.add_0_r; lra|]. destruct (Href (j + k)%nat ltac:(lia)) as [G _]. rewrite Nat.add_succ_r. specialize (IH ltac:(lia)). lra. }
  specialize (Q (length ts - 1 - j)%nat ltac:(lia)). replace (j + (length ts - 1 - j))%nat with (length ts - 1)%nat in Q by lia. lra.
Qed.

(** ** Bounds over a finite set of entries *)
Lemma finite_bound (n : nat) (Q : nat -> R -> Prop) : (forall i M M', Q i M -> M <= M' -> Q i M') -> (forall i, (i < n)%nat -> exists M, 0 <= M /\ Q i M) -> exists M, 0 <= M /\ forall i, (i < n)%nat -> Q i M.
Proof.
  intros Hm. induction n as [|n IH]; intros H; [exists 0; split; [lra|intros; lia]|]. destruct IH as (M & HM & HQ); [intros; apply H; lia|]. destruct (H n ltac:(lia)) as (M' & HM' & HQ').
  exists (M + M'). split; [lra|]. intros i Hi. destruct (Nat.eq_dec i n) as [->|Hne]; [apply (Hm n M'); [exact HQ'|lra]|apply (Hm i M); [apply HQ; lia|lra]].
Qed.
Lemma path_bound d (Z : R -> mat) : (forall t i j, 0 <= t <= 1 -> (i < d)%nat -> (j < d)%nat -> ex_derive (fun u => Z u i j) t) ->
  exists M, 0 <= M /\ forall t i j, 0 <= t <= 1 -> (i < d)%nat -> (j < d)%nat -> Rabs (Z t i j) <= M.
Proof.
  intros H. destruct (finite_bound d (fun i M => forall j, (j < d)%nat -> forall t, 0 <= t <= 1 -> Rabs (Z t i j) <= M)) as (M & HM & HB).
  - intros i M M' HQ Hle j Hj t Ht. specialize (HQ j Hj t Ht). lra.
  - intros i Hi. destruct (finite_bound d (fun j M => forall t, 0 <= t <= 1 -> Rabs (Z t i j) <= M)) as (M & HM & HB).
    + intros j M M' HQ Hle t Ht. specialize (HQ t Ht). lra.
    + intros j Hj. apply (compact_bound_on (fun u => Z u i j) 1); [lra|]. intros t Ht. now apply H.
    + exists M. split; [exact HM|]. intros j Hj. now apply HB.
  - exists M. split; [exact HM|]. intros t i j Ht Hi Hj. now apply HB.
Qed.
Lemma row_of_entries d (Z : mat) M : (forall i j, (i < d)%nat -> (j < d)%nat -> Rabs (Z i j) <= M) -> row_bound d Z (INR d * M).
Proof.
  intros H i Hi. apply Rle_trans with (Rsum (map (fun _ => M) (seq 0 d))); [apply Rsum_map_le; intros k Hk; apply in_seq in Hk; apply H; lia|].
  rewrite Rsum_map_const, seq_length. right. ring.
Qed.
Lemma affine_unique d b t A A' : affine_at d b t A -> affine_at d b t A' -> meq d A A'.
Proof.
  intros H H' i j Hi Hj. pose proof (H (fun k => mid k j) (fun _ => 0) i Hi) as E1. pose proof (H' (fun k => mid k j) (fun _ => 0) i Hi) as E2. rewrite E1 in E2.
  assert (Q : forall B, mvec d B (vsub (fun k => mid k j) (fun _ => 0)) i = B i j).
  { intros B. transitivity (mmul d B mid i j); [unfold mvec, mmul, vsub; apply Rsum_map_ext; intros; ring|now rewrite mmul_id_r]. }
  now rewrite !Q in E2.
Qed.

Section bridge.
  Context (d : nat) (m0 : vec) (c0 : mat) (m1 : vec) (c1 : mat) (sig : R).
  Hypothesis (S0 : symmetric d c0) (P0 : posdef d c0) (S1 : symmetric d c1) (P1 : posdef d c1).
  Context (S D X : mat).
  Hypothesis (HS : sqrtm_returns d c0 S) (HD : sqrtm_returns d (sb_D_arg d c1 sig S) D) (HX : meq d (mmul d (mtr S) (mtr X)) (mtr D)).
  Let C := sb_C d sig S X.
  Let P := marginal_cov c0 c1 sig C.
  Let mt := marginal_mean m0 m1.
  Let b := sb_drift d m0 c0 m1 c1 sig C (cho_inv d).
  Let A (u : R) := sb_slope d c0 c1 sig C (cho_inv d) u.
  Lemma b_affine t : affine_at d b t (A t).
  Proof using. intros x x'. apply sb_drift_diff. Qed.
  Lemma mean_step s t i : 0 <= t <= 1 -> (i < d)%nat -> mt s i - mt t i - (s - t) * b (mt t) t i = 0.
  Proof using.
    intros Ht Hi. unfold b. rewrite (sb_drift_affine d m0 c0 m1 c1 sig C (cho_inv d) (mt t) t i Hi). unfold vadd. fold mt.
    rewrite (mvec_zero d _ (vsub (mt t) (mt t))) by (try assumption; intros k _; unfold vsub; ring). unfold mt, marginal_mean, vadd, vscale, vsub, r, r_bar. ring.
  Qed.
  Lemma cov_rate t i j : 0 <= t <= 1 -> (i < d)%nat -> (j < d)%nat -> is_derive (fun u => P u i j) t (mmul d (A t) (P t) i j + mmul d (P t) (mtr (A t)) i j + sig ^ 2 * mid i j).
  Proof using m0 m1 S0 P0 S1 P1 HS HD HX.
    intros Ht Hi Hj. destruct (total_moments d m0 c0 m1 c1 sig S0 P0 S1 P1 S D X HS HD HX t Ht) as (B & HB & _ & H).
    pose proof (affine_unique d b t B (A t) HB (b_affine t)) as EB. pose proof (H i j Hi Hj) as HH.
    assert (ET : meq d (mtr B) (mtr (A t))) by (intros k l Hk Hl; unfold mtr; now apply EB).
    rewrite (mmul_proper d B (A t) EB _ _ (reflexivity _) i j Hi Hj), (mmul_proper d _ _ (reflexivity _) _ _ ET i j Hi Hj) in HH. exact HH.
  Qed.
  Lemma cov_step s t i j : 0 <= t <= 1 -> (i < d)%nat -> (j < d)%nat ->
    P s i j - P t i j - (s - t) * (mmul d (A t) (P t) i j + mmul d (P t) (mtr (A t)) i j + sig ^ 2 * mid i j) = (s - t) ^ 2 * msub (msub (madd c1 c0) (madd C (mtr C))) (mscale (sig ^ 2) mid) i j.
  Proof using m0 m1 S0 P0 S1 P1 HS HD HX.
    intros Ht Hi Hj. assert (E : mmul d (A t) (P t) i j + mmul d (P t) (mtr (A t)) i j + sig ^ 2 * mid i j
      = - 2 * (1 - t) * c0 i j + 2 * t * c1 i j + (1 - 2 * t) * (C i j + C j i) + sig ^ 2 * (1 - 2 * t) * mid i j).
    { rewrite <- (is_derive_unique _ _ _ (cov_rate t i j Ht Hi Hj)). apply is_derive_unique. unfold P, marginal_cov, madd, mscale, mtr, r, r_bar, kappa, rho. auto_derive; [exact I|]. ring. }
    rewrite E. unfold P, marginal_cov, madd, msub, mscale, mtr, r, r_bar, kappa, rho. ring.
  Qed.
  Lemma slope_bound : exists M, 0 <= M /\ forall t i j, 0 <= t <= 1 -> (i < d)%nat -> (j < d)%nat -> Rabs (A t i j) <= M.
  Proof using m0 m1 S0 P0 S1 P1 HS HD HX.
    apply (path_bound d A). intros t i j Ht Hi Hj. eexists. apply (proj2 (slope_closed d m0 c0 m1 c1 sig S0 P0 S1 P1 S D X HS HD HX t Ht) i j Hi Hj).
  Qed.
  Lemma inverse_bounded : exists M, 0 <= M /\ forall t i j, 0 <= t <= 1 -> (i < d)%nat -> (j < d)%nat -> Rabs (cho_inv d (P t) i j) <= M.
  Proof using m0 m1 S0 P0 S1 P1 HS HD HX.
    apply (path_bound d (fun t => cho_inv d (P t))). intros t i j Ht Hi Hj.
    exact (path_inv_derive d P _ (cho_inv d) t (fun i j Hi Hj => cov_rate t i j Ht Hi Hj) (inv_near d m0 c0 m1 c1 sig S0 P0 S1 P1 S D X HS HD HX t Ht) i j Hi Hj).
  Qed.
  Lemma cov_bounded : exists M, 0 <= M /\ forall t i j, 0 <= t <= 1 -> (i < d)%nat -> (j < d)%nat -> Rabs (P t i j) <= M.
  Proof using m0 m1 S0 P0 S1 P1 HS HD HX. apply (path_bound d P). intros t i j Ht Hi Hj. eexists. now apply cov_rate. Qed.
  Lemma sb_forward_flow : exists Lam C V, 0 <= Lam /\ 0 <= C /\ 0 <= V /\ forall t, 0 <= t < 1 -> flow_at d b (fun _ => sig) mt P Lam C V 1 t.
  Proof using m0 m1 S0 P0 S1 P1 HS HD HX.
    destruct slope_bound as (MA & HMA & BA). destruct cov_bounded as (V & HV & BV). destruct (matrix_bound d (msub (msub (madd c1 c0) (madd C (mtr C))) (mscale (sig ^ 2) mid))) as (Cb & HCb & BC).
    exists (INR d * MA), Cb, V. split; [apply Rmult_le_pos; [apply pos_INR|exact HMA]|]. split; [exact HCb|]. split; [exact HV|]. intros t Ht. assert (Ht' : 0 <= t <= 1) by lra.
    exists (A t). split; [apply b_affine|]. split; [apply row_of_entries; intros; now apply BA|]. split; [intros; now apply BV|]. intros s Hs. split.
    - intros i Hi. rewrite mean_step by assumption. rewrite Rabs_R0. apply Rmult_le_pos; [exact HCb|apply pow2_ge_0].
    - intros i j Hi Hj. rewrite cov_step by assumption. rewrite Rabs_mult, Rabs_pos_eq by apply pow2_ge_0. rewrite Rmult_comm. apply Rmult_le_compat_r; [apply pow2_ge_0|now apply BC].
  Qed.
  (** sb/filter.py 80-88 *)
  Let br := Toy.reverse_drift d b (fun _ => sig) 1 mt P (cho_inv d).
  Lemma sb_reverse_flow : exists Lam C V, 0 <= Lam /\ 0 <= C /\ 0 <= V /\ forall t, 0 <= t < 1 -> flow_at d br (fun _ => sig) (fun t => mt (1 - t)) (fun t => P (1 - t)) Lam C V 1 t.
  Proof using m0 m1 S0 P0 S1 P1 HS HD HX.
    destruct slope_bound as (MA & HMA & BA). destruct cov_bounded as (V & HV & BV). destruct inverse_bounded as (MW & HMW & BW).
    destruct (matrix_bound d (msub (msub (madd c1 c0) (madd C (mtr C))) (mscale (sig ^ 2) mid))) as (Cb & HCb & BC).
    assert (Hs2 : 0 <= sig ^ 2) by apply pow2_ge_0. assert (HMM : 0 <= MA + sig ^ 2 * MW) by (apply Rplus_le_le_0_compat; [exact HMA|now apply Rmult_le_pos]).
    exists (INR d * (MA + sig ^ 2 * MW)), Cb, V. split; [apply Rmult_le_pos; [apply pos_INR|exact HMM]|]. split; [exact HCb|]. split; [exact HV|]. intros t Ht. set (s := 1 - t). assert (Hs : 0 <= s <= 1) by (unfold s; lra).
    destruct (total_posdef d c0 c1 sig S0 P0 S1 P1 S D X HS HD HX s Hs) as [G1 G2]. change (symmetric d (P s)) in G1. change (posdef d (P s)) in G2.
    destruct (cho_inv_correct d (P s) G1 G2) as [W1 W2]. set (W := cho_inv d (P s)) in *.
    assert (HWs : symmetric d W) by now apply (inverse_symmetric d (P s)).
    exists (msub (mscale (-(1)) (A s)) (mscale (sig ^ 2) W)). split; [|split; [|split]].
    - intros x x' i Hi. unfold br, Toy.reverse_drift, score, vsub at 1, vadd, vscale. fold s. fold W. rewrite mvec_sub_l, !mvec_scale_l.
      assert (K : mvec d W (vsub x x') i = mvec d W (vsub x (mt s)) i - mvec d W (vsub x' (mt s)) i) by (rewrite !mvec_sub_r by exact Hi; unfold vsub; ring).
      rewrite K. pose proof (b_affine s x x' i Hi) as K2. unfold vsub at 1 in K2. rewrite <- K2. ring.
    - apply row_of_entries. intros i j Hi Hj. unfold msub, mscale. eapply Rle_trans; [unfold Rminus; apply Rabs_triang|]. rewrite Rabs_Ropp, !Rabs_mult, Rabs_Ropp, Rabs_R1, Rmult_1_l, (Rabs_pos_eq (sig ^ 2)) by exact Hs2.
      apply Rplus_le_compat; [now apply BA|]. apply Rmult_le_compat_l; [exact Hs2|]. unfold W. now apply BW.
    - intros. now apply BV.
    - intros u Hu. split.
      + intros i Hi. unfold br, Toy.reverse_drift, score, vadd, vscale. fold s. fold W.
        rewrite (mvec_zero d W (vsub (mt s) (mt s))) by (try assumption; intros k _; unfold vsub; ring).
        replace (mt (1 - u) i - mt s i - (u - t) * (-(1) * b (mt s) s i + sig ^ 2 * (-(1) * 0))) with (mt (1 - u) i - mt s i - (1 - u - s) * b (mt s) s i) by (unfold s; ring).
        rewrite mean_step by assumption. rewrite Rabs_R0. apply Rmult_le_pos; [exact HCb|apply pow2_ge_0].
      + intros i j Hi Hj. fold s. pose proof (cov_step (1 - u) s i j Hs Hi Hj) as K.
        replace (mmul d (msub (mscale (-(1)) (A s)) (mscale (sig ^ 2) W)) (P s) i j + mmul d (P s) (mtr (msub (mscale (-(1)) (A s)) (mscale (sig ^ 2) W))) i j + sig ^ 2 * mid i j)
          with (- (mmul d (A s) (P s) i j + mmul d (P s) (mtr (A s)) i j + sig ^ 2 * mid i j)).
        * match goal with |- Rabs ?z <= _ => replace z with (P (1 - u) i j - P s i j - (1 - u - s) * (mmul d (A s) (P s) i j + mmul d (P s) (mtr (A s)) i j + sig ^ 2 * mid i j)) by (unfold s; ring) end.
          rewrite K, Rabs_mult, Rabs_pos_eq by apply pow2_ge_0. replace ((1 - u - s) ^ 2) with ((u - t) ^ 2) by (unfold s; ring). rewrite Rmult_comm. apply Rmult_le_compat_r; [apply pow2_ge_0|now apply BC].
        * change (mtr (msub (mscale (-(1)) (A s)) (mscale (sig ^ 2) W))) with (msub (mscale (-(1)) (mtr (A s))) (mscale (sig ^ 2) (mtr W))).
          mexpand. rewrite (W1 i j Hi Hj). rewrite (mmul_proper d (P s) _ (reflexivity _) (mtr W) W HWs i j Hi Hj), (W2 i j Hi Hj). ring.
  Qed.
End bridge.
Lemma reverse_is d (b : vec -> R -> vec) sig m P inv t :
  drift_is d (Sim.reverse_drift (on_lists d (Toy.score d m P inv)) (on_lists d b) (fun _ => sig) 1) (Toy.reverse_drift d b (fun _ => sig) 1 m P inv) t.
Proof.
  intros x Hx. destruct (on_lists_is d b (1 - t) x Hx) as [B1 B2]. destruct (on_lists_is d (Toy.score d m P inv) (1 - t) x Hx) as [S1 S2]. unfold Sim.reverse_drift.
  assert (L1 : length (Sde.vscale (Ropp 1) (on_lists d b x (1 - t))) = d) by (unfold Sde.vscale; rewrite map_length; exact B1).
  assert (L2 : length (Sde.vscale (sig * sig) (on_lists d (Toy.score d m P inv) x (1 - t))) = d) by (unfold Sde.vscale; rewrite map_length; exact S1).
  unfold Sde.vadd. split; [rewrite SdeProofs.length_vmap2; congruence|].
  intros i Hi. rewrite SdeProofs.nth_vmap2 by (congruence || lia). rewrite !SdeProofs.nth_vscale, B2, S2 by exact Hi. unfold Toy.reverse_drift, vadd, vscale. ring.
Qed.
Theorem sb_forward d m0 c0 m1 c1 sig S D X : symmetric d c0 -> posdef d c0 -> symmetric d c1 -> posdef d c1 ->
  sqrtm_returns d c0 S -> sqrtm_returns d (sb_D_arg d c1 sig S) D -> meq d (mmul d (mtr S) (mtr X)) (mtr D) ->
  let b := sb_drift d m0 c0 m1 c1 sig (sb_C d sig S X) (cho_inv d) in
  exists K, 0 <= K /\ forall N normal k n ts j D0 mh Sh h e,
    has_moments d N (fun _ => 0) mid -> (forall k, denotes (normal k n d) (dseq (repeat N n))) -> (1 <= n)%nat -> hd 1 ts = 0 -> last ts 0 = 1 -> refined h n ts -> (j < length ts)%nat ->
    0 <= h -> 0 <= e -> has_moments d D0 mh Sh -> within d e mh m0 Sh c0 ->
    let L F := E D0 (fun x0 => law (Sim.euler_maruyama_path normal k x0 ts (on_lists d b) (fun _ => sig) n) (fun path => F (nth j path []))) in
    within d (K * (e + h)) (mean_of L) (marginal_mean m0 m1 (nth j ts 0)) (cov_of L) (marginal_cov c0 c1 sig (sb_C d sig S X) (nth j ts 0)).
Proof.
  intros S0 P0 S1 P1 HS HD HX b. destruct (sb_forward_flow d m0 c0 m1 c1 sig S0 P0 S1 P1 S D X HS HD HX) as (Lam & C & V & HL & HC & HV & Hfl).
  destruct (path_converges d _ _ _ _ Lam C V 1 ltac:(lra) HL HC HV Hfl) as (K & HK & H). exists K. split; [exact HK|].
  intros N normal k n ts j D0 mh Sh h e HN Hden Hn Hhd Hlast Href Hj Hh He HD0 [W1 W2] L. apply (H (on_lists d b) N normal k n ts j D0 mh Sh h e); try assumption; [intros; apply on_lists_is|now apply (index_below h n)|].
  split; [intros i Hi; rewrite (marginal_mean_0 m0 m1 d i Hi); now apply W1|intros i i' Hi Hi'; rewrite (marginal_cov_0 c0 c1 sig _ d i i' Hi Hi'); now apply W2].
Qed.
Theorem sb_backward d m0 c0 m1 c1 sig S D X : symmetric d c0 -> posdef d c0 -> symmetric d c1 -> posdef d c1 ->
  sqrtm_returns d c0 S -> sqrtm_returns d (sb_D_arg d c1 sig S) D -> meq d (mmul d (mtr S) (mtr X)) (mtr D) ->
  let b := sb_drift d m0 c0 m1 c1 sig (sb_C d sig S X) (cho_inv d) in
  let mt := marginal_mean m0 m1 in let P := marginal_cov c0 c1 sig (sb_C d sig S X) in
  exists K, 0 <= K /\ forall N normal k n ts j D0 mh Sh h e,
    has_moments d N (fun _ => 0) mid -> (forall k, denotes (normal k n d) (dseq (repeat N n))) -> (1 <= n)%nat -> hd 1 ts = 0 -> last ts 0 = 1 -> refined h n ts -> (j < length ts)%nat ->
    0 <= h -> 0 <= e -> has_moments d D0 mh Sh -> within d e mh m1 Sh c1 ->
    let L F := E D0 (fun x0 => law (Sim.euler_maruyama_path normal k x0 ts (Sim.reverse_drift (on_lists d (Toy.score d mt P (cho_inv d))) (on_lists d b) (fun _ => sig) 1) (fun _ => sig) n) (fun path => F (nth j path []))) in
    within d (K * (e + h)) (mean_of L) (mt (1 - nth j ts 0)) (cov_of L) (P (1 - nth j ts 0)).
Proof.
  intros S0 P0 S1 P1 HS HD HX b mt P. destruct (sb_reverse_flow d m0 c0 m1 c1 sig S0 P0 S1 P1 S D X HS HD HX) as (Lam & C & V & HL & HC & HV & Hfl).
  destruct (path_converges d _ _ _ _ Lam C V 1 ltac:(lra) HL HC HV Hfl) as (K & HK & H). exists K. split; [exact HK|].
  intros N normal k n ts j D0 mh Sh h e HN Hden Hn Hhd Hlast Href Hj Hh He HD0 [W1 W2] L.
  apply (H (Sim.reverse_drift (on_lists d (Toy.score d mt P (cho_inv d))) (on_lists d b) (fun _ => sig) 1) N normal k n ts j D0 mh Sh h e); try assumption; [intros; apply reverse_is|now apply (index_below h n)|].
  rewrite !Rminus_0_r. split; [intros i Hi; rewrite (marginal_mean_1 m0 m1 d i Hi); now apply W1|].
  intros i i' Hi Hi'. rewrite (marginal_cov_1 c0 c1 sig _ d i i' Hi Hi'); now apply W2.
Qed.
Theorem sb_ends d m0 c0 m1 c1 sig S D X : symmetric d c0 -> posdef d c0 -> symmetric d c1 -> posdef d c1 ->
  sqrtm_returns d c0 S -> sqrtm_returns d (sb_D_arg d c1 sig S) D -> meq d (mmul d (mtr S) (mtr X)) (mtr D) ->
  let b := sb_drift d m0 c0 m1 c1 sig (sb_C d sig S X) (cho_inv d) in
  let mt := marginal_mean m0 m1 in let P := marginal_cov c0 c1 sig (sb_C d sig S X) in
  let drift := on_lists d b in let score := on_lists d (Toy.score d mt P (cho_inv d)) in
  exists K, 0 <= K /\ forall N normal k n ts mh Sh h e,
    has_moments d N (fun _ => 0) mid -> (forall k, denotes (normal k n d) (dseq (repeat N n))) ->
    (1 <= n)%nat -> hd 1 ts = 0 -> last ts 0 = 1 -> refined h n ts -> 0 <= h -> 0 <= e -> forall D0, has_moments d D0 mh Sh ->
    let end_of f F := E D0 (fun x0 => law (Sim.euler_maruyama_path normal k x0 ts f (fun _ => sig) n) (fun path => F (nth (length ts - 1) path []))) in
    (within d e mh m0 Sh c0 -> within d (K * (e + h)) (mean_of (end_of drift)) m1 (cov_of (end_of drift)) c1) /\
    (within d e mh m1 Sh c1 -> within d (K * (e + h)) (mean_of (end_of (Sim.reverse_drift score drift (fun _ => sig) 1))) m0 (cov_of (end_of (Sim.reverse_drift score drift (fun _ => sig) 1))) c0).
Proof.
  intros S0 P0 S1 P1 HS HD HX b mt P drift score.
  destruct (sb_forward d m0 c0 m1 c1 sig S D X S0 P0 S1 P1 HS HD HX) as (K1 & HK1 & F1). destruct (sb_backward d m0 c0 m1 c1 sig S D X S0 P0 S1 P1 HS HD HX) as (K2 & HK2 & F2).
  exists (K1 + K2). split; [lra|]. intros N normal k n ts mh Sh h e HN Hden Hn Hhd Hlast Href Hh He D0 HD0 end_of.
  assert (Hj : (length ts - 1 < length ts)%nat) by (destruct ts; [cbn in Hhd; lra|cbn [length]; lia]).
  assert (Hend : nth (length ts - 1) ts 0 = 1) by (rewrite <- (last_firstn ts (length ts - 1) Hj), firstn_all2 by lia; exact Hlast).
  assert (Q1 : 0 <= K1 * (e + h)) by (apply Rmult_le_pos; lra). assert (Q2 : 0 <= K2 * (e + h)) by (apply Rmult_le_pos; lra). split; intros HW.
  - destruct (F1 N normal k n ts (length ts - 1)%nat D0 mh Sh h e HN Hden Hn Hhd Hlast Href Hj Hh He HD0 HW) as [G1 G2]. rewrite Hend in G1, G2. split.
    + intros i Hi. specialize (G1 i Hi). rewrite (marginal_mean_1 m0 m1 d i Hi) in G1. eapply Rle_trans; [exact G1|lra].
    + intros i j Hi Hj'. specialize (G2 i j Hi Hj'). rewrite (marginal_cov_1 c0 c1 sig _ d i j Hi Hj') in G2. eapply Rle_trans; [exact G2|lra].
  - destruct (F2 N normal k n ts (length ts - 1)%nat D0 mh Sh h e HN Hden Hn Hhd Hlast Href Hj Hh He HD0 HW) as [G1 G2]. rewrite Hend in G1, G2. replace (1 - 1) with 0 in G1, G2 by ring. split.
    + intros i Hi. specialize (G1 i Hi). rewrite (marginal_mean_0 m0 m1 d i Hi) in G1. eapply Rle_trans; [exact G1|lra].
    + intros i j Hi Hj'. specialize (G2 i j Hi Hj'). rewrite (marginal_cov_0 c0 c1 sig _ d i j Hi Hj') in G2. eapply Rle_trans; [exact G2|lra].
Qed.
