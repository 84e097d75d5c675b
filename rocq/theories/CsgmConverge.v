(** The sampler of experiments/toy/gp_csgm.py as a whole: reference draw, then euler_maruyama with the conditional reverse drift. *)
From Coq Require Import FunctionalExtensionality.
From Coquelicot Require Import Coquelicot.
From Coq Require Import Reals List Lia Lra Setoid Morphisms.
From Verif Require Sde SdeProofs Sim ToyRef.
From Verif Require Import Base Dist Prog Mat MatMore Cholesky GaussDiv GaussSBMore Toy ToyMore ToyCond EmMoments EmConverge PriorGap.
Import ListNotations.
Open Scope R_scope.

(** gp_csgm.py 75-76 on an array of normal draws *)
Definition ref_array (d : nat) (m : vec) (C : mat) (z : list R) : list R := map (csgm_ref_draw d m C (vec_of z)) (seq 0 d).
(** gp_csgm.py 102-107 [conditional_sampler]: two keys, the reference draw, one sub-step per grid interval *)
Definition csgm_sampler (normal : Sde.normal_sampler) (k : key) (d : nat) (m : vec) (C : mat) (ts : list R) (f : list R -> R -> list R) (disp : R -> R) : prog (list R) :=
  zs <- normal (split_key k 0) 1%nat d ;;
  Sim.euler_maruyama_terminal normal (split_key k 1) (ref_array d m C (nth 0 zs [])) ts f disp 1.

(** [f] computes the conditional reverse drift (gp_csgm.py 80-91) *)
Definition computes_drift (d : nat) (sde : Sde.linear_sde) (T : R) (m : vec) (C : mat) (inv : mat -> mat) (s2 : R) (y0 : vec) (f : list R -> R -> list R) : Prop :=
  forall x t, 0 <= t < T -> length x = d -> length (f x t) = d /\ csgm_drift d sde T m C inv s2 y0 (fun i => nth i x 0) t (fun i => nth i (f x t) 0).

Lemma ref_moments d m C N : symmetric d C -> has_moments d N (fun _ => 0) mid -> has_moments d (dmap (ref_array d m C) N) m (mmul d C C).
Proof.
  intros HS (P & Hl & Hm & Hc). assert (Hst : standard d (dmap vec_of N)).
  { split; [now apply is_prob_dmap|]. split; [intros i Hi; rewrite E_dmap; now apply Hm|]. intros i j Hi Hj. rewrite E_dmap. now apply Hc. }
  destruct (csgm_ref_draw_cov d m C _ HS Hst) as [K1 K2].
  assert (nth_ref : forall z i, (i < d)%nat -> nth i (ref_array d m C z) 0 = csgm_ref_draw d m C (vec_of z) i).
  { intros z i Hi. unfold ref_array. rewrite (nth_indep _ 0 (csgm_ref_draw d m C (vec_of z) 0%nat)) by (now rewrite map_length, seq_length). rewrite map_nth, seq_nth by exact Hi. reflexivity. }
  split; [now apply is_prob_dmap|]. split; [|split].
  - intros x Hx. unfold dmap in Hx. rewrite map_map in Hx. apply in_map_iff in Hx as ([p z] & <- & _). unfold ref_array. cbn [snd]. now rewrite map_length, seq_length.
  - intros i Hi. rewrite E_dmap. rewrite <- (K1 i Hi), !E_dmap. apply E_ext'. intros z. now apply nth_ref.
  - intros i j Hi Hj. rewrite E_dmap. rewrite <- (K2 i j Hi Hj), !E_dmap. apply E_ext'. intros z. now rewrite !nth_ref.
Qed.

(** the posterior covariance is s2 C (C + s2 I)^-1 *)
Section posterior.
Variables (d : nat) (C : mat) (inv : mat -> mat) (s2 : R).
Hypothesis HS : symmetric d C.
Hypothesis HP : posdef d C.
Hypothesis Hs2 : 0 < s2.
Let D := madd C (mscale s2 mid).
Let Di := inv D.
Hypothesis I1 : meq d (mmul d Di D) mid.
Hypothesis I2 : meq d (mmul d D Di) mid.
Let G := gp_cov d C inv s2.

Lemma D_symmetric : symmetric d D.
Proof using HS. apply symmetric_add; [exact HS|]. apply symmetric_scale, symmetric_mid. Qed.
Lemma gp_factor : meq d G (mscale s2 (mmul d C Di)).
Proof using I1 I2.
  unfold G, gp_cov. fold D. fold Di. assert (K : meq d (mmul d Di C) (msub mid (mscale s2 Di))).
  { intros i j Hi Hj. pose proof (I1 i j Hi Hj) as K. unfold D in K. rewrite mmul_add_r, mmul_scale_r, mmul_id_r in K by exact Hj. unfold msub, mscale. lra. }
  rewrite K. intros i j Hi Hj. unfold msub at 1, mscale at 2. rewrite mmul_sub_r, mmul_scale_r, mmul_id_r by exact Hj. ring.
Qed.
Lemma gp_symmetric : symmetric d G.
Proof using HS I1 I2.
  assert (DS : symmetric d Di) by (apply (inverse_symmetric d D); [exact D_symmetric|exact I1|exact I2]). unfold symmetric in *. unfold G, gp_cov. fold D. fold Di.
  intros i j Hi Hj. unfold mtr, msub. assert (K : mmul d C (mmul d Di C) j i = mmul d C (mmul d Di C) i j).
  { change (mtr (mmul d C (mmul d Di C)) i j = mmul d C (mmul d Di C) i j). revert i j Hi Hj. change (meq d (mtr (mmul d C (mmul d Di C))) (mmul d C (mmul d Di C))).
    rewrite !mtr_mul, HS, DS, <- mmul_assoc. reflexivity. }
  rewrite K. rewrite <- (HS i j Hi Hj). reflexivity.
Qed.
Lemma gp_posdef : posdef d G.
Proof using HS HP Hs2 I1 I2.
  intros x Hx. set (z := mvec d Di x).
  assert (Ex : veq d (mvec d D z) x) by (intros i Hi; unfold z; rewrite (mvec_mul d D Di x i Hi), (mvec_ext_l d _ mid x i I2 Hi); apply mvec_id; exact Hi).
  assert (Hz : ~ veq d z (fun _ => 0)). { intros H. apply Hx. intros i Hi. rewrite <- (Ex i Hi). now apply mvec_zero. }
  assert (EG : veq d (mvec d G x) (fun i => s2 * mvec d C z i)).
  { intros i Hi. rewrite (mvec_ext_l d _ _ x i gp_factor Hi), mvec_scale_l. f_equal. unfold z. symmetry. now apply mvec_mul. }
  rewrite quad_dot, (dot_ext d x _ (mvec d D z) _ (fun i Hi => eq_sym (Ex i Hi)) EG).
  assert (E2 : dot d (mvec d D z) (fun i => s2 * mvec d C z i) = s2 * (dot d (mvec d C z) (mvec d C z) + s2 * quad d C z)).
  { rewrite quad_dot. unfold dot. rewrite <- Rsum_map_mult_l, <- Rsum_map_plus, <- Rsum_map_mult_l. apply Rsum_map_ext. intros i Hi. apply in_seq in Hi. unfold D. rewrite mvec_madd_l, mvec_scale_l, (mvec_id d z i) by lia. ring. }
  rewrite E2. pose proof (dot_self_nonneg d (mvec d C z)). assert (0 < s2 * quad d C z) by (apply Rmult_lt_0_compat; [exact Hs2|now apply HP]). apply Rmult_lt_0_compat; lra.
Qed.
(** with an observation variance of at most one, no posterior covariance is the identity *)
Lemma gp_not_identity : (0 < d)%nat -> s2 <= 1 -> ~ meq d G mid.
Proof using HP Hs2 I1 I2.
  intros Hd H1 H. assert (K : meq d (mscale s2 C) D).
  { rewrite <- (mmul_1_l d D), <- H, gp_factor. intros i j Hi Hj. rewrite mmul_scale_l. unfold mscale at 1. f_equal.
    rewrite <- (mmul_assoc d C Di D i j Hi Hj), (mmul_proper d C C (reflexivity _) _ _ I1 i j Hi Hj). symmetry. now apply mmul_id_r. }
  set (e := fun k => if Nat.eqb k 0 then 1 else 0). assert (He : 0 < quad d C e) by (apply HP; intros E0; specialize (E0 0%nat Hd); unfold e in E0; cbn in E0; lra).
  assert (E1 : quad d (mscale s2 C) e = quad d D e).
  { rewrite !quad_dot. apply dot_ext; [reflexivity|]. intros i Hi. now apply mvec_ext_l. }
  unfold D in E1. rewrite quad_add, !quad_scale, quad_mid in E1. pose proof (dot_self_nonneg d e) as E2.
  assert (E3 : dot d e e <> 0). { intros E3. apply dot_self_zero in E3. specialize (E3 0%nat Hd). unfold e in E3. cbn in E3. lra. }
  assert (0 < s2 * dot d e e) by (apply Rmult_lt_0_compat; lra). assert (s2 * quad d C e <= 1 * quad d C e) by (apply Rmult_le_compat_r; lra). lra.
Qed.
End posterior.

Section sampler.
Variables (sde : Sde.linear_sde) (T : R) (d : nat) (m : vec) (C : mat) (inv : mat -> mat) (s2 : R) (y0 : vec).
Hypothesis Hd : SdeProofs.sde_defined sde.
Hypothesis HT : 0 <= T.
Hypothesis Hn : forall t, 0 <= t <= T -> SdeProofs.nonneg_noise sde t.
Hypothesis HS : symmetric d C.
Hypothesis HP : posdef d C.
Hypothesis Hs2 : 0 < s2.
Hypothesis Hinv : forall M, symmetric d M -> posdef d M -> meq d (mmul d (inv M) M) mid /\ meq d (mmul d M (inv M)) mid.
Let G := gp_cov d C inv s2.
Let mu := post_mean d m C inv s2 y0.
Let Pref := csgm_ref_cov d sde T C inv s2.

Lemma obs_inverse : meq d (mmul d (inv (madd C (mscale s2 mid))) (madd C (mscale s2 mid))) mid /\ meq d (mmul d (madd C (mscale s2 mid)) (inv (madd C (mscale s2 mid)))) mid.
Proof using HS HP Hs2 Hinv.
  apply Hinv; [now apply D_symmetric|]. intros x Hx. rewrite quad_add, quad_scale, quad_mid. assert (0 < quad d C x) by now apply HP. assert (0 <= s2 * dot d x x) by (apply Rmult_le_pos; [lra|apply dot_self_nonneg]). lra.
Qed.
Lemma G_ok : symmetric d G /\ posdef d G.
Proof using HS HP Hs2 Hinv. destruct obs_inverse as [I1 I2]. split; [now apply gp_symmetric|now apply gp_posdef]. Qed.
Lemma fwd_posdef M t : symmetric d M -> posdef d M -> 0 <= t <= T -> symmetric d (fwd_cov sde M t) /\ posdef d (fwd_cov sde M t).
Proof using Hd Hn.
  clear Pref mu G HT. intros A1 A2 Ht. split; [now apply fwd_cov_symmetric|]. intros x Hx. unfold fwd_cov. rewrite quad_add, !quad_scale, quad_mid.
  assert (0 < fst (Sde.FQ sde t 0) ^ 2 * quad d M x) by (apply Rmult_lt_0_compat; [apply pow_lt; now apply F_pos|now apply A2]).
  assert (0 <= snd (Sde.FQ sde t 0)) by (apply SdeProofs.Q_nonneg; [exact Hd|lra|]; destruct sde; cbn [SdeProofs.noise_on]; try exact I; split; [apply (Hn 0); lra|now apply (Hn t)]).
  assert (0 <= snd (Sde.FQ sde t 0) * dot d x x) by (apply Rmult_le_pos; [assumption|apply dot_self_nonneg]). lra.
Qed.
Lemma inverse_all M t : symmetric d M -> posdef d M -> 0 <= t <= T -> inverse_at d (fwd_cov sde M) inv t.
Proof using Hd Hn Hinv. intros A1 A2 Ht. destruct (fwd_posdef M t A1 A2 Ht). now apply Hinv. Qed.

Lemma computes_is f t : computes_drift d sde T m C inv s2 y0 f -> 0 <= t < T -> drift_is d f (reverse_drift d (vdrift sde) (Sde.dispersion sde) T (fwd_mean sde mu) (fwd_cov sde G) inv) t.
Proof using Hd Hn HS HP Hs2 Hinv.
  intros Hf Ht x Hx. destruct (Hf x t Ht Hx) as [L K]. split; [exact L|]. destruct G_ok as [G1 G2].
  pose proof (csgm_drift_exact d sde T m C inv s2 y0 _ t _ HS (inverse_all C (T - t) HS HP ltac:(lra)) (proj1 obs_inverse) (inverse_all G (T - t) G1 G2 ltac:(lra)) K) as E1. exact E1.
Qed.

Theorem csgm_ends : exists K, 0 <= K /\ forall f N normal k ts h,
  computes_drift d sde T m C inv s2 y0 f -> has_moments d N (fun _ => 0) mid -> (forall k, denotes (normal k 1%nat d) (dseq (repeat N 1))) ->
  hd 1 ts = 0 -> last ts 0 = T -> refined h 1 ts -> 0 <= h ->
  let L F := law (csgm_sampler normal k d (csgm_ref_mean d sde T m C inv s2 y0) Pref ts f (fun t => Sde.dispersion sde (T - t))) F in
  within d (K * h) (mean_of L) mu (cov_of L) (end_cov sde T d G inv (mmul d Pref Pref)).
Proof using Hd HT Hn HS HP Hs2 Hinv.
  destruct G_ok as [G1 G2]. destruct (gap_converges sde T d mu G inv Hd HT Hn G1 G2 (fun t Ht => inverse_all G t G1 G2 Ht) (fwd_mean sde mu T) (mmul d Pref Pref)) as (K & HK & H).
  exists K. split; [exact HK|]. intros f N normal k ts h Hf HN Hnorm Hhd Hlast Href Hh L. destruct (csgm_ref_exact d sde T m C inv s2 y0) as [R1 R2]. fold mu in R1. fold G Pref in R2.
  set (mref := csgm_ref_mean d sde T m C inv s2 y0) in *.
  assert (PS : symmetric d Pref). { unfold symmetric. rewrite R2. now apply fwd_cov_symmetric. }
  pose proof (ref_moments d mref Pref N PS HN) as HD.
  specialize (H f N normal (split_key k 1) 1%nat ts _ mref (mmul d Pref Pref) h 0 ltac:(intros t Ht; now apply computes_is) HN Hnorm ltac:(lia) Hhd Hlast Href Hh ltac:(lra) HD).
  assert (W0 : within d 0 mref (fwd_mean sde mu T) (mmul d Pref Pref) (mmul d Pref Pref)).
  { split; [intros i Hi; rewrite (R1 i Hi), Rminus_eq_0, Rabs_R0; lra|intros; rewrite Rminus_eq_0, Rabs_R0; lra]. }
  specialize (H W0). cbv zeta in H. rewrite Rplus_0_l in H.
  replace L with (fun F => E (dmap (ref_array d mref Pref) N) (fun x0 => law (Sim.euler_maruyama_terminal normal (split_key k 1) x0 ts f (fun t => Sde.dispersion sde (T - t)) 1) F)).
  - destruct H as [E1 E2]. split; [|exact E2]. intros i Hi. specialize (E1 i Hi).
    assert (E3 : veq d (end_mean sde T d mu G inv (fwd_mean sde mu T)) mu) by (apply (end_mean_only sde T d mu G inv Hd HT G1 G2 (fun t Ht => inverse_all G t G1 G2 Ht)); reflexivity).
    rewrite (E3 i Hi) in E1. exact E1.
  - apply functional_extensionality. intros F. unfold L, csgm_sampler. rewrite law_bind, (Hnorm (split_key k 0)), E_dmap. cbn [repeat]. unfold dseq. cbn [fold_right]. rewrite ?E_dbind. apply E_ext'. intros z. rewrite ?E_dmap, ?E_dbind, ?E_dret. reflexivity.
Qed.

(** the end covariance is that of the posterior only when the reference covariance is the identity *)
Theorem csgm_end_iff : meq d (end_cov sde T d G inv (mmul d Pref Pref)) G <-> meq d Pref mid.
Proof using Hd HT Hn HS HP Hs2 Hinv.
  destruct G_ok as [G1 G2]. destruct (csgm_ref_exact d sde T (fun _ => 0) C inv s2 (fun _ => 0)) as [_ R2]. fold G Pref in R2.
  rewrite (end_cov_only sde T d G inv Hd HT G1 G2 (fun t Ht => inverse_all G t G1 G2 Ht)). destruct (inverse_all G T G1 G2 ltac:(lra)) as [W1 W2]. split.
  - intros H. rewrite R2 in *. rewrite <- (mmul_1_l d (fwd_cov sde G T)). rewrite <- W1 at 1. rewrite <- mmul_assoc, H. exact W1.
  - intros H. rewrite <- R2, H, mmul_1_l. reflexivity.
Qed.
(** which never happens for the stationary SDEs of the script *)
Theorem csgm_never : (0 < d)%nat -> s2 <= 1 -> fst (Sde.FQ sde T 0) ^ 2 + snd (Sde.FQ sde T 0) = 1 -> ~ meq d (end_cov sde T d G inv (mmul d Pref Pref)) G.
Proof using Hd HT Hn HS HP Hs2 Hinv.
  intros Hd0 H1 HF H. apply csgm_end_iff in H. destruct (csgm_ref_exact d sde T (fun _ => 0) C inv s2 (fun _ => 0)) as [_ R2]. fold G Pref in R2. rewrite R2 in H.
  destruct obs_inverse as [I1 I2]. apply (gp_not_identity d C inv s2 HP Hs2 I1 I2 Hd0 H1). intros i j Hi Hj. specialize (H i j Hi Hj). unfold fwd_cov, madd, mscale in H. fold G.
  assert (P2 : 0 < fst (Sde.FQ sde T 0) ^ 2) by (apply pow_lt; now apply F_pos). apply Rmult_eq_reg_l with (fst (Sde.FQ sde T 0) ^ 2); [|lra].
  replace (snd (Sde.FQ sde T 0)) with (1 - fst (Sde.FQ sde T 0) ^ 2) in H by lra. lra.
Qed.
End sampler.

(** the limit of the sampler is wrong: there is an entry and a gap no grid can close *)
Theorem csgm_gap sde T d m C inv s2 y0 : SdeProofs.sde_defined sde -> 0 <= T -> (forall t, 0 <= t <= T -> SdeProofs.nonneg_noise sde t) -> symmetric d C -> posdef d C -> 0 < s2 ->
  (forall M, symmetric d M -> posdef d M -> meq d (mmul d (inv M) M) mid /\ meq d (mmul d M (inv M)) mid) ->
  ~ meq d (end_cov sde T d (gp_cov d C inv s2) inv (mmul d (csgm_ref_cov d sde T C inv s2) (csgm_ref_cov d sde T C inv s2))) (gp_cov d C inv s2) ->
  exists i j del h0, (i < d)%nat /\ (j < d)%nat /\ 0 < del /\ 0 < h0 /\ forall f N normal k ts h,
  computes_drift d sde T m C inv s2 y0 f -> has_moments d N (fun _ => 0) mid -> (forall k, denotes (normal k 1%nat d) (dseq (repeat N 1))) ->
  hd 1 ts = 0 -> last ts 0 = T -> refined h 1 ts -> 0 <= h <= h0 ->
  del <= Rabs (cov_of (fun F => law (csgm_sampler normal k d (csgm_ref_mean d sde T m C inv s2 y0) (csgm_ref_cov d sde T C inv s2) ts f (fun t => Sde.dispersion sde (T - t))) F) i j - gp_cov d C inv s2 i j).
Proof.
  intros Hd HT Hn HS HP Hs2 Hinv H. set (G := gp_cov d C inv s2) in *. set (X := end_cov sde T d G inv _) in *.
  assert (Hex : exists i j, (i < d)%nat /\ (j < d)%nat /\ X i j <> G i j).
  { apply Classical_Prop.NNPP. intros K. apply H. intros i j Hi Hj. apply Classical_Prop.NNPP. intros K2. apply K. exists i, j. auto. }
  destruct Hex as (i & j & Hi & Hj & Hne). destruct (csgm_ends sde T d m C inv s2 y0 Hd HT Hn HS HP Hs2 Hinv) as (K & HK & HE). fold G in HE. fold X in HE.
  set (D := Rabs (X i j - G i j)). assert (HD : 0 < D) by (apply Rabs_pos_lt; lra).
  exists i, j, (D / 2), (D / (2 * (K + 1))). assert (HK1 : 0 < 2 * (K + 1)) by lra. assert (Hh0 : 0 < D / (2 * (K + 1))) by (now apply Rdiv_lt_0_compat). split; [exact Hi|]. split; [exact Hj|]. split; [lra|]. split; [exact Hh0|].
  intros f N normal k ts h Hf HN Hnorm Hhd Hlast Href [Hh Hh1]. destruct (HE f N normal k ts h Hf HN Hnorm Hhd Hlast Href Hh) as [_ E2]. specialize (E2 i j Hi Hj). cbv beta in E2.
  match type of E2 with Rabs (?c - _) <= _ => set (c0 := c) in * end. assert (B : K * h <= D / 2).
  { apply Rle_trans with ((K + 1) * (D / (2 * (K + 1)))); [apply Rmult_le_compat; lra|]. right. field. lra. }
  pose proof (Rabs_triang (c0 - G i j) (X i j - c0)) as Tr. replace (c0 - G i j + (X i j - c0)) with (X i j - G i j) in Tr by ring. fold D in Tr. rewrite (Rabs_minus_sym (X i j) c0) in Tr. fold c0. lra.
Qed.

(** the drift is defined *)
Lemma csgm_cond_posdef d sde C inv s2 s : symmetric d C -> posdef d C -> 0 < s2 -> let F := fst (Sde.FQ sde s 0) in 0 < F -> 0 < snd (Sde.FQ sde s 0) ->
  (forall M, symmetric d M -> posdef d M -> meq d (mmul d (inv M) M) mid /\ meq d (mmul d M (inv M)) mid) ->
  let S := csgm_cond_cov d F C (inv (fwd_cov sde C s)) s2 in symmetric d S /\ posdef d S.
Proof.
  intros HS HP Hs2 F HF HQ HI S. set (Q := snd (Sde.FQ sde s 0)) in *. set (A := mscale (F ^ 2) C). assert (F2 : 0 < F ^ 2) by now apply pow_lt.
  assert (AS : symmetric d A) by now apply symmetric_scale. assert (AP : posdef d A) by (intros x Hx; unfold A; rewrite quad_scale; apply Rmult_lt_0_compat; [exact F2|now apply HP]).
  assert (PS : symmetric d (madd A (mscale Q mid))) by now apply D_symmetric.
  assert (PP : posdef d (madd A (mscale Q mid))) by (intros x Hx; rewrite quad_add, quad_scale, quad_mid; specialize (AP x Hx); assert (0 <= Q * dot d x x) by (apply Rmult_le_pos; [lra|apply dot_self_nonneg]); lra).
  destruct (HI _ PS PP) as [I1 I2]. set (G := gp_cov d A inv Q). assert (GS : symmetric d G) by now apply gp_symmetric. assert (GP : posdef d G) by now apply gp_posdef.
  assert (E : meq d S (madd (mscale (/ F ^ 2) G) (mscale s2 mid))).
  { intros i j Hi Hj. unfold S, csgm_cond_cov, G, gp_cov, madd at 1, msub at 1, madd at 1. change (fwd_cov sde C s) with (madd A (mscale Q mid)). set (Pi := inv (madd A (mscale Q mid))).
    assert (E1 : mmul d A (mmul d Pi A) i j = F ^ 2 * mmul d (mscale F C) (mmul d Pi (mscale F C)) i j).
    { unfold A. rewrite !mmul_scale_l. rewrite (mmul_proper d C C (reflexivity _) (mmul d Pi (mscale (F ^ 2) C)) (mscale F (mmul d Pi (mscale F C)))) by (try assumption; intros a b _ _; unfold mscale at 2; rewrite !mmul_scale_r; ring).
      rewrite mmul_scale_r. ring. }
    set (X := mmul d (mscale F C) (mmul d Pi (mscale F C)) i j) in *. unfold madd, mscale, msub. change (mmul d (fun i j => F * C i j) (mmul d Pi (fun i j => F * C i j)) i j) with X. rewrite E1. unfold A, mscale. field. lra. }
  split.
  - unfold symmetric. rewrite E. apply symmetric_add; apply symmetric_scale; [exact GS|apply symmetric_mid].
  - intros x Hx. assert (EQ : quad d S x = quad d (madd (mscale (/ F ^ 2) G) (mscale s2 mid)) x) by (rewrite !quad_dot; apply dot_ext; [reflexivity|]; intros i Hi; now apply mvec_ext_l).
    rewrite EQ, quad_add, !quad_scale, quad_mid. assert (0 < / F ^ 2 * quad d G x) by (apply Rmult_lt_0_compat; [now apply Rinv_0_lt_compat|now apply GP]).
    assert (0 <= s2 * dot d x x) by (apply Rmult_le_pos; [lra|apply dot_self_nonneg]). lra.
Qed.
Lemma csgm_total sde T d m C inv s2 y0 : SdeProofs.sde_defined sde -> (forall t, 0 <= t <= T -> SdeProofs.nonneg_noise sde t) -> symmetric d C -> posdef d C -> 0 < s2 ->
  (forall M, symmetric d M -> posdef d M -> meq d (mmul d (inv M) M) mid /\ meq d (mmul d M (inv M)) mid) ->
  (forall t, 0 < t <= T -> 0 < snd (Sde.FQ sde t 0)) -> exists f, computes_drift d sde T m C inv s2 y0 f.
Proof.
  intros Hd Hn HS HP Hs2 HI HQ. set (G := gp_cov d C inv s2). set (mu := post_mean d m C inv s2 y0). destruct (G_ok d C inv s2 HS HP Hs2 HI) as [G1 G2]. fold G in G1, G2.
  set (b := reverse_drift d (vdrift sde) (Sde.dispersion sde) T (fwd_mean sde mu) (fwd_cov sde G) inv).
  exists (fun x t => map (b (fun i => nth i x 0) t) (seq 0 d)). intros x t Ht Hx. split; [now rewrite map_length, seq_length|].
  destruct (csgm_cond_posdef d sde C inv s2 (T - t) HS HP Hs2 (F_pos sde Hd (T - t)) (HQ (T - t) ltac:(lra)) HI) as [S1 S2].
  destruct (ToyRef.csgm_drift_total d sde T m C inv s2 y0 (fun i => nth i x 0) t S1 S2) as [r Hr].
  pose proof (csgm_drift_exact d sde T m C inv s2 y0 _ t r HS (inverse_all sde T d inv Hd Hn HI C (T - t) HS HP ltac:(lra)) (proj1 (obs_inverse d C inv s2 HS HP Hs2 HI)) (inverse_all sde T d inv Hd Hn HI G (T - t) G1 G2 ltac:(lra)) Hr) as E1.
  destruct Hr as (lp & g & A1 & A2 & A3). exists lp, g. split; [exact A1|]. split; [exact A2|]. intros i Hi. rewrite <- (A3 i Hi), (E1 i Hi).
  rewrite (nth_indep _ 0 (b (fun i => nth i x 0) t 0%nat)) by (now rewrite map_length, seq_length). rewrite map_nth, seq_nth by exact Hi. reflexivity.
Qed.
