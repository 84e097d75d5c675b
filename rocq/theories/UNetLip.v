(** The U-Net is Lipschitz in the image and the time: scalar functions and families of values. *)
From Coq Require Import Reals List Lia Lra Bool PeanoNat Psatz.
From Verif Require Import Base Nets UNet UNetVal UNetShape UNetSep UNetGrow.
Import ListNotations.
Open Scope R_scope.

(** ** Scalar functions *)
Definition loc_lip (phi : R -> R) : Prop := forall M, exists k, 0 <= k /\ forall a b, Rabs a <= M -> Rabs b <= M -> Rabs (phi a - phi b) <= k * Rabs (a - b).
Lemma exp_lip : loc_lip exp.
Proof.
  intros M. exists (exp M). split; [left; apply exp_pos|].
  assert (G : forall a b, b <= a -> a <= M -> Rabs (exp a - exp b) <= exp M * Rabs (a - b)).
  { intros a b Hb Ha. assert (exp b <= exp a) by (destruct Hb as [Hb| ->]; [left; now apply exp_increasing|lra]). rewrite !Rabs_right by lra.
    assert (E : exp b = exp a * exp (b - a)) by (rewrite <- exp_plus; f_equal; ring). pose proof (exp_ineq1_le (b - a)). pose proof (exp_pos a).
    assert (exp a <= exp M) by (destruct Ha as [Ha| ->]; [left; now apply exp_increasing|lra]). rewrite E. nra. }
  intros a b Ha Hb. apply abs_between in Ha, Hb. destruct (Rle_lt_dec b a); [apply G; lra|]. rewrite Rabs_minus_sym, (Rabs_minus_sym a). apply G; lra.
Qed.
Lemma sin_abs_le x : Rabs (sin x) <= Rabs x.
Proof.
  assert (G : forall x, 0 < x -> Rabs (sin x) <= x).
  { intros y Hy. destruct (Rle_lt_dec y 1) as [H1|H1].
    - assert (0 < sin y) by (apply sin_gt_0; [assumption|pose proof PI2_1; pose proof PI_RGT_0; lra]). rewrite Rabs_right by lra. left. now apply sin_lt_x.
    - pose proof (SIN_bound y). apply Rabs_le. lra. }
  destruct (Rtotal_order x 0) as [H|[ ->|H]].
  - rewrite (Rabs_left x) by assumption. rewrite <- (Rabs_Ropp (sin x)), <- sin_neg. apply G. lra.
  - rewrite sin_0, Rabs_R0. lra.
  - rewrite (Rabs_right x) by lra. now apply G.
Qed.
Lemma sin_lip a b : Rabs (sin a - sin b) <= Rabs (a - b).
Proof.
  rewrite form4, !Rabs_mult, (Rabs_right 2) by lra. pose proof (sin_abs_le ((a - b) / 2)) as S. pose proof (COS_bound ((a + b) / 2)) as C. assert (Rabs (cos ((a + b) / 2)) <= 1) by (apply Rabs_le; lra).
  replace (Rabs (a - b)) with (2 * Rabs ((a - b) / 2)) by (unfold Rdiv; rewrite Rabs_mult, (Rabs_right (/ 2)) by lra; field). pose proof (Rabs_pos (sin ((a - b) / 2))). pose proof (Rabs_pos (cos ((a + b) / 2))). nra.
Qed.
Lemma cos_lip a b : Rabs (cos a - cos b) <= Rabs (a - b).
Proof. rewrite !cos_sin. eapply Rle_trans; [apply sin_lip|]. right. f_equal. ring. Qed.

(** ** Families of pairs of values, a bounded distance apart *)
Section Lip.
Context {W : Type} (ok : W -> Prop) (del : W -> R) (del_pos : forall w, ok w -> 0 <= del w).
Definition good (f f' : W -> R) : Prop := exists M k, 0 <= M /\ 0 <= k /\ forall w, ok w -> Rabs (f w) <= M /\ Rabs (f' w) <= M /\ Rabs (f w - f' w) <= k * del w.
Lemma good_ext (f f' g g' : W -> R) : (forall w, ok w -> g w = f w /\ g' w = f' w) -> good f f' -> good g g'.
Proof using Type. intros E (M & k & HM & Hk & H). exists M, k. split; [assumption|]. split; [assumption|]. intros w Hw. destruct (E w Hw) as [-> ->]. now apply H. Qed.
Lemma good_const c : good (fun _ => c) (fun _ => c).
Proof using del_pos.
  exists (Rabs c), 0. split; [apply Rabs_pos|]. split; [lra|]. intros w Hw. split; [lra|]. split; [lra|]. unfold Rminus. rewrite Rplus_opp_r, Rabs_R0. lra.
Qed.
Lemma good_plus (f f' g g' : W -> R) : good f f' -> good g g' -> good (fun w => f w + g w) (fun w => f' w + g' w).
Proof using Type.
  intros (M & k & HM & Hk & H) (N & l & HN & Hl & G). exists (M + N), (k + l). split; [lra|]. split; [lra|]. intros w Hw. destruct (H w Hw) as (H1 & H2 & H3). destruct (G w Hw) as (G1 & G2 & G3).
  split; [eapply Rle_trans; [apply Rabs_triang|lra]|]. split; [eapply Rle_trans; [apply Rabs_triang|lra]|].
  replace (f w + g w - (f' w + g' w)) with ((f w - f' w) + (g w - g' w)) by ring. eapply Rle_trans; [apply Rabs_triang|]. lra.
Qed.
Lemma good_mult (f f' g g' : W -> R) : good f f' -> good g g' -> good (fun w => f w * g w) (fun w => f' w * g' w).
Proof using del_pos.
  intros (M & k & HM & Hk & H) (N & l & HN & Hl & G). exists (M * N), (k * N + M * l). split; [nra|]. split; [nra|]. intros w Hw. destruct (H w Hw) as (H1 & H2 & H3). destruct (G w Hw) as (G1 & G2 & G3). pose proof (del_pos w Hw) as D.
  split; [rewrite Rabs_mult; apply Rmult_le_compat; auto using Rabs_pos|]. split; [rewrite Rabs_mult; apply Rmult_le_compat; auto using Rabs_pos|].
  replace (f w * g w - f' w * g' w) with ((f w - f' w) * g w + f' w * (g w - g' w)) by ring. eapply Rle_trans; [apply Rabs_triang|]. rewrite !Rabs_mult.
  replace ((k * N + M * l) * del w) with (k * del w * N + M * (l * del w)) by ring. apply Rplus_le_compat; apply Rmult_le_compat; auto using Rabs_pos.
Qed.
Lemma good_opp (f f' : W -> R) : good f f' -> good (fun w => - f w) (fun w => - f' w).
Proof using del_pos. intros H. apply good_ext with (fun w => -1 * f w) (fun w => -1 * f' w); [intros; split; ring|]. apply good_mult; [apply good_const|assumption]. Qed.
Lemma good_minus (f f' g g' : W -> R) : good f f' -> good g g' -> good (fun w => f w - g w) (fun w => f' w - g' w).
Proof using del_pos. intros H G. apply good_plus; [assumption|now apply good_opp]. Qed.
Lemma good_scale c (f f' : W -> R) : good f f' -> good (fun w => c * f w) (fun w => c * f' w).
Proof using del_pos. intros H. apply good_mult; [apply good_const|assumption]. Qed.
Lemma good_sum {A} (l : list A) (f f' : A -> W -> R) : (forall a, In a l -> good (f a) (f' a)) -> good (fun w => Rsum (map (fun a => f a w) l)) (fun w => Rsum (map (fun a => f' a w) l)).
Proof using del_pos.
  induction l as [|a l IH]; intros H; cbn [map Rsum]; [apply good_const|]. apply good_plus; [apply H; now left|]. apply IH. intros z Hz. apply H. now right.
Qed.
Lemma good_comp phi (f f' : W -> R) : loc_lip phi -> good f f' -> good (fun w => phi (f w)) (fun w => phi (f' w)).
Proof using Type.
  intros L (M & k & HM & Hk & H). destruct (L M) as (l & Hl & G). exists (Rabs (phi 0) + l * M), (l * k). split; [pose proof (Rabs_pos (phi 0)); nra|]. split; [nra|]. intros w Hw. destruct (H w Hw) as (H1 & H2 & H3).
  assert (B : forall a, Rabs a <= M -> Rabs (phi a) <= Rabs (phi 0) + l * M).
  { intros a Ha. replace (phi a) with (phi 0 + (phi a - phi 0)) by ring. eapply Rle_trans; [apply Rabs_triang|]. apply Rplus_le_compat_l. eapply Rle_trans; [apply G; [assumption|rewrite Rabs_R0; assumption]|]. rewrite Rminus_0_r. now apply Rmult_le_compat_l. }
  split; [now apply B|]. split; [now apply B|]. eapply Rle_trans; [now apply G|]. rewrite Rmult_assoc. now apply Rmult_le_compat_l.
Qed.
Lemma good_inv m (f f' : W -> R) : 0 < m -> (forall w, ok w -> m <= f w /\ m <= f' w) -> good f f' -> good (fun w => / f w) (fun w => / f' w).
Proof using del_pos.
  intros Hm L (M & k & HM & Hk & H). exists (/ m), (k * (/ m * / m)). pose proof (Rinv_0_lt_compat m Hm) as Hi. split; [lra|]. split; [apply Rmult_le_pos; [assumption|nra]|].
  intros w Hw. destruct (L w Hw) as [L1 L2]. destruct (H w Hw) as (_ & _ & H3).
  assert (I : forall a, m <= a -> Rabs (/ a) <= / m) by (intros a Ha; rewrite Rabs_right by (apply Rle_ge; left; apply Rinv_0_lt_compat; lra); apply Rinv_le_contravar; lra).
  split; [now apply I|]. split; [now apply I|]. replace (/ f w - / f' w) with (- (f w - f' w) * (/ f w * / f' w)) by (field; lra). rewrite Rabs_mult, Rabs_Ropp, Rabs_mult.
  replace (k * (/ m * / m) * del w) with (k * del w * (/ m * / m)) by ring. apply Rmult_le_compat; auto using Rabs_pos; [apply Rmult_le_pos; apply Rabs_pos|]. apply Rmult_le_compat; auto using Rabs_pos.
Qed.
Lemma good_sqrt m (f f' : W -> R) : 0 < m -> (forall w, ok w -> m <= f w /\ m <= f' w) -> good f f' -> good (fun w => sqrt (f w)) (fun w => sqrt (f' w)).
Proof using del_pos.
  intros Hm L (M & k & HM & Hk & H). assert (Hs : 0 < sqrt m) by (now apply sqrt_lt_R0). pose proof (Rinv_0_lt_compat _ Hs) as Hi.
  exists (sqrt M), (k * / sqrt m). split; [apply sqrt_pos|]. split; [apply Rmult_le_pos; lra|].
  intros w Hw. destruct (L w Hw) as [L1 L2]. destruct (H w Hw) as (H1 & H2 & H3).
  assert (B : forall a, m <= a -> Rabs a <= M -> Rabs (sqrt a) <= sqrt M) by (intros a Ha Hb; rewrite Rabs_right by (apply Rle_ge, sqrt_pos); apply sqrt_le_1_alt; apply abs_between in Hb; lra).
  split; [now apply B|]. split; [now apply B|].
  assert (G : forall a, m <= a -> sqrt m <= sqrt a) by (intros; now apply sqrt_le_1_alt). pose proof (G _ L1) as G1. pose proof (G _ L2) as G2.
  replace (sqrt (f w) - sqrt (f' w)) with ((f w - f' w) * / (sqrt (f w) + sqrt (f' w))).
  - rewrite Rabs_mult. replace (k * / sqrt m * del w) with (k * del w * / sqrt m) by ring. apply Rmult_le_compat; auto using Rabs_pos. rewrite Rabs_right by (apply Rle_ge; left; apply Rinv_0_lt_compat; lra). apply Rinv_le_contravar; lra.
  - rewrite <- (sqrt_sqrt (f w)) at 1 by lra. rewrite <- (sqrt_sqrt (f' w)) at 1 by lra. field. lra.
Qed.
Lemma rmax_lip c : loc_lip (Rmax c).
Proof using Type.
  intros M. exists 1. split; [lra|]. intros a b _ _. rewrite Rmult_1_l. unfold Rmax. destruct (Rle_dec c a), (Rle_dec c b); unfold Rabs; repeat destruct Rcase_abs; lra.
Qed.
Lemma good_exp (f f' : W -> R) : good f f' -> good (fun w => exp (f w)) (fun w => exp (f' w)).
Proof using Type. apply good_comp, exp_lip. Qed.
Lemma good_swish (f f' : W -> R) : good f f' -> good (fun w => swish (f w)) (fun w => swish (f' w)).
Proof using del_pos.
  intros H. unfold swish. apply good_mult; [assumption|]. apply good_inv with 1; [lra| |].
  - intros w _. pose proof (exp_pos (- f w)). pose proof (exp_pos (- f' w)). lra.
  - apply good_plus; [apply good_const|]. now apply good_exp, good_opp.
Qed.
Lemma good_tanh (f f' : W -> R) : good f f' -> good (fun w => tanh (f w)) (fun w => tanh (f' w)).
Proof using del_pos.
  intros H. unfold tanh, sinh, cosh. apply good_mult.
  - apply good_mult; [|apply good_const]. apply good_minus; [now apply good_exp|now apply good_exp, good_opp].
  - assert (C : forall a, 1 <= (exp a + exp (- a)) / 2) by (intros a; pose proof (exp_ineq1_le a); pose proof (exp_ineq1_le (- a)); lra).
    apply good_inv with 1; [lra|intros; split; apply C|]. apply good_mult; [|apply good_const]. apply good_plus; [now apply good_exp|now apply good_exp, good_opp].
Qed.
Lemma good_gelu (f f' : W -> R) : good f f' -> good (fun w => gelu (f w)) (fun w => gelu (f' w)).
Proof using del_pos.
  intros H. unfold gelu. apply good_mult; [apply good_mult; [assumption|apply good_const]|]. apply good_plus; [apply good_const|]. apply good_tanh. apply good_scale. apply good_plus; [assumption|]. apply good_scale.
  cbn [pow]. apply good_mult; [assumption|]. apply good_mult; [assumption|]. apply good_mult; [assumption|apply good_const].
Qed.

(** ** Lists of values *)
Lemma good_mean {A} (l : list A) (f f' : A -> W -> R) : (forall a, In a l -> good (f a) (f' a)) -> good (fun w => Rmean (map (fun a => f a w) l)) (fun w => Rmean (map (fun a => f' a w) l)).
Proof using del_pos.
  intros H. unfold Rmean. apply good_ext with (fun w => Rsum (map (fun a => f a w) l) * / INR (length l)) (fun w => Rsum (map (fun a => f' a w) l) * / INR (length l)).
  - intros. rewrite !map_length. split; reflexivity.
  - apply good_mult; [now apply good_sum|apply good_const].
Qed.
(** ** The same without a bound on the values when [bd] is false *)
Definition lip (bd : bool) (f f' : W -> R) : Prop := if bd then good f f' else exists k, 0 <= k /\ forall w, ok w -> Rabs (f w - f' w) <= k * del w.
Lemma good_lip bd (f f' : W -> R) : good f f' -> lip bd f f'.
Proof using Type. intros H. destruct bd; [exact H|]. destruct H as (M & k & _ & Hk & H). exists k. split; [assumption|]. intros w Hw. now apply H. Qed.
Lemma lip_weaken bd (f f' : W -> R) : lip bd f f' -> lip false f f'.
Proof using Type. destruct bd; [apply (good_lip false)|auto]. Qed.
Lemma lip_ext bd (f f' g g' : W -> R) : (forall w, ok w -> g w = f w /\ g' w = f' w) -> lip bd f f' -> lip bd g g'.
Proof using Type. destruct bd; [apply good_ext|]. intros E (k & Hk & H). exists k. split; [assumption|]. intros w Hw. destruct (E w Hw) as [-> ->]. now apply H. Qed.
Lemma lip_const bd c : lip bd (fun _ => c) (fun _ => c).
Proof using del_pos. apply good_lip, good_const. Qed.
Lemma lip_plus bd (f f' g g' : W -> R) : lip bd f f' -> lip bd g g' -> lip bd (fun w => f w + g w) (fun w => f' w + g' w).
Proof using Type.
  destruct bd; [apply good_plus|]. intros (k & Hk & H) (l & Hl & G). exists (k + l). split; [lra|]. intros w Hw. specialize (H w Hw). specialize (G w Hw).
  replace (f w + g w - (f' w + g' w)) with ((f w - f' w) + (g w - g' w)) by ring. eapply Rle_trans; [apply Rabs_triang|]. lra.
Qed.
Lemma lip_scale bd c (f f' : W -> R) : lip bd f f' -> lip bd (fun w => c * f w) (fun w => c * f' w).
Proof using del_pos.
  destruct bd; [apply good_scale|]. intros (k & Hk & H). exists (Rabs c * k). split; [apply Rmult_le_pos; [apply Rabs_pos|assumption]|]. intros w Hw. rewrite <- Rmult_minus_distr_l, Rabs_mult, Rmult_assoc. apply Rmult_le_compat_l; [apply Rabs_pos|now apply H].
Qed.
Lemma lip_sum bd {A} (l : list A) (f f' : A -> W -> R) : (forall a, In a l -> lip bd (f a) (f' a)) -> lip bd (fun w => Rsum (map (fun a => f a w) l)) (fun w => Rsum (map (fun a => f' a w) l)).
Proof using del_pos.
  induction l as [|a l IH]; intros H; cbn [map Rsum]; [apply lip_const|]. apply lip_plus; [apply H; now left|]. apply IH. intros z Hz. apply H. now right.
Qed.
(** finitely many of them have one constant *)
Lemma lip_uniform {A} (l : list A) (f f' : A -> W -> R) : (forall a, In a l -> lip false (f a) (f' a)) -> exists k, 0 <= k /\ forall a w, In a l -> ok w -> Rabs (f a w - f' a w) <= k * del w.
Proof using del_pos.
  induction l as [|a l IH]; intros H; [exists 0; split; [lra|intros ? ? []]|]. destruct IH as (k & Hk & IH); [intros; apply H; now right|]. destruct (H a (or_introl eq_refl)) as (k' & Hk' & H').
  exists (k + k'). split; [lra|]. intros c w [ ->|Hc] Hw; pose proof (del_pos w Hw).
  - specialize (H' w Hw). nra.
  - specialize (IH c w Hc Hw). nra.
Qed.

(** ** The normalisation of unbounded values is bounded and Lipschitz *)
Lemma root_lip (l : list (R * R)) eps e : 0 < eps -> 0 <= e -> (forall p, In p l -> Rabs (fst p - snd p) <= e) -> l <> [] ->
  let s := sqrt (Rmean (map (fun p => fst p * fst p) l) + eps) in let s' := sqrt (Rmean (map (fun p => snd p * snd p) l) + eps) in
  Rabs (s - s') <= sqrt (INR (length l)) * e.
Proof using Type.
  intros He H0 H Hl. cbv zeta. set (n := INR (length l)). assert (Hn : 0 < n) by (apply lt_0_INR; destruct l; [congruence|cbn; lia]).
  assert (Q : forall g : R * R -> R, 0 <= Rmean (map (fun p => g p * g p) l)).
  { intros g. unfold Rmean. apply Rmult_le_pos; [apply total_nonneg; intros; apply Rle_0_sqr|]. left. apply Rinv_0_lt_compat. rewrite map_length. exact Hn. }
  pose proof (Q fst) as Q1. pose proof (Q snd) as Q2. set (s := sqrt (Rmean (map (fun p => fst p * fst p) l) + eps)). set (s' := sqrt (Rmean (map (fun p => snd p * snd p) l) + eps)).
  assert (Hs : 0 < s) by (apply sqrt_lt_R0; lra). assert (Hs' : 0 < s') by (apply sqrt_lt_R0; lra).
  assert (Hr : 0 < sqrt n) by (now apply sqrt_lt_R0).
  assert (Bd : forall g : R * R -> R, forall p, In p l -> Rabs (g p) <= sqrt n * sqrt (Rmean (map (fun p => g p * g p) l) + eps)).
  { intros g p Hp. rewrite <- sqrt_mult by (pose proof (Q g); lra). rewrite <- sqrt_Rsqr_abs. apply sqrt_le_1_alt. unfold Rsqr.
    apply Rle_trans with (Rsum (map (fun p => g p * g p) l)).
    - apply (Rsum_In_le (map (fun p => g p * g p) l)); [apply Forall_forall; intros z Hz; apply in_map_iff in Hz as (q & <- & _); apply Rle_0_sqr|]. now apply (in_map (fun p => g p * g p)).
    - unfold Rmean. rewrite map_length. fold n. rewrite Rmult_plus_distr_l. replace (n * (Rsum (map (fun p => g p * g p) l) / n)) with (Rsum (map (fun p => g p * g p) l)) by (field; lra). nra. }
  assert (E : s * s - s' * s' = Rmean (map (fun p => (fst p - snd p) * (fst p + snd p)) l)).
  { unfold s, s'. rewrite !sqrt_sqrt by lra. unfold Rmean. rewrite !map_length. fold n. rewrite (Rsum_map_ext (fun p => (fst p - snd p) * (fst p + snd p)) (fun p => fst p * fst p + (-1) * (snd p * snd p))) by (intros; ring).
    rewrite Rsum_map_plus, Rsum_map_mult_l. field. lra. }
  assert (K : Rabs (s * s - s' * s') <= e * (sqrt n * (s + s'))).
  { rewrite E. unfold Rmean. rewrite map_length. fold n. unfold Rdiv. rewrite Rabs_mult, (Rabs_right (/ n)) by (apply Rle_ge; left; now apply Rinv_0_lt_compat).
    apply Rmult_le_reg_r with n; [assumption|]. rewrite Rmult_assoc, Rinv_l, Rmult_1_r by lra.
    eapply Rle_trans; [apply (Rsum_abs_le _ (fun _ => e * (sqrt n * (s + s'))))|].
    - intros p Hp. rewrite Rabs_mult. apply Rmult_le_compat; auto using Rabs_pos. eapply Rle_trans; [apply Rabs_triang|]. rewrite Rmult_plus_distr_l. apply Rplus_le_compat; [now apply (Bd fst)|now apply (Bd snd)].
    - rewrite Rsum_map_const. fold n. lra. }
  replace (s * s - s' * s') with ((s - s') * (s + s')) in K by ring. rewrite Rabs_mult, (Rabs_right (s + s')) in K by lra. apply Rmult_le_reg_r with (s + s'); [lra|]. lra.
Qed.
Lemma normed_alt eps l a : l <> [] -> normed eps l a = (a - Rmean l) / sqrt (Rmean (map (fun z => (z - Rmean l) * (z - Rmean l)) l) + eps).
Proof using Type.
  intros Hl. unfold normed. assert (Hn : 0 < INR (length l)) by (apply lt_0_INR; destruct l; [congruence|cbn; lia]).
  assert (E : Rmean (map (fun z => z * z) l) - Rmean l * Rmean l = Rmean (map (fun z => (z - Rmean l) * (z - Rmean l)) l)) by (unfold Rmean at 4; rewrite map_length, (sum_sq_dev l Hl); field; lra).
  rewrite E. rewrite Rmax_right; [reflexivity|]. apply Rmult_le_pos; [apply total_nonneg; intros; apply Rle_0_sqr|]. left. apply Rinv_0_lt_compat. now rewrite map_length.
Qed.
Lemma good_normed {A} eps (l : list A) (f f' : A -> W -> R) a0 : 0 < eps -> In a0 l -> (forall a, In a l -> lip false (f a) (f' a)) ->
  good (fun w => normed eps (map (fun a => f a w) l) (f a0 w)) (fun w => normed eps (map (fun a => f' a w) l) (f' a0 w)).
Proof using del_pos.
  intros He Ha H. assert (Hl : l <> []) by (intros ->; destruct Ha). set (n := INR (length l)). assert (Hn : 0 < n) by (apply lt_0_INR; destruct l; [congruence|cbn; lia]).
  destruct (lip_uniform l f f' H) as (k & Hk & U). assert (Hr : 0 < sqrt n) by (now apply sqrt_lt_R0). assert (Hse : 0 < sqrt eps) by (now apply sqrt_lt_R0).
  assert (Bn : forall (g : A -> W -> R) w, Rabs (normed eps (map (fun a => g a w) l) (g a0 w)) <= sqrt n).
  { intros g w. eapply Rle_trans; [apply normed_bound; [assumption|now apply (in_map (fun a => g a w))]|]. rewrite map_length. apply Rle_refl. }
  exists (sqrt n), ((1 + n) * (2 * k) / sqrt eps). split; [lra|]. split; [apply Rmult_le_pos; [nra|left; now apply Rinv_0_lt_compat]|].
  intros w Hw. split; [apply Bn|]. split; [apply Bn|]. pose proof (Bn f' w) as Bf'. pose proof (del_pos w Hw) as D.
  assert (Nm : forall g : A -> W -> R, map (fun a => g a w) l <> []) by (intros g E; apply map_eq_nil in E; contradiction).
  rewrite (normed_alt eps (map (fun a => f' a w) l)) in Bf' by apply Nm. rewrite !normed_alt by apply Nm.
  set (m := Rmean (map (fun a => f a w) l)) in *. set (m' := Rmean (map (fun a => f' a w) l)) in *.
  assert (Dm : Rabs (m - m') <= k * del w).
  { unfold m, m', Rmean. rewrite !map_length. fold n. unfold Rdiv. rewrite <- Rmult_minus_distr_r.
    replace (Rsum (map (fun a => f a w) l) - Rsum (map (fun a => f' a w) l)) with (Rsum (map (fun a => f a w - f' a w) l)) by (rewrite (Rsum_map_ext (fun a => f a w - f' a w) (fun a => f a w + (-1) * f' a w)) by (intros; ring); rewrite Rsum_map_plus, Rsum_map_mult_l; ring).
    rewrite Rabs_mult, (Rabs_right (/ n)) by (apply Rle_ge; left; now apply Rinv_0_lt_compat). apply Rmult_le_reg_r with n; [assumption|]. rewrite Rmult_assoc, Rinv_l, Rmult_1_r by lra.
    eapply Rle_trans; [apply (Rsum_abs_le _ (fun _ => k * del w)); intros a Hin; now apply U|]. rewrite Rsum_map_const. fold n. lra. }
  set (pl := map (fun a => (f a w - m, f' a w - m')) l).
  assert (Dy : forall p, In p pl -> Rabs (fst p - snd p) <= 2 * k * del w).
  { intros p Hp. unfold pl in Hp. apply in_map_iff in Hp as (a & <- & Hin). cbn [fst snd]. replace (f a w - m - (f' a w - m')) with ((f a w - f' a w) - (m - m')) by ring. eapply Rle_trans; [apply Rabs_triang|]. rewrite Rabs_Ropp. pose proof (U a w Hin Hw). lra. }
  assert (Hpl : pl <> []) by (unfold pl; intros E; apply map_eq_nil in E; contradiction).
  pose proof (root_lip pl eps (2 * k * del w) He ltac:(nra) Dy Hpl) as S. cbv zeta in S. unfold pl in S. rewrite !map_map in S. cbn [fst snd] in S. rewrite map_length in S. fold n in S. rewrite !map_map in Bf'. rewrite !map_map.
  assert (Q : forall g : A -> R, 0 <= Rmean (map (fun a => g a * g a) l)).
  { intros g. apply Rmult_le_pos; [apply total_nonneg; intros; apply Rle_0_sqr|]. left. apply Rinv_0_lt_compat. now rewrite map_length. }
  pose proof (Q (fun a => f a w - m)) as Q1. pose proof (Q (fun a => f' a w - m')) as Q2. cbv beta in Q1, Q2.
  set (s := sqrt (Rmean (map (fun x => (f x w - m) * (f x w - m)) l) + eps)) in *. set (s' := sqrt (Rmean (map (fun x => (f' x w - m') * (f' x w - m')) l) + eps)) in *.
  assert (Hs : sqrt eps <= s) by (apply sqrt_le_1_alt; lra). assert (Hs' : sqrt eps <= s') by (apply sqrt_le_1_alt; lra). clearbody s s'.
  replace ((f a0 w - m) / s - (f' a0 w - m') / s') with (((f a0 w - m) - (f' a0 w - m')) * / s + (f' a0 w - m') / s' * (- (s - s') * / s)) by (field; lra).
  eapply Rle_trans; [apply Rabs_triang|]. rewrite !Rabs_mult. rewrite Rabs_Ropp. assert (Is : Rabs (/ s) <= / sqrt eps) by (rewrite Rabs_right by (apply Rle_ge; left; apply Rinv_0_lt_compat; lra); apply Rinv_le_contravar; lra).
  replace ((1 + n) * (2 * k) / sqrt eps * del w) with (2 * k * del w * / sqrt eps + n * (2 * k * del w * / sqrt eps)) by (unfold Rdiv; ring). apply Rplus_le_compat.
  - apply Rmult_le_compat; auto using Rabs_pos. apply (Dy (f a0 w - m, f' a0 w - m')). unfold pl. now apply (in_map (fun a => (f a w - m, f' a w - m'))).
  - apply Rle_trans with (sqrt n * (sqrt n * (2 * k * del w) * / sqrt eps)); [|right; rewrite <- (sqrt_sqrt n) at 3 by lra; ring].
    apply Rmult_le_compat; auto using Rabs_pos; [apply Rmult_le_pos; apply Rabs_pos|]. apply Rmult_le_compat; auto using Rabs_pos.
Qed.
Lemma good_softmax {A} (l : list A) (f f' : A -> W -> R) i : (forall a, In a l -> good (f a) (f' a)) ->
  good (fun w => nth i (softmax (map (fun a => f a w) l)) 0) (fun w => nth i (softmax (map (fun a => f' a w) l)) 0).
Proof using del_pos.
  intros H. destruct (Nat.lt_ge_cases i (length l)) as [Hi|Hi].
  2:{ apply good_ext with (fun _ => 0) (fun _ => 0); [|apply good_const]. intros w _. split; apply nth_overflow; rewrite softmax_length, map_length; assumption. }
  destruct l as [|a0 l]; [cbn in Hi; lia|]. set (l0 := a0 :: l) in *. assert (HI : In (nth i l0 a0) l0) by (now apply nth_In).
  apply good_ext with (fun w => exp (f (nth i l0 a0) w) * / Rsum (map (fun a => exp (f a w)) l0)) (fun w => exp (f' (nth i l0 a0) w) * / Rsum (map (fun a => exp (f' a w)) l0)).
  { intros w _. assert (E : forall h : A -> W -> R, nth i (softmax (map (fun a => h a w) l0)) 0 = exp (h (nth i l0 a0) w) * / Rsum (map (fun a => exp (h a w)) l0)).
    { intros h. rewrite softmax_nth by (solve [discriminate|now rewrite map_length]). rewrite map_map. rewrite (nth_indep _ 0 (h a0 w)) by (now rewrite map_length). rewrite (map_nth (fun a => h a w)). reflexivity. }
    split; apply E. }
  apply good_mult; [now apply good_exp, H|]. pose proof (H a0 (or_introl eq_refl)) as (M & k & HM & Hk & H0).
  apply good_inv with (exp (- M)); [apply exp_pos| |].
  - intros w Hw. destruct (H0 w Hw) as (H1 & H2 & _). apply abs_between in H1, H2.
    assert (B : forall h : A -> W -> R, - M <= h a0 w -> exp (- M) <= Rsum (map (fun a => exp (h a w)) l0)).
    { intros h Hh. unfold l0. cbn [map Rsum]. assert (0 <= Rsum (map (fun a => exp (h a w)) l)) by (apply total_nonneg; intros; left; apply exp_pos).
      assert (exp (- M) <= exp (h a0 w)) by (destruct Hh as [Hh| ->]; [left; now apply exp_increasing|lra]). lra. }
    split; apply B; lra.
  - apply (good_sum l0 (fun a w => exp (f a w)) (fun a w => exp (f' a w))). intros a Ha. now apply good_exp, H.
Qed.
End Lip.
