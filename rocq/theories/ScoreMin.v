(** What the training losses are minimised by: fbs/sdes/linear.py [make_linear_sde_law_loss], fbs/dsb/base.py.

    The losses compare a network at the arrival state [y] of a Gaussian step with a quantity that also depends on the state
    [a] the step came from.  Here [a] has an arbitrary finite law, the step goes to N(m a, v I), and the density of the expected
    squared error at [y] is studied as a function of the output of the network at [y]. *)
From Coquelicot Require Import Coquelicot.
From Verif Require Import Dist ResVariance Dsb SdeMore.
Open Scope R_scope.

(** density of N(m, v I) at y *)
Definition step_density (m : list R) (v : R) (y : list R) : R :=
  exp (Rsum (map (fun j => gauss_logpdf (nth j m 0) v (nth j y 0)) (seq 0 (length y)))).
Section law.
Context {A : Type}.
Variable D : dist A.
Variable m : A -> list R.
Variable v : R.
(** density of the arrival state *)
Definition arrival (y : list R) : R := E D (fun a => step_density (m a) v y).
(** gradient of its logarithm *)
Definition arrival_score (y : list R) : list R := grad (fun y => ln (arrival y)) y.
(** conditional mean of [c a] given the arrival state *)
Definition given (y : list R) (c : A -> R) : R := E D (fun a => step_density (m a) v y * c a) / arrival y.
(** density of the expected squared error (mean over coordinates) when the network returns [out] at [y] *)
Definition risk (y : list R) (target : A -> list R) (out : list R) : R := E D (fun a => step_density (m a) v y * Rmean (sq_diff out (target a))).

Hypothesis HD : is_prob D.
Hypothesis Hv : 0 < v.

Lemma E_pos (f : A -> R) : (forall a, 0 < f a) -> 0 < E D f.
Proof.
  intros Hf. destruct HD as [Hn H1]. assert (G : forall l : dist A, Forall (fun pa => 0 <= fst pa) l -> 0 < E l (fun _ => 1) -> 0 < E l f).
  { intros l. induction l as [|[p a] l IH]; intros Hl H; [unfold E in H; cbn in H; lra|]. inversion_clear Hl as [|? ? Hp Hl']. unfold E in *. cbn [map fst snd Rsum] in *.
    assert (N : 0 <= Rsum (map (fun pa => fst pa * f (snd pa)) l)) by (apply Rsum_nonneg, Forall_forall; intros x Hx; apply in_map_iff in Hx as (q & <- & Hq); rewrite Forall_forall in Hl'; apply Rmult_le_pos; [now apply Hl'|left; apply Hf]).
    assert (N' : 0 <= Rsum (map (fun pa : R * A => fst pa * 1) l)) by (apply Rsum_nonneg, Forall_forall; intros x Hx; apply in_map_iff in Hx as (q & <- & Hq); rewrite Forall_forall in Hl'; apply Rmult_le_pos; [now apply Hl'|lra]).
    cbn in Hp. destruct Hp as [Hp|<-]; [assert (0 < p * f a) by (apply Rmult_lt_0_compat; auto); lra|]. assert (0 < Rsum (map (fun pa : R * A => fst pa * f (snd pa)) l)) by (apply IH; [assumption|lra]). lra. }
  apply G; [assumption|lra].
Qed.
Lemma step_density_pos mm y : 0 < step_density mm v y.
Proof. apply exp_pos. Qed.
Lemma arrival_pos y : 0 < arrival y.
Proof. apply E_pos. intros a. apply step_density_pos. Qed.

Lemma step_density_derive mm y i : (i < length y)%nat ->
  is_derive (fun z => step_density mm v (set_nth i z y)) (nth i y 0) (step_density mm v y * (- (nth i y 0 - nth i mm 0) / v)).
Proof.
  intros Hi. unfold step_density.
  assert (L : forall z, length (set_nth i z y) = length y) by (intros z; clear; revert y; induction i as [|i IH]; intros [|b y]; cbn; auto).
  apply is_derive_ext with (fun z => exp (Rsum (map (fun j => gauss_logpdf (nth j mm 0) v (if Nat.eqb j i then z else nth j y 0)) (seq 0 (length y))))).
  { intros z. rewrite L. f_equal. apply Rsum_map_ext. intros j _. now rewrite nth_set_nth'. }
  assert (S : is_derive (fun z => Rsum (map (fun j => gauss_logpdf (nth j mm 0) v (if Nat.eqb j i then z else nth j y 0)) (seq 0 (length y)))) (nth i y 0) (- (nth i y 0 - nth i mm 0) / v)).
  { apply (is_derive_Rsum_one (fun j z => gauss_logpdf (nth j mm 0) v (if Nat.eqb j i then z else nth j y 0)) i).
    - apply seq_NoDup.
    - apply in_seq. lia.
    - rewrite Nat.eqb_refl. now apply gauss_logpdf_derive.
    - intros j Hj z'. apply Nat.eqb_neq in Hj. now rewrite Hj. }
  evar_last.
  - apply (is_derive_comp exp _ (nth i y 0) _ _ (is_derive_exp _) S).
  - unfold scal. cbn. unfold mult. cbn. rewrite Rmult_comm. f_equal. f_equal. apply Rsum_map_ext. intros j _. destruct (Nat.eqb_spec j i) as [ ->|]; reflexivity.
Qed.
Lemma is_derive_E (f : A -> R -> R) (f' : A -> R) z : (forall a, is_derive (f a) z (f' a)) -> is_derive (fun u => E D (fun a => f a u)) z (E D f').
Proof.
  intros H. unfold E. clear HD. induction D as [|[p a] l IH]; cbn [map fst snd Rsum]; [apply (is_derive_const (K := R_AbsRing) (V := R_NormedModule) 0 z)|].
  apply (is_derive_plus (fun u => p * f a u) (fun u => Rsum (map (fun pa => fst pa * f (snd pa) u) l))); [|exact IH]. apply (is_derive_scal (f a) z p). apply H.
Qed.
Lemma set_nth_same i (y : list R) : (i < length y)%nat -> set_nth i (nth i y 0) y = y.
Proof. revert y. induction i as [|i IH]; intros [|b y] H; cbn in *; try lia; auto. f_equal. apply IH. lia. Qed.
(** the gradient exists, and is the conditional mean of the conditional score *)
Lemma arrival_score_derive y i : (i < length y)%nat -> is_derive (fun z => ln (arrival (set_nth i z y))) (nth i y 0) (given y (fun a => - (nth i y 0 - nth i (m a) 0) / v)).
Proof.
  intros Hi. assert (S := is_derive_E (fun a z => step_density (m a) v (set_nth i z y)) _ (nth i y 0) (fun a => step_density_derive (m a) y i Hi)).
  assert (P := arrival_pos y). assert (P' : 0 < arrival (set_nth i (nth i y 0) y)) by (now rewrite set_nth_same). evar_last.
  - apply (is_derive_comp ln (fun z => arrival (set_nth i z y)) (nth i y 0) _ _ (is_derive_ln _ P') S).
  - unfold scal. cbn. unfold mult. cbn. rewrite set_nth_same by assumption. reflexivity.
Qed.
Lemma length_arrival_score y : length (arrival_score y) = length y.
Proof. unfold arrival_score, grad. now rewrite map_length, seq_length. Qed.
Lemma nth_arrival_score y i : (i < length y)%nat -> nth i (arrival_score y) 0 = given y (fun a => - (nth i y 0 - nth i (m a) 0) / v).
Proof.
  intros Hi. unfold arrival_score, grad. rewrite (nth_indep _ 0 (Derive (fun z => ln (arrival (set_nth 0 z y))) (nth 0 y 0))) by now rewrite map_length, seq_length.
  rewrite (map_nth (fun i => Derive (fun z => ln (arrival (set_nth i z y))) (nth i y 0))). rewrite seq_nth by assumption. cbn [Nat.add].
  apply is_derive_unique. now apply arrival_score_derive.
Qed.
Lemma given_affine y al be c : given y (fun a => al + be * c a) = al + be * given y c.
Proof.
  unfold given. rewrite (E_ext' D _ (fun a => al * step_density (m a) v y + be * (step_density (m a) v y * c a))) by (intros; ring).
  rewrite E_plus, !E_mult_l. fold (arrival y). field. apply Rgt_not_eq, arrival_pos.
Qed.
Lemma given_ext y c c' : (forall a, In a (map snd D) -> c a = c' a) -> given y c = given y c'.
Proof. intros H. unfold given. f_equal. apply E_ext. intros a Ha. now rewrite H. Qed.
(** Tweedie's formula: where the step came from, up to the noise *)
Lemma tweedie y i : (i < length y)%nat -> given y (fun a => nth i (m a) 0) = nth i y 0 + v * nth i (arrival_score y) 0.
Proof.
  intros Hi. rewrite nth_arrival_score, <- given_affine by assumption. apply given_ext. intros a _. field. lra.
Qed.

(** the squared error splits *)
Lemma risk_split1 y c o : E D (fun a => step_density (m a) v y * ((o - c a) * (o - c a))) =
  arrival y * ((o - given y c) * (o - given y c)) + E D (fun a => step_density (m a) v y * ((given y c - c a) * (given y c - c a))).
Proof.
  assert (P := arrival_pos y). set (g := given y c).
  assert (G : E D (fun a => step_density (m a) v y * c a) = g * arrival y) by (unfold g, given; field; lra).
  rewrite (E_ext' D _ (fun a => o * o * step_density (m a) v y + (- 2 * o * (step_density (m a) v y * c a) + step_density (m a) v y * (c a * c a)))) by (intros; ring).
  rewrite (E_ext' D (fun a => step_density (m a) v y * ((g - c a) * (g - c a))) (fun a => g * g * step_density (m a) v y + (- 2 * g * (step_density (m a) v y * c a) + step_density (m a) v y * (c a * c a)))) by (intros; ring).
  rewrite !E_plus, !E_mult_l, G. fold (arrival y). ring.
Qed.
Definition best (y : list R) (target : A -> list R) : list R := map (fun i => given y (fun a => nth i (target a) 0)) (seq 0 (length y)).
Lemma length_best y target : length (best y target) = length y.
Proof. unfold best. now rewrite map_length, seq_length. Qed.
Lemma nth_best y target i : (i < length y)%nat -> nth i (best y target) 0 = given y (fun a => nth i (target a) 0).
Proof.
  intros Hi. unfold best. rewrite (nth_indep _ 0 (given y (fun a => nth 0 (target a) 0))) by now rewrite map_length, seq_length.
  rewrite (map_nth (fun i => given y (fun a => nth i (target a) 0))). now rewrite seq_nth.
Qed.
Lemma Rmean_sq_diff x z d : length x = d -> length z = d -> Rmean (sq_diff x z) = / INR d * Rsum (map (fun i => (nth i x 0 - nth i z 0) * (nth i x 0 - nth i z 0)) (seq 0 d)).
Proof.
  intros Hx Hz. unfold Rmean, sq_diff. rewrite length_vmap2 by congruence. unfold vmap2. rewrite (Rsum_map_combine (fun a b => (a - b) * (a - b))) by congruence. rewrite Hx. unfold Rdiv. ring.
Qed.
Lemma risk_split y target out : Forall (fun a => length (target a) = length y) (map snd D) -> length out = length y ->
  risk y target out = risk y target (best y target) + arrival y * Rmean (sq_diff out (best y target)).
Proof.
  intros HT Ho. rewrite Forall_forall in HT. set (d := length y) in *. assert (Hb : length (best y target) = d) by apply length_best.
  assert (R : forall o, length o = d -> risk y target o = / INR d * Rsum (map (fun i => E D (fun a => step_density (m a) v y * ((nth i o 0 - nth i (target a) 0) * (nth i o 0 - nth i (target a) 0)))) (seq 0 d))).
  { intros o Hlo. unfold risk. rewrite (E_ext D _ (fun a => / INR d * Rsum (map (fun i => step_density (m a) v y * ((nth i o 0 - nth i (target a) 0) * (nth i o 0 - nth i (target a) 0))) (seq 0 d)))).
    - now rewrite E_mult_l, E_Rsum.
    - intros a Ha. rewrite (Rmean_sq_diff o (target a) d) by auto. rewrite Rsum_map_mult_l. ring. }
  rewrite !R by assumption. rewrite (Rmean_sq_diff out (best y target) d) by assumption.
  rewrite <- (Rmult_assoc (arrival y)), (Rmult_comm (arrival y)), (Rmult_assoc (/ INR d)), <- Rmult_plus_distr_l. f_equal. rewrite <- Rsum_map_mult_l, <- Rsum_map_plus.
  apply Rsum_map_ext. intros i Hi. apply in_seq in Hi. rewrite !nth_best by (fold d; lia). rewrite risk_split1. ring.
Qed.
(** so [best] is the only minimiser *)
Lemma best_minimises y target out : (0 < length y)%nat -> Forall (fun a => length (target a) = length y) (map snd D) -> length out = length y ->
  risk y target (best y target) <= risk y target out /\ (risk y target out = risk y target (best y target) <-> out = best y target).
Proof.
  intros Hy HT Ho. rewrite (risk_split y target out HT Ho). assert (P := arrival_pos y). assert (N : 0 <= Rmean (sq_diff out (best y target))) by (apply Rmean_nonneg, sq_diff_nonneg).
  assert (Hl : length out = length (best y target)) by now rewrite length_best. split; [nra|]. split.
  - intros H. assert (Z : Rmean (sq_diff out (best y target)) = 0) by nra. apply Rmean_zero_iff in Z; [|apply sq_diff_nil; [intros ->; cbn in Ho; lia|assumption]|apply sq_diff_nonneg]. now apply sq_diff_zero in Z.
  - intros ->. replace (Rmean (sq_diff (best y target) (best y target))) with 0; [ring|]. symmetry. destruct y as [|y0 y']; [cbn in Hy; lia|].
    apply Rmean_zero_iff; [apply sq_diff_nil; [intros E0; apply (f_equal (@length R)) in E0; rewrite length_best in E0; discriminate|reflexivity]|apply sq_diff_nonneg|]. now apply sq_diff_zero.
Qed.
Lemma best_is y target s : length s = length y -> (forall i, (i < length y)%nat -> nth i s 0 = given y (fun a => nth i (target a) 0)) -> best y target = s.
Proof. intros Hs H. apply (nth_ext _ _ 0 0); rewrite length_best; [now symmetry|]. intros i Hi. rewrite nth_best by assumption. symmetry. now apply H. Qed.
(** two starts that can be told apart: no network makes the loss vanish *)
Lemma risk_pos y target p a q b l : D = (p, a) :: (q, b) :: l -> 0 < p -> 0 < q -> (0 < length y)%nat -> Forall (fun a => length (target a) = length y) (map snd D) -> target a <> target b ->
  forall out, length out = length y -> 0 < risk y target out.
Proof.
  intros HE Hp Hq Hy HT Hab out Ho.
  assert (Nn : forall c, 0 <= Rmean (sq_diff out (target c))) by (intros c; apply Rmean_nonneg, sq_diff_nonneg).
  assert (Z : forall c, length (target c) = length y -> Rmean (sq_diff out (target c)) = 0 -> out = target c).
  { intros c Hc H. apply Rmean_zero_iff in H; [|apply sq_diff_nil; [intros ->; cbn in Ho; lia|congruence]|apply sq_diff_nonneg]. apply sq_diff_zero in H; [assumption|congruence]. }
  assert (Ha : length (target a) = length y) by (rewrite HE in HT; cbn in HT; now inversion_clear HT).
  assert (Hb : length (target b) = length y) by (rewrite HE in HT; cbn in HT; inversion_clear HT as [|? ? _ HT']; now inversion_clear HT').
  assert (Hl : Forall (fun pa => 0 <= fst pa) l) by (destruct HD as [H0 _]; rewrite HE in H0; inversion_clear H0 as [|? ? _ H0']; now inversion_clear H0').
  unfold risk, E. rewrite HE. cbn [map fst snd Rsum].
  assert (Nl : 0 <= Rsum (map (fun pa => fst pa * (step_density (m (snd pa)) v y * Rmean (sq_diff out (target (snd pa))))) l)).
  { apply Rsum_nonneg, Forall_forall. intros x Hx. apply in_map_iff in Hx as (r & <- & Hr). rewrite Forall_forall in Hl. apply Rmult_le_pos; [now apply Hl|]. apply Rmult_le_pos; [left; apply step_density_pos|apply Nn]. }
  assert (Pa := step_density_pos (m a) y). assert (Pb := step_density_pos (m b) y).
  destruct (Nn a) as [Na|Na]; destruct (Nn b) as [Nb|Nb].
  - assert (0 < p * (step_density (m a) v y * Rmean (sq_diff out (target a)))) by (apply Rmult_lt_0_compat; [assumption|apply Rmult_lt_0_compat; assumption]). assert (0 < q * (step_density (m b) v y * Rmean (sq_diff out (target b)))) by (apply Rmult_lt_0_compat; [assumption|apply Rmult_lt_0_compat; assumption]). lra.
  - rewrite <- Nb. assert (0 < p * (step_density (m a) v y * Rmean (sq_diff out (target a)))) by (apply Rmult_lt_0_compat; [assumption|apply Rmult_lt_0_compat; assumption]). lra.
  - rewrite <- Na. assert (0 < q * (step_density (m b) v y * Rmean (sq_diff out (target b)))) by (apply Rmult_lt_0_compat; [assumption|apply Rmult_lt_0_compat; assumption]). lra.
  - exfalso. apply Hab. rewrite <- (Z a Ha (eq_sym Na)). apply Z; auto.
Qed.
End law.

(** ** The losses of fbs/sdes/linear.py *)
(** density at [y] of one term of the score loss (linear.py:289-294), the network returning [out] at [y] *)
Definition score_risk (D : dist (list R)) (sde : linear_sde) (t t0 : R) (y out : list R) : R :=
  E D (fun x0 => step_density (vscale (fst (FQ sde t t0)) x0) (snd (FQ sde t t0)) y * (Rmean (sq_diff out (cond_score sde y t x0 t0)) * snd (FQ sde t t0))).
(** of the ipf-score loss (linear.py:312-315), [D] being the law of the previous state *)
Definition ipfscore_risk (D : dist (list R)) (sde : linear_sde) (t s : R) (y out : list R) : R :=
  E D (fun xp => step_density (vscale (fst (FQ sde t s)) xp) (snd (FQ sde t s)) y * Rmean (sq_diff out (cond_score sde y t xp s))).
(** of the ipf loss (linear.py:295-302) *)
Definition ipf_risk (D : dist (list R)) (sde : linear_sde) (t s : R) (y out : list R) : R :=
  E D (fun xp => step_density (vscale (fst (FQ sde t s)) xp) (snd (FQ sde t s)) y * Rmean (sq_diff out (ipf_target (FQ sde) t s y xp))).
(** gradient of the log density of the state at [t], started at [s] from [D] *)
Definition sde_score (D : dist (list R)) (sde : linear_sde) (t s : R) (y : list R) : list R :=
  arrival_score D (fun x => vscale (fst (FQ sde t s)) x) (snd (FQ sde t s)) y.

Lemma nth_vscale c x i : nth i (vscale c x) 0 = c * nth i x 0.
Proof. unfold vscale. rewrite <- (map_nth (fun a => c * a) x 0 i). rewrite Rmult_0_r. reflexivity. Qed.
Lemma nth_vmap2 f x y i : length x = length y -> (i < length x)%nat -> nth i (vmap2 f x y) 0 = f (nth i x 0) (nth i y 0).
Proof.
  revert y i. induction x as [|a x IH]; intros [|b y] i H Hi; cbn in *; try lia. destruct i; [reflexivity|]. apply IH; lia.
Qed.
(** being the only minimiser *)
Definition only_minimiser (risk : list R -> R) (d : nat) (s : list R) : Prop :=
  length s = d /\ forall out, length out = d -> risk s <= risk out /\ (risk out = risk s <-> out = s).
Lemma only_minimiser_best {A} (D : dist A) m v y target s : is_prob D -> 0 < v -> (0 < length y)%nat -> Forall (fun a => length (target a) = length y) (map snd D) ->
  best D m v y target = s -> only_minimiser (risk D m v y target) (length y) s.
Proof. intros HD Hv Hy HT <-. split; [apply length_best|]. intros out Ho. now apply best_minimises. Qed.
Lemma only_minimiser_ext f g d s : (forall o, length o = d -> f o = g o) -> only_minimiser f d s -> only_minimiser g d s.
Proof. intros H [Hs Ho]. split; [assumption|]. intros out Hl. rewrite <- !H by assumption. now apply Ho. Qed.
Lemma only_minimiser_scale f c d s : 0 < c -> only_minimiser f d s -> only_minimiser (fun o => c * f o) d s.
Proof.
  intros Hc [Hs Ho]. split; [assumption|]. intros out Hl. destruct (Ho out Hl) as [H1 H2]. split; [now apply Rmult_le_compat_l; [left|]|]. rewrite <- H2. split; [intros H; apply (Rmult_eq_reg_l c); [assumption|lra]|now intros ->].
Qed.

Section linear.
Variable D : dist (list R).
Variable sde : linear_sde.
Variable t s : R.
Variable y : list R.
Hypothesis HD : is_prob D.
Hypothesis HQ : 0 < snd (FQ sde t s).
Hypothesis Hy : (0 < length y)%nat.
Hypothesis Hdim : Forall (fun x => length x = length y) (map snd D).
Notation F := (fst (FQ sde t s)).
Notation Q := (snd (FQ sde t s)).
Let mm (x : list R) := vscale F x.
Let Hin : forall a, In a (map snd D) -> length a = length y := proj1 (Forall_forall _ _) Hdim.

Lemma cond_score_len x : length x = length y -> length (cond_score sde y t x s) = length y.
Proof. intros H. unfold cond_score, score_of. now rewrite length_vmap2. Qed.
Lemma best_score : best D mm Q y (fun x => cond_score sde y t x s) = sde_score D sde t s y.
Proof.
  apply best_is; [apply length_arrival_score|]. intros i Hi. unfold sde_score. rewrite nth_arrival_score by assumption. apply given_ext. intros a Ha.
  unfold cond_score, score_of. assert (La := Hin a Ha). rewrite nth_vmap2 by lia. now rewrite nth_vscale.
Qed.
Lemma ipfscore_min : only_minimiser (ipfscore_risk D sde t s y) (length y) (sde_score D sde t s y).
Proof. apply (only_minimiser_best D mm Q y (fun x => cond_score sde y t x s)); auto; [|apply best_score]. apply Forall_forall. intros a Ha. apply cond_score_len. auto. Qed.
Lemma score_min : only_minimiser (score_risk D sde t s y) (length y) (sde_score D sde t s y).
Proof.
  apply (only_minimiser_ext (fun o => Q * ipfscore_risk D sde t s y o)); [|apply only_minimiser_scale; [assumption|apply ipfscore_min]].
  intros o _. unfold score_risk, ipfscore_risk. rewrite <- E_mult_l. apply E_ext'. intros a. ring.
Qed.
Lemma ipf_target_len x : length x = length y -> length (ipf_target (FQ sde) t s y x) = length y.
Proof. intros H. unfold ipf_target, vadd. rewrite length_vmap2; rewrite length_vmap2; rewrite ?length_vscale; auto. Qed.
Lemma nth_ipf_target x i : length x = length y -> (i < length y)%nat -> nth i (ipf_target (FQ sde) t s y x) 0 = (nth i y 0 - F * nth i y 0) + 1 * nth i (mm x) 0.
Proof.
  intros H Hi. unfold ipf_target, vadd, mm. rewrite nth_vmap2; [|rewrite length_vmap2; rewrite ?length_vscale; auto|rewrite length_vmap2; rewrite ?length_vscale; auto].
  rewrite nth_vmap2 by (rewrite ?length_vscale; auto). rewrite !nth_vscale. ring.
Qed.
Definition ipf_best : list R := vadd (vscale (2 - F) y) (vscale Q (sde_score D sde t s y)).
Lemma ipf_min : only_minimiser (ipf_risk D sde t s y) (length y) ipf_best.
Proof.
  apply (only_minimiser_best D mm Q y (fun x => ipf_target (FQ sde) t s y x)); auto.
  - apply Forall_forall. intros a Ha. apply ipf_target_len. auto.
  - assert (L : length (sde_score D sde t s y) = length y) by apply length_arrival_score.
    apply best_is; [unfold ipf_best, vadd; rewrite length_vmap2; rewrite !length_vscale; auto|]. intros i Hi.
    rewrite (given_ext D mm Q y _ (fun a => (nth i y 0 - F * nth i y 0) + 1 * nth i (mm a) 0)) by (intros a Ha; apply nth_ipf_target; auto).
    rewrite given_affine by assumption. rewrite tweedie by assumption. unfold ipf_best, vadd. rewrite nth_vmap2 by (rewrite !length_vscale; auto). rewrite !nth_vscale. unfold sde_score. fold mm. ring.
Qed.
(** the mean of the previous state given the present one *)
Definition prev_mean (i : nat) : R := given D mm Q y (fun x => nth i x 0).
Lemma ipf_moves i : (i < length y)%nat -> nth i ipf_best 0 - nth i y 0 = F * (prev_mean i - nth i y 0).
Proof.
  intros Hi. assert (L : length (sde_score D sde t s y) = length y) by apply length_arrival_score.
  assert (T := tweedie D mm Q HD HQ y i Hi). rewrite (given_ext D mm Q y _ (fun a => 0 + F * nth i a 0)) in T by (intros a _; unfold mm; rewrite nth_vscale; ring).
  rewrite given_affine in T by assumption. fold (prev_mean i) in T.
  unfold ipf_best, vadd. rewrite nth_vmap2 by (rewrite !length_vscale; auto). rewrite !nth_vscale. unfold sde_score. fold mm. lra.
Qed.
End linear.

(** a network that treats the samples one by one: the loss is a mean of such terms *)
Lemma score_terms_rows sde g ts paths k : score_terms (FQ sde) (cond_score sde) (fun xs t => map (g t) xs) ts paths k =
  map (fun p => let t := nth k ts 0 in let t0 := nth 0 ts 0 in Rmean (sq_diff (g t (nth k p [])) (cond_score sde (nth k p []) t (nth 0 p []) t0)) * snd (FQ sde t t0)) paths.
Proof. unfold score_terms, column. induction paths as [|p paths IH]; [reflexivity|]. cbn [map combine]. f_equal. exact IH. Qed.

(** ** The losses of fbs/dsb/base.py, for one sample *)
Section dsb.
Variable D : dist (list R).
Variable par sim : list R -> R -> list R.
Variable disp : R -> R.
Variable d : nat.
Hypothesis HD : is_prob D.
Hypothesis Hd : (0 < d)%nat.
Hypothesis Hdim : Forall (fun x => length x = d) (map snd D).
Hypothesis Hsim : forall x t, length x = d -> length (sim x t) = d.
Let Hin : forall a, In a (map snd D) -> length a = d := proj1 (Forall_forall _ _) Hdim.

(** base.py:99-103: the step goes to N(x + dt f(x, t), dt g(t)^2), the network returning [out] *)
Definition cont_risk (t t_next : R) (y out : list R) : R :=
  let dt := Rabs (t_next - t) in
  E D (fun x => step_density (ipf_fn sim x t dt) (dt * (disp t * disp t)) y * Rmean (sq (ipf_err (fun _ _ => out) sim x y t t_next))).
(** the drift of the time reversal *)
Definition reverse_drift (t t_next : R) (y : list R) : list R :=
  let dt := Rabs (t_next - t) in
  vmap2 Rminus (vscale (disp t * disp t) (arrival_score D (fun x => ipf_fn sim x t dt) (dt * (disp t * disp t)) y)) (sim y t).
(** base.py:23-27: the step goes to N(sim(x, k), gamma) *)
Definition disc_risk (k k_next gamma : R) (y out : list R) : R :=
  E D (fun x => step_density (sim x k) gamma y * Rmean (sq (disc_err (fun _ _ => out) sim x y k k_next))).
Definition reverse_mean (k gamma : R) (y : list R) : list R :=
  vadd (vmap2 Rminus (vscale 2 y) (sim y k)) (vscale gamma (arrival_score D (fun x => sim x k) gamma y)).

Lemma sq_vmap2_minus x z : sq (vmap2 Rminus x z) = sq_diff x z.
Proof. unfold sq, sq_diff, vmap2. rewrite map_map. reflexivity. Qed.
Lemma cont_min t t_next y : t <> t_next -> disp t <> 0 -> length y = d -> only_minimiser (cont_risk t t_next y) d (reverse_drift t t_next y).
Proof.
  intros Ht Hg Hy. set (dt := Rabs (t_next - t)). assert (Hdt : 0 < dt) by (apply Rabs_pos_lt; lra). assert (Hgg : 0 < disp t * disp t) by (apply Rsqr_pos_lt; assumption).
  assert (Hv : 0 < dt * (disp t * disp t)) by now apply Rmult_lt_0_compat.
  set (mm := fun x => ipf_fn sim x t dt). set (v := dt * (disp t * disp t)) in *. set (S := arrival_score D mm v y).
  assert (LS : length S = d) by (unfold S; now rewrite length_arrival_score).
  assert (Lf : forall x, length x = d -> length (mm x) = d) by (intros x Hx; unfold mm, ipf_fn, vadd; rewrite length_vmap2; rewrite ?length_vscale, ?Hsim; congruence).
  set (target := fun x => vmap2 Rminus (mm x) (mm y)).
  assert (LT : Forall (fun a => length (target a) = length y) (map snd D)) by (apply Forall_forall; intros a Ha; unfold target; rewrite length_vmap2; rewrite !Lf; auto).
  assert (B : only_minimiser (risk D mm v y target) (length y) (vscale dt (reverse_drift t t_next y))).
  { apply only_minimiser_best; auto; [lia|]. apply best_is.
    - rewrite length_vscale. unfold reverse_drift. fold dt mm v S. rewrite length_vmap2; rewrite length_vscale; rewrite ?Hsim; congruence.
    - intros i Hi. rewrite (given_ext D mm v y _ (fun a => - nth i (mm y) 0 + 1 * nth i (mm a) 0)).
      2:{ intros a Ha. unfold target. rewrite nth_vmap2 by (rewrite !Lf; auto; lia). lra. }
      rewrite given_affine by assumption. rewrite tweedie by assumption. fold S. rewrite nth_vscale. unfold reverse_drift. fold dt mm v S.
      rewrite nth_vmap2 by (rewrite length_vscale, ?Hsim; auto; lia). rewrite nth_vscale. unfold mm, ipf_fn, vadd. rewrite nth_vmap2 by (rewrite ?length_vscale, ?Hsim; auto; lia).
      rewrite nth_vscale. unfold v. ring. }
  rewrite Hy in B. destruct B as [B0 B]. rewrite length_vscale in B0. split; [assumption|].
  assert (R : forall out, length out = d -> cont_risk t t_next y out = risk D mm v y target (vscale dt out)).
  { intros out _. unfold cont_risk, risk. fold dt. apply E_ext'. intros x. unfold ipf_err. fold dt. rewrite sq_vmap2_minus. reflexivity. }
  intros out Ho. rewrite !R by assumption. destruct (B (vscale dt out)) as [B1 B2]; [now rewrite length_vscale|]. split; [assumption|]. rewrite B2. split; [|now intros ->].
  intros HE. apply (nth_ext _ _ 0 0); [congruence|]. intros i _. apply (f_equal (fun l => nth i l 0)) in HE. rewrite !nth_vscale in HE. apply (Rmult_eq_reg_l dt); [assumption|lra].
Qed.
Lemma disc_min k k_next gamma y : 0 < gamma -> length y = d -> only_minimiser (disc_risk k k_next gamma y) d (reverse_mean k gamma y).
Proof.
  intros Hv Hy. set (mm := fun x => sim x k). set (S := arrival_score D mm gamma y).
  assert (LS : length S = d) by (unfold S; now rewrite length_arrival_score).
  assert (Lf : forall x, length x = d -> length (mm x) = d) by (intros x Hx; unfold mm; auto).
  set (target := fun x => vmap2 Rminus (vadd y (mm x)) (mm y)).
  assert (LT : Forall (fun a => length (target a) = length y) (map snd D)).
  { apply Forall_forall. intros a Ha. unfold target, vadd. rewrite length_vmap2; rewrite length_vmap2; rewrite ?Lf; auto; rewrite Hin; auto. }
  assert (B : only_minimiser (risk D mm gamma y target) (length y) (reverse_mean k gamma y)).
  { apply only_minimiser_best; auto; [lia|]. apply best_is.
    - unfold reverse_mean, vadd. fold mm S. rewrite length_vmap2; rewrite length_vmap2; rewrite ?length_vscale, ?Hsim; congruence.
    - intros i Hi. rewrite (given_ext D mm gamma y _ (fun a => (nth i y 0 - nth i (mm y) 0) + 1 * nth i (mm a) 0)).
      2:{ intros a Ha. unfold target, vadd. assert (La : length (mm a) = d) by (apply Lf; auto). rewrite nth_vmap2; [|rewrite length_vmap2; rewrite ?La, ?Lf; congruence|rewrite length_vmap2; congruence].
          rewrite nth_vmap2 by congruence. lra. }
      rewrite given_affine by assumption. rewrite tweedie by assumption. unfold reverse_mean, vadd. fold mm S.
      rewrite nth_vmap2; [|rewrite length_vmap2; rewrite ?length_vscale, ?Hsim; congruence|rewrite length_vmap2; rewrite ?length_vscale, ?Hsim; congruence].
      rewrite nth_vmap2 by (rewrite ?length_vscale, ?Hsim; congruence). rewrite !nth_vscale. unfold mm. ring. }
  rewrite Hy in B. apply (only_minimiser_ext (risk D mm gamma y target)); [|exact B]. intros o _. unfold risk, disc_risk. apply E_ext'. intros x. unfold disc_err. rewrite sq_vmap2_minus. reflexivity.
Qed.
End dsb.

(** ** The losses do not vanish *)
Lemma F_pos sde t s : 0 < snd (FQ sde t s) -> 0 < fst (FQ sde t s).
Proof. destruct sde; cbn; try (intros _; apply exp_pos). lra. Qed.
Lemma score_risk_pos sde t t0 p x0 q x1 l y out : is_prob ((p, x0) :: (q, x1) :: l) -> 0 < p -> 0 < q -> 0 < snd (FQ sde t t0) -> (0 < length y)%nat ->
  Forall (fun x => length x = length y) (map snd ((p, x0) :: (q, x1) :: l)) -> x0 <> x1 -> length out = length y ->
  0 < score_risk ((p, x0) :: (q, x1) :: l) sde t t0 y out.
Proof.
  intros HD Hp Hq HQ Hy HT Hx Ho. assert (HF := F_pos _ _ _ HQ). set (D := (p, x0) :: (q, x1) :: l) in *. set (F := fst (FQ sde t t0)) in *. set (Q := snd (FQ sde t t0)) in *.
  assert (R : score_risk D sde t t0 y out = Q * risk D (fun x => vscale F x) Q y (fun x => cond_score sde y t x t0) out).
  { unfold score_risk, risk. fold F Q. rewrite <- E_mult_l. apply E_ext'. intros a. ring. }
  rewrite R. apply Rmult_lt_0_compat; [assumption|].
  assert (L0 : length x0 = length y) by (cbn in HT; now inversion_clear HT). assert (L1 : length x1 = length y) by (cbn in HT; inversion_clear HT as [|? ? _ HT']; now inversion_clear HT').
  apply (risk_pos D (fun x => vscale F x) Q HD y (fun x => cond_score sde y t x t0) p x0 q x1 l eq_refl Hp Hq Hy); [|intros HE; apply Hx|assumption].
  - eapply Forall_impl; [|exact HT]. intros a Ha. cbn in Ha. unfold cond_score, score_of. now rewrite length_vmap2.
  - apply (nth_ext _ _ 0 0); [congruence|]. intros i Hi. apply (f_equal (fun z => nth i z 0)) in HE. unfold cond_score, score_of in HE. rewrite !nth_vmap2 in HE by lia. fold F Q in HE.
    apply (f_equal (Rmult Q)) in HE. replace (Q * (- (nth i y 0 - F * nth i x0 0) / Q)) with (F * nth i x0 0 - nth i y 0) in HE by (field; lra).
    replace (Q * (- (nth i y 0 - F * nth i x1 0) / Q)) with (F * nth i x1 0 - nth i y 0) in HE by (field; lra). apply (Rmult_eq_reg_l F); lra.
Qed.

(** one datum: the score is the conditional score *)
Lemma sde_score_dret sde t s y x : length x = length y -> 0 < snd (FQ sde t s) -> sde_score (dret x) sde t s y = cond_score sde y t x s.
Proof.
  intros Hx HQ. apply (nth_ext _ _ 0 0); [unfold sde_score, cond_score, score_of; now rewrite length_arrival_score, length_vmap2|].
  unfold sde_score. rewrite length_arrival_score. intros i Hi. rewrite nth_arrival_score; [|apply is_prob_dret|assumption|assumption].
  unfold cond_score, score_of. rewrite nth_vmap2 by lia. unfold given, arrival, dret, E. cbn [map fst snd Rsum]. rewrite nth_vscale.
  assert (P := step_density_pos (snd (FQ sde t s)) (vscale (fst (FQ sde t s)) x) y). field. split; lra.
Qed.
