(** Proofs about the linear SDEs. *)
From Coquelicot Require Import Coquelicot.
From Verif Require Export Sde.
Open Scope R_scope.

Lemma discretise_Some sde t s p : discretise sde t s = Some p -> p = FQ sde t s /\ forall t' s', discretise sde t' s' = Some (FQ sde t' s').
Proof.
  unfold discretise. destruct sde; try discriminate; repeat (destruct Req_EM_T; try discriminate); intros [= <-]; split; reflexivity.
Qed.

(** the parameters for which every divisor is non-zero *)
Definition sde_defined (sde : linear_sde) : Prop :=
  match sde with
  | ConstSDE a _ => a <> 0
  | LinSDE _ _ t0 T => T <> t0
  | ExpSDE a _ c _ => a <> 0 /\ c <> 0
  | OtherSDE => False
  end.
Lemma discretise_defined sde t s : (exists p, discretise sde t s = Some p) <-> sde_defined sde.
Proof.
  unfold discretise, sde_defined. destruct sde; repeat (destruct Req_EM_T); split; try (intros [? H]; discriminate); try tauto; try congruence; eauto.
Qed.
Lemma discretise_FQ sde t s : sde_defined sde -> discretise sde t s = Some (FQ sde t s).
Proof. intros H. apply (discretise_defined sde t s) in H as [p H]. now destruct (discretise_Some _ _ _ _ H). Qed.

(** ** Composition *)
Lemma FQ_id sde t : sde_defined sde -> FQ sde t t = (1, 0).
Proof.
  destruct sde; cbn [sde_defined FQ]; try tauto; intros H; f_equal.
  - rewrite (Rminus_diag_eq t t), Rmult_0_r by reflexivity. apply exp_0.
  - rewrite (Rminus_diag_eq t t), Rmult_0_r, exp_0 by reflexivity. ring.
  - unfold beta_integral. rewrite (Rminus_diag_eq t t) by reflexivity. rewrite Rmult_0_r, Rmult_0_l, Rmult_0_r. apply exp_0.
  - unfold beta_integral. rewrite (Rminus_diag_eq t t) by reflexivity. rewrite Rmult_0_r, Rmult_0_l, Ropp_0, exp_0. ring.
  - rewrite (Rminus_diag_eq (exp (c * (t - z))) (exp (c * (t - z)))), Rmult_0_r by reflexivity. unfold Rdiv. rewrite Rmult_0_l. apply exp_0.
  - rewrite (Rminus_diag_eq (exp (c * (t - z))) (exp (c * (t - z)))), Rmult_0_r by reflexivity. unfold Rdiv. rewrite Rmult_0_l, Rmult_0_r, exp_0. ring.
Qed.

Lemma beta_integral_add m M t0 T u t s : beta_integral m M t0 T u s = beta_integral m M t0 T u t + beta_integral m M t0 T t s.
Proof. unfold beta_integral, Rdiv. ring. Qed.

Lemma FQ_compose sde s t u : sde_defined sde ->
  fst (FQ sde u s) = fst (FQ sde u t) * fst (FQ sde t s) /\
  snd (FQ sde u s) = fst (FQ sde u t) * fst (FQ sde u t) * snd (FQ sde t s) + snd (FQ sde u t).
Proof.
  destruct sde; cbn [sde_defined FQ fst snd]; try tauto; intros H; split.
  - rewrite <- exp_plus. f_equal. ring.
  - rewrite <- exp_plus. replace (2 * a * (u - s)) with (2 * a * (u - t) + 2 * a * (t - s)) by ring.
    rewrite exp_plus. replace (a * (u - t) + a * (u - t)) with (2 * a * (u - t)) by ring. ring.
  - rewrite <- exp_plus. f_equal. rewrite (beta_integral_add _ _ _ _ u t s). ring.
  - rewrite (beta_integral_add _ _ _ _ u t s). rewrite <- exp_plus, Ropp_plus_distr, exp_plus.
    replace (- (1/2) * beta_integral beta_min beta_max t0 T u t + - (1/2) * beta_integral beta_min beta_max t0 T u t)
      with (- beta_integral beta_min beta_max t0 T u t) by field. ring.
  - rewrite <- exp_plus. f_equal. field. tauto.
  - rewrite <- exp_plus.
    set (r := fun x y => a * (exp (c * (x - z)) - exp (c * (y - z))) / c).
    change (- (b * b) / (2 * a) * (1 - exp (2 * r u s)) = exp (r u t + r u t) * (- (b * b) / (2 * a) * (1 - exp (2 * r t s))) + - (b * b) / (2 * a) * (1 - exp (2 * r u t))).
    replace (2 * r u s) with (2 * r u t + 2 * r t s) by (unfold r; field; tauto).
    rewrite exp_plus. replace (r u t + r u t) with (2 * r u t) by ring. ring.
Qed.

(** ** Moment equations *)
Lemma beta_integral_derive m M t0 T t s : is_derive (fun t => beta_integral m M t0 T t s) t (beta m M t0 T t).
Proof. unfold beta_integral, beta. auto_derive; [exact I|]. unfold Rdiv. generalize (/ (T - t0)). intros r. field. Qed.

Lemma F_derive sde t s : sde_defined sde -> is_derive (fun t => fst (FQ sde t s)) t (drift_coef sde t * fst (FQ sde t s)).
Proof.
  destruct sde; cbn [sde_defined FQ fst snd drift_coef]; intros H; try easy.
  - auto_derive; [exact I|]. unfold Rminus, Rdiv. ring.
  - evar_last.
    + apply (is_derive_comp (fun r => exp (Ropp (1/2) * r)) (fun t => beta_integral beta_min beta_max t0 T t s)); [|apply beta_integral_derive].
      auto_derive; [exact I|]. reflexivity.
    + unfold scal; simpl; unfold mult; simpl. field.
  - auto_derive; [exact I|]. unfold Rminus, Rdiv. field. tauto.
Qed.

Definition nonneg_noise (sde : linear_sde) (t : R) : Prop := match sde with LinSDE m M t0 T => 0 <= beta m M t0 T t | _ => True end.

Lemma dispersion_sq sde t : nonneg_noise sde t -> dispersion sde t * dispersion sde t =
  match sde with
  | ConstSDE _ b => b * b | LinSDE m M t0 T => beta m M t0 T t | ExpSDE _ b c z => b * b * exp (c * (t - z)) | OtherSDE => 0 end.
Proof.
  destruct sde; cbn [nonneg_noise dispersion]; intros H; try ring; [now apply sqrt_sqrt|].
  replace (c * (t - z)) with (c * (t - z) / 2 + c * (t - z) / 2) at 3 by field. rewrite exp_plus. ring.
Qed.

Lemma Q_derive sde t s : sde_defined sde -> nonneg_noise sde t ->
  is_derive (fun t => snd (FQ sde t s)) t (2 * drift_coef sde t * snd (FQ sde t s) + dispersion sde t * dispersion sde t).
Proof.
  intros H Hn. rewrite (dispersion_sq sde t Hn). destruct sde; cbn [sde_defined FQ fst snd drift_coef] in *; try easy.
  - auto_derive; [exact I|]. unfold Rminus, Rdiv. field. assumption.
  - evar_last.
    + apply (is_derive_comp (fun r => 1 - exp (- r)) (fun t => beta_integral beta_min beta_max t0 T t s)); [|apply beta_integral_derive].
      auto_derive; [exact I|]. reflexivity.
    + unfold scal; simpl; unfold mult; simpl. field.
  - auto_derive; [exact I|]. unfold Rminus, Rdiv. field. tauto.
Qed.

Lemma exp_ge1 x : 0 <= x -> 1 <= exp x.
Proof. intros [H| <-]; [left; rewrite <- exp_0; now apply exp_increasing|rewrite exp_0; lra]. Qed.
Lemma exp_le1 x : x <= 0 -> exp x <= 1.
Proof. intros [H| ->]; [left; rewrite <- exp_0; now apply exp_increasing|rewrite exp_0; lra]. Qed.

(** sign of Q: [(exp (2r) - 1) / a] has the sign of [t - s] *)
Lemma exp_ratio a x : a <> 0 -> 0 <= x -> 0 <= (exp (2 * a * x) - 1) / (2 * a).
Proof.
  intros Ha Hx. destruct (Rlt_or_le 0 a) as [H|H].
  - apply Rmult_le_pos; [|left; apply Rinv_0_lt_compat; lra]. assert (1 <= exp (2 * a * x)); [|lra]. apply exp_ge1. nra.
  - replace ((exp (2 * a * x) - 1) / (2 * a)) with ((1 - exp (2 * a * x)) * / (- (2 * a))) by (field; lra).
    apply Rmult_le_pos; [|left; apply Rinv_0_lt_compat; lra]. assert (exp (2 * a * x) <= 1); [|lra]. apply exp_le1. nra.
Qed.

(** the noise schedule is non-negative between [s] and [t] *)
Definition noise_on (sde : linear_sde) (s t : R) : Prop :=
  match sde with LinSDE m M t0 T => 0 <= beta m M t0 T s /\ 0 <= beta m M t0 T t | _ => True end.

Lemma beta_integral_trapezoid m M t0 T t s : beta_integral m M t0 T t s = (t - s) * ((beta m M t0 T t + beta m M t0 T s) / 2).
Proof. unfold beta_integral, beta, Rdiv. generalize (/ (T - t0)). intros r. field. Qed.

Lemma Q_nonneg sde t s : sde_defined sde -> s <= t -> noise_on sde s t -> 0 <= snd (FQ sde t s).
Proof.
  intros H Hst Hn. destruct sde; cbn [sde_defined FQ fst snd noise_on] in *; try easy.
  - replace (b * b / (2 * a) * (exp (2 * a * (t - s)) - 1)) with (b * b * ((exp (2 * a * (t - s)) - 1) / (2 * a))) by (field; assumption).
    apply Rmult_le_pos; [nra|]. apply exp_ratio; [assumption|lra].
  - assert (exp (- beta_integral beta_min beta_max t0 T t s) <= 1); [|lra]. apply exp_le1. rewrite beta_integral_trapezoid.
    assert (0 <= (t - s) * ((beta beta_min beta_max t0 T t + beta beta_min beta_max t0 T s) / 2)); [|lra]. apply Rmult_le_pos; lra.
  - destruct H as [Ha Hc].
    set (y := (exp (c * (t - z)) - exp (c * (s - z))) / c).
    assert (Hy : 0 <= y).
    { unfold y. destruct (Rlt_or_le 0 c) as [Hc0|Hc0].
      - apply Rmult_le_pos; [|left; apply Rinv_0_lt_compat; lra]. assert (exp (c * (s - z)) <= exp (c * (t - z))); [|lra].
        destruct (Req_dec s t) as [ -> |]; [lra|]. left. apply exp_increasing. nra.
      - replace ((exp (c * (t - z)) - exp (c * (s - z))) / c) with ((exp (c * (s - z)) - exp (c * (t - z))) * / (- c)) by (field; lra).
        apply Rmult_le_pos; [|left; apply Rinv_0_lt_compat; lra]. assert (exp (c * (t - z)) <= exp (c * (s - z))); [|lra].
        destruct (Req_dec s t) as [ -> |]; [lra|]. left. apply exp_increasing. nra. }
    replace (a * (exp (c * (t - z)) - exp (c * (s - z))) / c) with (a * y) by (unfold y; field; assumption).
    replace (- (b * b) / (2 * a) * (1 - exp (2 * (a * y)))) with (b * b * ((exp (2 * a * y) - 1) / (2 * a))).
    + apply Rmult_le_pos; [nra|]. now apply exp_ratio.
    + replace (2 * (a * y)) with (2 * a * y) by ring. field. assumption.
Qed.

(** strictly positive under a strictly positive noise *)
Definition noisy_between (sde : linear_sde) (s t : R) : Prop :=
  match sde with
  | ConstSDE _ b | ExpSDE _ b _ _ => b <> 0
  | LinSDE m M t0 T => 0 <= beta m M t0 T s /\ 0 <= beta m M t0 T t /\ 0 < beta m M t0 T s + beta m M t0 T t
  | OtherSDE => False end.

Lemma exp_ratio_pos a x : a <> 0 -> 0 < x -> 0 < (exp (2 * a * x) - 1) / (2 * a).
Proof.
  intros Ha Hx. destruct (Rlt_or_le 0 a) as [H|H].
  - apply Rmult_lt_0_compat; [|apply Rinv_0_lt_compat; lra]. assert (1 < exp (2 * a * x)); [|lra]. rewrite <- exp_0. apply exp_increasing. nra.
  - replace ((exp (2 * a * x) - 1) / (2 * a)) with ((1 - exp (2 * a * x)) * / (- (2 * a))) by (field; lra).
    apply Rmult_lt_0_compat; [|apply Rinv_0_lt_compat; lra]. assert (exp (2 * a * x) < 1); [|lra]. rewrite <- exp_0. apply exp_increasing. nra.
Qed.

Lemma Q_pos sde t s : sde_defined sde -> s < t -> noisy_between sde s t -> 0 < snd (FQ sde t s).
Proof.
  intros H Hst Hn. destruct sde; cbn [sde_defined FQ fst snd noisy_between] in *; try easy.
  - replace (b * b / (2 * a) * (exp (2 * a * (t - s)) - 1)) with (b * b * ((exp (2 * a * (t - s)) - 1) / (2 * a))) by (field; assumption).
    apply Rmult_lt_0_compat; [nra|]. apply exp_ratio_pos; [assumption|lra].
  - assert (exp (- beta_integral beta_min beta_max t0 T t s) < 1); [|lra]. rewrite <- exp_0. apply exp_increasing. rewrite beta_integral_trapezoid.
    assert (0 < (t - s) * ((beta beta_min beta_max t0 T t + beta beta_min beta_max t0 T s) / 2)); [|lra]. apply Rmult_lt_0_compat; lra.
  - destruct H as [Ha Hc].
    set (y := (exp (c * (t - z)) - exp (c * (s - z))) / c).
    assert (Hy : 0 < y).
    { unfold y. destruct (Rlt_or_le 0 c) as [Hc0|Hc0].
      - apply Rmult_lt_0_compat; [|apply Rinv_0_lt_compat; lra]. assert (exp (c * (s - z)) < exp (c * (t - z))); [|lra].
        apply exp_increasing. nra.
      - replace ((exp (c * (t - z)) - exp (c * (s - z))) / c) with ((exp (c * (s - z)) - exp (c * (t - z))) * / (- c)) by (field; lra).
        apply Rmult_lt_0_compat; [|apply Rinv_0_lt_compat; lra]. assert (exp (c * (t - z)) < exp (c * (s - z))); [|lra].
        apply exp_increasing. nra. }
    replace (a * (exp (c * (t - z)) - exp (c * (s - z))) / c) with (a * y) by (unfold y; field; assumption).
    replace (- (b * b) / (2 * a) * (1 - exp (2 * (a * y)))) with (b * b * ((exp (2 * a * y) - 1) / (2 * a))).
    + apply Rmult_lt_0_compat; [nra|]. now apply exp_ratio_pos.
    + replace (2 * (a * y)) with (2 * a * y) by ring. field. assumption.
Qed.

(** ** The noise schedule *)
Lemma beta_t0 m M t0 T : T <> t0 -> beta m M t0 T t0 = m.
Proof. intros. unfold beta. field. lra. Qed.
Lemma beta_T m M t0 T : T <> t0 -> beta m M t0 T T = M.
Proof. intros. unfold beta. field. lra. Qed.
Lemma beta_affine m M t0 T l : T <> t0 -> beta m M t0 T (t0 + l * (T - t0)) = m + l * (M - m).
Proof. intros. unfold beta. field. lra. Qed.
Lemma beta_range m M t0 T t : t0 < T -> t0 <= t <= T -> Rmin m M <= beta m M t0 T t <= Rmax m M.
Proof.
  intros H Ht. set (l := (t - t0) / (T - t0)).
  assert (Hl : 0 <= l <= 1).
  { unfold l. split; [apply Rmult_le_pos; [lra|left; apply Rinv_0_lt_compat; lra]|]. apply Rmult_le_reg_r with (T - t0); [lra|]. unfold Rdiv. rewrite Rmult_assoc, Rinv_l by lra. lra. }
  replace t with (t0 + l * (T - t0)) by (unfold l; field; lra). rewrite beta_affine by lra.
  unfold Rmin, Rmax. destruct Rle_dec; split; nra.
Qed.
Lemma beta_integral_RInt m M t0 T s t : is_RInt (V := R_NormedModule) (beta m M t0 T) s t (beta_integral m M t0 T t s).
Proof.
  replace (beta_integral m M t0 T t s) with (minus (beta_integral m M t0 T t s) (beta_integral m M t0 T s s)).
  - apply (is_RInt_derive (fun t => beta_integral m M t0 T t s)).
    + intros x _. apply beta_integral_derive.
    + intros x _. apply (ex_derive_continuous (V := R_NormedModule)). unfold beta. auto_derive. exact I.
  - unfold beta_integral, minus, plus, opp; simpl. unfold Rminus, Rdiv. ring.
Qed.

(** ** Score *)
(** log-density of N(m, v) at x *)
Definition gauss_logpdf (m v x : R) : R := - (ln (2 * PI * v)) / 2 - (x - m) * (x - m) / (2 * v).
Lemma gauss_logpdf_derive m v x : 0 < v -> is_derive (gauss_logpdf m v) x (- (x - m) / v).
Proof. intros H. unfold gauss_logpdf. auto_derive; [exact I|]. field. lra. Qed.

Lemma nth_vmap2 f x y i : (i < length x)%nat -> length x = length y -> nth i (vmap2 f x y) 0 = f (nth i x 0) (nth i y 0).
Proof.
  intros Hi Hl. unfold vmap2.
  rewrite (nth_indep _ 0 (f (fst (0, 0)) (snd (0, 0)))) by (rewrite map_length, combine_length; lia).
  rewrite (map_nth (fun p => f (fst p) (snd p))). rewrite combine_nth by assumption. reflexivity.
Qed.
Lemma length_vmap2 f x y : length x = length y -> length (vmap2 f x y) = length x.
Proof. intros. unfold vmap2. rewrite map_length, combine_length. lia. Qed.
Lemma nth_vscale c x i : nth i (vscale c x) 0 = c * nth i x 0.
Proof. unfold vscale. rewrite <- (Rmult_0_r c) at 1. apply (map_nth (Rmult c)). Qed.
Lemma length_vscale c x : length (vscale c x) = length x.
Proof. apply map_length. Qed.

Lemma score_derive p x x0 i : 0 < snd p -> (i < length x)%nat -> length x = length x0 ->
  is_derive (gauss_logpdf (fst p * nth i x0 0) (snd p)) (nth i x 0) (nth i (score_of p x x0) 0).
Proof. intros Hq Hi Hl. unfold score_of. rewrite nth_vmap2 by assumption. now apply gauss_logpdf_derive. Qed.

(** ** Bridge drift *)
Lemma nth_set_nth' {A} (d : A) i j a l : (i < length l)%nat -> nth j (set_nth i a l) d = if Nat.eqb j i then a else nth j l d.
Proof. intros Hi. destruct (Nat.eqb_spec j i) as [ -> |Hn]; [now apply nth_set_nth_eq|apply nth_set_nth_neq; congruence]. Qed.

Lemma norm_logpdf_sqrt x m v : 0 < v -> norm_logpdf x m (sqrt v) = gauss_logpdf m v x.
Proof. intros H. unfold norm_logpdf, gauss_logpdf. rewrite !sqrt_sqrt by lra. field. lra. Qed.

Lemma Rsum_map_combine (g : R -> R -> R) x y : length x = length y ->
  Rsum (map (fun p => g (fst p) (snd p)) (combine x y)) = Rsum (map (fun i => g (nth i x 0) (nth i y 0)) (seq 0 (length x))).
Proof.
  revert y; induction x as [|a x IH]; intros [|b y] Hl; try discriminate; [reflexivity|].
  cbn [combine map Rsum length seq fst snd nth]. f_equal. rewrite IH by (now injection Hl).
  rewrite <- seq_shift, map_map. reflexivity.
Qed.

(** derivative of a finite sum of which only term [i] varies *)
Lemma is_derive_Rsum_one (G : nat -> R -> R) i l z d : NoDup l -> In i l -> is_derive (G i) z d ->
  (forall j, j <> i -> forall z', G j z' = G j z) ->
  is_derive (fun z' => Rsum (map (fun j => G j z') l)) z d.
Proof.
  intros Hnd Hin Hd Hc. induction l as [|j l IH]; [destruct Hin|]. cbn [map Rsum]. apply NoDup_cons_iff in Hnd as [Hj Hnd].
  destruct (Nat.eq_dec j i) as [ -> |Hne].
  - apply is_derive_ext with (fun z' => G i z' + Rsum (map (fun j => G j z) l)).
    + intros z'. f_equal. apply Rsum_map_ext. intros j Hin'. symmetry. apply Hc. intros ->. contradiction.
    + evar_last; [apply (is_derive_plus (G i) (fun _ => Rsum (map (fun j => G j z) l))); [exact Hd|apply (is_derive_const (V := R_NormedModule))]|]. apply plus_zero_r.
  - destruct Hin as [ -> |Hin]; [congruence|].
    apply is_derive_ext with (fun z' => G j z + Rsum (map (fun j => G j z') l)).
    + intros z'. f_equal. symmetry. now apply Hc.
    + evar_last; [apply (is_derive_plus (fun _ => G j z) (fun z' => Rsum (map (fun j => G j z') l))); [apply (is_derive_const (V := R_NormedModule))|now apply IH]|]. apply plus_zero_l.
Qed.

Definition bridgeable (sde : linear_sde) : Prop := match sde with ConstSDE _ _ | LinSDE _ _ _ _ => True | _ => False end.

Lemma sde_mean_FQ sde t s m0 : bridgeable sde -> sde_mean sde t s m0 = Some (vscale (fst (FQ sde t s)) m0).
Proof. destruct sde; try easy; intros _; cbn [sde_mean FQ fst]; f_equal; apply map_ext; intros; ring. Qed.
Lemma sde_variance_FQ sde t s : bridgeable sde -> sde_variance sde t s = Some (snd (FQ sde t s)).
Proof. destruct sde; easy. Qed.

Lemma log_h_eq sde t T target b : bridgeable sde -> 0 < snd (FQ sde T t) -> length target = length b ->
  log_h sde t T target b = Rsum (map (fun i => gauss_logpdf (fst (FQ sde T t) * nth i b 0) (snd (FQ sde T t)) (nth i target 0)) (seq 0 (length b))).
Proof.
  intros Hb HQ Hl. unfold log_h. rewrite sde_mean_FQ, sde_variance_FQ by assumption.
  rewrite (Rsum_map_combine (fun x m => norm_logpdf x m (sqrt (snd (FQ sde T t))))) by (rewrite length_vscale; assumption).
  rewrite Hl. apply Rsum_map_ext. intros i _. rewrite nth_vscale. now apply norm_logpdf_sqrt.
Qed.

Lemma gauss_logpdf_derive_mean F v x y : 0 < v -> is_derive (fun b => gauss_logpdf (F * b) v y) x (F * (y - F * x) / v).
Proof. intros H. unfold gauss_logpdf. auto_derive; [exact I|]. field. lra. Qed.

Lemma log_h_partial sde t T target x i : bridgeable sde -> 0 < snd (FQ sde T t) -> length target = length x -> (i < length x)%nat ->
  is_derive (fun z => log_h sde t T target (set_nth i z x)) (nth i x 0)
    (fst (FQ sde T t) * (nth i target 0 - fst (FQ sde T t) * nth i x 0) / snd (FQ sde T t)).
Proof.
  intros Hb HQ Hl Hi.
  apply is_derive_ext with (fun z => Rsum (map (fun j => gauss_logpdf (fst (FQ sde T t) * nth j (set_nth i z x) 0) (snd (FQ sde T t)) (nth j target 0)) (seq 0 (length x)))).
  - intros z. rewrite log_h_eq; rewrite ?length_set_nth; try assumption. reflexivity.
  - apply (is_derive_Rsum_one (fun j z => gauss_logpdf (fst (FQ sde T t) * nth j (set_nth i z x) 0) (snd (FQ sde T t)) (nth j target 0)) i).
    + apply seq_NoDup.
    + apply in_seq. lia.
    + apply is_derive_ext with (fun z => gauss_logpdf (fst (FQ sde T t) * z) (snd (FQ sde T t)) (nth i target 0)).
      * intros z. now rewrite nth_set_nth_eq.
      * now apply gauss_logpdf_derive_mean.
    + intros j Hj z. rewrite !nth_set_nth_neq by congruence. reflexivity.
Qed.

Theorem bridge_drift_closed sde x t target T : bridgeable sde -> 0 < snd (FQ sde T t) -> length target = length x ->
  exists out, bridge_drift sde x t target T = Some out /\ length out = length x /\
  forall i, (i < length x)%nat -> nth i out 0 = drift_coef sde t * nth i x 0 +
     dispersion sde t * dispersion sde t * (fst (FQ sde T t) * (nth i target 0 - fst (FQ sde T t) * nth i x 0) / snd (FQ sde T t)).
Proof.
  intros Hb HQ Hl.
  set (out := vadd (drift sde x t) (vscale (dispersion sde t * dispersion sde t) (grad (fun b => log_h sde t T target b) x))).
  exists out. assert (Hg : length (grad (fun b => log_h sde t T target b) x) = length x) by (unfold grad; now rewrite map_length, seq_length).
  split; [destruct sde; easy|]. split.
  - unfold out, vadd, drift. rewrite length_vmap2; rewrite !length_vscale; [reflexivity|now rewrite Hg].
  - intros i Hi. unfold out, vadd, drift. rewrite nth_vmap2; rewrite ?length_vscale; [|assumption|now rewrite Hg].
    rewrite !nth_vscale. f_equal. f_equal. unfold grad.
    rewrite (nth_indep _ 0 (Derive (fun z => log_h sde t T target (set_nth 0 z x)) (nth 0 x 0))) by (now rewrite map_length, seq_length).
    rewrite (map_nth (fun i => Derive (fun z => log_h sde t T target (set_nth i z x)) (nth i x 0)) (seq 0 (length x)) 0%nat).
    rewrite seq_nth by assumption. apply is_derive_unique. now apply log_h_partial.
Qed.

(** partial derivatives of the log transition density in the starting point *)
