(** Integration of the race between the partial sums and the thresholds (resampling.py:36-40). *)
From Coquelicot Require Import Coquelicot.
From Coq Require Import Sorted.
From Verif Require Export OrderStats.
Open Scope R_scope.

(** ** Functions killed by every exponential *)
Definition small (f : R -> R) : Prop := forall al, 0 < al -> is_lim (fun t => exp (- (al * t)) * f t) p_infty 0.

Lemma small_ext f g : (forall t, f t = g t) -> small f -> small g.
Proof. intros H Hf al Ha. apply (is_lim_ext (fun t => exp (- (al * t)) * f t)); [intros t; now rewrite H|now apply Hf]. Qed.

Lemma lim_exp al : 0 < al -> is_lim (fun t => exp (- (al * t))) p_infty 0.
Proof.
  intros Ha. apply (is_lim_comp exp (fun t => - (al * t)) p_infty 0 m_infty).
  - apply is_lim_exp_m.
  - replace m_infty with (Rbar_opp p_infty) by reflexivity. apply is_lim_opp.
    replace p_infty with (Rbar_mult al p_infty) at 2 by (cbn; destruct Rle_dec as [H|H]; [destruct (Rle_lt_or_eq_dec 0 al H); [reflexivity|lra]|lra]).
    apply is_lim_scal_l. apply is_lim_id.
  - exists 0. intros y _. discriminate.
Qed.

Lemma small_const c : small (fun _ => c).
Proof. intros al Ha. pose proof (is_lim_scal_r (fun t => exp (- (al * t))) c p_infty 0 (lim_exp al Ha)) as H. cbn in H. now rewrite Rmult_0_l in H. Qed.

Lemma small_plus f g : small f -> small g -> small (fun t => f t + g t).
Proof.
  intros Hf Hg al Ha. apply (is_lim_ext (fun t => exp (- (al * t)) * f t + exp (- (al * t)) * g t)); [intros t; ring|].
  replace (Finite 0) with (Finite (0 + 0)) by (f_equal; ring). apply (is_lim_plus' _ _ p_infty 0 0); auto.
Qed.

Lemma small_mult f g : small f -> small g -> small (fun t => f t * g t).
Proof.
  intros Hf Hg al Ha. apply (is_lim_ext (fun t => (exp (- (al / 2 * t)) * f t) * (exp (- (al / 2 * t)) * g t))).
  { intros t. replace (- (al * t)) with (- (al / 2 * t) + - (al / 2 * t)) by field. rewrite exp_plus. ring. }
  replace (Finite 0) with (Finite (0 * 0)) by (f_equal; ring). apply (is_lim_mult _ _ p_infty 0 0); [apply Hf; lra|apply Hg; lra|exact I].
Qed.

Lemma small_id : small (fun t => t).
Proof.
  intros al Ha. pose proof is_lim_mul_exp_m as H.
  assert (H2 : is_lim (fun t => - (al * t)) p_infty m_infty).
  { replace m_infty with (Rbar_opp p_infty) by reflexivity. apply is_lim_opp.
    replace p_infty with (Rbar_mult al p_infty) at 2 by (cbn; destruct Rle_dec as [H1|H1]; [destruct (Rle_lt_or_eq_dec 0 al H1); [reflexivity|lra]|lra]).
    apply is_lim_scal_l. apply is_lim_id. }
  pose proof (is_lim_comp (fun y => y * exp y) (fun t => - (al * t)) p_infty 0 m_infty H H2) as H3.
  specialize (H3 ltac:(exists 0; intros y _; discriminate)).
  apply (is_lim_ext (fun t => (- / al) * (- (al * t) * exp (- (al * t))))); [intros t; field; lra|].
  replace (Finite 0) with (Rbar_mult (- / al) 0) by (cbn; f_equal; ring). now apply is_lim_scal_l.
Qed.

Lemma small_pow f n : small f -> small (fun t => f t ^ n).
Proof. intros H. induction n as [|n IH]; cbn; [apply small_const|]. now apply small_mult. Qed.

Lemma small_pw f l : small f -> small (fun t => pw l (f t)).
Proof. intros H. unfold pw, Rdiv. apply small_mult; [now apply small_pow|apply small_const]. Qed.

Lemma small_ex k : small (ex k).
Proof. induction k as [|k IH]; cbn [ex]; [apply small_const|]. apply (small_plus (ex k) (pw (S k))); [exact IH|]. apply (small_pw (fun t => t)), small_id. Qed.

Lemma small_gsum x : forall d l, small (fun t => gsum (fun k => ex k t) l d (x * t)).
Proof.
  assert (Hx : small (fun t => - (x * t))).
  { apply (small_ext (fun t => (- x) * t)); [intros; ring|]. apply small_mult; [apply small_const|apply small_id]. }
  induction d as [|y d IH]; intros l; cbn [gsum].
  - apply (small_mult (fun _ => 1)); [apply small_const|]. now apply small_pw.
  - apply small_plus; [|apply IH]. apply small_mult; [|now apply small_pw]. apply small_mult; [apply small_const|apply small_ex].
Qed.

Lemma small_Qp x d : small (fun t => Qp d (x * t) t).
Proof. apply small_gsum. Qed.

(** ** Integrals from 0 when the antiderivative is known on the right of 0 only *)
Lemma is_RInt_from0 (f G : R -> R) b : 0 < b ->
  (forall u, 0 < u <= b -> is_derive G u (f u)) -> (forall u, 0 < u <= b -> continuous f u) ->
  filterlim f (at_right 0) (locally 0) -> filterlim G (at_right 0) (locally 0) -> is_RInt f 0 b (G b).
Proof.
  intros Hb HG Hf Hf0 HG0.
  set (fb := fun u => if Rle_dec u 0 then 0 else f (Rmin u b)).
  assert (Hc : forall u, continuous fb u).
  { intros u. destruct (Rtotal_order u 0) as [Hu|[->|Hu]].
    - apply (continuous_ext_loc _ (fun _ => 0)); [|apply continuous_const].
      exists (mkposreal (- u) ltac:(lra)). intros y Hy. unfold ball in Hy. cbn in Hy. unfold AbsRing_ball, abs, minus, plus, opp in Hy. cbn in Hy.
      unfold fb. destruct (Rle_dec y 0) as [|Hn]; [reflexivity|]. exfalso. apply Hn. unfold Rabs in Hy. destruct Rcase_abs in Hy; lra.
    - intros P HP. unfold fb in HP at 1. destruct (Rle_dec 0 0) as [_|]; [|lra].
      assert (H1 := Hf0 P HP). unfold filtermap, at_right, within in H1. destruct H1 as [e1 H1].
      exists (mkposreal (Rmin e1 b) (Rmin_pos _ _ (cond_pos e1) Hb)). intros y Hy. unfold fb. destruct (Rle_dec y 0) as [|Hn].
      + apply (locally_singleton 0 P HP).
      + unfold ball in Hy. cbn in Hy. unfold AbsRing_ball, abs, minus, plus, opp in Hy. cbn in Hy.
        assert (Hy1 : Rabs (y + - 0) < e1) by (pose proof (Rmin_l e1 b); lra).
        assert (Hy2 : Rabs (y + - 0) < b) by (pose proof (Rmin_r e1 b); lra). rewrite Rabs_right in Hy2 by lra.
        rewrite Rmin_left by lra. apply H1; [|lra]. exact Hy1.
    - set (a := Rmin u b). assert (Ha : 0 < a <= b) by (unfold a; split; [apply Rmin_pos; lra|apply Rmin_r]).
      assert (Hloc : locally u (fun y => f (Rmin y b) = fb y)).
      { exists (mkposreal u Hu). intros y Hy. unfold ball in Hy. cbn in Hy. unfold AbsRing_ball, abs, minus, plus, opp in Hy. cbn in Hy.
        unfold fb. destruct (Rle_dec y 0) as [Hn|]; [|reflexivity]. exfalso. unfold Rabs in Hy. destruct Rcase_abs in Hy; lra. }
      apply (continuous_ext_loc _ (fun y => f (Rmin y b))); [exact Hloc|].
      apply (continuous_comp (fun y => Rmin y b) f); [|apply Hf; exact Ha].
      apply (continuous_ext (fun y => (y + b - Rabs (y - b)) / 2)).
      { intros y. unfold Rmin. destruct (Rle_dec y b); [rewrite Rabs_left1 by lra|rewrite Rabs_right by lra]; match goal with |- @eq _ ?p ?q => change (@eq R p q) end; field. }
      apply (continuous_mult (fun y => y + b - Rabs (y - b)) (fun _ => / 2)); [|apply continuous_const].
      apply (continuous_minus (fun y => y + b) (fun y => Rabs (y - b))).
      + apply (continuous_plus (fun y => y) (fun _ => b)); [apply continuous_id|apply continuous_const].
      + apply (continuous_comp (fun y => y - b) Rabs); [|apply continuous_Rabs].
        apply (continuous_minus (fun y => y) (fun _ => b)); [apply continuous_id|apply continuous_const]. }
  assert (Hex : forall a c, ex_RInt fb a c) by (intros a c; apply (ex_RInt_continuous (V := R_CompleteNormedModule)); intros; apply Hc).
  assert (HL : RInt fb 0 b = G b).
  { assert (H1 : filterlim (fun e => RInt fb e b) (at_right 0) (locally (RInt fb 0 b))).
    { assert (Hle : filter_le (at_right 0) (locally 0)) by (intros P [e He]; exists e; intros y Hy _; now apply He).
      apply (filterlim_filter_le_1 (fun e => RInt fb e b) Hle).
      assert (Hd : is_derive (fun e => RInt fb e b) 0 (opp (fb 0))).
      { apply (is_derive_RInt' fb (fun e => RInt fb e b) 0 b); [|apply Hc]. exists posreal_one. intros y _. apply (RInt_correct (V := R_CompleteNormedModule)), Hex. }
      apply (ex_derive_continuous (fun e => RInt fb e b)). eexists. exact Hd. }
    assert (H2 : filterlim (fun e => G b - G e) (at_right 0) (locally (G b))).
    { unfold Rminus. replace (locally (G b)) with (locally (G b + - 0)) by (f_equal; ring).
      eapply (filterlim_comp_2 (F := at_right 0) (G := locally (G b)) (H := locally (- 0)) (I := locally (G b + - 0)) (fun _ => G b) (fun e => - G e) Rplus).
      - apply filterlim_const.
      - apply (filterlim_comp _ _ _ G Ropp (at_right 0) (locally 0)); [exact HG0|]. apply (filterlim_opp (V := R_NormedModule) 0).
      - apply (filterlim_plus (V := R_NormedModule) (G b) (- 0)). }
    assert (H3 : filterlim (fun e => RInt fb e b) (at_right 0) (locally (G b))).
    { apply (filterlim_ext_loc (fun e => G b - G e)); [|exact H2].
      exists (mkposreal b Hb). intros e He He0. unfold ball in He. cbn in He. unfold AbsRing_ball, abs, minus, plus, opp in He. cbn in He. rewrite Rabs_right in He by lra.
      symmetry. apply is_RInt_unique. apply (is_RInt_derive G fb).
      - intros y Hy. rewrite Rmin_left, Rmax_right in Hy by lra. unfold fb. destruct (Rle_dec y 0); [lra|]. rewrite Rmin_left by lra. apply HG. lra.
      - intros y _. apply Hc. }
    exact (filterlim_locally_unique (F := at_right 0) _ _ _ H1 H3). }
  rewrite <- HL. apply (is_RInt_ext fb); [|apply (RInt_correct (V := R_CompleteNormedModule)), Hex].
  intros u Hu. rewrite Rmin_left, Rmax_right in Hu by lra. unfold fb. destruct (Rle_dec u 0); [lra|]. now rewrite Rmin_left by lra.
Qed.

(** ** The race *)
(** [z]: partial sum so far, [tau]: lower bound on the total; 1 when the total reaches [tau] and no later partial sum exceeds its
    threshold times the total *)
Fixpoint race (d : list R) (tau z : R) (us : list R) : R :=
  match d, us with
  | [], u :: _ => if Rle_dec tau (z - ln u) then 1 else 0
  | x :: d', u :: us' => race d' (Rmax tau ((z - ln u) / x)) (z - ln u) us'
  | _, [] => 0
  end.

Lemma cont_Qp_z d t z : continuous (fun z => Qp d z t) z.
Proof.
  destruct d as [|x d].
  - apply (continuous_ext (fun _ => 1)); [intros; now rewrite Qp_nil|apply continuous_const].
  - apply (ex_derive_continuous (fun z => Qp (x :: d) z t)). eexists. apply is_derive_Qp_z.
Qed.

Lemma cont_Qp_line d x t : continuous (fun t => Qp d (x * t) t) t.
Proof.
  destruct d as [|y d].
  - apply (continuous_ext (fun _ => 1)); [intros; now rewrite Qp_nil|apply continuous_const].
  - pose proof (is_derive_gsum ex (fun k t => ex k t - pw k t) (fun t => x * t) x t) as H.
    specialize (H (fun k => is_derive_ex k t) ltac:(auto_derive; [trivial|ring]) (y :: d) 0%nat ltac:(left; discriminate)).
    apply (ex_derive_continuous (fun t => Qp (y :: d) (x * t) t)). eexists. exact H.
Qed.

Lemma ln_neg u : 0 < u < 1 -> ln u < 0.
Proof. intros H. rewrite <- ln_1. apply ln_increasing; lra. Qed.

Lemma time_to_infinity z x : 0 < x -> filterlim (fun u => (z - ln u) / x) (at_right 0) (Rbar_locally p_infty).
Proof.
  intros Hx. intros P [M HM]. unfold filtermap, at_right, within.
  exists (mkposreal (exp (z - x * M)) (exp_pos _)). intros u Hu Hu0. unfold ball in Hu. cbn in Hu. unfold AbsRing_ball, abs, minus, plus, opp in Hu. cbn in Hu.
  rewrite Rabs_right in Hu by lra. apply HM. apply Rmult_lt_reg_l with x; [lra|]. replace (x * ((z - ln u) / x)) with (z - ln u) by (field; lra).
  assert (ln u < ln (exp (z - x * M))) by (apply ln_increasing; lra). rewrite ln_exp in *. lra.
Qed.

Lemma is_derive_time z x u : 0 < x -> 0 < u -> is_derive (fun u => (z - ln u) / x) u (- / (x * u)).
Proof. intros Hx Hu. auto_derive; [exact Hu|]. field. lra. Qed.

Lemma race_first x d z tau : 0 < x < 1 -> is_RInt (fun u => exp ((z - ln u) - (z - ln u) / x) * Qp d (z - ln u) ((z - ln u) / x)) 0 (exp (z - x * tau))
  (exp (z - tau) * Qp (x :: d) (x * tau) tau).
Proof.
  intros Hx. set (tm := fun u => (z - ln u) / x).
  set (G := fun u => exp z * (exp (- tm u) * Qp (x :: d) (x * tm u) (tm u))).
  assert (HGb : G (exp (z - x * tau)) = exp (z - tau) * Qp (x :: d) (x * tau) tau).
  { unfold G, tm. rewrite ln_exp. replace ((z - (z - x * tau)) / x) with tau by (field; lra). rewrite <- Rmult_assoc, <- exp_plus. reflexivity. }
  rewrite <- HGb. set (f := fun u => exp (- ((1 - x) * tm u)) * Qp d (x * tm u) (tm u)).
  assert (Hxt : forall u, x * tm u = z - ln u) by (intros u; unfold tm; field; lra).
  apply (is_RInt_ext f).
  { intros u _. unfold f. rewrite Hxt. replace (- ((1 - x) * tm u)) with (x * tm u - tm u) by ring. rewrite Hxt. reflexivity. }
  apply is_RInt_from0; [apply exp_pos| | | |].
  - intros u Hu. replace (f u) with (exp z * ((- / (x * u)) * (- (x * (exp (- tm u) * Qp d (x * tm u) (tm u)))))).
    + apply (is_derive_scal (fun u => exp (- tm u) * Qp (x :: d) (x * tm u) (tm u))).
      apply (is_derive_comp (fun t => exp (- t) * Qp (x :: d) (x * t) t) tm u); [apply is_derive_Qp_line|apply is_derive_time; lra].
    + unfold f. replace (- ((1 - x) * tm u)) with (x * tm u + - tm u) by ring. rewrite exp_plus, Hxt.
      replace (exp (z - ln u)) with (exp z * / u) by (unfold Rminus; rewrite exp_plus, exp_Ropp, exp_ln by lra; reflexivity). field. lra.
  - intros u Hu. unfold f.
    apply (continuous_comp tm (fun t => exp (- ((1 - x) * t)) * Qp d (x * t) t)).
    + apply (ex_derive_continuous tm). eexists. apply is_derive_time; lra.
    + apply (continuous_mult (fun t => exp (- ((1 - x) * t))) (fun t => Qp d (x * t) t)); [|apply cont_Qp_line].
      apply (ex_derive_continuous (fun t => exp (- ((1 - x) * t)))). auto_derive. trivial.
  - unfold f. apply (filterlim_comp _ _ _ tm (fun t => exp (- ((1 - x) * t)) * Qp d (x * t) t) (at_right 0) (Rbar_locally p_infty)).
    + apply time_to_infinity. lra.
    + apply (small_Qp x d (1 - x)). lra.
  - unfold G. replace (locally 0) with (locally (exp z * 0)) by (f_equal; ring).
    apply (filterlim_comp _ _ _ (fun u => exp (- tm u) * Qp (x :: d) (x * tm u) (tm u)) (fun y => exp z * y) (at_right 0) (locally 0)).
    + apply (filterlim_comp _ _ _ tm (fun t => exp (- t) * Qp (x :: d) (x * t) t) (at_right 0) (Rbar_locally p_infty)); [apply time_to_infinity; lra|].
      pose proof (small_Qp x (x :: d) 1 ltac:(lra)) as H.
      apply (is_lim_ext _ (fun t => exp (- t) * Qp (x :: d) (x * t) t)) in H; [exact H|]. intros t. now rewrite Rmult_1_l.
    + apply (filterlim_scal_r (K := R_AbsRing) (V := R_NormedModule) (exp z) 0).
Qed.

Lemma race_second x d z tau : 0 < x -> z <= x * tau ->
  is_RInt (fun u => exp ((z - ln u) - tau) * Qp d (z - ln u) tau) (exp (z - x * tau)) 1 (exp (z - tau) * Qp (x :: d) z tau - exp (z - tau) * Qp (x :: d) (x * tau) tau).
Proof.
  intros Hx Hz. set (u0 := exp (z - x * tau)). assert (Hu0 : 0 < u0 <= 1).
  { split; [apply exp_pos|]. rewrite <- exp_0. unfold u0. destruct (Req_dec (z - x * tau) 0) as [->|]; [lra|]. left. apply exp_increasing. lra. }
  set (G := fun u => exp (z - tau) * Qp (x :: d) (z - ln u) tau).
  replace (exp (z - tau) * Qp (x :: d) z tau - exp (z - tau) * Qp (x :: d) (x * tau) tau) with (minus (G 1) (G u0)).
  2:{ unfold G, u0. rewrite ln_1, ln_exp. replace (z - 0) with z by ring. replace (z - (z - x * tau)) with (x * tau) by ring. reflexivity. }
  apply (is_RInt_ext (fun u => exp (z - tau) * ((- / u) * - Qp d (z - ln u) tau))).
  { intros u Hu. rewrite Rmin_left in Hu by lra. replace (z - ln u - tau) with ((z - tau) + - ln u) by ring. rewrite exp_plus, exp_Ropp, exp_ln by lra. rring. }
  apply (is_RInt_derive G).
  - intros u Hu. rewrite Rmin_left in Hu by lra. unfold G. apply (is_derive_scal (fun u => Qp (x :: d) (z - ln u) tau)).
    apply (is_derive_comp (fun z => Qp (x :: d) z tau) (fun u => z - ln u) u); [apply is_derive_Qp_z|]. auto_derive; [lra|]. ring.
  - intros u Hu. rewrite Rmin_left in Hu by lra. apply (continuous_mult (fun _ => exp (z - tau)) (fun u => - / u * - Qp d (z - ln u) tau)); [apply continuous_const|].
    apply (continuous_mult (fun u => - / u) (fun u => - Qp d (z - ln u) tau)).
    + apply (ex_derive_continuous (fun u => - / u)). auto_derive. lra.
    + apply (continuous_opp (fun u => Qp d (z - ln u) tau)). apply (continuous_comp (fun u => z - ln u) (fun z => Qp d z tau)); [|apply cont_Qp_z].
      apply (ex_derive_continuous (fun u => z - ln u)). auto_derive. lra.
Qed.

Lemma ones_of d : Forall (fun x => 0 < x <= 1) d -> Forall (Rle 1) d -> d = repeat 1 (length d).
Proof.
  induction d as [|x d IH]; intros H1 H2; [reflexivity|]. inversion_clear H1. inversion_clear H2. cbn [length repeat]. f_equal; [lra|now apply IH].
Qed.

Theorem race_integral : forall d tau z, Forall (fun x => 0 < x <= 1) d -> StronglySorted Rle d -> 0 <= z -> z <= hd 1 d * tau ->
  is_uint (S (length d)) (race d tau z) (exp (z - tau) * Qp d z tau).
Proof.
  induction d as [|x d IH]; intros tau z Hd Hs Hz Hzt.
  - cbn [length hd] in *. rewrite Qp_nil, Rmult_1_r. exists (fun u => if Rle_dec tau (z - ln u) then 1 else 0). split; [intros u _; reflexivity|].
    set (u0 := exp (z - tau)). assert (Hu0 : 0 < u0 <= 1).
    { split; [apply exp_pos|]. rewrite <- exp_0. unfold u0. destruct (Req_dec (z - tau) 0) as [->|]; [lra|]. left. apply exp_increasing. lra. }
    replace u0 with ((u0 - 0) * 1 + (1 - u0) * 0) by ring. apply (is_RInt_Chasles_R _ 0 u0 1).
    + apply (is_RInt_ext (fun _ => 1)); [|apply is_RInt_const_R]. intros u Hu. rewrite Rmin_left, Rmax_right in Hu by lra.
      destruct Rle_dec as [|Hn]; [reflexivity|]. exfalso. apply Hn.
      assert (ln u < ln u0) by (apply ln_increasing; lra). unfold u0 in *. rewrite ln_exp in *. lra.
    + apply (is_RInt_ext (fun _ => 0)); [|apply is_RInt_const_R]. intros u Hu. rewrite Rmin_left, Rmax_right in Hu by lra.
      destruct Rle_dec as [Hn|]; [|reflexivity]. exfalso.
      assert (ln u0 < ln u) by (apply ln_increasing; lra). unfold u0 in *. rewrite ln_exp in *. lra.
  - assert (Hx := Forall_inv Hd). assert (Hd' := Forall_inv_tail Hd). inversion Hs as [|? ? Hs' Hle]; subst. cbn [hd] in Hzt. cbv beta in Hx.
    change (is_uint (S (S (length d))) (race (x :: d) tau z) (exp (z - tau) * Qp (x :: d) z tau)).
    exists (fun u => exp ((z - ln u) - Rmax tau ((z - ln u) / x)) * Qp d (z - ln u) (Rmax tau ((z - ln u) / x))). split.
    + intros u Hu. pose proof (ln_neg u Hu) as Hln. apply (IH (Rmax tau ((z - ln u) / x)) (z - ln u)); [assumption|assumption|lra|].
      assert (Hm := Rmax_r tau ((z - ln u) / x)). set (M := Rmax _ _) in *.
      assert (H1 : z - ln u <= x * M).
      { apply Rmult_le_compat_l with (r := x) in Hm; [|lra]. replace (x * ((z - ln u) / x)) with (z - ln u) in Hm by (field; lra). exact Hm. }
      assert (H2 : x <= hd 1 d) by (destruct d; [cbn; lra|now inversion Hle]).
      assert (0 <= M). { apply Rmult_le_reg_l with x; [lra|]. lra. }
      apply Rle_trans with (x * M); [exact H1|]. now apply Rmult_le_compat_r.
    + set (u0 := exp (z - x * tau)). assert (Hu0 : 0 < u0 <= 1).
      { split; [apply exp_pos|]. rewrite <- exp_0. unfold u0. destruct (Req_dec (z - x * tau) 0) as [->|]; [lra|]. left. apply exp_increasing. lra. }
      replace (exp (z - tau) * Qp (x :: d) z tau) with
        (exp (z - tau) * Qp (x :: d) (x * tau) tau + (exp (z - tau) * Qp (x :: d) z tau - exp (z - tau) * Qp (x :: d) (x * tau) tau)) by ring.
      apply (is_RInt_Chasles_R _ 0 u0 1).
      * assert (Hmax : forall u, 0 < u < u0 -> Rmax tau ((z - ln u) / x) = (z - ln u) / x).
        { intros u Hu. apply Rmax_right. apply Rmult_le_reg_l with x; [lra|]. replace (x * ((z - ln u) / x)) with (z - ln u) by (field; lra).
          assert (ln u < ln u0) by (apply ln_increasing; lra). unfold u0 in *. rewrite ln_exp in *. lra. }
        destruct (Req_dec x 1) as [->|Hx1].
        -- assert (He : d = repeat 1 (length d)) by (now apply ones_of). rewrite Rmult_1_l in *.
           assert (Hq : Qp (1 :: d) tau tau = 1) by (rewrite He; change (1 :: repeat 1 (length d)) with (repeat 1 (S (length d))); apply Qp_ones).
           rewrite Hq. apply (is_RInt_ext (fun _ => 1)).
           ++ intros u Hu. rewrite Rmin_left, Rmax_right in Hu by lra. rewrite Hmax by lra. unfold Rdiv. rewrite Rinv_1, Rmult_1_r, He, Qp_ones.
              replace (z - ln u - (z - ln u)) with 0 by ring. rewrite exp_0. rring.
           ++ unfold u0. rewrite Rmult_1_l. replace (exp (z - tau) * 1) with ((exp (z - tau) - 0) * 1) by ring. apply is_RInt_const_R.
        -- apply (is_RInt_ext (fun u => exp ((z - ln u) - (z - ln u) / x) * Qp d (z - ln u) ((z - ln u) / x))).
           ++ intros u Hu. rewrite Rmin_left, Rmax_right in Hu by lra. rewrite Hmax by lra. reflexivity.
           ++ apply race_first. lra.
      * apply (is_RInt_ext (fun u => exp ((z - ln u) - tau) * Qp d (z - ln u) tau)); [|now apply race_second].
        intros u Hu. rewrite Rmin_left, Rmax_right in Hu by lra. rewrite Rmax_left; [reflexivity|].
        apply Rmult_le_reg_l with x; [lra|]. replace (x * ((z - ln u) / x)) with (z - ln u) by (field; lra).
        assert (ln u0 < ln u) by (apply ln_increasing; lra). unfold u0 in *. rewrite ln_exp in *. lra.
Qed.
