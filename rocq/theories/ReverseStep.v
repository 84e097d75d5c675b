(** One Euler step of simulators.py:8-50 [reverse_simulator] with the exact score of Gaussian data
    is never the time reversal of the forward transition of the constant SDE. *)
From Coquelicot Require Import Coquelicot.
From Coq Require Import Reals List Lia Lra Morphisms Setoid FunctionalExtensionality.
From Verif Require Sde SdeProofs SdeMore Sim SimMore.
From Verif Require Import Base Dist Prog Mat MatMore Cholesky GaussDiv GaussCond GaussSBMore Toy ToyCond EmMoments EmConverge.
Import ListNotations.
Open Scope R_scope.

Lemma mvt_pos (f f1 : R -> R) h : 0 < h -> f 0 = 0 -> (forall t, is_derive f t (f1 t)) -> (forall t, 0 < t -> 0 < f1 t) -> 0 < f h.
Proof.
  intros Hh H0 Hd Hp. destruct (MVT_cor2 f f1 0 h Hh) as (c & Ec & Hc); [intros c _; apply is_derive_Reals, Hd|].
  rewrite H0 in Ec. assert (0 < f1 c * (h - 0)) by (apply Rmult_lt_0_compat; [apply Hp|]; lra). lra.
Qed.
Lemma sinh_gt h : 0 < h -> 2 * h < exp h - exp (- h).
Proof.
  intros Hh. assert (0 < exp h - exp (- h) - 2 * h); [|lra].
  apply (mvt_pos (fun t => exp t - exp (- t) - 2 * t) (fun t => exp t + exp (- t) - 2) h Hh); [rewrite Ropp_0, exp_0; ring| |].
  - intros t. auto_derive; [exact I|ring].
  - intros t Ht. assert (Hp : exp t * exp (- t) = 1) by (rewrite <- exp_plus; replace (t + - t) with 0 by ring; apply exp_0).
    assert (1 < exp t) by (rewrite <- exp_0; now apply exp_increasing). pose proof (exp_pos (- t)).
    assert (Hs : 0 < (exp t - 1) * (exp t - 1) * exp (- t)) by (repeat apply Rmult_lt_0_compat; lra).
    replace ((exp t - 1) * (exp t - 1) * exp (- t)) with (exp t * (exp t * exp (- t)) - 2 * (exp t * exp (- t)) + exp (- t)) in Hs by ring. rewrite Hp in Hs. lra.
Qed.
Lemma cosh_gt h : 0 < h -> exp h - exp (- h) < h * (exp h + exp (- h)).
Proof.
  intros Hh. assert (0 < h * (exp h + exp (- h)) - (exp h - exp (- h))); [|lra].
  apply (mvt_pos (fun t => t * (exp t + exp (- t)) - (exp t - exp (- t))) (fun t => t * (exp t - exp (- t))) h Hh); [rewrite Ropp_0, exp_0; ring| |].
  - intros t. auto_derive; [exact I|ring].
  - intros t Ht. apply Rmult_lt_0_compat; [exact Ht|]. pose proof (sinh_gt t Ht). lra.
Qed.

(** the two conditions in units of the stationary variance; [h = - a (t - s)] *)
Lemma not_reversal h w' : 0 < h -> 0 < w' -> let F := exp (- h) in let w := F ^ 2 * w' + (1 - F ^ 2) in
  ~ ((1 + h - 2 * h / w) * w = F * w' /\ (1 + h - 2 * h / w) ^ 2 * w + 2 * h = w').
Proof.
  intros Hh Hw' F w [H1 H2]. assert (HF : 0 < F) by apply exp_pos. assert (HF1 : F < 1) by (unfold F; rewrite <- exp_0; apply exp_increasing; lra).
  assert (HQ : 0 < 1 - F ^ 2) by nra. assert (Hw : 0 < w) by (unfold w; nra).
  set (G := exp h). assert (HFG : F * G = 1) by (unfold F, G; rewrite <- exp_plus; replace (- h + h) with 0 by ring; apply exp_0).
  assert (HG : 0 < G) by apply exp_pos.
  pose proof (sinh_gt h Hh) as S1. pose proof (cosh_gt h Hh) as S2. fold F G in S1, S2.
  assert (Ec : (1 + h - 2 * h / w) * w = (1 + h) * w - 2 * h) by (field; lra). rewrite Ec in H1.
  assert (E2 : w' * (1 - F ^ 2) = 2 * h * w).
  { assert (Hc : (1 + h - 2 * h / w) = F * w' / w) by (field_simplify_eq; [|lra]; rewrite <- H1; field; lra).
    rewrite Hc in H2. assert (H : F ^ 2 * w' ^ 2 + 2 * h * w = w' * w) by (transitivity (((F * w' / w) ^ 2 * w + 2 * h) * w); [field; lra|now rewrite H2]).
    assert (w' * w = F ^ 2 * w' ^ 2 + w' * (1 - F ^ 2)) by (unfold w; ring). lra. }
  (* eliminate w' and w *)
  set (q := 1 - F ^ 2) in *. assert (Hww : w * (q - 2 * h * F ^ 2) = q ^ 2).
  { assert (w * q = F ^ 2 * (w' * q) + q * q) by (unfold w; fold q; ring). rewrite E2 in H. lra. }
  assert (H3 : w * ((1 + h) * q - 2 * h * F) = 2 * h * q).
  { assert (F * (w' * q) = ((1 + h) * w - 2 * h) * q) by (rewrite H1; ring). rewrite E2 in H. lra. }
  assert (H4 : q ^ 2 * ((1 + h) * q - 2 * h * F) = 2 * h * q * (q - 2 * h * F ^ 2)).
  { rewrite <- Hww, <- H3. ring. }
  assert (H5 : q * ((1 + h) * q - 2 * h * F) = 2 * h * (q - 2 * h * F ^ 2)) by (apply Rmult_eq_reg_l with q; [|lra]; lra).
  (* in terms of X = G - F, q = F X *)
  set (X := G - F) in *. assert (Hq : q = F * X) by (unfold q, X; replace (F * (G - F)) with (F * G - F ^ 2) by ring; rewrite HFG; ring).
  rewrite Hq in H5. assert (H6 : X * ((1 + h) * X - 2 * h) = 2 * h * (X * G - 2 * h)).
  { apply Rmult_eq_reg_l with (F ^ 2); [|nra].
    replace (F ^ 2 * (X * ((1 + h) * X - 2 * h))) with (F * X * ((1 + h) * (F * X) - 2 * h * F)) by ring. rewrite H5.
    replace (F ^ 2 * (2 * h * (X * G - 2 * h))) with (2 * h * (F * X * (F * G) - 2 * h * F ^ 2)) by ring. rewrite HFG. ring. }
  assert (HG2 : 2 * G = (G + F) + X) by (unfold X; ring).
  assert (P1 : 0 < h * (X - 2 * h)) by (apply Rmult_lt_0_compat; lra).
  assert (P2 : 0 < X * (h * (G + F) - X)) by (apply Rmult_lt_0_compat; lra).
  assert (E3 : 2 * h * (X * G) = h * X * ((G + F) + X)) by (rewrite <- HG2; ring). lra.
Qed.

Theorem euler_step_not_reversal a b m0 v0 s t T score (D N : dist R) : a < 0 -> b <> 0 -> 0 <= s < t -> 0 < v0 ->
  let sde := Sde.ConstSDE a b in let m u := fst (Sde.FQ sde u 0) * m0 in let v u := fst (Sde.FQ sde u 0) ^ 2 * v0 + snd (Sde.FQ sde u 0) in
  (forall x, score [x] t = [- (x - m t) / v t]) ->
  is_prob D -> E D (fun x => x) = m t -> E D (fun x => (x - m t) ^ 2) = v t ->
  is_prob N -> E N (fun r => r) = 0 -> E N (fun r => r ^ 2) = 1 ->
  let step x r := nth 0 (Sim.em_move (Sim.reverse_drift score (Sde.drift sde) (Sde.dispersion sde) T) (Sim.reverse_dispersion (Sde.dispersion sde) T) (t - s) [x] (T - t) [r]) 0 in
  let L f := E D (fun x => E N (fun r => f x (step x r))) in
  ~ (L (fun x y => (x - m t) * (y - L (fun _ y => y))) = fst (Sde.FQ sde t s) * v s /\ L (fun _ y => (y - L (fun _ y => y)) ^ 2) = v s).
Proof.
  intros Ha Hb Hst Hv0 sde m v Hsc HD Dm Dv HN Nm Nv step L [H1 H2].
  set (de := t - s) in *. assert (Hde : 0 < de) by (unfold de; lra).
  assert (Hdef : SdeProofs.sde_defined sde) by (cbn; lra).
  set (kap := b * b / (-2 * a)). assert (Hkap : 0 < kap) by (apply Rdiv_lt_0_compat; [nra|lra]).
  set (h := - a * de). assert (Hh : 0 < h) by (unfold h; nra).
  assert (HQ : forall u r, r <= u -> 0 <= snd (Sde.FQ sde u r)) by (intros u r Hr; apply SdeProofs.Q_nonneg; [exact Hdef|exact Hr|exact I]).
  assert (HFp : forall u r, 0 < fst (Sde.FQ sde u r)) by (intros; cbn; apply exp_pos).
  assert (Hv : forall u, 0 <= u -> 0 < v u).
  { intros u Hu. unfold v. specialize (HQ u 0 Hu). specialize (HFp u 0). assert (0 < fst (Sde.FQ sde u 0) ^ 2 * v0) by (apply Rmult_lt_0_compat; [now apply pow_lt|lra]). lra. }
  pose proof (Hv t ltac:(lra)) as Hvt. pose proof (Hv s ltac:(lra)) as Hvs.
  set (F := exp (- h)). assert (EF : fst (Sde.FQ sde t s) = F) by (cbn; unfold F, h, de; f_equal; ring).
  assert (EQ : snd (Sde.FQ sde t s) = kap * (1 - F ^ 2)).
  { cbn [Sde.FQ snd sde]. replace (2 * a * (t - s)) with (- h + - h) by (unfold h, de; ring). rewrite exp_plus. fold F. unfold kap. field. lra. }
  assert (Evt : v t = F ^ 2 * v s + kap * (1 - F ^ 2)).
  { unfold v. destruct (SdeProofs.FQ_compose sde 0 s t Hdef) as [C1 C2]. rewrite C1, C2, EF, EQ. ring. }
  set (c := 1 + h - de * (b * b) / v t). set (sg := b * sqrt de).
  assert (Hsg : sg ^ 2 = b * b * de) by (unfold sg; replace ((b * sqrt de) ^ 2) with (b * b * (sqrt de * sqrt de)) by ring; rewrite sqrt_sqrt; lra).
  assert (Est : forall x r, step x r = (1 + h) * m t + (c * (x - m t) + sg * r)).
  { intros x r. unfold step, Sim.em_move, Sim.reverse_drift, Sim.reverse_dispersion. replace (T - (T - t)) with t by ring. rewrite Hsc. cbn [Sde.drift Sde.vscale Sde.vadd Sde.vmap2 map combine fst snd nth Sde.drift_coef Sde.dispersion sde].
    unfold c, h, sg. field. lra. }
  assert (EL1 : L (fun _ y => y) = (1 + h) * m t).
  { unfold L. transitivity (E D (fun x => (1 + h) * m t + c * (x + - m t))).
    - apply E_ext'. intros x. rewrite (E_ext' N _ (fun r => ((1 + h) * m t + c * (x + - m t)) + sg * r)) by (intros r; rewrite Est; ring).
      rewrite E_plus, (E_const _ N HN), E_mult_l, Nm. ring.
    - rewrite E_plus, (E_const _ D HD), E_mult_l, E_plus, (E_const _ D HD), Dm. ring. }
  rewrite EL1 in H1, H2.
  assert (Cov : L (fun x y => (x - m t) * (y - (1 + h) * m t)) = c * v t).
  { unfold L. rewrite <- Dv, <- E_mult_l. apply E_ext'. intros x.
    rewrite (E_ext' N _ (fun r => c * (x - m t) ^ 2 + (x - m t) * sg * r)) by (intros r; rewrite Est; ring).
    rewrite E_plus, (E_const _ N HN), E_mult_l, Nm. ring. }
  assert (Var : L (fun _ y => (y - (1 + h) * m t) ^ 2) = c ^ 2 * v t + sg ^ 2).
  { unfold L. transitivity (E D (fun x => c ^ 2 * (x - m t) ^ 2 + sg ^ 2)).
    - apply E_ext'. intros x. rewrite (E_ext' N _ (fun r => c ^ 2 * (x - m t) ^ 2 + (2 * c * (x - m t) * sg * r + sg ^ 2 * r ^ 2))) by (intros r; rewrite Est; ring).
      rewrite !E_plus, (E_const _ N HN), !E_mult_l, Nm, Nv. ring.
    - rewrite E_plus, (E_const _ D HD), E_mult_l, Dv. reflexivity. }
  rewrite Cov, EF in H1. rewrite Var, Hsg in H2.
  apply (not_reversal h (v s / kap) Hh); [now apply Rdiv_lt_0_compat|]. fold F.
  assert (Ew : F ^ 2 * (v s / kap) + (1 - F ^ 2) = v t / kap) by (rewrite Evt; field; lra). rewrite Ew.
  assert (Hbb : b * b = 2 * (- a) * kap) by (unfold kap; field; lra).
  assert (Ecc : 1 + h - 2 * h / (v t / kap) = c) by (unfold c; rewrite Hbb; unfold h; field; lra). rewrite Ecc. split.
  - replace (c * (v t / kap)) with (c * v t / kap) by (field; lra). rewrite H1. field. lra.
  - rewrite <- H2, Hbb. unfold h. field. lra.
Qed.

(** ** One forward Euler step misses the mean *)
Lemma point_moments x : has_moments 1 (dret [x]) (fun _ => x) (fun _ _ => 0).
Proof.
  split; [apply is_prob_dret|]. split; [intros y [<-|[]]; reflexivity|]. split.
  - intros [|i] Hi; [|lia]. now rewrite E_dret.
  - intros [|i] [|j] Hi Hj; try lia. rewrite E_dret. cbn [nth]. ring.
Qed.

Theorem one_step_mean a b x0 T N normal k : 0 < T -> has_moments 1 N (fun _ => 0) mid -> (forall k, denotes (normal k 1%nat 1%nat) (dseq (repeat N 1))) ->
  law (Sim.euler_maruyama_terminal normal k [x0] [0; T] (Sde.drift (Sde.ConstSDE a b)) (Sde.dispersion (Sde.ConstSDE a b)) 1) (fun x => nth 0 x 0)
    = (1 + a * T) * x0.
Proof.
  intros HT HN Hnorm. set (sde := Sde.ConstSDE a b). set (F := fun x : list R => nth 0 x 0).
  transitivity (E (dret [x0]) (fun x => law (Sim.euler_maruyama_terminal normal k x [0; T] (Sde.drift sde) (Sde.dispersion sde) 1) F)); [now rewrite E_dret|].
  rewrite (program_law normal k 1 1 N (dret [x0]) _ _ [0; T] _ _ F (point_moments x0) Hnorm).
  cbn [chain_law]. unfold Sde.linspace. cbn [sub_law].
  pose proof (step_moments 1 (Sde.drift sde) (vdrift sde) (Sde.dispersion sde) N (Rabs (T - 0) / INR 1) 0 (mscale a mid) (dret [x0]) (fun _ => x0) (fun _ _ => 0)) as H.
  destruct H as (_ & _ & Hm & _).
  - apply Rmult_le_pos; [apply Rabs_pos|]. cbn. lra.
  - apply drift_is_vdrift.
  - intros x x' i Hi. rewrite mvec_scale_l. rewrite (mvec_id 1 (vsub x x') i Hi). unfold vdrift, vsub, vscale. cbn [Sde.drift_coef sde]. ring.
  - exact HN.
  - apply point_moments.
  - refine (eq_trans (Hm 0%nat ltac:(lia)) _). unfold next_mean, vdrift, vscale. cbn [Sde.drift_coef sde INR]. rewrite Rabs_pos_eq by lra. field.
Qed.
Theorem one_step_not_exact a b x0 T N normal k : a <> 0 -> x0 <> 0 -> 0 < T -> has_moments 1 N (fun _ => 0) mid -> (forall k, denotes (normal k 1%nat 1%nat) (dseq (repeat N 1))) ->
  law (Sim.euler_maruyama_terminal normal k [x0] [0; T] (Sde.drift (Sde.ConstSDE a b)) (Sde.dispersion (Sde.ConstSDE a b)) 1) (fun x => nth 0 x 0)
    <> fst (Sde.FQ (Sde.ConstSDE a b) T 0) * x0.
Proof.
  intros Ha Hx HT HN Hnorm. rewrite (one_step_mean a b x0 T N normal k HT HN Hnorm). cbn [Sde.FQ fst]. rewrite Rminus_0_r. intros E0.
  apply Rmult_eq_reg_r in E0; [|exact Hx]. assert (a * T <> 0) by (apply Rmult_integral_contrapositive_currified; lra).
  pose proof (exp_ineq1 (a * T) H). lra.
Qed.

(** ** A concrete noise law *)
Definition pm1 : dist (list R) := [(/ 2, [1]); (/ 2, [-1])].
Lemma pm1_moments : has_moments 1 pm1 (fun _ => 0) mid.
Proof.
  split; [split; [repeat constructor; cbn; lra|unfold E, pm1; cbn; lra]|]. split; [intros x [<-|[<-|[]]]; reflexivity|]. split.
  - intros [|i] Hi; [|lia]. unfold E, pm1. cbn. lra.
  - intros [|i] [|j] Hi Hj; try lia. unfold E, pm1, mid. cbn. lra.
Qed.
