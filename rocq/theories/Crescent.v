(** Model of the crescent example, fbs/data/bayesian.py, and its properties. *)
From Verif Require Import Base Prog.
Open Scope R_scope.

(** ** Model *)

(** [jax.scipy.stats.norm.logpdf(x, loc, scale)] *)
Definition norm_logpdf (x loc scale : R) : R := - ((x - loc) / scale) ^ 2 / 2 - ln scale - ln (2 * PI) / 2.

(** bayesian.py:34-35 *)
Definition emission (phi : R * R) (psi : R) : R := snd phi / psi + 0.5 * (fst phi ^ 2 + psi ^ 2).

(** bayesian.py:15-22: mean zero, [cov = diag(2, 1)]; 37-39 with [cov_is_diag = True]: the
    diagonal of the covariance is passed as the scale *)
Definition cov00 : R := 2.
Definition cov11 : R := 1.
Definition log_prior_pdf (phi : R * R) : R := norm_logpdf (fst phi) 0 cov00 + norm_logpdf (snd phi) 0 cov11.

(** bayesian.py:48-49 *)
Definition log_cond_pdf (psi xi y : R) (phi : R * R) : R := norm_logpdf y (emission phi psi) (sqrt xi).

(** bayesian.py:24-31: [normal @ cholesky(cov)]; the factor of a diagonal matrix is diagonal.
    [z] and [e] are the standard normal draws of one batch element. *)
Definition draw_phi (z : R * R) : R * R := (fst z * sqrt cov00, snd z * sqrt cov11).
Definition draw_y (psi xi : R) (phi : R * R) (e : R) : R := emission phi psi + sqrt xi * e.
Definition crescent_sampler (normal : key -> nat -> nat -> prog (list (list R))) (psi xi : R) (batch : nat) (k : key) :
  prog (list (R * R) * list R) :=
  zs <- normal (split_key k 1) batch 2%nat ;;
  let xs := map (fun z => draw_phi (nth 0 z 0, nth 1 z 0)) zs in
  es <- normal (split_key (split_key k 0) 1) batch 1%nat ;;
  Ret (xs, map (fun p => draw_y psi xi (fst p) (nth 0 (snd p) 0)) (combine xs es)).

(** [jax.scipy.integrate.trapezoid] of [n] values [y] at the points [x] *)
Definition trapezoid (n : nat) (x y : nat -> R) : R :=
  Rsum (map (fun k => (x (S k) - x k) * (y (S k) + y k) / 2) (seq 0 (n - 1))).

(** bayesian.py:51-57 on a square mesh (other shapes do not broadcast): the first axis is
    integrated against [phi_mesh[0, :, 0]], the second against [phi_mesh[:, 0, 1]] *)
Definition energy (psi xi y : R) (phi : R * R) : R := exp (log_prior_pdf phi + log_cond_pdf psi xi y phi).
Definition posterior_z (psi xi y : R) (n : nat) (mesh : nat -> nat -> R * R) : R :=
  trapezoid n (fun k => snd (mesh k 0%nat))
    (fun b => trapezoid n (fun k => fst (mesh 0%nat k)) (fun a => energy psi xi y (mesh a b))).
Definition posterior (psi xi y : R) (n : nat) (mesh : nat -> nat -> R * R) (a b : nat) : R :=
  energy psi xi y (mesh a b) / posterior_z psi xi y n mesh.

(** ** Specification *)

(** Log density of [loc + scale * Z], [Z] standard normal with log density [g]: change of variables. *)
Definition std_logpdf (z : R) : R := - z ^ 2 / 2 - ln (2 * PI) / 2.
Definition scaled_logpdf (loc scale x : R) : R := std_logpdf ((x - loc) / scale) - ln scale.

(** A mesh made by [meshgrid(x, y)]: rows share the second coordinate. *)
Definition xy_mesh (x y : nat -> R) : nat -> nat -> R * R := fun a b => (x b, y a).
(** Its mass: integrate along each row against [x], then over the rows against [y]. *)
Definition mass (n : nat) (x y : nat -> R) (f : nat -> nat -> R) : R :=
  trapezoid n y (fun a => trapezoid n x (fun b => f a b)).

(** ** Prior and likelihood *)

Lemma likelihood_matches psi xi y phi : 0 < xi ->
  log_cond_pdf psi xi y phi = scaled_logpdf (emission phi psi) (sqrt xi) y.
Proof. intros H. unfold log_cond_pdf, norm_logpdf, scaled_logpdf, std_logpdf. ring. Qed.

(** Log density of the prior draws. *)
Definition drawn_logpdf (phi : R * R) : R :=
  scaled_logpdf 0 (sqrt cov00) (fst phi) + scaled_logpdf 0 (sqrt cov11) (snd phi).

Lemma drawn_is_log_density z : drawn_logpdf (draw_phi z) =
  std_logpdf (fst z) + std_logpdf (snd z) - ln (sqrt cov00) - ln (sqrt cov11).
Proof.
  unfold drawn_logpdf, draw_phi, scaled_logpdf. cbn [fst snd].
  assert (H0 : sqrt cov00 <> 0) by (apply Rgt_not_eq, sqrt_lt_R0; unfold cov00; lra).
  assert (H1 : sqrt cov11 <> 0) by (apply Rgt_not_eq, sqrt_lt_R0; unfold cov11; lra).
  replace ((fst z * sqrt cov00 - 0) / sqrt cov00) with (fst z) by (field; exact H0).
  replace ((snd z * sqrt cov11 - 0) / sqrt cov11) with (snd z) by (field; exact H1). ring.
Qed.

(** What the code computes instead: the first coordinate gets variance 4. *)
Lemma log_prior_is phi : log_prior_pdf phi = scaled_logpdf 0 2 (fst phi) + scaled_logpdf 0 1 (snd phi).
Proof. unfold log_prior_pdf, norm_logpdf, scaled_logpdf, std_logpdf, cov00, cov11. ring. Qed.

Lemma prior_gap phi : log_prior_pdf phi - drawn_logpdf phi = (fst phi) ^ 2 / 8 - ln (sqrt 2).
Proof.
  rewrite log_prior_is. unfold drawn_logpdf, scaled_logpdf, std_logpdf, cov00, cov11. rewrite sqrt_1, ln_1.
  assert (H : sqrt 2 * sqrt 2 = 2) by (apply sqrt_sqrt; lra).
  assert (H0 : sqrt 2 <> 0) by (apply Rgt_not_eq, sqrt_lt_R0; lra).
  assert (L : ln 2 = ln (sqrt 2) + ln (sqrt 2)).
  { rewrite <- ln_mult by (apply sqrt_lt_R0; lra). now rewrite H. }
  rewrite L.
  replace (((fst phi - 0) / sqrt 2) ^ 2) with ((fst phi) ^ 2 / 2).
  - field.
  - replace (((fst phi - 0) / sqrt 2) ^ 2) with ((fst phi) ^ 2 / (sqrt 2 * sqrt 2)) by (field; exact H0). rewrite H. reflexivity.
Qed.

(** The density of the draws by change of variables, and the gap to the code's prior. *)
Lemma prior_gap_draws z j0 j1 : derivable_pt_lim (fun a => fst (draw_phi (a, snd z))) (fst z) j0 -> derivable_pt_lim (fun b => snd (draw_phi (fst z, b))) (snd z) j1 ->
  log_prior_pdf (draw_phi z) - (std_logpdf (fst z) + std_logpdf (snd z) - ln (Rabs (j0 * j1))) = fst z ^ 2 / 4 - ln (sqrt 2).
Proof.
  intros H0 H1. unfold draw_phi in H0, H1. cbn [fst snd] in H0, H1.
  assert (D : forall c x, derivable_pt_lim (fun a => a * c) x c).
  { intros c x. pose proof (derivable_pt_lim_scal id c x 1 (derivable_pt_lim_id x)) as D. unfold mult_real_fct, id in D. rewrite Rmult_1_r in D.
    intros e He. destruct (D e He) as [dl Hd]. exists dl. intros h Hh Hl. replace ((x + h) * c - x * c) with (c * (x + h) - c * x) by ring. exact (Hd h Hh Hl). }
  rewrite (uniqueness_limite _ _ _ _ H0 (D (sqrt cov00) (fst z))), (uniqueness_limite _ _ _ _ H1 (D (sqrt cov11) (snd z))).
  assert (P0 : 0 < sqrt cov00) by (apply sqrt_lt_R0; unfold cov00; lra). assert (P1 : 0 < sqrt cov11) by (apply sqrt_lt_R0; unfold cov11; lra).
  rewrite Rabs_pos_eq by (left; now apply Rmult_lt_0_compat). rewrite ln_mult by assumption.
  pose proof (prior_gap (draw_phi z)) as G. rewrite drawn_is_log_density in G.
  replace (fst z ^ 2 / 4) with (fst (draw_phi z) ^ 2 / 8); [lra|]. unfold draw_phi. cbn [fst].
  replace ((fst z * sqrt cov00) ^ 2) with (fst z ^ 2 * (sqrt cov00 * sqrt cov00)) by ring. rewrite sqrt_sqrt by (unfold cov00; lra). unfold cov00. field.
Qed.

(** ** Posterior *)

Lemma energy_pos psi xi y phi : 0 < energy psi xi y phi.
Proof. apply exp_pos. Qed.

Lemma trapezoid_pos n x y : (2 <= n)%nat -> (forall k, (S k < n)%nat -> x k < x (S k)) -> (forall k, 0 < y k) -> 0 < trapezoid n x y.
Proof.
  intros Hn Hx Hy. unfold trapezoid. apply Rsum_pos.
  - destruct n as [|[|n]]; try lia. discriminate.
  - apply Forall_forall. intros v Hv. apply in_map_iff in Hv. destruct Hv as (k & <- & Hk). apply in_seq in Hk.
    assert (0 < x (S k) - x k) by (assert (x k < x (S k)) by (apply Hx; lia); lra).
    assert (0 < y (S k) + y k) by (pose proof (Hy k); pose proof (Hy (S k)); lra).
    unfold Rdiv. apply Rmult_lt_0_compat; [now apply Rmult_lt_0_compat|lra].
Qed.

Lemma posterior_z_pos psi xi y n X Y : (2 <= n)%nat -> (forall k, (S k < n)%nat -> X k < X (S k)) ->
  (forall k, (S k < n)%nat -> Y k < Y (S k)) -> 0 < posterior_z psi xi y n (xy_mesh X Y).
Proof.
  intros Hn HX HY. unfold posterior_z, xy_mesh. cbn [fst snd]. apply trapezoid_pos; [exact Hn|exact HY|].
  intros b. apply trapezoid_pos; [exact Hn|exact HX|]. intros a. apply energy_pos.
Qed.

Lemma posterior_pos psi xi y n X Y a b : (2 <= n)%nat -> (forall k, (S k < n)%nat -> X k < X (S k)) ->
  (forall k, (S k < n)%nat -> Y k < Y (S k)) -> 0 < posterior psi xi y n (xy_mesh X Y) a b.
Proof.
  intros Hn HX HY. unfold posterior. apply Rmult_lt_0_compat; [apply energy_pos|].
  apply Rinv_0_lt_compat. now apply posterior_z_pos.
Qed.

Lemma trapezoid_uniform n x0 dx y : trapezoid n (fun k => x0 + INR k * dx) y
  = dx * Rsum (map (fun k => (y (S k) + y k) / 2) (seq 0 (n - 1))).
Proof.
  unfold trapezoid. rewrite <- Rsum_map_mult_l. apply Rsum_map_ext. intros k _. rewrite S_INR. field.
Qed.

Lemma Rsum_double (f : nat -> nat -> R) la lb :
  Rsum (map (fun a => Rsum (map (fun b => f a b) lb)) la) = Rsum (map (fun b => Rsum (map (fun a => f a b) la)) lb).
Proof. apply Rsum_exchange. Qed.

Lemma trapezoid_div n x f c : trapezoid n x (fun b => f b / c) = trapezoid n x f / c.
Proof.
  unfold trapezoid. unfold Rdiv. rewrite <- Rsum_map_mult_r. apply Rsum_map_ext. intros k _. ring.
Qed.
Lemma trapezoid_ext n x f g : (forall k, f k = g k) -> trapezoid n x f = trapezoid n x g.
Proof. intros H. unfold trapezoid. apply Rsum_map_ext. intros k _. now rewrite !H. Qed.

Lemma mass_posterior psi xi y n X Y : mass n X Y (posterior psi xi y n (xy_mesh X Y))
  = mass n X Y (fun a b => energy psi xi y (X b, Y a)) / posterior_z psi xi y n (xy_mesh X Y).
Proof.
  unfold mass, posterior, xy_mesh at 1.
  rewrite <- trapezoid_div. apply trapezoid_ext. intros a. apply trapezoid_div.
Qed.

Lemma trapezoid_swap n x0 dx y0 dy (f : nat -> nat -> R) :
  trapezoid n (fun k => y0 + INR k * dy) (fun a => trapezoid n (fun k => x0 + INR k * dx) (fun b => f a b))
  = trapezoid n (fun k => y0 + INR k * dy) (fun b => trapezoid n (fun k => x0 + INR k * dx) (fun a => f a b)).
Proof.
  assert (F : forall g : nat -> nat -> R,
    trapezoid n (fun k => y0 + INR k * dy) (fun a => trapezoid n (fun k => x0 + INR k * dx) (fun b => g a b))
    = dy * dx * Rsum (map (fun a => Rsum (map (fun b => (g (S a) (S b) + g (S a) b + g a (S b) + g a b) / 4) (seq 0 (n - 1)))) (seq 0 (n - 1)))).
  { intros g. rewrite trapezoid_uniform, Rmult_assoc. f_equal. rewrite <- Rsum_map_mult_l. apply Rsum_map_ext. intros a _.
    rewrite !trapezoid_uniform. rewrite <- !Rsum_map_mult_l, <- Rsum_map_plus. unfold Rdiv at 1. rewrite <- Rsum_map_mult_r.
    apply Rsum_map_ext. intros b _. field. }
  rewrite (F f), (F (fun b a => f a b)). f_equal. rewrite Rsum_double. apply Rsum_map_ext. intros b _.
  apply Rsum_map_ext. intros a _. field.
Qed.

Lemma posterior_mass_uniform psi xi y n x0 dx y0 dy : (2 <= n)%nat -> 0 < dx -> 0 < dy ->
  let X := fun k => x0 + INR k * dx in let Y := fun k => y0 + INR k * dy in
  mass n X Y (posterior psi xi y n (xy_mesh X Y)) = 1.
Proof.
  intros Hn Hdx Hdy X Y.
  assert (HX : forall k, (S k < n)%nat -> X k < X (S k)) by (intros k _; unfold X; rewrite S_INR; nra).
  assert (HY : forall k, (S k < n)%nat -> Y k < Y (S k)) by (intros k _; unfold Y; rewrite S_INR; nra).
  pose proof (posterior_z_pos psi xi y n X Y Hn HX HY) as Hz.
  rewrite mass_posterior.
  assert (E : mass n X Y (fun a b => energy psi xi y (X b, Y a)) = posterior_z psi xi y n (xy_mesh X Y)).
  { unfold mass, posterior_z, xy_mesh. cbn [fst snd]. unfold X at 1, Y at 1. unfold X at 2, Y at 2. apply trapezoid_swap. }
  rewrite E. field. lra.
Qed.

(** A 3 x 3 mesh with unequal spacing: the mass is not one. *)
Definition bad_x (k : nat) : R := match k with O => 0 | 1%nat => 1 / 2 | _ => 3 / 2 end.
Definition bad_y (k : nat) : R := INR k.

Lemma exp_order a b : a < b -> exp a < exp b.
Proof. apply exp_increasing. Qed.

Lemma log_energy_unit y phi : log_prior_pdf phi + log_cond_pdf 1 1 y phi =
  - (fst phi) ^ 2 / 8 - (snd phi) ^ 2 / 2 - (y - (snd phi + 0.5 * (fst phi ^ 2 + 1))) ^ 2 / 2 + (- ln 2 - 3 * (ln (2 * PI) / 2)).
Proof.
  unfold log_prior_pdf, log_cond_pdf, norm_logpdf, emission, cov00, cov11. rewrite sqrt_1, ln_1. field.
Qed.

Lemma posterior_mass_refuted : exists n X Y psi xi y, (2 <= n)%nat /\ 0 < xi /\ psi <> 0 /\
  (forall k, (S k < n)%nat -> X k < X (S k)) /\ (forall k, (S k < n)%nat -> Y k < Y (S k)) /\
  mass n X Y (posterior psi xi y n (xy_mesh X Y)) <> 1.
Proof.
  exists 3%nat, bad_x, bad_y, 1, 1, (1 / 2).
  assert (HX : forall k, (S k < 3)%nat -> bad_x k < bad_x (S k)).
  { intros k Hk. destruct k as [|[|k]]; cbn; try lia; lra. }
  assert (HY : forall k, (S k < 3)%nat -> bad_y k < bad_y (S k)).
  { intros k _. unfold bad_y. rewrite S_INR. lra. }
  split; [lia|]. split; [lra|]. split; [lra|]. split; [exact HX|]. split; [exact HY|].
  pose proof (posterior_z_pos 1 1 (1 / 2) 3 bad_x bad_y ltac:(lia) HX HY) as Hz.
  rewrite mass_posterior. intros H.
  assert (E : mass 3 bad_x bad_y (fun a b => energy 1 1 (1 / 2) (bad_x b, bad_y a)) = posterior_z 1 1 (1 / 2) 3 (xy_mesh bad_x bad_y)).
  { revert H Hz. generalize (mass 3 bad_x bad_y (fun a b => energy 1 1 (1 / 2) (bad_x b, bad_y a))) as M.
    generalize (posterior_z 1 1 (1 / 2) 3 (xy_mesh bad_x bad_y)) as z. intros z M H Hz.
    transitivity (M / z * z); [field; lra|]. rewrite H. ring. }
  clear H Hz. unfold mass, posterior_z, xy_mesh in E. cbn [fst snd] in E.
  set (e := fun a b => energy 1 1 (1 / 2) (bad_x b, bad_y a)) in E.
  assert (G1 : e 1%nat 0%nat < e 0%nat 1%nat).
  { unfold e, energy. apply exp_order. rewrite !log_energy_unit. cbn. lra. }
  assert (G2 : e 2%nat 0%nat < e 0%nat 2%nat).
  { unfold e, energy. apply exp_order. rewrite !log_energy_unit. cbn. lra. }
  assert (G3 : e 2%nat 1%nat < e 1%nat 2%nat).
  { unfold e, energy. apply exp_order. rewrite !log_energy_unit. cbn. lra. }
  change (trapezoid 3 bad_y (fun a => trapezoid 3 bad_x (fun b => e a b)) = trapezoid 3 bad_y (fun b => trapezoid 3 bad_x (fun a => e a b))) in E.
  unfold trapezoid in E. cbn [seq map Rsum Nat.sub] in E. unfold bad_x, bad_y in E. cbn [INR] in E. lra.
Qed.

