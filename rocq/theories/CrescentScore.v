(** The score of the crescent example (fbs/data/bayesian.py:43-46). *)
From Coquelicot Require Import Coquelicot.
From Verif Require Import Base Prog Crescent.
Open Scope R_scope.

(** bayesian.py:43-46 [score]; jax.grad is the partial derivative, [argnums=[1, 0]] puts the phi gradient first *)
Definition score (psi xi : R) (phi : R * R) (y : R) : R * R * R :=
  (Derive (fun a : R => log_prior_pdf (a, snd phi)) (fst phi) + Derive (fun a : R => log_cond_pdf psi xi y (a, snd phi)) (fst phi),
   Derive (fun b : R => log_prior_pdf (fst phi, b)) (snd phi) + Derive (fun b : R => log_cond_pdf psi xi y (fst phi, b)) (snd phi),
   0 + Derive (fun v : R => log_cond_pdf psi xi v phi) y).

Lemma is_derive_prior0 (a b : R) : is_derive (fun a : R => log_prior_pdf (a, b)) a (- a / 4).
Proof. unfold log_prior_pdf, norm_logpdf, cov00, cov11. cbn [fst snd]. auto_derive; [exact I|]. field. Qed.
Lemma is_derive_prior1 (a b : R) : is_derive (fun b : R => log_prior_pdf (a, b)) b (- b).
Proof. unfold log_prior_pdf, norm_logpdf, cov00, cov11. cbn [fst snd]. auto_derive; [exact I|]. field. Qed.

Section likelihood.
Variables psi xi : R.
Hypothesis Hpsi : psi <> 0.
Hypothesis Hxi : 0 < xi.
Lemma sqx : sqrt xi <> 0.
Proof. apply Rgt_not_eq. now apply sqrt_lt_R0. Qed.
Lemma is_derive_cond0 (y : R) (a b : R) : is_derive (fun a : R => log_cond_pdf psi xi y (a, b)) a ((y - emission (a, b) psi) / xi * a).
Proof.
  pose proof sqx. unfold log_cond_pdf, norm_logpdf, emission. cbn [fst snd]. auto_derive; [exact I|].
  pose proof (sqrt_sqrt xi ltac:(lra)) as Hs. set (s := sqrt xi) in *. clearbody s. rewrite <- Hs. replace 0.5 with (/ 2) by lra. field. split; assumption.
Qed.
Lemma is_derive_cond1 (y : R) (a b : R) : is_derive (fun b : R => log_cond_pdf psi xi y (a, b)) b ((y - emission (a, b) psi) / xi / psi).
Proof.
  pose proof sqx. unfold log_cond_pdf, norm_logpdf, emission. cbn [fst snd]. auto_derive; [exact I|].
  pose proof (sqrt_sqrt xi ltac:(lra)) as Hs. set (s := sqrt xi) in *. clearbody s. rewrite <- Hs. replace 0.5 with (/ 2) by lra. field. split; assumption.
Qed.
Lemma is_derive_condy (y : R) phi : is_derive (fun v : R => log_cond_pdf psi xi v phi) y (- (y - emission phi psi) / xi).
Proof.
  pose proof sqx. unfold log_cond_pdf, norm_logpdf. auto_derive; [exact I|].
  pose proof (sqrt_sqrt xi ltac:(lra)) as Hs. set (s := sqrt xi) in *. clearbody s. rewrite <- Hs. field. assumption.
Qed.

Theorem score_value a b y : score psi xi (a, b) y =
  (- a / 4 + (y - emission (a, b) psi) / xi * a, - b + (y - emission (a, b) psi) / xi / psi, - (y - emission (a, b) psi) / xi).
Proof.
  unfold score. cbn [fst snd].
  rewrite (is_derive_unique _ _ _ (is_derive_prior0 a b)), (is_derive_unique _ _ _ (is_derive_prior1 a b)),
    (is_derive_unique _ _ _ (is_derive_cond0 y a b)), (is_derive_unique _ _ _ (is_derive_cond1 y a b)), (is_derive_unique _ _ _ (is_derive_condy y (a, b))).
  f_equal. ring.
Qed.

(** the log density of the draws (x, y) of the sampler *)
Definition drawn_joint (a b y : R) : R := drawn_logpdf (a, b) + scaled_logpdf (emission (a, b) psi) (sqrt xi) y.
Lemma is_derive_drawn0 (a b : R) : is_derive (fun a : R => drawn_logpdf (a, b)) a (- a / 2).
Proof.
  assert (H : sqrt 2 <> 0) by (apply Rgt_not_eq, sqrt_lt_R0; lra).
  unfold drawn_logpdf, scaled_logpdf, std_logpdf, cov00, cov11. cbn [fst snd]. auto_derive; [exact I|].
  pose proof (sqrt_sqrt 2 ltac:(lra)) as Hs. set (s := sqrt 2) in *. clearbody s. replace (- a / 2) with (- a / (s * s)) by (rewrite Hs; reflexivity). field. exact H.
Qed.
Theorem score_gap (a b y : R) g : is_derive (fun a : R => drawn_joint a b y) a g -> fst (fst (score psi xi (a, b) y)) = g + a / 4.
Proof.
  intros H. rewrite score_value. cbn [fst].
  assert (Hd : is_derive (fun a : R => drawn_joint a b y) a (- a / 2 + (y - emission (a, b) psi) / xi * a)).
  { apply (is_derive_ext (fun a : R => drawn_logpdf (a, b) + log_cond_pdf psi xi y (a, b))).
    - intros t. unfold drawn_joint. now rewrite likelihood_matches by assumption.
    - apply (is_derive_plus (V := R_NormedModule) (fun a : R => drawn_logpdf (a, b)) (fun a : R => log_cond_pdf psi xi y (a, b))); [apply is_derive_drawn0|apply is_derive_cond0]. }
  rewrite <- (is_derive_unique _ _ _ H), (is_derive_unique _ _ _ Hd). lra.
Qed.
Lemma drawn_joint_y (a b y : R) g : is_derive (fun v : R => drawn_joint a b v) y g -> snd (score psi xi (a, b) y) = g.
Proof.
  intros H. rewrite score_value. cbn [snd].
  assert (Hd : is_derive (fun v : R => drawn_joint a b v) y (- (y - emission (a, b) psi) / xi)).
  { apply (is_derive_ext (fun v : R => drawn_logpdf (a, b) + log_cond_pdf psi xi v (a, b))).
    - intros t. unfold drawn_joint. now rewrite likelihood_matches by assumption.
    - evar_last; [apply (is_derive_plus (V := R_NormedModule) (fun _ => drawn_logpdf (a, b)) (fun v : R => log_cond_pdf psi xi v (a, b))); [apply is_derive_const|apply is_derive_condy]|].
      apply plus_zero_l. }
  rewrite <- (is_derive_unique _ _ _ H). now rewrite (is_derive_unique _ _ _ Hd).
Qed.
Lemma drawn_joint_b (a b y : R) g : is_derive (fun b : R => drawn_joint a b y) b g -> snd (fst (score psi xi (a, b) y)) = g.
Proof.
  intros H. rewrite score_value. cbn [fst snd].
  assert (Hd1 : is_derive (fun b : R => drawn_logpdf (a, b)) b (- b)).
  { assert (H2 : sqrt 2 <> 0) by (apply Rgt_not_eq, sqrt_lt_R0; lra).
    unfold drawn_logpdf, scaled_logpdf, std_logpdf, cov00, cov11. rewrite sqrt_1. cbn [fst snd]. auto_derive; [exact I|]. field. }
  assert (Hd : is_derive (fun b : R => drawn_joint a b y) b (- b + (y - emission (a, b) psi) / xi / psi)).
  { apply (is_derive_ext (fun b : R => drawn_logpdf (a, b) + log_cond_pdf psi xi y (a, b))).
    - intros t. unfold drawn_joint. now rewrite likelihood_matches by assumption.
    - apply (is_derive_plus (V := R_NormedModule) (fun b : R => drawn_logpdf (a, b)) (fun b : R => log_cond_pdf psi xi y (a, b))); [apply Hd1|apply is_derive_cond1]. }
  rewrite <- (is_derive_unique _ _ _ H). now rewrite (is_derive_unique _ _ _ Hd).
Qed.
End likelihood.

Lemma score_gradient psi xi (a b y : R) : psi <> 0 -> 0 < xi ->
  let '(s0, s1, sy) := score psi xi (a, b) y in
  let joint a b y := log_prior_pdf (a, b) + log_cond_pdf psi xi y (a, b) in
  derivable_pt_lim (fun a => joint a b y) a s0 /\ derivable_pt_lim (fun b => joint a b y) b s1 /\ derivable_pt_lim (fun y => joint a b y) y sy.
Proof.
  intros Hp Hx. rewrite score_value by assumption. cbv zeta. split; [|split]; apply is_derive_Reals.
  - apply (is_derive_plus (V := R_NormedModule) (fun a : R => log_prior_pdf (a, b)) (fun a : R => log_cond_pdf psi xi y (a, b))); [apply is_derive_prior0|now apply is_derive_cond0].
  - apply (is_derive_plus (V := R_NormedModule) (fun b : R => log_prior_pdf (a, b)) (fun b : R => log_cond_pdf psi xi y (a, b))); [apply is_derive_prior1|now apply is_derive_cond1].
  - evar_last; [apply (is_derive_plus (V := R_NormedModule) (fun _ : R => log_prior_pdf (a, b)) (fun v : R => log_cond_pdf psi xi v (a, b))); [apply is_derive_const|now apply is_derive_condy]|].
    apply plus_zero_l.
Qed.
Lemma score_gap_all psi xi (a b y : R) g0 g1 gy : psi <> 0 -> 0 < xi ->
  let joint a b y := drawn_logpdf (a, b) + scaled_logpdf (emission (a, b) psi) (sqrt xi) y in
  derivable_pt_lim (fun a => joint a b y) a g0 -> derivable_pt_lim (fun b => joint a b y) b g1 -> derivable_pt_lim (fun y => joint a b y) y gy ->
  score psi xi (a, b) y = (g0 + a / 4, g1, gy).
Proof.
  intros Hp Hx joint H0 H1 H2. apply is_derive_Reals in H0, H1, H2.
  rewrite <- (score_gap psi xi Hp Hx a b y g0 H0), <- (drawn_joint_b psi xi Hp Hx a b y g1 H1), <- (drawn_joint_y psi xi Hp Hx a b y gy H2).
  now destruct (score psi xi (a, b) y) as [[? ?] ?].
Qed.
Lemma score_example : score 1 1 (2, 0) 0 = (-1/2 + -5, -5/2, 5/2) /\ score 1 1 (2, 0) 0 <> (-1 + -5, -5/2, 5/2).
Proof.
  rewrite score_value by lra. unfold emission. cbn [fst snd]. replace 0.5 with (/ 2) by lra. split.
  - f_equal; [f_equal|]; field.
  - intros H. injection H as H _ _. lra.
Qed.
