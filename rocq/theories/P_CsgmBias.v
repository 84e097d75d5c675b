(** The limit of the score-based conditional sampler of the image experiments (experiments/imgs/inpainting_csgm.py). *)
From Coquelicot Require Import Coquelicot.
From Coq Require Import Reals List Lia Lra.
From Verif Require Demo ReverseStep.
From Verif Require Import Base Dist Prog Sde SdeProofs SdePaths Images ImagesProofs Restore Csgm CsgmBias.
Import ListNotations.
Open Scope R_scope.

(** ** C143 *)
(** Two grey pixels with mean zero, unit variances and correlation r; given the observed one the other has mean r y and
    variance 1 - r^2. *)
Theorem C143_conditional_law : forall r x y, r ^ 2 < 1 -> pair_logpdf 1 r x y = gauss_logpdf 0 1 y + gauss_logpdf (r * y) (1 - r ^ 2) x.
Proof. exact pair_conditional. Qed.
Print Assumptions C143_conditional_law.

(** With the exact score of the noised pair, for every stationary SDE and horizon, from some number of steps on the
    sampler's variance exceeds 1 - r^2 by a fixed amount and its mean is off r y by a fixed fraction. *)
Theorem C143_refuted : forall sde T r, (exists p, discretise sde T 0 = Some p) -> 0 < T -> (forall t, 0 <= t <= T -> nonneg_noise sde t) -> 0 < r ^ 2 < 1 ->
  fst (FQ sde T 0) < 1 -> fst (FQ sde T 0) ^ 2 + snd (FQ sde T 0) = 1 ->
  exists del N0, 0 < del /\ forall n y score rx ry normal_x normal_y normal_xs k, (N0 <= n)%nat ->
    (forall t x v, 0 < t <= T -> exists s1 s2, score [[[x]; [v]]] t = [[[s1]; [s2]]] /\
       is_derive (fun a => pair_logpdf (fst (FQ sde t 0) ^ 2 + snd (FQ sde t 0)) (fst (FQ sde t 0) ^ 2 * r) a v) x s1) ->
    white 1 rx -> white 1 ry -> (forall k, denotes (normal_x k) (dseq (repeat rx 1))) -> (forall k, denotes (normal_y k) (dseq (repeat ry 1))) ->
    (forall k n, denotes (normal_xs k n) (dseq (repeat (dseq (repeat rx 1)) n))) ->
    let L := law (csgm_sampler 1 2 sde T (T / INR n) score normal_x normal_y normal_xs k [[y]] (mk_mask 1 1 [0%nat] [1%nat]) (linspace 0 T (S n))) in
    1 - r ^ 2 + del <= L (fun u => (pix u - L pix) ^ 2) /\ del * Rabs (r * y) <= Rabs (r * y - L pix).
Proof. intros sde T r H. apply discretise_defined in H. exact (csgm_biased sde T r H). Qed.
Print Assumptions C143_refuted.

(** The excess: in the limit the variance is at least (1 - r^2) / (1 - r^2 F^4) and the mean at most (1 + r^2) / 2 of r y. *)
Theorem C143_limit : forall sde T r, (exists p, discretise sde T 0 = Some p) -> 0 < T -> (forall t, 0 <= t <= T -> nonneg_noise sde t) -> 0 < r ^ 2 < 1 ->
  fst (FQ sde T 0) < 1 -> fst (FQ sde T 0) ^ 2 + snd (FQ sde T 0) = 1 ->
  exists K N0, 0 <= K /\ forall n y score rx ry normal_x normal_y normal_xs k, (1 <= n)%nat -> (N0 <= n)%nat ->
    (forall t x v, 0 < t <= T -> exists s1 s2, score [[[x]; [v]]] t = [[[s1]; [s2]]] /\
       is_derive (fun a => pair_logpdf (fst (FQ sde t 0) ^ 2 + snd (FQ sde t 0)) (fst (FQ sde t 0) ^ 2 * r) a v) x s1) ->
    white 1 rx -> white 1 ry -> (forall k, denotes (normal_x k) (dseq (repeat rx 1))) -> (forall k, denotes (normal_y k) (dseq (repeat ry 1))) ->
    (forall k n, denotes (normal_xs k n) (dseq (repeat (dseq (repeat rx 1)) n))) ->
    let L := law (csgm_sampler 1 2 sde T (T / INR n) score normal_x normal_y normal_xs k [[y]] (mk_mask 1 1 [0%nat] [1%nat]) (linspace 0 T (S n))) in
    (1 - r ^ 2) / (1 - r ^ 2 * fst (FQ sde T 0) ^ 4) - K / INR n <= L (fun u => (pix u - L pix) ^ 2) /\
    exists c, L pix = r * y * c /\ c <= (1 + r ^ 2) / 2 + K / INR n.
Proof. intros sde T r H. apply discretise_defined in H. exact (csgm_limit sde T r H). Qed.
Print Assumptions C143_limit.

(** the constant SDE of the script, correlation 1/2, noise of plus or minus one *)
Example C143_example : let sde := ConstSDE (Ropp (1/2)) 1 in let r := / 2 in
  (exists p, discretise sde 1 0 = Some p) /\ 0 < r ^ 2 < 1 /\ fst (FQ sde 1 0) < 1 /\ fst (FQ sde 1 0) ^ 2 + snd (FQ sde 1 0) = 1 /\
  white 1 ReverseStep.pm1 /\ (forall k, denotes (Demo.fin_draws [] k 0 (repeat ReverseStep.pm1 1)) (dseq (repeat ReverseStep.pm1 1))) /\
  (forall k n, denotes (Demo.fin_draws [] k 0 (repeat (dseq (repeat ReverseStep.pm1 1)) n)) (dseq (repeat (dseq (repeat ReverseStep.pm1 1)) n))) /\
  exists score : list (list pixel) -> R -> list (list pixel), forall t x v, 0 < t <= 1 -> exists s1 s2, score [[[x]; [v]]] t = [[[s1]; [s2]]] /\
    is_derive (fun a => pair_logpdf (fst (FQ sde t 0) ^ 2 + snd (FQ sde t 0)) (fst (FQ sde t 0) ^ 2 * r) a v) x s1.
Proof.
  intros sde r.
  assert (HE : forall t, fst (FQ sde t 0) ^ 2 + snd (FQ sde t 0) = 1).
  { intros t. cbn [FQ sde fst snd]. replace (2 * Ropp (1/2) * (t - 0)) with (Ropp (1/2) * (t - 0) + Ropp (1/2) * (t - 0)) by ring. rewrite exp_plus. field. }
  assert (HF : forall t, 0 < t -> 0 < fst (FQ sde t 0) < 1).
  { intros t Ht. split; [cbn; apply exp_pos|]. apply Rlt_le_trans with (exp 0); [cbn; apply exp_increasing; lra|rewrite exp_0; lra]. }
  split; [apply discretise_defined; cbn; lra|]. split; [unfold r; lra|]. split; [apply HF; lra|]. split; [apply HE|]. split; [|split; [|split]].
  - destruct ReverseStep.pm1_moments as (H1 & H2 & _). split; [exact H1|exact H2| |]; [intros [|i] Hi|intros [|i] [|j] Hi Hj]; try lia; unfold E, ReverseStep.pm1; cbn; lra.
  - intros k. apply Demo.fin_draws_denotes.
  - intros k n. apply Demo.fin_draws_denotes.
  - exists (fun img t => let a := nth 0 (nth 0 (nth 0 img []) []) 0 in let b := nth 0 (nth 1 (nth 0 img []) []) 0 in
      let s x z := - (x - fst (FQ sde t 0) ^ 2 * r * z) / (1 - (fst (FQ sde t 0) ^ 2 * r) ^ 2) in [[[s a b]; [s b a]]]).
    intros t x v Ht. eexists. eexists. split; [reflexivity|]. cbv zeta. cbn [nth]. rewrite HE. specialize (HF t ltac:(lra)). set (q := fst (FQ sde t 0)) in *. clearbody q.
    assert (Hq : 1 ^ 2 - (q ^ 2 * r) ^ 2 <> 0).
    { assert (0 < q ^ 2 < 1). { replace (q ^ 2) with (q * q) by ring. split; [apply Rmult_lt_0_compat; lra|]. assert (q * q < 1 * q) by (apply Rmult_lt_compat_r; lra). lra. }
      assert (0 < q ^ 2 * r < 1) by (unfold r; lra). set (w := q ^ 2 * r) in *. replace (w ^ 2) with (w * w) by ring. assert (w * w < 1 * w) by (apply Rmult_lt_compat_r; lra). lra. }
    pose proof (pair_score 1 (q ^ 2 * r) x v Hq) as H. rewrite Rmult_1_l, pow1 in H. exact H.
Qed.
