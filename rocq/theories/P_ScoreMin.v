(** C119: what the training losses are minimised by. *)
From Coquelicot Require Import Coquelicot.
From Verif Require Import Base Dist ResVariance Dsb SdeMore ScoreMin.
Open Scope R_scope.

(** the density of the arrival state has a gradient: the conditional mean of the score of the step *)
Theorem C119_score_is_mean : forall A (D : dist A) m v y i, is_prob D -> 0 < v -> (i < length y)%nat ->
  0 < arrival D m v y /\ ex_derive (fun z => ln (arrival D m v (set_nth i z y))) (nth i y 0) /\
  nth i (arrival_score D m v y) 0 = E D (fun a => step_density (m a) v y * (- (nth i y 0 - nth i (m a) 0) / v)) / E D (fun a => step_density (m a) v y).
Proof.
  intros A D m v y i HD Hv Hi. split; [now apply arrival_pos|]. split; [eexists; now apply arrival_score_derive|]. now apply nth_arrival_score.
Qed.
Print Assumptions C119_score_is_mean.

(** the 'score' and the 'ipf-score' loss have one minimiser, the gradient of the log density of the noised data *)
Theorem C119_score_loss : forall D sde t t0 y, is_prob D -> 0 < snd (FQ sde t t0) -> (0 < length y)%nat -> Forall (fun x => length x = length y) (map snd D) ->
  only_minimiser (score_risk D sde t t0 y) (length y) (sde_score D sde t t0 y).
Proof. exact score_min. Qed.
Print Assumptions C119_score_loss.
Theorem C119_ipfscore_loss : forall D sde t s y, is_prob D -> 0 < snd (FQ sde t s) -> (0 < length y)%nat -> Forall (fun x => length x = length y) (map snd D) ->
  only_minimiser (ipfscore_risk D sde t s y) (length y) (sde_score D sde t s y).
Proof. exact ipfscore_min. Qed.
Print Assumptions C119_ipfscore_loss.

(** the 'ipf' loss: (2 - F) y + Q grad log p(y), which moves F times as far as the mean of the previous state *)
Theorem C119_ipf_loss : forall D sde t s y, is_prob D -> 0 < snd (FQ sde t s) -> (0 < length y)%nat -> Forall (fun x => length x = length y) (map snd D) ->
  only_minimiser (ipf_risk D sde t s y) (length y) (vadd (vscale (2 - fst (FQ sde t s)) y) (vscale (snd (FQ sde t s)) (sde_score D sde t s y))) /\
  forall i, (i < length y)%nat -> nth i (vadd (vscale (2 - fst (FQ sde t s)) y) (vscale (snd (FQ sde t s)) (sde_score D sde t s y))) 0 - nth i y 0 = fst (FQ sde t s) * (prev_mean D sde t s y i - nth i y 0).
Proof. intros D sde t s y HD HQ Hy HT. split; [now apply ipf_min|]. intros i Hi. now apply ipf_moves. Qed.
Print Assumptions C119_ipf_loss.
(** so it does not learn the mean of the previous state *)
Theorem C119_ipf_prev_mean_refuted : exists D sde t s y out, is_prob D /\ 0 < snd (FQ sde t s) /\ length y = 1%nat /\
  only_minimiser (ipf_risk D sde t s y) 1 out /\ prev_mean D sde t s y 0 = 1 /\ nth 0 out 0 < 1.
Proof.
  exists (dret [1]), (ConstSDE (-1) 1), 1, 0, [0]. eexists.
  assert (HQ : 0 < snd (FQ (ConstSDE (-1) 1) 1 0)).
  { cbn. replace (1 * 1 / (2 * -1) * (exp (2 * -1 * (1 - 0)) - 1)) with (/2 * (1 - exp (-2))) by (replace (2 * -1 * (1 - 0)) with (-2) by ring; field). assert (H := exp_increasing (-2) 0 ltac:(lra)). rewrite exp_0 in H. lra. }
  assert (HF : Forall (fun x => length x = length [0]) (map snd (dret [1]))) by (apply Forall_forall; intros a [<-|[]]; reflexivity).
  assert (HP : prev_mean (dret [1]) (ConstSDE (-1) 1) 1 0 [0] 0 = 1).
  { unfold prev_mean, given, arrival, dret, E. cbn [map fst snd Rsum nth]. assert (P := step_density_pos (snd (FQ (ConstSDE (-1) 1) 1 0)) (vscale (fst (FQ (ConstSDE (-1) 1) 1 0)) [1]) [0]). field. lra. }
  split; [apply is_prob_dret|]. split; [exact HQ|]. split; [reflexivity|]. split; [apply (ipf_min (dret [1]) _ 1 0 [0]); auto; apply is_prob_dret|]. split; [exact HP|].
  assert (M := ipf_moves (dret [1]) (ConstSDE (-1) 1) 1 0 [0] (is_prob_dret _) HQ 0 ltac:(cbn; lia)). rewrite HP in M. cbn [nth] in M.
  assert (Hf : fst (FQ (ConstSDE (-1) 1) 1 0) < 1).
  { cbn [FQ fst]. assert (H := exp_increasing (-1 * (1 - 0)) 0 ltac:(lra)). rewrite exp_0 in H. exact H. }
  lra.
Qed.
Print Assumptions C119_ipf_prev_mean_refuted.

(** Schroedinger bridge training: the continuous loss gives the drift of the time reversal, the discrete one its mean *)
Theorem C119_dsb_cont : forall D sim disp d t t_next y, is_prob D -> (0 < d)%nat -> Forall (fun x => length x = d) (map snd D) -> (forall x t, length x = d -> length (sim x t) = d) ->
  t <> t_next -> disp t <> 0 -> length y = d -> only_minimiser (cont_risk D sim disp t t_next y) d (reverse_drift D sim disp t t_next y).
Proof. intros. now apply cont_min. Qed.
Print Assumptions C119_dsb_cont.
Theorem C119_dsb_disc : forall D sim d k k_next gamma y, is_prob D -> (0 < d)%nat -> Forall (fun x => length x = d) (map snd D) -> (forall x t, length x = d -> length (sim x t) = d) ->
  0 < gamma -> length y = d -> only_minimiser (disc_risk D sim k k_next gamma y) d (reverse_mean D sim k gamma y).
Proof. intros. now apply disc_min. Qed.
Print Assumptions C119_dsb_disc.

(** with two different data the score loss is positive for every network: it does not tell how good the network is *)
Theorem C119_loss_positive : forall sde t t0 p x0 q x1 l y out, is_prob ((p, x0) :: (q, x1) :: l) -> 0 < p -> 0 < q -> 0 < snd (FQ sde t t0) -> (0 < length y)%nat ->
  Forall (fun x => length x = length y) (map snd ((p, x0) :: (q, x1) :: l)) -> x0 <> x1 -> length out = length y ->
  0 < score_risk ((p, x0) :: (q, x1) :: l) sde t t0 y out.
Proof. exact score_risk_pos. Qed.
Print Assumptions C119_loss_positive.

(** the code's loss is a mean of these terms over samples and steps *)
Theorem C119_terms : forall sde g ts paths k, score_terms (FQ sde) (cond_score sde) (fun xs t => map (g t) xs) ts paths k =
  map (fun p => let t := nth k ts 0 in let t0 := nth 0 ts 0 in Rmean (sq_diff (g t (nth k p [])) (cond_score sde (nth k p []) t (nth 0 p []) t0)) * snd (FQ sde t t0)) paths.
Proof. exact score_terms_rows. Qed.
Print Assumptions C119_terms.

(** data at -1 and 1 under dx = -x dt + dw: at 0 the best network is 0, and its loss is not *)
Definition two_data : dist (list R) := [(1/2, [-1]); (1/2, [1])].
Example two_data_prob : is_prob two_data.
Proof. unfold two_data. split; [repeat (apply Forall_cons; [cbn; lra|]); apply Forall_nil|unfold E; cbn; lra]. Qed.
Example ou_var_pos : 0 < snd (FQ (ConstSDE (-1) 1) 1 0).
Proof.
  cbn. replace (1 * 1 / (2 * -1) * (exp (2 * -1 * (1 - 0)) - 1)) with (/2 * (1 - exp (-2))) by (replace (2 * -1 * (1 - 0)) with (-2) by ring; field).
  assert (H := exp_increasing (-2) 0 ltac:(lra)). rewrite exp_0 in H. lra.
Qed.
Example C119_example : sde_score two_data (ConstSDE (-1) 1) 1 0 [0] = [0] /\ 0 < score_risk two_data (ConstSDE (-1) 1) 1 0 [0] [0].
Proof.
  assert (HQ := ou_var_pos). split.
  - apply (nth_ext _ _ 0 0); [apply length_arrival_score|]. unfold sde_score. rewrite length_arrival_score. intros i Hi. cbn in Hi. assert (i = 0%nat) as -> by lia.
    rewrite nth_arrival_score; [|apply two_data_prob|exact HQ|cbn; lia]. unfold given, E, two_data. cbn [map fst snd Rsum nth]. set (F := fst (FQ (ConstSDE (-1) 1) 1 0)). set (Q := snd (FQ (ConstSDE (-1) 1) 1 0)) in *.
    replace (step_density (vscale F [-1]) Q [0]) with (step_density (vscale F [1]) Q [0]).
    + unfold vscale. cbn [map nth]. unfold Rdiv. ring.
    + unfold step_density, vscale, gauss_logpdf. cbn [map nth seq length Rsum]. do 2 f_equal. unfold Rdiv. ring.
  - apply score_risk_pos; try lra; auto; [apply two_data_prob|repeat (apply Forall_cons; [reflexivity|]); apply Forall_nil|]. intros H. injection H as H. lra.
Qed.
(** a simulator with drift -x: the bridge theorem applies *)
Example C119_example_dsb : only_minimiser (cont_risk two_data (fun x _ => vscale (-1) x) (fun _ => 1) 0 (1/2) [1/3]) 1 (reverse_drift two_data (fun x _ => vscale (-1) x) (fun _ => 1) 0 (1/2) [1/3]).
Proof.
  apply C119_dsb_cont; try lra; auto; [apply two_data_prob|repeat (apply Forall_cons; [reflexivity|]); apply Forall_nil|].
  intros x t H. now rewrite length_vscale.
Qed.
