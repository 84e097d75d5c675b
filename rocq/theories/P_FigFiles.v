(** C121: which result files the figures read. *)
From Coq Require Import String Ascii List Lia Bool PeanoNat Permutation.
From Verif Require Import Base ResultFiles ImgFiles FigFiles.
Import ListNotations.
Local Open Scope string_scope.

(** after run_toy_all.sh for 10 and 100 particles, its jobs ending in any order, the three figures of the synthetic experiment
    find the runs they are labelled with, with 10000 samples, ... *)
Theorem C121_toy_figures_partial : forall (C : Type) (result : toy_run -> C) runs text m np id, Permutation runs figure_jobs -> In (text, m, np) figure_methods -> m <> TPmcmc "0.01" -> m <> TPmcmc "0.001" -> (id < 100)%nat ->
  exists r, In r runs /\ toy_setting m "const" np id r /\ t_nsamples r = 10000%nat /\ toy_disk result runs (figure_file text id) = Some (result r).
Proof. intros C. exact (@figure_found C). Qed.
Print Assumptions C121_toy_figures_partial.
(** ... except for two of the three step sizes of particle MCMC, which each of the figures needs and no script runs *)
Theorem C121_toy_steps_refuted : forall (C : Type) (result : toy_run -> C) runs, Permutation runs figure_jobs ->
  (forall text m np id, In (text, m, np) figure_methods -> m = TPmcmc "0.01" \/ m = TPmcmc "0.001" -> toy_disk result runs (figure_file text id) = None) /\
  (exists text np, In (text, TPmcmc "0.001", np) autocorr_methods) /\ (exists text np, In (text, TPmcmc "0.001", np) contour_methods) /\ (exists text np, In (text, TPmcmc "0.001", np) trace_methods).
Proof.
  intros C result runs HP. split; [intros text m np id; now apply figure_missing|]. split; [|split]; eexists; eexists; unfold autocorr_methods, contour_methods, trace_methods; cbn [flat_map map app In]; auto 9.
Qed.
Print Assumptions C121_toy_steps_refuted.

(** no run with other settings is ever read under a label *)
Theorem C121_toy_labels : forall text m np id r, In (text, m, np) figure_methods -> no_dash (t_sde r) = true ->
  (toy_file r = figure_file text id <-> t_method r = m /\ t_sde r = "const" /\ t_id r = id /\ (m = TCsgm \/ t_np r = np)).
Proof. exact figure_setting. Qed.
Print Assumptions C121_toy_labels.

(** the image figure cuts its method texts at the dashes and finds the restorations of that method, 100 of them *)
Theorem C121_img_figure : forall d t text m np id ws, In (d, t) img_panels -> In (text, m, np) (img_fig_methods d) -> (id < 100)%nat -> Permutation ws (flat_map img_writes (img_jobs d np)) ->
  disk_of ws (img_fig_file d t text id) = Some (Restored (img_job d np t m) id) /\ i_nsamples (img_job d np t m) = 100%nat.
Proof. exact img_fig_found. Qed.
Print Assumptions C121_img_figure.

Example C121_example : figure_file "pmcmc-0.005-const-100" 66 = "./toy/results/pmcmc-0.005-const-100-66.npz" /\ In ("pmcmc-0.005-const-100", TPmcmc "0.005", 100%nat) figure_methods /\
  img_fig_file Mnist (Supr 4 false) "gibbs-eb-ef-100" 3 = "./imgs/results_supr/arrs/mnist-4-lin-100-3-gibbs-eb-ef.npy" /\ In ("gibbs-eb-ef-100", IGibbs true true false, 100%nat) (img_fig_methods Mnist).
Proof. repeat split; [unfold figure_methods, autocorr_methods; cbn [app In]; auto 9|now left]. Qed.
