(** Which result files the figures read: experiments/tabulators/plot_autocorrs_toy.py, plot_toy_contours.py, plot_pmcmc_trace.py,
    plot_autocorrs_imgs.py. *)
From Coq Require Import String Ascii List Lia Bool PeanoNat Permutation.
From Verif Require Import Base ResultFiles ImgFiles.
Import ListNotations.
Local Open Scope string_scope.

(** plot_autocorrs_toy.py 22-27: text of the method, and the run it stands for *)
Definition autocorr_methods : list (string * toy_method * nat) :=
  [("gibbs-eb-const-10", TGibbs true false false, 10%nat); ("gibbs-eb-const-100", TGibbs true false false, 100%nat);
   ("pmcmc-0.005-const-100", TPmcmc "0.005", 100%nat); ("pmcmc-0.005-const-10", TPmcmc "0.005", 10%nat);
   ("pmcmc-0.01-const-10", TPmcmc "0.01", 10%nat); ("pmcmc-0.001-const-10", TPmcmc "0.001", 10%nat)].
(** plot_toy_contours.py 42-48, for both numbers of particles *)
Definition contour_methods : list (string * toy_method * nat) :=
  flat_map (fun np => [("csgm-const", TCsgm, np); ("filter-const-" ++ dec np, TFilter, np); ("gibbs-eb-const-" ++ dec np, TGibbs true false false, np);
    ("pmcmc-0.005-const-" ++ dec np, TPmcmc "0.005", np); ("pmcmc-0.001-const-" ++ dec np, TPmcmc "0.001", np); ("twisted-const-" ++ dec np, TTwisted, np)]) [10; 100]%nat.
(** plot_pmcmc_trace.py 30-32 *)
Definition trace_methods : list (string * toy_method * nat) := map (fun delta => ("pmcmc-" ++ delta ++ "-const-10", TPmcmc delta, 10%nat)) ["0.01"; "0.005"; "0.001"].
(** all read [./toy/results/{method}-{mc_id}.npz] *)
Definition figure_file (method : string) (mc_id : nat) : string := "./toy/results/" ++ method ++ "-" ++ dec mc_id ++ ".npz".
Definition figure_methods : list (string * toy_method * nat) := (autocorr_methods ++ contour_methods ++ trace_methods)%list.
(** the runs of run_toy_all.sh for 10 and for 100 particles *)
Definition figure_jobs : list toy_run := (toy_jobs 10 "const" ++ toy_jobs 100 "const")%list.

Lemma figure_toy_file text m np id : In (text, m, np) figure_methods ->
  figure_file text id = toy_file {| t_method := m; t_sde := "const"; t_np := np; t_id := id; t_d := 0; t_nsamples := 0; t_nchains := 0 |}.
Proof.
  intros H. unfold figure_methods, autocorr_methods, contour_methods, trace_methods in H. cbn [flat_map map app In] in H.
  repeat destruct H as [H|H]; try contradiction; apply pair_equal_spec in H as [H <-]; apply pair_equal_spec in H as [<- <-]; unfold figure_file, toy_file, toy_stem; cbn; unfold dash; rewrite ?append_assoc; reflexivity.
Qed.
Lemma figure_setting text m np id r : In (text, m, np) figure_methods -> no_dash (t_sde r) = true -> (toy_file r = figure_file text id <-> toy_setting m "const" np id r).
Proof.
  intros H Hr. rewrite (figure_toy_file text m np id H), toy_file_eq by auto. unfold toy_same, toy_setting. cbn [t_method t_sde t_np t_id]. split; (intros (H1 & H2 & H3 & H4); repeat split; auto); destruct H4 as [H4|H4]; auto; left; congruence.
Qed.
Lemma figure_jobs_const r : In r figure_jobs -> t_sde r = "const" /\ (t_np r = 10%nat \/ t_np r = 100%nat) /\ (t_id r < 100)%nat /\ In (t_method r) [TFilter; TGibbs true false false; TPmcmc "0.005"; TTwisted; TCsgm].
Proof.
  intros H. unfold figure_jobs in H. apply in_app_or in H as [H|H]; apply toy_jobs_in in H as (H1 & H2 & H3); rewrite H3; cbn [t_sde t_np t_id t_method]; auto.
Qed.
Lemma figure_found {C} (result : toy_run -> C) runs text m np id : Permutation runs figure_jobs -> In (text, m, np) figure_methods -> m <> TPmcmc "0.01" -> m <> TPmcmc "0.001" -> (id < 100)%nat ->
  exists r, In r runs /\ toy_setting m "const" np id r /\ t_nsamples r = 10000%nat /\ toy_disk result runs (figure_file text id) = Some (result r).
Proof.
  intros HP Hin H1 H2 Hid.
  assert (Hnp : np = 10%nat \/ np = 100%nat).
  { unfold figure_methods, autocorr_methods, contour_methods, trace_methods in Hin. cbn [flat_map map app In] in Hin. repeat destruct Hin as [Hin|Hin]; try contradiction; apply pair_equal_spec in Hin as [_ <-]; auto. }
  assert (Hm : In m [TFilter; TGibbs true false false; TPmcmc "0.005"; TTwisted; TCsgm]).
  { unfold figure_methods, autocorr_methods, contour_methods, trace_methods in Hin. cbn [flat_map map app In] in Hin. repeat destruct Hin as [Hin|Hin]; try contradiction; apply pair_equal_spec in Hin as [Hin _]; apply pair_equal_spec in Hin as [_ <-]; try congruence; cbn [In]; auto 9. }
  set (r0 := {| t_method := m; t_sde := "const"; t_np := np; t_id := id; t_d := 100; t_nsamples := 10000; t_nchains := 4 |}).
  assert (H0 : In r0 figure_jobs).
  { unfold figure_jobs. apply in_or_app. destruct Hnp as [ ->| ->]; [left|right]; apply toy_jobs_in; cbn [r0 t_method t_id]; auto. }
  destruct (toy_disk result runs (figure_file text id)) as [c|] eqn:Hc.
  - unfold toy_disk in Hc. apply disk_some in Hc as (w1 & w2 & E & _). assert (Hw : In (figure_file text id, c) (map (fun r => (toy_file r, result r)) runs)) by (rewrite E; apply in_or_app; right; now left).
    apply in_map_iff in Hw as (r & Hr & Hi). apply pair_equal_spec in Hr as [Hf <-]. assert (Hj := Permutation_in _ HP Hi). exists r. split; [assumption|]. destruct (figure_jobs_const r Hj) as (Hs & _ & _ & _).
    split; [|split; [|reflexivity]]; [apply (figure_setting text m np id r); auto; now rewrite Hs|].
    unfold figure_jobs in Hj. apply in_app_or in Hj as [Hj|Hj]; apply toy_jobs_in in Hj as (_ & _ & ->); reflexivity.
  - exfalso. unfold toy_disk in Hc. apply disk_none in Hc. rewrite Forall_map, Forall_forall in Hc. apply (Hc r0); [now apply (Permutation_in _ (Permutation_sym HP))|]. cbn [fst]. apply (figure_setting text m np id r0); auto. repeat split; auto.
Qed.
Lemma figure_missing {C} (result : toy_run -> C) runs text m np id : Permutation runs figure_jobs -> In (text, m, np) figure_methods -> m = TPmcmc "0.01" \/ m = TPmcmc "0.001" -> toy_disk result runs (figure_file text id) = None.
Proof.
  intros HP Hin Hm. unfold toy_disk. apply disk_none. rewrite Forall_map, Forall_forall. intros r Hr E. cbn [fst] in E. apply (Permutation_in _ HP) in Hr. destruct (figure_jobs_const r Hr) as (Hs & _ & _ & Hj).
  apply (figure_setting text m np id r) in E; auto; [|now rewrite Hs]. destruct E as (E & _). rewrite E in Hj. cbn [In] in Hj. destruct Hm as [ ->| ->]; repeat destruct Hj as [Hj|Hj]; try discriminate; contradiction.
Qed.

(** ** plot_autocorrs_imgs.py *)
(** ["-".join(l)] *)
Fixpoint join_dash (l : list string) : string := match l with [] => "" | [a] => a | a :: l' => a ++ "-" ++ join_dash l' end.
(** line 45 *)
Definition last_part (method : string) : string := List.last (split_dash method) "".
(** line 54 *)
Definition head_parts (method : string) : string := join_dash (removelast (split_dash method)).
(** lines 33-36; [100 if "mnist" in dataset else 10] and [10 if ... else 2] *)
Definition img_fig_np (d : img_data) : nat * nat := match d with Mnist => (100, 10)%nat | _ => (10, 2)%nat end.
Definition img_fig_methods (d : img_data) : list (string * img_method * nat) :=
  let '(a, b) := img_fig_np d in
  [("gibbs-eb-ef-" ++ dec a, IGibbs true true false, a); ("gibbs-eb-ef-" ++ dec b, IGibbs true true false, b); ("pmcmc-0.005-" ++ dec a, IPmcmc "0.005", a); ("pmcmc-0.005-" ++ dec b, IPmcmc "0.005", b)].
(** lines 48-54, [rnd_mask] false and [sde] 'lin' *)
Definition img_fig_file (d : img_data) (t : img_task) (method : string) (mc_id : nat) : string :=
  "./imgs/results_" ++ task_dir t ++ "/arrs/" ++ dash (data_name d) (match t with Inpaint n => dec n | Supr n _ => dec n end) ++ "-lin-" ++ last_part method ++ "-" ++ dec mc_id ++ "-" ++ head_parts method ++ ".npy".
(** lines 28-31: the four panels *)
Definition img_panels : list (img_data * img_task) := [(Mnist, Inpaint 15); (Mnist, Supr 4 false); (Celeba 64, Inpaint 32); (Celeba 64, Supr 2 false)].

Lemma img_fig_restored d t text m np id : In (d, t) img_panels -> In (text, m, np) (img_fig_methods d) ->
  exists row, In (row, m) img_rows /\ is_csgm m = false /\ img_fig_file d t text id = table_restored d t ILin np id row false.
Proof.
  intros Hp Hm. cbn [img_panels In] in Hp. repeat destruct Hp as [Hp|Hp]; try contradiction; apply pair_equal_spec in Hp as [<- <-]; cbn [img_fig_methods img_fig_np In] in Hm;
    (repeat destruct Hm as [Hm|Hm]; try contradiction; apply pair_equal_spec in Hm as [Hm <-]; apply pair_equal_spec in Hm as [<- <-]);
    (eexists; split; [cbn [img_rows In]; auto 9|]; split; [reflexivity|]); unfold table_restored, path_head, img_fig_file; cbn; unfold dash; rewrite ?append_assoc; reflexivity.
Qed.
Lemma img_fig_found d t text m np id ws : In (d, t) img_panels -> In (text, m, np) (img_fig_methods d) -> (id < 100)%nat -> Permutation ws (flat_map img_writes (img_jobs d np)) ->
  disk_of ws (img_fig_file d t text id) = Some (Restored (img_job d np t m) id) /\ i_nsamples (img_job d np t m) = 100%nat.
Proof.
  intros Hp Hm Hid HP. destruct (img_fig_restored d t text m np id Hp Hm) as (row & Hrow & Hc & ->). split; [|reflexivity].
  assert (Ht : In t (img_tasks d)) by (cbn [img_panels In] in Hp; repeat destruct Hp as [Hp|Hp]; try contradiction; apply pair_equal_spec in Hp as [<- <-]; cbn; auto).
  destruct (img_jobs_table d np ws t row m id HP Ht Hrow Hid) as [_ H]. now rewrite Hc in H.
Qed.
