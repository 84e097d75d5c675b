(** C116, C117: result files. *)
From Coq Require Import String Ascii List Lia Bool PeanoNat Permutation.
From Verif Require Import Base Prog Restore ResultFiles ImgFiles.
Import ListNotations.
Local Open Scope string_scope.

(** ** C116: results of the synthetic and bridge experiments *)
Theorem C116_toy_names : forall r r', no_dash (t_sde r) = true -> no_dash (t_sde r') = true ->
  (toy_file r = toy_file r' <-> t_method r = t_method r' /\ t_sde r = t_sde r' /\ t_id r = t_id r' /\ (t_method r = TCsgm \/ t_np r = t_np r')).
Proof. exact toy_file_eq. Qed.
Print Assumptions C116_toy_names.

(** every row of the table takes the results of the last run with the settings of that row, and of no other run *)
Theorem C116_toy_table : forall (C : Type) (result : toy_run -> C) runs sde np row m id c, no_dash sde = true -> Forall (fun r => no_dash (t_sde r) = true) runs -> In (row, m) (toy_rows sde np) ->
  (toy_disk result runs (table_file row id) = Some c <->
   exists l1 r l2, runs = (l1 ++ r :: l2)%list /\ toy_setting m sde np id r /\ Forall (fun r' => ~ toy_setting m sde np id r') l2 /\ c = result r).
Proof. intros C. exact (@toy_table_reads C). Qed.
Print Assumptions C116_toy_table.

(** after [run_toy_all.sh], in whatever order its jobs end, five of the six rows find all their files *)
Theorem C116_toy_run_all_partial : forall (C : Type) (result : toy_run -> C) np sde runs, no_dash sde = true -> Permutation runs (toy_jobs np sde) ->
  forall row m id, In (row, m) (toy_rows sde np) -> m <> TPmcmc "0.001" -> (id < 100)%nat ->
  exists r, In r runs /\ toy_setting m sde np id r /\ toy_disk result runs (table_file row id) = Some (result r).
Proof.
  intros C result np sde runs Hs HP row m id Hrow Hm Hid. destruct (toy_jobs_table result np sde runs Hs HP) as [H _].
  eexists. split; [|split; [|exact (H row m id Hrow Hm Hid)]]; [|repeat split; auto].
  apply (Permutation_in _ (Permutation_sym HP)), toy_jobs_in. cbn [t_method t_id]. split; [|now split].
  cbn [toy_rows In] in Hrow. repeat destruct Hrow as [Hrow|Hrow]; try contradiction; apply pair_equal_spec in Hrow as [_ <-]; cbn [In]; auto 9.
Qed.
Print Assumptions C116_toy_run_all_partial.
(** ... and the row pmcmc-0.001 finds none *)
Theorem C116_toy_row_missing_refuted : forall (C : Type) (result : toy_run -> C) np sde runs, no_dash sde = true -> Permutation runs (toy_jobs np sde) ->
  exists row, In (row, TPmcmc "0.001") (toy_rows sde np) /\ forall id, toy_disk result runs (table_file row id) = None.
Proof.
  intros C result np sde runs Hs HP. exists (dash (dash "pmcmc-0.001" sde) (dec np)). assert (Hin : In (dash (dash "pmcmc-0.001" sde) (dec np), TPmcmc "0.001") (toy_rows sde np)) by (cbn [toy_rows In]; auto 9).
  split; [assumption|]. intros id. destruct (toy_jobs_table result np sde runs Hs HP) as [_ H]. now apply H.
Qed.
Print Assumptions C116_toy_row_missing_refuted.

(** the dimension, the number of samples and of chains are not in the name: such runs overwrite each other *)
Theorem C116_overwrite_refuted : forall (C : Type) (result : toy_run -> C) m sde np id d n c d' n' c' l1 l2, no_dash sde = true ->
  let r := {| t_method := m; t_sde := sde; t_np := np; t_id := id; t_d := d; t_nsamples := n; t_nchains := c |} in
  let r' := {| t_method := m; t_sde := sde; t_np := np; t_id := id; t_d := d'; t_nsamples := n'; t_nchains := c' |} in
  toy_disk result (l1 ++ r :: l2 ++ [r'])%list (toy_file r) = Some (result r').
Proof.
  intros C result m sde np id d n c d' n' c' l1 l2 Hs r r'. apply disk_some. exists (map (fun r => (toy_file r, result r)) (l1 ++ r :: l2)), [].
  split; [|constructor]. rewrite !map_app. cbn [map]. rewrite map_app, <- app_assoc. cbn [map app]. repeat f_equal.
Qed.
Print Assumptions C116_overwrite_refuted.

Theorem C116_sb_names : forall r r', sb_file r = sb_file r' <-> s_method r = s_method r' /\ s_np r = s_np r' /\ s_id r = s_id r'.
Proof. exact sb_file_eq. Qed.
Print Assumptions C116_sb_names.
Theorem C116_sb_run_all_partial : forall (C : Type) (result : sb_run -> C) runs, Permutation runs sb_jobs ->
  forall row m np id, In (row, m) sb_rows -> In np plot_sb_nparticles -> np <> 2%nat -> (id < 100)%nat ->
  sb_disk result runs (plot_sb_file row np id) = Some (result {| s_method := m; s_np := np; s_id := id; s_d := 10; s_nsamples := 10000 |}).
Proof. intros C result runs H. exact (proj1 (sb_jobs_table result runs H)). Qed.
Print Assumptions C116_sb_run_all_partial.
(** the plot starts at two particles, [run_sb_all.sh] at four *)
Theorem C116_sb_two_particles_refuted : forall (C : Type) (result : sb_run -> C) runs, Permutation runs sb_jobs -> In 2%nat plot_sb_nparticles /\
  forall row m id, In (row, m) sb_rows -> sb_disk result runs (plot_sb_file row 2 id) = None.
Proof. intros C result runs H. split; [now left|]. exact (proj2 (sb_jobs_table result runs H)). Qed.
Print Assumptions C116_sb_two_particles_refuted.
(** the start that the animation puts in front of the chain "blank" is the start of the chain "interp" *)
Theorem C116_sb_start_refuted : forall r, b_gibbs r = true ->
  disk_of (sbi_writes r) (sbi_init r) = Some (SInit r Interp) /\ disk_of (sbi_writes r) (sbi_arr r Blank) = Some (SChain r Blank).
Proof. exact sbi_init_kept. Qed.
Print Assumptions C116_sb_start_refuted.

Example C116_example : toy_file {| t_method := TPmcmc "1e-05"; t_sde := "const"; t_np := 100; t_id := 7; t_d := 100; t_nsamples := 10000; t_nchains := 4 |} = "./toy/results/pmcmc-1e-05-const-100-7.npz" /\
  table_file (nth 1 (map fst (toy_rows "const" 100)) "") 42 = "./toy/results/gibbs-eb-const-100-42.npz" /\
  plot_sb_file "filter-heuristic" 16 3 = "./sb/results/filter-heuristic-16-3.npz".
Proof. repeat split. Qed.

(** ** C117: the image table *)
Theorem C117_names : forall r r' k k', img_arr r k = img_arr r' k' <->
  (i_data r = i_data r' /\ i_task r = i_task r' /\ i_sde r = i_sde r' /\ is_csgm (i_method r) = is_csgm (i_method r') /\ (is_csgm (i_method r) = true \/ i_np r = i_np r')) /\ i_method r = i_method r' /\ k = k'.
Proof. exact img_arr_eq. Qed.
Print Assumptions C117_names.

(** runs with one test seed, in any number, with any options, started anywhere, writing in any order: the true image and the
    restorations that the table compares come from the same data set, the same task and the same draw of the test image *)
Theorem C117_like_with_like : forall runs ws seed d t s np i row m c c', (forall r, In r runs -> i_seed r = seed) ->
  (forall w, In w ws -> exists r, In r runs /\ In w (img_writes r)) -> In (row, m) img_rows ->
  disk_of ws (table_true d t s i) = Some c -> disk_of ws (table_restored d t s np i row (is_csgm m)) = Some c' ->
  exists r r' dk, c = Truth r i /\ c' = Restored r' i /\ i_data r = i_data r' /\ i_task r = i_task r' /\ i_sde r' = s /\ i_method r' = m /\ (m = ICsgm \/ i_np r' = np) /\ image_key r i dk /\ image_key r' i dk.
Proof.
  intros runs ws seed d t s np i row m c c' Hseed Hws Hrow H H'. destruct (img_table_reads runs ws d t s np i row m Hws Hrow) as [HT HR].
  destruct (HT c H) as (r & Hr & -> & Hi & Hd & Ht & Hs & _). destruct (HR c' H') as (r' & Hr' & -> & Hi' & Hd' & Ht' & Hs' & Hm & Hnp).
  exists r, r', ([seed; 1%nat] ++ repeat 0%nat i ++ [1%nat])%list. repeat split; auto; try congruence.
  - exists 0%nat. eexists. rewrite (Hseed r Hr). now apply test_script_rows.
  - exists 0%nat. eexists. rewrite (Hseed r' Hr'). now apply test_script_rows.
Qed.
Print Assumptions C117_like_with_like.

(** after [run_imgs_all.sh] the table finds everything *)
Theorem C117_run_all : forall d np ws t row m i, Permutation ws (flat_map img_writes (img_jobs d np)) -> In t (img_tasks d) -> In (row, m) img_rows -> (i < 100)%nat ->
  disk_of ws (table_true d t ILin i) = Some (Truth (img_job d np t ICsgm) i) /\ disk_of ws (table_restored d t ILin np i row (is_csgm m)) = Some (Restored (img_job d np t m) i).
Proof. exact img_jobs_table. Qed.
Print Assumptions C117_run_all.

(** the seed is not in the name: with another seed the table compares restorations of one image with another image *)
Theorem C117_seed_refuted : forall d t np seed seed' i, seed <> seed' -> (i < 100)%nat -> exists r r' ws,
  ws = (img_writes r ++ img_writes r')%list /\ i_seed r = seed /\ i_seed r' = seed' /\
  disk_of ws (table_true d t ILin i) = Some (Truth r i) /\ disk_of ws (table_restored d t ILin np i "filter" false) = Some (Restored r' i) /\
  forall dk dk', image_key r i dk -> image_key r' i dk' -> dk <> dk'.
Proof.
  intros d t np seed seed' i Hne Hi.
  set (r := {| i_data := d; i_task := t; i_sde := ILin; i_method := ICsgm; i_np := np; i_seed := seed; i_ny0s := 100; i_start := 0; i_nsamples := 100; i_nsteps := 1000 |}).
  set (r' := {| i_data := d; i_task := t; i_sde := ILin; i_method := IFilter false; i_np := np; i_seed := seed'; i_ny0s := 100; i_start := 0; i_nsamples := 100; i_nsteps := 1000 |}).
  exists r, r', (img_writes r ++ img_writes r')%list. split; [reflexivity|]. split; [reflexivity|]. split; [reflexivity|]. split; [|split].
  - rewrite (table_true_file d t ILin np i seed 100 0 100 1000). fold r. apply disk_all_equal.
    + apply in_or_app. left. apply img_writes_in. exists i. split; [cbn; lia|]. left. now split.
    + intros c' H. apply in_app_or in H as [H|H]; apply img_writes_in in H as (k & Hk & [[Hf ->]|[[Hf _]|(Hf & _)]]).
      * apply img_true_eq in Hf as (_ & <-). reflexivity.
      * symmetry in Hf. now apply arr_not_true in Hf.
      * now apply true_not_init in Hf.
      * apply img_true_eq in Hf as ((_ & _ & _ & Hc & _) & _). discriminate Hc.
      * symmetry in Hf. now apply arr_not_true in Hf.
      * now apply true_not_init in Hf.
  - assert (E := table_restored_file d t ILin np i "filter" (IFilter false) seed' 100 0 100 1000 ltac:(now left)). cbn [is_csgm] in E. rewrite E. fold r'. apply disk_all_equal.
    + apply in_or_app. right. apply img_writes_in. exists i. split; [cbn; lia|]. right. left. now split.
    + intros c' H. apply in_app_or in H as [H|H]; apply img_writes_in in H as (k & Hk & [[Hf _]|[[Hf ->]|(Hf & _)]]).
      * now apply arr_not_true in Hf.
      * apply img_arr_eq in Hf as (_ & Hm & _). discriminate Hm.
      * now apply arr_not_init in Hf.
      * now apply arr_not_true in Hf.
      * apply img_arr_eq in Hf as (_ & _ & <-). reflexivity.
      * now apply arr_not_init in Hf.
  - intros dk dk' (nd & ks & H) (nd' & ks' & H') E. apply test_script_row in H as (_ & -> & _). apply test_script_row in H' as (_ & -> & _). cbn in E. congruence.
Qed.
Print Assumptions C117_seed_refuted.

(** the options in the method name *)
Theorem C117_method_options : (forall x, no_dash x = true -> delta_text ("pmcmc-" ++ x) = Some x) /\ (forall eb ef, parse_gibbs ("gibbs" ++ flag eb "-eb" ++ flag ef "-ef") = (eb, ef)).
Proof. exact (conj delta_read gibbs_read). Qed.
Print Assumptions C117_method_options.
(** a step size written 1e-05 is read as 05 *)
Theorem C117_small_delta_refuted : (forall a b, no_dash a = true -> no_dash b = true -> delta_text ("pmcmc-" ++ a ++ "-" ++ b) = Some b) /\ delta_text "pmcmc-1e-05" = Some "05".
Proof. exact (conj delta_misread eq_refl). Qed.
Print Assumptions C117_small_delta_refuted.

Example C117_example : img_arr (img_job (Celeba 64) 10 (Supr 2 false) (IGibbs true true false)) 31 = "./imgs/results_supr/arrs/celeba-64-2-lin-10-31-gibbs-eb-ef.npy" /\
  table_true Mnist (Supr 4 true) ILin 5 = "./imgs/results_supr/arrs/mnist-4-rm-lin-5-true.npz" /\ delta_text "pmcmc-0.005" = Some "0.005" /\ In (Inpaint 15) (img_tasks Mnist).
Proof. repeat split. now left. Qed.
