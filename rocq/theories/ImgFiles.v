(** Result files of the Schrodinger-bridge and image experiments, and of the whole experiment runs. *)
From Coq Require Import String Ascii List Lia Bool PeanoNat Permutation.
From Verif Require Import Base Prog Restore ResultFiles.
Import ListNotations.
Local Open Scope string_scope.

(** ** The complete synthetic experiment, its runs ending in any order *)
Lemma toy_jobs_table {C} (result : toy_run -> C) np sde runs : no_dash sde = true -> Permutation runs (toy_jobs np sde) ->
  (forall row m id, In (row, m) (toy_rows sde np) -> m <> TPmcmc "0.001" -> (id < 100)%nat ->
     toy_disk result runs (table_file row id) = Some (result {| t_method := m; t_sde := sde; t_np := np; t_id := id; t_d := 100; t_nsamples := 10000; t_nchains := 4 |})) /\
  (forall row id, In (row, TPmcmc "0.001") (toy_rows sde np) -> toy_disk result runs (table_file row id) = None).
Proof.
  intros Hs HP. split.
  - intros row m id Hrow Hm Hid. set (r0 := {| t_method := m; t_sde := sde; t_np := np; t_id := id; t_d := 100; t_nsamples := 10000; t_nchains := 4 |}).
    assert (Hin : In r0 runs).
    { apply (Permutation_in _ (Permutation_sym HP)), toy_jobs_in. cbn [r0 t_method t_id]. split; [|now split].
      cbn [toy_rows In] in Hrow. repeat destruct Hrow as [Hrow|Hrow]; try contradiction; apply pair_equal_spec in Hrow as [_ <-]; cbn [In]; auto 9. }
    apply disk_all_equal.
    + apply in_map_iff. exists r0. split; [|assumption]. f_equal. apply (toy_row_file sde np row m id r0); auto. repeat split; auto.
    + intros c' H. apply in_map_iff in H as (r & E & Hr). apply pair_equal_spec in E as [E <-]. f_equal.
      apply (Permutation_in _ HP), toy_jobs_in in Hr as (_ & _ & Er). assert (Hsr : t_sde r = sde) by now rewrite Er.
      apply (toy_row_file sde np row m id r) in E as (E1 & _ & E3 & _); auto; [|now rewrite Hsr]. rewrite Er, E1, E3. reflexivity.
  - intros row id Hrow. apply disk_none. rewrite Forall_map, Forall_forall. intros r Hr E. cbn [fst] in E.
    apply (Permutation_in _ HP), toy_jobs_in in Hr as (Hm & _ & Er). assert (Hsr : t_sde r = sde) by now rewrite Er.
    apply (toy_row_file sde np row (TPmcmc "0.001") id r) in E; [|assumption|now rewrite Hsr|assumption]. destruct E as [E1 _]. rewrite E1 in Hm. cbn [In] in Hm. repeat destruct Hm as [Hm|Hm]; try discriminate; contradiction.
Qed.

(** ** The Gaussian Schrodinger bridge experiments *)
Inductive sb_method := SFilter (x0 : string) | SGibbs (eb : bool).
Record sb_run := { s_method : sb_method; s_np : nat; s_id : nat; s_d : nat; s_nsamples : nat }.
(** sb/filter.py 172, sb/gibbs.py 189 *)
Definition sb_file (r : sb_run) : string := "./sb/results/" ++
  dash (dash match s_method r with SFilter x0 => dash "filter" x0 | SGibbs eb => "gibbs" ++ flag eb "-eb" end (dec (s_np r))) (dec (s_id r)) ++ ".npz".
(** plot_sb.py 18-20, 33 *)
Definition sb_rows : list (string * sb_method) := [("filter-proper", SFilter "proper"); ("filter-heuristic", SFilter "heuristic"); ("gibbs-eb", SGibbs true)].
Definition plot_sb_file (row : string) (np id : nat) : string := "./sb/results/" ++ dash (dash row (dec np)) (dec id) ++ ".npz".
(** plot_sb.py 21 *)
Definition plot_sb_nparticles : list nat := [2; 4; 8; 16; 32; 64]%nat.
(** run_sb_all.sh 5-14 with bashes/sb_*_dardel.sh: ids 0 to 99, d=10, 10000 samples *)
Definition sb_jobs : list sb_run :=
  flat_map (fun np => flat_map (fun m => map (fun id => {| s_method := m; s_np := np; s_id := id; s_d := 10; s_nsamples := 10000 |}) (seq 0 100))
    [SFilter "proper"; SFilter "heuristic"; SGibbs true]) [4; 8; 16; 32; 64]%nat.
Definition sb_disk {C} (result : sb_run -> C) (runs : list sb_run) : disk C := disk_of (map (fun r => (sb_file r, result r)) runs).

Lemma sb_file_eq r r' : sb_file r = sb_file r' <-> s_method r = s_method r' /\ s_np r = s_np r' /\ s_id r = s_id r'.
Proof.
  unfold sb_file. assert (ND := dec_no_dash). split.
  - intros H. apply append_cancel, append_right_cancel in H. apply dash_right in H as [H Hid]; auto. apply dash_right in H as [H Hnp]; auto. apply dec_inj in Hid, Hnp. split; [|now split].
    destruct (s_method r) as [x0|eb], (s_method r') as [x0'|eb']; try discriminate H.
    + apply append_cancel in H. cbn in H. now injection H as ->.
    + destruct eb, eb'; try discriminate H; reflexivity.
  - intros (-> & -> & ->). reflexivity.
Qed.
Lemma plot_sb_reads row m np id : In (row, m) sb_rows -> plot_sb_file row np id = sb_file {| s_method := m; s_np := np; s_id := id; s_d := 10; s_nsamples := 10000 |}.
Proof. intros H. cbn [sb_rows In] in H. repeat destruct H as [H|H]; try contradiction; injection H as <- <-; reflexivity. Qed.
Lemma sb_jobs_table {C} (result : sb_run -> C) runs : Permutation runs sb_jobs ->
  (forall row m np id, In (row, m) sb_rows -> In np plot_sb_nparticles -> np <> 2%nat -> (id < 100)%nat ->
     sb_disk result runs (plot_sb_file row np id) = Some (result {| s_method := m; s_np := np; s_id := id; s_d := 10; s_nsamples := 10000 |})) /\
  (forall row m id, In (row, m) sb_rows -> sb_disk result runs (plot_sb_file row 2 id) = None).
Proof.
  intros HP.
  assert (Hj : forall r, In r sb_jobs <-> In (s_np r) [4; 8; 16; 32; 64]%nat /\ In (s_method r) [SFilter "proper"; SFilter "heuristic"; SGibbs true] /\ (s_id r < 100)%nat /\
    r = {| s_method := s_method r; s_np := s_np r; s_id := s_id r; s_d := 10; s_nsamples := 10000 |}).
  { intros r. unfold sb_jobs. rewrite in_flat_map. split.
    - intros (np & Hnp & H). apply in_flat_map in H as (m & Hm & H). apply in_map_iff in H as (id & <- & Hid). apply in_seq in Hid. cbn [s_method s_np s_id]. repeat split; auto. lia.
    - intros (Hnp & Hm & Hid & E). exists (s_np r). split; [assumption|]. apply in_flat_map. exists (s_method r). split; [assumption|]. apply in_map_iff. exists (s_id r). split; [now symmetry|]. apply in_seq. lia. }
  split.
  - intros row m np id Hrow Hnp H2 Hid. rewrite (plot_sb_reads row m) by assumption. set (r0 := {| s_method := m; s_np := np; s_id := id; s_d := 10; s_nsamples := 10000 |}).
    assert (Hin : In r0 runs).
    { apply (Permutation_in _ (Permutation_sym HP)), Hj. cbn [r0 s_np s_method s_id]. split; [|split; [|now split]].
      - cbn [plot_sb_nparticles In] in *. lia.
      - cbn [sb_rows In] in Hrow. repeat destruct Hrow as [Hrow|Hrow]; try contradiction; apply pair_equal_spec in Hrow as [_ <-]; cbn [In]; auto 9. }
    apply disk_all_equal; [apply in_map_iff; exists r0; now split|].
    intros c' H. apply in_map_iff in H as (r & E & Hr). apply pair_equal_spec in E as [E <-]. f_equal.
    apply (Permutation_in _ HP), Hj in Hr as (_ & _ & _ & Er). apply sb_file_eq in E as (E1 & E2 & E3). rewrite Er, E1, E2, E3. reflexivity.
  - intros row m id Hrow. rewrite (plot_sb_reads row m) by assumption. apply disk_none. rewrite Forall_map, Forall_forall. intros r Hr E. cbn [fst] in E.
    apply (Permutation_in _ HP), Hj in Hr as (Hnp & _). apply sb_file_eq in E as (_ & E & _). cbn [s_np] in E. rewrite E in Hnp. cbn [In] in Hnp. lia.
Qed.

(** ** The image experiments *)
Inductive img_data := Mnist | Celeba (resolution : nat).
Inductive img_task := Inpaint (rect_size : nat) | Supr (rate : nat) (rnd_mask : bool).
Inductive img_sde := IConst | ILin.
(** [delta] of particle MCMC as Python prints it *)
Inductive img_method := IFilter (marg : bool) | IGibbs (eb ef marg : bool) | IPmcmc (delta : string) | ITwisted | ICsgm.
Record img_run := { i_data : img_data; i_task : img_task; i_sde : img_sde; i_method : img_method; i_np : nat;
                    i_seed : nat; i_ny0s : nat; i_start : nat; i_nsamples : nat; i_nsteps : nat }.
Definition data_name (d : img_data) : string := match d with Mnist => "mnist" | Celeba r => dash "celeba" (dec r) end.
Definition task_dir (t : img_task) : string := match t with Inpaint _ => "inpainting" | Supr _ _ => "supr" end.
Definition task_text (t : img_task) : string := match t with Inpaint s => dec s | Supr r rm => dec r ++ flag rm "-rm" end.
Definition sde_name (s : img_sde) : string := match s with IConst => "const" | ILin => "lin" end.
Definition is_csgm (m : img_method) : bool := match m with ICsgm => true | _ => false end.
(** imgs/inpainting.py 212, supr.py 213, *_twisted.py 174/175; without the number of particles *_csgm.py 141/142 *)
Definition img_head (r : img_run) (k : nat) : string :=
  "./imgs/results_" ++ task_dir (i_task r) ++ "/arrs/" ++
  dash (dash (dash (data_name (i_data r)) (task_text (i_task r))) (sde_name (i_sde r)))
       (if is_csgm (i_method r) then dec k else dash (dec (i_np r)) (dec k)).
(** imgs/inpainting.py 230, 249-250, 262; inpainting_twisted.py 190; inpainting_csgm.py 158 and the supr scripts *)
Definition method_text (m : img_method) : string :=
  match m with
  | IFilter marg => "filter" ++ flag marg "-marg"
  | IGibbs eb ef marg => "gibbs" ++ flag eb "-eb" ++ flag ef "-ef" ++ flag marg "-marg"
  | IPmcmc delta => "pmcmc-" ++ delta
  | ITwisted => "twisted"
  | ICsgm => "csgm"
  end.
Definition img_arr (r : img_run) (k : nat) : string := img_head r k ++ "-" ++ method_text (i_method r) ++ ".npy".
Definition img_true (r : img_run) (k : nat) : string := img_head r k ++ "-true" ++ ".npz".
Definition img_init (r : img_run) (k : nat) : string := img_head r k ++ "-gibbs-init" ++ ".npy".

Inductive content := Truth (r : img_run) (k : nat) | Restored (r : img_run) (k : nat) | Init (r : img_run) (k : nat).
(** what a run stores, image by image *)
Definition img_writes (r : img_run) : list (string * content) :=
  flat_map (fun k => (img_true r k, Truth r k) :: (match i_method r with IGibbs _ _ _ => [(img_init r k, Init r k)] | _ => [] end ++ [(img_arr r k, Restored r k)])%list)
    (seq (i_start r) (i_ny0s r - i_start r)).

(** what the name tells *)
Definition img_same (r r' : img_run) : Prop :=
  i_data r = i_data r' /\ i_task r = i_task r' /\ i_sde r = i_sde r' /\ is_csgm (i_method r) = is_csgm (i_method r') /\ (is_csgm (i_method r) = true \/ i_np r = i_np r').
Definition letter (s : string) : Prop := match s with EmptyString => False | String c _ => digit c = false end.

Lemma dec_not_letter n s x : letter s -> dec n ++ x <> s.
Proof. intros Hs E. destruct (dec_digits n) as [Hd Hn]. destruct (dec n) as [|c d]; [congruence|]. cbn in E, Hd. subst s. cbn in Hs. rewrite Hs in Hd. discriminate. Qed.
Lemma slot_inj (b b' : bool) np np' k k' x y : letter x -> letter y ->
  (if b then dec k else dash (dec np) (dec k)) ++ "-" ++ x = (if b' then dec k' else dash (dec np') (dec k')) ++ "-" ++ y -> b = b' /\ (b = true \/ np = np') /\ k = k' /\ x = y.
Proof.
  intros Hx Hy. assert (ND := dec_no_dash). destruct b, b'; unfold dash; rewrite ?append_assoc; intros H; apply dash_left in H as [H1 H2]; auto.
  - apply dec_inj in H1. repeat split; auto.
  - exfalso. now apply (dec_not_letter k' x ("-" ++ y)).
  - exfalso. now apply (dec_not_letter k y ("-" ++ x)).
  - apply dash_left in H2 as [H2 H3]; auto. apply dec_inj in H1, H2. repeat split; auto.
Qed.
Lemma head_inj r r' k k' x y : letter x -> letter y -> img_head r k ++ "-" ++ x = img_head r' k' ++ "-" ++ y -> img_same r r' /\ k = k' /\ x = y.
Proof.
  intros Hx Hy. unfold img_head, img_same. assert (ND := dec_no_dash). intros H. rewrite !append_assoc in H. apply append_cancel in H.
  assert (Hdata : forall d d' s s', data_name d ++ "-" ++ s = data_name d' ++ "-" ++ s' -> letter (s) \/ True -> d = d' /\ s = s').
  { intros d d' s s' E _. destruct d as [|q], d' as [|q']; cbn [data_name] in E; unfold dash in E; rewrite ?append_assoc in E; apply dash_left in E as [E1 E2]; auto; try discriminate.
    apply dash_left in E2 as [E2 E3]; auto. apply dec_inj in E2. now subst. }
  assert (Hsde : forall z z' s s', sde_name z ++ "-" ++ s = sde_name z' ++ "-" ++ s' -> z = z' /\ s = s').
  { intros z z' s s' E. destruct z, z'; cbn in E; try discriminate E; injection E as ->; auto. }
  assert (Htask : i_task r = i_task r' /\ i_data r = i_data r' /\ i_sde r = i_sde r' /\
    (if is_csgm (i_method r) then dec k else dash (dec (i_np r)) (dec k)) ++ "-" ++ x = (if is_csgm (i_method r') then dec k' else dash (dec (i_np r')) (dec k')) ++ "-" ++ y).
  { revert H. generalize (if is_csgm (i_method r) then dec k else dash (dec (i_np r)) (dec k)) as e. generalize (if is_csgm (i_method r') then dec k' else dash (dec (i_np r')) (dec k')) as e'.
    intros e' e H. destruct (i_task r) as [s|q rm], (i_task r') as [s'|q' rm']; cbn [task_dir task_text] in H; try discriminate H; apply append_cancel in H; apply append_cancel in H.
    - unfold dash in H. rewrite !append_assoc in H. apply Hdata in H as [Hd H]; auto. apply dash_left in H as [Hz H]; auto. apply dec_inj in Hz. apply Hsde in H as [Hs H]. subst. auto.
    - unfold dash in H. rewrite !append_assoc in H. apply Hdata in H as [Hd H]; auto.
      assert (Hz : q = q' /\ rm = rm' /\ sde_name (i_sde r) ++ "-" ++ e ++ "-" ++ x = sde_name (i_sde r') ++ "-" ++ e' ++ "-" ++ y).
      { destruct rm, rm'; cbn [flag] in H; rewrite ?append_assoc in H; apply (dash_left (dec q) (dec q')) in H as [Hz H]; auto; apply dec_inj in Hz.
        - injection H as H. auto.
        - exfalso. destruct (i_sde r'); discriminate H.
        - exfalso. destruct (i_sde r); discriminate H.
        - auto. }
      destruct Hz as (-> & -> & Hz). apply Hsde in Hz as [Hs Hz]. auto. }
  destruct Htask as (Ht & Hd & Hs & He). apply slot_inj in He as (H1 & H2 & H3 & H4); auto. repeat split; auto.
Qed.

Lemma letter_app s t : letter s -> letter (s ++ t).
Proof. destruct s; [contradiction|exact (fun H => H)]. Qed.
Lemma method_letter m : letter (method_text m).
Proof. destruct m as [mg|eb ef mg|de| |]; reflexivity. Qed.
Lemma method_text_inj m m' : method_text m = method_text m' -> m = m'.
Proof.
  destruct m as [mg|eb ef mg|de| |], m' as [mg'|eb' ef' mg'|de'| |]; intros H; try discriminate H; try reflexivity.
  - destruct mg, mg'; try discriminate H; reflexivity.
  - destruct eb, ef, mg, eb', ef', mg'; try discriminate H; reflexivity.
  - cbn in H. now injection H as ->.
Qed.
Lemma img_arr_eq r r' k k' : img_arr r k = img_arr r' k' <-> img_same r r' /\ i_method r = i_method r' /\ k = k'.
Proof.
  unfold img_arr. split.
  - intros H. apply head_inj in H as (H1 & H2 & H3); [|apply letter_app, method_letter..]. apply append_right_cancel, method_text_inj in H3. auto.
  - intros ((H1 & H2 & H3 & H4 & H5) & Hm & ->). rewrite Hm. unfold img_head. rewrite H1, H2, H3, H4. destruct (is_csgm (i_method r')) eqn:E; [reflexivity|]. destruct H5 as [H5|H5]; [congruence|now rewrite H5].
Qed.
Lemma img_true_eq r r' k k' : img_true r k = img_true r' k' <-> img_same r r' /\ k = k'.
Proof.
  unfold img_true. split.
  - intros H. apply (head_inj r r' k k' "true.npz" "true.npz") in H as (H1 & H2 & _); auto; reflexivity.
  - intros ((H1 & H2 & H3 & H4 & H5) & ->). unfold img_head. rewrite H1, H2, H3, H4. destruct (is_csgm (i_method r')) eqn:E; [reflexivity|]. destruct H5 as [H5|H5]; [congruence|now rewrite H5].
Qed.
Lemma arr_not_true r r' k k' : img_arr r k <> img_true r' k'.
Proof.
  intros H. unfold img_arr, img_true in H. apply (head_inj r r' k k' _ "true.npz") in H as (_ & _ & H); [|apply letter_app, method_letter|reflexivity].
  destruct (i_method r) as [mg|eb ef mg|de| |]; discriminate H.
Qed.
Lemma arr_not_init r r' k k' : img_arr r k <> img_init r' k'.
Proof.
  intros H. unfold img_arr, img_init in H. apply (head_inj r r' k k' _ "gibbs-init.npy") in H as (_ & _ & H); [|apply letter_app, method_letter|reflexivity].
  destruct (i_method r) as [mg|eb ef mg|de| |]; try discriminate H. destruct eb, ef, mg; discriminate H.
Qed.
Lemma true_not_init r r' k k' : img_true r k <> img_init r' k'.
Proof.
  intros H. unfold img_true, img_init in H. apply (head_inj r r' k k' "true.npz" "gibbs-init.npy") in H as (_ & _ & H); [discriminate H|reflexivity..].
Qed.

(** *** the table of the image experiments *)
(** tabulate_imgs.py 37-41 *)
Definition img_rows : list (string * img_method) :=
  [("filter", IFilter false); ("gibbs-eb-ef", IGibbs true true false); ("pmcmc-0.005", IPmcmc "0.005"); ("twisted", ITwisted); ("csgm", ICsgm)].
(** tabulate_imgs.py 51-53 *)
Definition path_head (d : img_data) (t : img_task) (s : img_sde) : string :=
  "./imgs/results_" ++ task_dir t ++ "/arrs/" ++ dash (data_name d) (match t with Inpaint n => dec n | Supr n _ => dec n end)
  ++ (match t with Supr _ rm => flag rm "-rm" | Inpaint _ => "" end) ++ "-" ++ sde_name s ++ "-".
(** tabulate_imgs.py 56 *)
Definition table_true (d : img_data) (t : img_task) (s : img_sde) (i : nat) : string := path_head d t s ++ dec i ++ "-true.npz".
(** tabulate_imgs.py 57-60 *)
Definition table_restored (d : img_data) (t : img_task) (s : img_sde) (np i : nat) (row : string) (csgm : bool) : string :=
  if csgm then path_head d t s ++ dash (dec i) row ++ ".npy" else path_head d t s ++ dash (dash (dec np) (dec i)) row ++ ".npy".

Lemma table_head d t s np k m sd ny st ns nst (r := {| i_data := d; i_task := t; i_sde := s; i_method := m; i_np := np; i_seed := sd; i_ny0s := ny; i_start := st; i_nsamples := ns; i_nsteps := nst |}) :
  img_head r k = path_head d t s ++ (if is_csgm m then dec k else dash (dec np) (dec k)).
Proof.
  unfold img_head, path_head, r. cbn [i_data i_task i_sde i_method i_np]. unfold dash at 1 2 3. rewrite !append_assoc. f_equal. f_equal. f_equal.
  destruct t as [n|n rm]; cbn [task_text]; unfold dash at 2; rewrite !append_assoc; reflexivity.
Qed.
Lemma table_true_file d t s np k sd ny st ns nst :
  table_true d t s k = img_true {| i_data := d; i_task := t; i_sde := s; i_method := ICsgm; i_np := np; i_seed := sd; i_ny0s := ny; i_start := st; i_nsamples := ns; i_nsteps := nst |} k.
Proof. unfold table_true, img_true. rewrite table_head. cbn [is_csgm]. rewrite append_assoc. reflexivity. Qed.
Lemma table_restored_file d t s np k row m sd ny st ns nst : In (row, m) img_rows ->
  table_restored d t s np k row (is_csgm m) = img_arr {| i_data := d; i_task := t; i_sde := s; i_method := m; i_np := np; i_seed := sd; i_ny0s := ny; i_start := st; i_nsamples := ns; i_nsteps := nst |} k.
Proof.
  intros Hin. unfold img_arr. rewrite table_head. cbn [i_method].
  cbn [img_rows In] in Hin. repeat destruct Hin as [Hin|Hin]; try contradiction; apply pair_equal_spec in Hin as [<- <-]; unfold table_restored, dash; cbn [is_csgm]; rewrite !append_assoc; reflexivity.
Qed.

(** everything stored under a name the table reads *)
Lemma img_writes_in r f c : In (f, c) (img_writes r) <-> exists k, (i_start r <= k < i_ny0s r)%nat /\
  ((f = img_true r k /\ c = Truth r k) \/ (f = img_arr r k /\ c = Restored r k) \/ (f = img_init r k /\ c = Init r k /\ exists eb ef mg, i_method r = IGibbs eb ef mg)).
Proof.
  unfold img_writes. rewrite in_flat_map. split.
  - intros (k & Hk & H). apply in_seq in Hk. exists k. split; [lia|]. cbn [In] in H. rewrite in_app_iff in H. cbn [In] in H. destruct H as [H|[H|[H|[]]]].
    + apply pair_equal_spec in H as [<- <-]. auto.
    + destruct (i_method r) as [mg|eb ef mg|de| |]; try contradiction. destruct H as [H|[]]. apply pair_equal_spec in H as [<- <-]. right. right. eauto 6.
    + apply pair_equal_spec in H as [<- <-]. auto.
  - intros (k & Hk & H). exists k. split; [apply in_seq; lia|]. cbn [In]. rewrite in_app_iff. cbn [In]. destruct H as [[-> ->]|[[-> ->]|(-> & -> & eb & ef & mg & ->)]]; cbn [In]; auto.
Qed.

(** whatever was run and in whatever order the files were written: what the table takes as the true image and as
    the restorations of row [m] for image [i] *)
Lemma img_table_reads runs ws d t s np i row m : (forall w, In w ws -> exists r, In r runs /\ In w (img_writes r)) -> In (row, m) img_rows ->
  (forall c, disk_of ws (table_true d t s i) = Some c -> exists r, In r runs /\ c = Truth r i /\ (i_start r <= i < i_ny0s r)%nat /\ i_data r = d /\ i_task r = t /\ i_sde r = s /\ i_method r = ICsgm) /\
  (forall c, disk_of ws (table_restored d t s np i row (is_csgm m)) = Some c -> exists r, In r runs /\ c = Restored r i /\ (i_start r <= i < i_ny0s r)%nat /\ i_data r = d /\ i_task r = t /\ i_sde r = s /\ i_method r = m /\ (m = ICsgm \/ i_np r = np)).
Proof.
  intros Hws Hrow. split.
  - intros c H. apply disk_some in H as (w1 & w2 & E & _). destruct (Hws (table_true d t s i, c)) as (r & Hr & Hw); [rewrite E; apply in_or_app; right; now left|].
    apply img_writes_in in Hw as (k & Hk & Hw). rewrite (table_true_file d t s 0 i 0 0 0 0 0) in Hw. destruct Hw as [[Hf ->]|[[Hf _]|(Hf & _)]].
    + apply img_true_eq in Hf as ((H1 & H2 & H3 & H4 & _) & ->). cbn [i_data i_task i_sde i_method is_csgm] in *. exists r. repeat split; auto; try lia. destruct (i_method r); try discriminate; reflexivity.
    + symmetry in Hf. now apply arr_not_true in Hf.
    + now apply true_not_init in Hf.
  - intros c H. apply disk_some in H as (w1 & w2 & E & _). destruct (Hws (table_restored d t s np i row (is_csgm m), c)) as (r & Hr & Hw); [rewrite E; apply in_or_app; right; now left|].
    apply img_writes_in in Hw as (k & Hk & Hw). rewrite (table_restored_file d t s np i row m 0 0 0 0 0 Hrow) in Hw. destruct Hw as [[Hf _]|[[Hf ->]|(Hf & _)]].
    + now apply arr_not_true in Hf.
    + apply img_arr_eq in Hf as ((H1 & H2 & H3 & H4 & H5) & Hm & ->). cbn [i_data i_task i_sde i_method i_np is_csgm] in *. exists r. repeat split; auto; try lia.
      destruct H5 as [H5|H5]; [left|right; auto]. destruct m; try discriminate; reflexivity.
    + now apply arr_not_init in Hf.
Qed.

(** run_imgs_all.sh 11-20 with bashes/imgs_*.sh: both tasks, five methods, 100 images with test seed 996 *)
Definition img_tasks (d : img_data) : list img_task :=
  match d with Mnist => [Inpaint 15; Supr 4 false] | Celeba 64 => [Inpaint 32; Supr 2 false] | Celeba _ => [Inpaint 64; Supr 2 false] end.
Definition img_job (d : img_data) (np : nat) (t : img_task) (m : img_method) : img_run :=
  {| i_data := d; i_task := t; i_sde := ILin; i_method := m; i_np := np; i_seed := 996; i_ny0s := 100; i_start := 0; i_nsamples := 100; i_nsteps := 1000 |}.
Definition img_jobs (d : img_data) (np : nat) : list img_run :=
  flat_map (fun t => map (img_job d np t) [IFilter false; IGibbs true true false; IPmcmc "0.005"; ITwisted; ICsgm]) (img_tasks d).

(** the jobs run at the same time: the files may be written in any order *)
Lemma img_jobs_table d np ws t row m i : Permutation ws (flat_map img_writes (img_jobs d np)) -> In t (img_tasks d) -> In (row, m) img_rows -> (i < 100)%nat ->
  disk_of ws (table_true d t ILin i) = Some (Truth (img_job d np t ICsgm) i) /\ disk_of ws (table_restored d t ILin np i row (is_csgm m)) = Some (Restored (img_job d np t m) i).
Proof.
  intros HP Ht Hrow Hi.
  assert (Hj : forall m', In m' [IFilter false; IGibbs true true false; IPmcmc "0.005"; ITwisted; ICsgm] -> In (img_job d np t m') (img_jobs d np))
    by (intros m' Hm'; apply in_flat_map; exists t; split; [assumption|now apply in_map]).
  assert (Hm : In m [IFilter false; IGibbs true true false; IPmcmc "0.005"; ITwisted; ICsgm])
    by (cbn [img_rows In] in Hrow; repeat destruct Hrow as [Hrow|Hrow]; try contradiction; apply pair_equal_spec in Hrow as [_ <-]; cbn [In]; auto 9).
  assert (Hall : forall r, In r (img_jobs d np) -> r = img_job d np (i_task r) (i_method r))
    by (intros r Hr; apply in_flat_map in Hr as (t' & _ & Hr); apply in_map_iff in Hr as (m' & <- & _); reflexivity).
  split; apply disk_all_equal.
  - apply (Permutation_in _ (Permutation_sym HP)), in_flat_map. exists (img_job d np t ICsgm). split; [apply Hj; cbn [In]; auto 9|].
    apply img_writes_in. exists i. split; [cbn; lia|]. left. split; [|reflexivity]. apply (table_true_file d t ILin np i 996 100 0 100 1000).
  - intros c' H. apply (Permutation_in _ HP), in_flat_map in H as (r & Hr & H). apply img_writes_in in H as (k & Hk & H). rewrite (table_true_file d t ILin np i 996 100 0 100 1000) in H. destruct H as [[Hf ->]|[[Hf _]|(Hf & _)]].
    + apply img_true_eq in Hf as ((_ & H2 & _ & H4 & _) & ->). cbn [i_task i_method is_csgm] in *. rewrite (Hall r Hr), <- H2. destruct (i_method r); try discriminate; reflexivity.
    + symmetry in Hf. now apply arr_not_true in Hf.
    + now apply true_not_init in Hf.
  - apply (Permutation_in _ (Permutation_sym HP)), in_flat_map. exists (img_job d np t m). split; [now apply Hj|].
    apply img_writes_in. exists i. split; [cbn; lia|]. right. left. split; [|reflexivity]. now apply (table_restored_file d t ILin np i row m 996 100 0 100 1000).
  - intros c' H. apply (Permutation_in _ HP), in_flat_map in H as (r & Hr & H). apply img_writes_in in H as (k & Hk & H). rewrite (table_restored_file d t ILin np i row m 996 100 0 100 1000 Hrow) in H. destruct H as [[Hf _]|[[Hf ->]|(Hf & _)]].
    + now apply arr_not_true in Hf.
    + apply img_arr_eq in Hf as ((_ & H2 & _) & H4 & ->). cbn [i_task i_method] in *. rewrite (Hall r Hr), <- H2, <- H4. reflexivity.
    + now apply arr_not_init in Hf.
Qed.

(** ** The test image behind a stored array: image [k] of a run (Restore.test_script) *)
Definition image_key (r : img_run) (k : nat) (dk : key) : Prop := exists nd ks, In (k, dk, ks) (test_script (i_seed r) nd (i_ny0s r) (i_start r)).

(** ** Options in the method name *)
(** [method.split('-')] *)
Fixpoint split_from (acc s : string) : list string :=
  match s with
  | EmptyString => [acc]
  | String c s' => if Ascii.eqb c "-" then acc :: split_from "" s' else split_from (acc ++ String c "") s'
  end.
Definition split_dash (s : string) : list string := split_from "" s.
(** [a in s] for strings *)
Fixpoint contains (a s : string) : bool := String.prefix a s || match s with EmptyString => false | String _ s' => contains a s' end.
(** imgs/inpainting.py 164-173: the text handed to [float], and the two flags *)
Definition delta_text (method : string) : option string :=
  if contains "pmcmc" method then match split_dash method with [_] => None | ws => Some (last ws "") end else None.
Definition parse_gibbs (method : string) : bool * bool := if contains "gibbs" method then (contains "eb" method, contains "ef" method) else (true, true).

Lemma split_from_no_dash s : forall acc, no_dash s = true -> split_from acc s = [acc ++ s].
Proof.
  induction s as [|c s IH]; intros acc H; cbn in *.
  - f_equal. induction acc as [|a acc IHa]; cbn; congruence.
  - apply andb_prop in H as [Hc H]. destruct (Ascii.eqb c "-"); [discriminate|]. rewrite IH, append_assoc by assumption. reflexivity.
Qed.
Lemma delta_read x : no_dash x = true -> delta_text ("pmcmc-" ++ x) = Some x.
Proof. intros H. unfold delta_text. cbn. now rewrite split_from_no_dash. Qed.
Lemma delta_misread a b : no_dash a = true -> no_dash b = true -> delta_text ("pmcmc-" ++ a ++ "-" ++ b) = Some b.
Proof.
  intros Ha Hb. unfold delta_text. cbn. assert (E : forall acc, split_from acc (a ++ String "-" b) = [acc ++ a; b]).
  { induction a as [|c a IH]; intros acc; cbn in *.
    - rewrite split_from_no_dash by assumption. f_equal. induction acc as [|x acc IHa]; cbn; [reflexivity|]. f_equal. exact IHa.
    - apply andb_prop in Ha as [Hc Ha]. destruct (Ascii.eqb c "-"); [discriminate|]. rewrite (IH Ha), append_assoc. reflexivity. }
  now rewrite E.
Qed.
Lemma gibbs_read eb ef : parse_gibbs ("gibbs" ++ flag eb "-eb" ++ flag ef "-ef") = (eb, ef).
Proof. destruct eb, ef; reflexivity. Qed.

(** ** The bridge images: sb_imgs/supr.py 218-251 *)
Record sbi_run := { b_gibbs : bool; b_y0 : nat; b_np : nat }.
Inductive x0_kind := Random | Blank | Interp.
Definition x0_name (x : x0_kind) : string := match x with Random => "random" | Blank => "blank" | Interp => "interp" end.
Inductive sbi_content := SInit (r : sbi_run) (x : x0_kind) | SChain (r : sbi_run) (x : x0_kind).
Definition sbi_head (r : sbi_run) : string := "./sb_imgs/results/mnist-4-lin" ++ "-" ++ dash (dec (b_np r)) (dec (b_y0 r)).
Definition sbi_init (r : sbi_run) : string := sbi_head r ++ "-gibbs-init.npy".
Definition sbi_arr (r : sbi_run) (x : x0_kind) : string := sbi_head r ++ (if b_gibbs r then "-gibbs-eb-ef-" else "-filter-") ++ x0_name x ++ ".npy".
Definition sbi_writes (r : sbi_run) : list (string * sbi_content) :=
  flat_map (fun x => ((if b_gibbs r then [(sbi_init r, SInit r x)] else []) ++ [(sbi_arr r x, SChain r x)])%list) [Random; Blank; Interp].
(** one start is kept: that of the last kind *)
Lemma sbi_init_kept r : b_gibbs r = true -> disk_of (sbi_writes r) (sbi_init r) = Some (SInit r Interp) /\ disk_of (sbi_writes r) (sbi_arr r Blank) = Some (SChain r Blank).
Proof.
  intros H. assert (A : forall x, sbi_arr r x <> sbi_init r) by (intros x E; unfold sbi_arr, sbi_init in E; rewrite H in E; apply append_cancel in E; destruct x; discriminate E).
  assert (B : forall x y, sbi_arr r x = sbi_arr r y -> x = y) by (intros x y E; unfold sbi_arr in E; rewrite H in E; apply append_cancel in E; destruct x, y; try discriminate E; reflexivity).
  unfold sbi_writes. rewrite H. cbn [flat_map app]. split; apply disk_some.
  - exists [(sbi_init r, SInit r Random); (sbi_arr r Random, SChain r Random); (sbi_init r, SInit r Blank); (sbi_arr r Blank, SChain r Blank)], [(sbi_arr r Interp, SChain r Interp)].
    split; [reflexivity|]. repeat constructor. cbn [fst]. apply A.
  - exists [(sbi_init r, SInit r Random); (sbi_arr r Random, SChain r Random); (sbi_init r, SInit r Blank)], [(sbi_init r, SInit r Interp); (sbi_arr r Interp, SChain r Interp)].
    split; [reflexivity|]. repeat constructor; cbn [fst]; [intros E; symmetry in E; now apply A in E|intros E; apply B in E; discriminate].
Qed.
