(** The names of the result files: what the experiment scripts write and what the table and plot scripts read. *)
From Coq Require Import String Ascii DecimalString DecimalNat List Lia Bool PeanoNat.
Import ListNotations.
Local Open Scope string_scope.

(** ** Strings: f-strings of the scripts *)
(** an integer in an f-string (the options are natural numbers here; a negative id would print a sign) *)
Definition dec (n : nat) : string := NilZero.string_of_uint (Nat.to_uint n).
(** ["{a}-{b}"] *)
Definition dash (a b : string) : string := a ++ "-" ++ b.
Definition flag (b : bool) (s : string) : string := if b then s else "".
Fixpoint no_dash (s : string) : bool :=
  match s with EmptyString => true | String c s' => negb (Ascii.eqb c "-") && no_dash s' end.

Lemma append_assoc a b c : (a ++ b) ++ c = a ++ (b ++ c).
Proof. induction a as [|x a IH]; cbn; [reflexivity|now rewrite IH]. Qed.
Lemma append_cancel a b c : a ++ b = a ++ c -> b = c.
Proof. induction a as [|x a IH]; cbn; intros H; [assumption|]. injection H as H. auto. Qed.
Lemma dash_left a b x y : no_dash a = true -> no_dash b = true -> a ++ "-" ++ x = b ++ "-" ++ y -> a = b /\ x = y.
Proof.
  revert b. induction a as [|c a IH]; intros [|c' b] Ha Hb H; cbn in *.
  - split; [reflexivity|]. now injection H.
  - injection H as Hc _. subst c'. cbn in Hb. discriminate.
  - injection H as Hc _. subst c. cbn in Ha. discriminate.
  - injection H as Hc H. apply andb_prop in Ha as [_ Ha]. apply andb_prop in Hb as [_ Hb]. destruct (IH b Ha Hb H). now subst.
Qed.
Lemma last_no_dash a : no_dash (a ++ "-") = false.
Proof. induction a as [|c a IH]; cbn; [reflexivity|]. rewrite IH. apply andb_false_r. Qed.
Lemma no_dash_app a b : no_dash (a ++ b) = no_dash a && no_dash b.
Proof. induction a as [|c a IH]; cbn; [reflexivity|]. now rewrite IH, andb_assoc. Qed.
Lemma append_eq_app a b x y : a ++ x = b ++ y -> (exists l, a = b ++ l /\ y = l ++ x) \/ (exists l, b = a ++ l /\ x = l ++ y).
Proof.
  revert b. induction a as [|c a IH]; intros b H; cbn in H; [right; exists b; now split|].
  destruct b as [|c' b]; cbn in H; [left; exists (String c a); now split|].
  injection H as -> H. destruct (IH b H) as [(l & -> & ->)|(l & -> & ->)]; [left|right]; exists l; now split.
Qed.
Lemma dash_right a b x y : no_dash x = true -> no_dash y = true -> dash a x = dash b y -> a = b /\ x = y.
Proof.
  unfold dash. intros Hx Hy H. destruct (append_eq_app _ _ _ _ H) as [(l & -> & E)|(l & -> & E)].
  - destruct l as [|c l]; [cbn in E; injection E as ->; split; [|reflexivity]; clear; induction b as [|c b IH]; cbn; congruence|].
    exfalso. cbn in E. injection E as _ ->. rewrite no_dash_app in Hy. cbn in Hy. rewrite andb_false_r in Hy. discriminate.
  - destruct l as [|c l]; [cbn in E; injection E as ->; split; [|reflexivity]; clear; induction a as [|c a IH]; cbn; congruence|].
    exfalso. cbn in E. injection E as _ ->. rewrite no_dash_app in Hx. cbn in Hx. rewrite andb_false_r in Hx. discriminate.
Qed.
Lemma append_right_cancel a b c : a ++ c = b ++ c -> a = b.
Proof.
  intros H. assert (L : forall s t : string, String.length (s ++ t) = String.length s + String.length t) by (induction s as [|? s IH]; intros t; cbn; [reflexivity|now rewrite IH]).
  destruct (append_eq_app _ _ _ _ H) as [(l & -> & E)|(l & -> & E)]; (assert (l = "") as ->;
    [apply (f_equal String.length) in E; rewrite L in E; destruct l; [reflexivity|cbn in E; lia]|]); clear; [induction b as [|? ? IH]|induction a as [|? ? IH]]; cbn; congruence.
Qed.

(** decimals *)
Definition digit (c : ascii) : bool := ((48 <=? nat_of_ascii c) && (nat_of_ascii c <=? 57))%nat.
Fixpoint digits (s : string) : bool := match s with EmptyString => true | String c s' => digit c && digits s' end.
Lemma digits_no_dash s : digits s = true -> no_dash s = true.
Proof.
  induction s as [|c s IH]; cbn; [easy|]. intros H. apply andb_prop in H as [Hc H]. rewrite (IH H), andb_true_r.
  destruct (Ascii.eqb_spec c "-") as [->|]; [discriminate|reflexivity].
Qed.
Lemma dec_digits n : digits (dec n) = true /\ dec n <> "".
Proof.
  unfold dec. generalize (Nat.to_uint n) as u. intros u. split.
  - destruct u; try reflexivity; cbn [NilZero.string_of_uint]; generalize dependent u; intros u; cbn; induction u; cbn in *; auto.
  - destruct u; discriminate.
Qed.
Lemma dec_no_dash n : no_dash (dec n) = true.
Proof. apply digits_no_dash, dec_digits. Qed.
Lemma to_uint_nonnil n : Nat.to_uint n <> Decimal.Nil.
Proof. intros H. assert (E := Unsigned.of_to n). rewrite H in E. cbn in E. subst n. discriminate H. Qed.
Lemma dec_inj n m : dec n = dec m -> n = m.
Proof.
  unfold dec. intros H. apply Unsigned.to_uint_inj.
  assert (Hn := NilZero.usu (Nat.to_uint n) (to_uint_nonnil n)). assert (Hm := NilZero.usu (Nat.to_uint m) (to_uint_nonnil m)). congruence.
Qed.

(** ** Files on disk: the last write counts *)
Section disk.
Context {C : Type}.
Definition disk := string -> option C.
Definition save (d : disk) (f : string) (c : C) : disk := fun g => if String.eqb f g then Some c else d g.
Definition disk_of (writes : list (string * C)) : disk := fold_left (fun d w => save d (fst w) (snd w)) writes (fun _ => None).

Lemma disk_of_snoc ws w : disk_of (ws ++ [w]) = save (disk_of ws) (fst w) (snd w).
Proof. unfold disk_of. now rewrite fold_left_app. Qed.
Lemma disk_some ws f c : disk_of ws f = Some c <-> exists w1 w2, ws = (w1 ++ (f, c) :: w2)%list /\ Forall (fun w => fst w <> f) w2.
Proof.
  induction ws as [|w ws IH] using rev_ind.
  - split; [discriminate|]. intros (w1 & w2 & E & _). destruct w1; discriminate.
  - rewrite disk_of_snoc. unfold save. destruct w as [g c']. cbn [fst snd]. destruct (String.eqb_spec g f) as [->|N].
    + split.
      * intros E. injection E as ->. exists ws, []. now split.
      * intros (w1 & w2 & E & H). destruct w2 as [|w w2 _] using rev_ind.
        -- apply app_inj_tail in E as [_ E]. now injection E as ->.
        -- rewrite app_comm_cons, app_assoc in E. apply app_inj_tail in E as [_ <-]. apply Forall_app in H as [_ H]. inversion H as [|? ? Hf]. now contradiction Hf.
    + rewrite IH. split; intros (w1 & w2 & E & H).
      * exists w1, (w2 ++ [(g, c')])%list. split; [now rewrite E, <- app_assoc|]. apply Forall_app. now split; [|repeat constructor].
      * destruct w2 as [|w w2 _] using rev_ind; [apply app_inj_tail in E as [_ E]; congruence|].
        rewrite app_comm_cons, app_assoc in E. apply app_inj_tail in E as [E _]. exists w1, w2. split; [assumption|]. now apply Forall_app in H.
Qed.
Lemma disk_none ws f : disk_of ws f = None <-> Forall (fun w => fst w <> f) ws.
Proof.
  induction ws as [|w ws IH] using rev_ind; [split; constructor|]. rewrite disk_of_snoc, Forall_app. unfold save.
  destruct (String.eqb_spec (fst w) f) as [E|N].
  - split; [discriminate|]. intros [_ H]. inversion H as [|? ? Hf]. now contradiction Hf.
  - rewrite IH. split; [intros H; split; [assumption|now repeat constructor]|now intros [H _]].
Qed.
(** whatever the order of the writes, if all writes to [f] have content [c] then so has the file *)
Lemma disk_all_equal ws f c : In (f, c) ws -> (forall c', In (f, c') ws -> c' = c) -> disk_of ws f = Some c.
Proof.
  intros H Hu. destruct (disk_of ws f) as [c'|] eqn:E.
  - apply disk_some in E as (w1 & w2 & -> & _). f_equal. apply Hu, in_or_app. right. now left.
  - apply disk_none in E. rewrite Forall_forall in E. now contradiction (E _ H).
Qed.
End disk.
Arguments disk : clear implicits.

(** ** The synthetic experiments *)
Inductive toy_method := TFilter | TTwisted | TPmcmc (delta : string) | TGibbs (eb ef marg : bool) | TCsgm.
(** the options of toy/gp_*.py; [delta] is the text Python prints for the float *)
Record toy_run := { t_method : toy_method; t_sde : string; t_np : nat; t_id : nat; t_d : nat; t_nsamples : nat; t_nchains : nat }.
(** toy/gp_filter.py 153, gp_twisted.py 151, gp_pmcmc.py 182, gp_gibbs.py 193-194, gp_csgm.py 118; [np.savez] adds the ending *)
Definition toy_stem (r : toy_run) : string :=
  match t_method r with
  | TFilter => dash (dash (dash "filter" (t_sde r)) (dec (t_np r))) (dec (t_id r))
  | TTwisted => dash (dash (dash "twisted" (t_sde r)) (dec (t_np r))) (dec (t_id r))
  | TPmcmc delta => dash (dash (dash (dash "pmcmc" delta) (t_sde r)) (dec (t_np r))) (dec (t_id r))
  | TGibbs eb ef marg => dash (dash (dash ("gibbs" ++ flag eb "-eb" ++ flag ef "-ef" ++ flag marg "-marg") (t_sde r)) (dec (t_np r))) (dec (t_id r))
  | TCsgm => dash (dash "csgm" (t_sde r)) (dec (t_id r))
  end.
Definition toy_file (r : toy_run) : string := "./toy/results/" ++ toy_stem r ++ ".npz".

(** what the name tells *)
Definition toy_same (r r' : toy_run) : Prop :=
  t_method r = t_method r' /\ t_sde r = t_sde r' /\ t_id r = t_id r' /\ (t_method r = TCsgm \/ t_np r = t_np r').

Lemma toy_file_eq r r' : no_dash (t_sde r) = true -> no_dash (t_sde r') = true -> (toy_file r = toy_file r' <-> toy_same r r').
Proof.
  intros Hs Hs'. unfold toy_file, toy_same. split.
  - intros H. apply append_cancel, append_right_cancel in H. unfold toy_stem in H.
    assert (ND := dec_no_dash).
    destruct (t_method r) as [| |de|eb ef mg|], (t_method r') as [| |de'|eb' ef' mg'|];
      apply dash_right in H as [H Hid]; auto; apply dec_inj in Hid; apply dash_right in H as [H Hnp]; auto; try discriminate;
      try (apply dash_right in H as [H Hsd]; auto; try discriminate; apply dec_inj in Hnp).
    + repeat split; auto.
    + repeat split; auto.
    + apply append_cancel in H. cbn in H. injection H as ->. repeat split; auto.
    + assert (eb = eb' /\ ef = ef' /\ mg = mg') as (-> & -> & ->) by (destruct eb, ef, mg, eb', ef', mg'; try discriminate H; auto). repeat split; auto.
  - intros (Hm & Hsd & Hid & Hnp). f_equal. f_equal. unfold toy_stem. rewrite Hm, Hsd, Hid.
    destruct Hnp as [Hc|Hnp]; [rewrite <- Hm, Hc|rewrite Hnp]; reflexivity.
Qed.

(** the history of a results folder: a run stores its results when it ends *)
Definition toy_disk {C} (result : toy_run -> C) (runs : list toy_run) : disk C := disk_of (map (fun r => (toy_file r, result r)) runs).

(** tabulate_toy.py 18-23 with the runs they stand for *)
Definition toy_rows (sde : string) (np : nat) : list (string * toy_method) :=
  [(dash (dash "filter" sde) (dec np), TFilter);
   (dash (dash "gibbs-eb" sde) (dec np), TGibbs true false false);
   (dash (dash "pmcmc-0.005" sde) (dec np), TPmcmc "0.005");
   (dash (dash "pmcmc-0.001" sde) (dec np), TPmcmc "0.001");
   (dash (dash "twisted" sde) (dec np), TTwisted);
   (dash "csgm" sde, TCsgm)].
(** tabulate_toy.py 38 *)
Definition table_file (row : string) (mc_id : nat) : string := "./toy/results/" ++ dash row (dec mc_id) ++ ".npz".
Definition toy_setting (m : toy_method) (sde : string) (np id : nat) (r : toy_run) : Prop :=
  t_method r = m /\ t_sde r = sde /\ t_id r = id /\ (m = TCsgm \/ t_np r = np).

Lemma toy_row_file sde np row m id r : no_dash sde = true -> no_dash (t_sde r) = true -> In (row, m) (toy_rows sde np) ->
  (toy_file r = table_file row id <-> toy_setting m sde np id r).
Proof.
  intros Hs Hr Hin.
  assert (E : table_file row id = toy_file {| t_method := m; t_sde := sde; t_np := np; t_id := id; t_d := 0; t_nsamples := 0; t_nchains := 0 |}).
  { cbn [toy_rows In] in Hin. repeat destruct Hin as [Hin|Hin]; try contradiction; injection Hin as <- <-; unfold table_file, toy_file, toy_stem; cbn; unfold dash; rewrite ?append_assoc; reflexivity. }
  rewrite E, toy_file_eq by assumption. unfold toy_same, toy_setting. cbn [t_method t_sde t_np t_id]. split; (intros (H1 & H2 & H3 & H4); repeat split; auto); destruct H4 as [H4|H4]; auto; left; congruence.
Qed.

Lemma toy_table_reads {C} (result : toy_run -> C) runs sde np row m id c : no_dash sde = true -> Forall (fun r => no_dash (t_sde r) = true) runs -> In (row, m) (toy_rows sde np) ->
  (toy_disk result runs (table_file row id) = Some c <->
   exists l1 r l2, runs = (l1 ++ r :: l2)%list /\ toy_setting m sde np id r /\ Forall (fun r' => ~ toy_setting m sde np id r') l2 /\ c = result r).
Proof.
  intros Hs HF Hin. unfold toy_disk. rewrite disk_some. split.
  - intros (w1 & w2 & E & H). apply map_eq_app in E as (l1 & l2' & -> & <- & E). apply map_eq_cons in E as (r & l2 & -> & E & <-). apply pair_equal_spec in E as [E <-].
    apply Forall_app in HF as [_ HF]. inversion HF as [|? ? Hr HF2]. subst. exists l1, r, l2. split; [reflexivity|]. split; [apply (toy_row_file sde np row m id r); [assumption|assumption|assumption|assumption]|]. split; [|reflexivity].
    rewrite Forall_map in H. rewrite Forall_forall in *. intros r' Hr' HS. apply (H r' Hr'). cbn [fst]. apply (toy_row_file sde np row m id r'); auto.
  - intros (l1 & r & l2 & -> & HS & H & ->). apply Forall_app in HF as [_ HF]. inversion HF as [|? ? Hr HF2]. subst.
    apply (toy_row_file sde np row m id r) in HS; auto. exists (map (fun r => (toy_file r, result r)) l1), (map (fun r => (toy_file r, result r)) l2).
    split; [rewrite map_app; cbn [map]; now rewrite HS|]. rewrite Forall_map. rewrite Forall_forall in *. intros r' Hr' E. cbn [fst] in E. apply (H r' Hr'). apply (toy_row_file sde np row m id r'); auto.
Qed.

(** run_toy_all.sh 7-19 and run_toy_all_local.sh with the loops of bashes/toy_*.sh: 100 ids, d=100, 10000 samples *)
Definition toy_jobs (np : nat) (sde : string) : list toy_run :=
  flat_map (fun m => map (fun id => {| t_method := m; t_sde := sde; t_np := np; t_id := id; t_d := 100; t_nsamples := 10000; t_nchains := 4 |}) (seq 0 100))
    [TFilter; TGibbs true false false; TPmcmc "0.005"; TTwisted; TCsgm].
Lemma toy_jobs_in np sde r : In r (toy_jobs np sde) <->
  In (t_method r) [TFilter; TGibbs true false false; TPmcmc "0.005"; TTwisted; TCsgm] /\ (t_id r < 100)%nat /\
  r = {| t_method := t_method r; t_sde := sde; t_np := np; t_id := t_id r; t_d := 100; t_nsamples := 10000; t_nchains := 4 |}.
Proof.
  unfold toy_jobs. rewrite in_flat_map. split.
  - intros (m & Hm & H). apply in_map_iff in H as (id & <- & Hid). apply in_seq in Hid. cbn [t_method t_id]. split; [assumption|]. split; [lia|reflexivity].
  - intros (Hm & Hid & E). exists (t_method r). split; [assumption|]. apply in_map_iff. exists (t_id r). split; [now symmetry|]. apply in_seq. lia.
Qed.
