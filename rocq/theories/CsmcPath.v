(** The law of the path returned by the tracing kernel, written along lineages: it does not depend on the reference
    indices, and every reference gives mass to every path. *)
From Coq Require Import Permutation FunctionalExtensionality.
From Verif Require Export CsmcExch.
From Verif Require Import ResVariance.
Open Scope R_scope.

(** ** Lineages *)
Section lineage.
Context {U : Type} (udef : U).
Definition ext_paths (ps : list (list U)) (A : list nat) (us : list U) : list (list U) :=
  map (fun pu => fst pu ++ [snd pu]) (combine (gather [] ps A) us).
Fixpoint lineage (ps : list (list U)) (out : list (list R * list nat * list U)) : list (list U) :=
  match out with [] => ps | (_, A, us) :: out' => lineage (ext_paths ps A us) out' end.

Lemma lineage_snoc out : forall ps lw A us, lineage ps (out ++ [(lw, A, us)]) = ext_paths (lineage ps out) A us.
Proof. induction out as [|[[lw' A'] us'] out IH]; intros; [reflexivity|]. cbn [app lineage]. apply IH. Qed.

Lemma nth_ext_paths ps A us B : (B < length A)%nat -> length us = length A ->
  nth B (ext_paths ps A us) [] = nth (nth B A 0%nat) ps [] ++ [nth B us udef].
Proof.
  intros HB Hl. unfold ext_paths. rewrite (nth_indep _ [] ((fun pu : list U * U => fst pu ++ [snd pu]) ([], udef))) by (rewrite map_length, combine_length, length_gather; lia).
  rewrite (map_nth (fun pu : list U * U => fst pu ++ [snd pu])), combine_nth by (rewrite length_gather; lia). cbn [fst snd].
  now rewrite gather_nth by assumption.
Qed.

Definition outs_ok (N : nat) (out : list (list R * list nat * list U)) : Prop :=
  Forall (fun o => valid_indices N (snd (fst o)) /\ length (snd o) = N) out.

Lemma last_indep {A} (l : list A) d d' : l <> [] -> last l d = last l d'.
Proof.
  induction l as [|a l IH]; [easy|]. intros _. destruct l as [|b l]; [reflexivity|].
  change (last (b :: l) d = last (b :: l) d'). now apply IH.
Qed.
Lemma rev_removelast_cons {A} (a : A) l x : rev (removelast (a :: l ++ [x])) = last (a :: l) a :: rev (removelast (a :: l)).
Proof.
  replace (a :: l ++ [x]) with ((a :: l) ++ [x]) by reflexivity. rewrite removelast_last.
  rewrite (rev_last_removelast (a :: l) a) by discriminate. reflexivity.
Qed.

Lemma trace_lineage N us0 out : length us0 = N -> outs_ok N out -> forall B lws, (B < N)%nat ->
  fst (trace_of udef (map (fun o => snd (fst o)) out, lws, us0 :: map snd out) B) = nth B (lineage (map (fun u => [u]) us0) out) [].
Proof.
  intros H0. induction out as [|[[lw A] us] out IH] using rev_ind; intros Hok B lws HB.
  - cbn. rewrite (nth_indep _ [] [udef]) by (rewrite map_length; lia). now rewrite (map_nth (fun u => [u]) us0 udef).
  - apply Forall_app in Hok. destruct Hok as [Hok Ho]. apply Forall_inv in Ho. cbn [fst snd] in Ho. destruct Ho as [[HA1 HA2] Hu].
    assert (HB' : (nth B A 0%nat < N)%nat) by (rewrite Forall_forall in HA2; apply HA2, nth_In; lia).
    specialize (IH Hok (nth B A 0%nat) lws HB'). rewrite lineage_snoc, nth_ext_paths by lia. rewrite <- IH. clear IH.
    unfold trace_of. rewrite !map_app. cbn [map fst snd]. rewrite rev_removelast_cons, rev_app_distr. cbn [rev app combine trace_back].
    assert (Hl1 : last (us0 :: map snd out ++ [us]) [] = us) by (replace (us0 :: map snd out ++ [us]) with ((us0 :: map snd out) ++ [us]) by reflexivity; apply last_last).
    rewrite Hl1. cbn [map fst rev]. f_equal.
    replace (last (us0 :: map snd out) us0) with (last (us0 :: map snd out) []) by (apply last_indep; discriminate). reflexivity.
Qed.
End lineage.

(** a batch of independent moves, as a law on tagged children *)
Lemma E_dseq_tag {A B C} (d : A -> dist B) (mk : A * B -> C) qs F :
  E (dseq (map d qs)) (fun us => F (map mk (combine qs us))) = E (dseq (map (fun q => dmap (fun u => mk (q, u)) (d q)) qs)) F.
Proof.
  revert F. induction qs as [|q qs IH]; intros F; [reflexivity|]. cbn [map]. rewrite !E_dseq_cons, E_dmap.
  apply E_ext'. intros u. cbn [combine map]. now rewrite <- (IH (fun l => F (mk (q, u) :: l))).
Qed.

Lemma rm_combine {A B} b (l : list A) (l' : list B) : rm b (combine l l') = combine (rm b l) (rm b l') \/ length l <> length l'.
Proof.
  destruct (Nat.eq_dec (length l) (length l')) as [H|H]; [left|now right]. revert l l' H.
  induction b as [|b IH]; intros [|x l] [|y l'] H; try discriminate; try reflexivity. cbn [combine]. rewrite !rm_S. cbn [combine].
  f_equal. apply IH. now injection H.
Qed.

Section kernel_law.
Context {U V : Type} (udef : U) (vdef : V).
Variable init_sampler : key -> nat -> prog (list U).
Variable init_likelihood_logpdf : V -> list U -> V -> list R.
Variable transition_sampler : list U -> V -> R -> key -> prog (list U).
Variable transition_logpdf : U -> list U -> V -> R -> list R.
Variable likelihood_logpdf : V -> list U -> V -> R -> list R.
Variable cond_resampling : key -> list R -> nat -> nat -> bool -> prog (list nat).
Variable m0 : dist U.
Variable lG0 : V -> V -> U -> R.
Variable M : V -> R -> U -> dist U.
Variable lg : V -> V -> R -> U -> R.
Variable r : list R -> dist (list nat).
Hypothesis Hmo : model_ok init_sampler init_likelihood_logpdf transition_sampler likelihood_logpdf cond_resampling m0 lG0 M lg r.
Variable N : nat.
Hypothesis HN : (0 < N)%nat.
Hypothesis Hsh : shapes_ok init_sampler init_likelihood_logpdf transition_sampler transition_logpdf likelihood_logpdf cond_resampling.
Variable Phi : forall X, R * X -> list (R * X) -> (X -> list X -> R) -> R.
Variable kappa : nat -> R.
Hypothesis HPhi : phi_law cond_resampling Phi.
Hypothesis Hx : exch_scheme Phi kappa.

Let Htrans := mo_trans _ _ _ _ _ _ _ _ _ _ Hmo.
Let Hlik := mo_lik _ _ _ _ _ _ _ _ _ _ Hmo.
Let HM := mo_M _ _ _ _ _ _ _ _ _ _ Hmo.
Let Hm0 := mo_m0 _ _ _ _ _ _ _ _ _ _ Hmo.
Let Hinit := mo_init _ _ _ _ _ _ _ _ _ _ Hmo.
Let Hinitll := mo_initll _ _ _ _ _ _ _ _ _ _ Hmo.

Notation scan := (scan_forward udef transition_sampler likelihood_logpdf cond_resampling).
Notation fwd := (forward_pass udef vdef init_sampler init_likelihood_logpdf transition_sampler likelihood_logpdf cond_resampling).
Notation kernel := (csmc_kernel udef vdef init_sampler init_likelihood_logpdf transition_sampler transition_logpdf likelihood_logpdf cond_resampling).

(** expectation of the final value [fin] when the reference has the weighted path [ref], the others [rest] *)
Definition pot (v vp : V) (t : R) (p : list U) : R := exp (lg v vp t (last p udef)).
Definition total (v vp : V) (t : R) (ps : list (list U)) : R := Rsum (map (pot v vp t) ps).
Definition child (v vp : V) (t S : R) (qu : list U * U) : R * list U := (pot v vp t (fst qu) / S, fst qu ++ [snd qu]).
Definition kids (v vp : V) (t S : R) (q : list U) : dist (R * list U) := dmap (fun u => child v vp t S (q, u)) (M vp t (last q udef)).

Fixpoint path_value (fin : R * list U -> list (R * list U) -> R) (sd : list (V * V * R)) (refs : list U) (ref : R * list U) (rest : list (R * list U)) : R :=
  match sd, refs with
  | (v, vp, t) :: sd', u' :: refs' =>
      Phi (list U) ref rest (fun p ps =>
        let S := total v vp t (p :: ps) in
        E (dseq (map (kids v vp t S) ps)) (path_value fin sd' refs' (child v vp t S (p, u'))))
  | _, _ => fin ref rest
  end.
(** the final choice of the tracing kernel: an index from the weights *)
Definition traced (f : list U -> R) (ref : R * list U) (rest : list (R * list U)) : R := E (ref :: rest) f.
Lemma traced_perm f ref : perm_inv (traced f ref).
Proof. intros l l' P. apply E_perm. now constructor. Qed.

Lemma path_value_perm fin sd : (forall ref, perm_inv (fin ref)) -> forall refs ref, perm_inv (path_value fin sd refs ref).
Proof.
  intros H0. induction sd as [|[[v vp] t] sd IH]; intros refs ref; [apply H0|]. destruct refs as [|u' refs]; [apply H0|].
  intros l l' P. cbn [path_value]. apply (xs_perm _ _ Hx); [assumption|].
  intros p ps ps' HP. cbv zeta. assert (HS : total v vp t (p :: ps) = total v vp t (p :: ps')).
  { unfold total. cbn [map Rsum]. now rewrite (Rsum_perm _ _ (Permutation_map _ HP)). }
  rewrite HS. apply E_dseq_perm; [now apply Permutation_map|apply IH].
Qed.
Lemma step_perm fin sd refs v vp t u' p : (forall ref, perm_inv (fin ref)) -> perm_inv (fun ps => let S := total v vp t (p :: ps) in
        E (dseq (map (kids v vp t S) ps)) (path_value fin sd refs (child v vp t S (p, u')))).
Proof.
  intros H0 ps ps' HP. cbv zeta. assert (HS : total v vp t (p :: ps) = total v vp t (p :: ps')).
  { unfold total. cbn [map Rsum]. now rewrite (Rsum_perm _ _ (Permutation_map _ HP)). }
  rewrite HS. apply E_dseq_perm; [now apply Permutation_map|now apply path_value_perm].
Qed.

Lemma exp_normalise ll : ll <> [] -> map exp (normalise_log ll) = map (fun x => exp x / Rsum (map exp ll)) ll.
Proof. intros H. exact (normalise_eq ll H). Qed.

(** the scan *)
Definition final_value (F : list R -> list (list U) -> nat -> R) (fin : R * list U -> list (R * list U) -> R) : Prop :=
  (forall ref, perm_inv (fin ref)) /\
  forall lw ps b, length lw = N -> Rsum (map exp lw) = 1 -> length ps = N -> (b < N)%nat ->
    F lw ps b = fin (nth b (combine (map exp lw) ps) (0, [])) (rm b (combine (map exp lw) ps)).

Lemma traced_final f : final_value (fun lw ps _ => Rsum (map (fun B => exp (nth B lw 0) * f (nth B ps [])) (seq 0 N))) (traced f).
Proof.
  split; [apply traced_perm|]. intros lw ps b Hl Hs Hp Hb. set (l := combine (map exp lw) ps).
  assert (Hll : length l = N) by (unfold l; rewrite combine_length, map_length; lia).
  unfold traced. rewrite (E_perm _ l f) by (apply rm_perm; lia). rewrite <- (E_dcat_zip l [] f), E_dcat, map_length, Hll.
  unfold l. rewrite map_fst_combine, map_snd_combine by (rewrite map_length; lia).
  apply Rsum_map_ext. intros B HB. apply in_seq in HB. rewrite nth_exp by lia. reflexivity.
Qed.

Lemma law_scan_path F fin sd : final_value F fin -> forall k i b refs lw ps,
  length refs = length sd -> length lw = N -> Rsum (map exp lw) = 1 -> length ps = N -> (b < N)%nat -> Forall (fun bu => (fst bu < N)%nat) refs ->
  law (scan k i (mk_inputs sd b refs) lw (map (fun p => last p udef) ps))
    (fun out => F (lastlw lw out) (lineage ps out) (final_idx b refs))
  = path_value fin sd (map snd refs) (nth b (combine (map exp lw) ps) (0, [])) (rm b (combine (map exp lw) ps)).
Proof.
  intros [Hperm HF].
  induction sd as [|[[v vp] t] sd IH]; intros k i b refs lw ps Hrl Hl Hs Hp Hb Hr; destruct refs as [|[b' u'] refs]; try discriminate.
  - cbn [mk_inputs scan_forward law path_value map lineage lastlw]. unfold final_idx. cbn [map last]. now apply HF.
  - cbn [mk_inputs scan_forward]. assert (Hb' := Forall_inv Hr); assert (Hr' := Forall_inv_tail Hr). cbn [fst] in Hb'.
    rewrite law_bind. unfold scan_body. cbn [s_v s_vprev s_t s_b s_bprev s_u].
    rewrite law_bind. set (l := combine (map exp lw) ps).
    assert (Hll : length l = N) by (unfold l; rewrite combine_length, map_length; lia).
    assert (Hfst : map fst l = map exp lw) by (unfold l; apply map_fst_combine; rewrite map_length; lia).
    assert (Hsnd : map snd l = ps) by (unfold l; apply map_snd_combine; rewrite map_length; lia).
    assert (Hw : weights_ok (map exp lw)) by now apply weights_ok_exp.
    cbn [path_value map snd]. set (W := fun (p : list U) (ps0 : list (list U)) => let S := total v vp t (p :: ps0) in
        E (dseq (map (kids v vp t S) ps0)) (path_value fin sd (map snd refs) (child v vp t S (p, u')))).
    pose proof (HPhi (list U) [] l (split_key (split_key k i) 0) b b' W) as HL. rewrite Hfst, Hsnd, Hll in HL.
    rewrite <- HL; [|assumption|assumption|assumption|intros x; now apply step_perm].
    apply (law_ext_safe _ (fun A => valid_indices N A /\ nth b' A 0%nat = b)).
    + rewrite <- (map_length exp lw) in Hl. rewrite <- Hl. apply (sh_res _ _ _ _ _ _ Hsh); [assumption|lia|lia].
    + intros A [[HA1 HA2] HAb]. rewrite law_bind, Htrans. set (Q := gather [] ps A).
      assert (HQl : length Q = N) by (unfold Q; now rewrite length_gather).
      assert (Hus : gather udef (map (fun p => last p udef) ps) A = map (fun p => last p udef) Q).
      { unfold Q, gather. rewrite map_map. apply map_ext_in. intros a Ha. rewrite Forall_forall in HA2. specialize (HA2 a Ha).
        rewrite (nth_indep _ udef ((fun p => last p udef) [])) by (rewrite map_length; lia). apply (map_nth (fun p => last p udef)). }
      rewrite Hus. set (ll := map (lg v vp t) (map (fun p => last p udef) Q)).
      assert (Hlll : length ll = N) by (unfold ll; now rewrite !map_length).
      assert (Hne : ll <> []) by (intros H0; rewrite H0 in Hlll; cbn in Hlll; lia).
      set (S := total v vp t Q). assert (HSll : Rsum (map exp ll) = S).
      { unfold S, total, ll. now rewrite !map_map. }
      assert (HSp : S = total v vp t (nth b' Q [] :: rm b' Q)).
      { unfold S, total. symmetry. apply Rsum_perm, Permutation_map, rm_perm. lia. }
      unfold W. cbv zeta. fold Q. rewrite <- HSp.
      rewrite <- (E_dseq_tag (fun q => M vp t (last q udef)) (child v vp t S)).
      rewrite <- (map_map (fun p => last p udef) (M vp t) (rm b' Q)). rewrite <- rm_map, <- rm_map.
      rewrite <- (E_dseq_rm _ b' (fun us => path_value fin sd (map snd refs) (child v vp t S (nth b' Q [], u')) (map (child v vp t S) (combine (rm b' Q) us)))).
      2:{ apply Forall_map, Forall_forall. intros; apply HM. }
      2:{ rewrite !map_length. lia. }
      apply E_ext. intros us' Hus'. apply dseq_length in Hus'. rewrite !map_length in Hus'. rewrite HQl in Hus'.
      cbn [law]. rewrite law_bind. cbn [law]. rewrite Hlik.
      set (us1 := set_nth b' u' us'). fold ll. set (nl := normalise_log ll).
      set (ps1 := ext_paths ps A us1).
      assert (Hl1 : length us1 = N) by (unfold us1; now rewrite length_set_nth).
      assert (Hp1 : length ps1 = N) by (unfold ps1, ext_paths; rewrite map_length, combine_length, length_gather; lia).
      assert (Hlast : us1 = map (fun p => last p udef) ps1).
      { unfold ps1, ext_paths. fold Q. rewrite map_map. rewrite (map_ext _ snd) by (intros; apply last_last). now rewrite map_snd_combine by lia. }
      specialize (IH k (Datatypes.S i) b' refs nl ps1 ltac:(cbn in Hrl; lia) ltac:(unfold nl; now rewrite length_normalise_log)
        ltac:(unfold nl; now apply normalise_log_sum) Hp1 Hb' Hr').
      rewrite <- Hlast in IH.
      assert (Hcomb : combine (map exp nl) ps1 = map (child v vp t S) (combine Q us1)).
      { unfold nl. rewrite (exp_normalise ll Hne), HSll. unfold ll, ps1, ext_paths. fold Q. rewrite !map_map.
        assert (HQu : length Q = length us1) by lia. revert HQu. generalize us1. generalize Q. clear.
        intros Q'. induction Q' as [|q Q' IHQ]; intros [|u us] H; try discriminate; [reflexivity|]. cbn [map combine]. f_equal. apply IHQ. now injection H. }
      rewrite Hcomb in IH.
      rewrite (nth_indep _ (0, []) (child v vp t S ([], udef))) in IH by (rewrite map_length, combine_length; lia).
      rewrite (map_nth (child v vp t S)), combine_nth in IH by lia. unfold us1 in IH at 2. rewrite nth_set_nth_eq in IH by lia.
      rewrite rm_map in IH. destruct (rm_combine b' Q us1) as [Hrc|Hrc]; [|lia]. rewrite Hrc in IH. unfold us1 in IH at 2. rewrite rm_set_nth in IH.
      rewrite <- IH. reflexivity.
Qed.

(** the kernel *)
Definition first_path (v0 v1 : V) (S : R) (u : U) : R * list U := (exp (lG0 v0 v1 u) / S, [u]).
Definition kernel_value (fin : R * list U -> list (R * list U) -> R) (vs : list V) (ts : list R) (u0 : U) (refs : list U) : R :=
  let v0 := nth 0 vs vdef in let v1 := nth 1 vs vdef in
  E (dseq (repeat m0 (N - 1))) (fun us =>
    let S := Rsum (map (fun u => exp (lG0 v0 v1 u)) (u0 :: us)) in
    path_value fin (step_data vs ts) refs (first_path v0 v1 S u0) (map (first_path v0 v1 S) us)).

(** the paths ending in the last particles *)
Definition paths_of (res : list (list nat) * list (list R) * list (list U)) : list (list U) :=
  lineage (map (fun u => [u]) (nth 0 (snd res) [])) (combine (combine (tl (snd (fst res))) (fst (fst res))) (tl (snd res))).

Lemma law_forward_final F fin k vs ts u0 b0 refs : final_value F fin ->
  length vs = Datatypes.S (length refs) -> length ts = length vs -> (b0 < N)%nat -> Forall (fun bu => (fst bu < N)%nat) refs ->
  law (fwd k (u0 :: map snd refs) (b0 :: map fst refs) vs ts (N - 1)) (fun res => F (last (snd (fst res)) []) (paths_of res) (final_idx b0 refs))
  = kernel_value fin vs ts u0 (map snd refs).
Proof.
  intros HF Hv Ht Hb Hr.
  unfold forward_pass. replace (N - 1 + 1)%nat with N by lia.
  rewrite law_bind, Hinit. cbn [nth]. cbv zeta. unfold kernel_value. cbv zeta.
  set (v0 := nth 0 vs vdef). set (v1 := nth 1 vs vdef).
  replace (repeat m0 (N - 1)) with (rm b0 (repeat m0 N)) by now apply rm_repeat.
  rewrite <- (E_dseq_rm _ b0 (fun us => let S := Rsum (map (fun u => exp (lG0 v0 v1 u)) (u0 :: us)) in
    path_value fin (step_data vs ts) (map snd refs) (first_path v0 v1 S u0) (map (first_path v0 v1 S) us)));
    [|apply Forall_repeat, Hm0|now rewrite repeat_length].
  apply E_ext. intros us Hus. apply dseq_length in Hus. rewrite repeat_length in Hus. cbv zeta.
  rewrite law_bind, Hinitll. rewrite scan_inputs_mk; [|now rewrite !map_length|now rewrite map_length|assumption].
  rewrite combine_fst_snd. cbn [law fst snd nth tl]. set (us0 := set_nth b0 u0 us). set (ll := map (lG0 v0 v1) us0).
  assert (Hl0 : length us0 = N) by (unfold us0; now rewrite length_set_nth).
  assert (Hll : length ll = N) by (unfold ll; now rewrite map_length).
  assert (Hne : ll <> []) by (intros H0; rewrite H0 in Hll; cbn in Hll; lia).
  set (ps := map (fun u => [u]) us0). assert (Hps : us0 = map (fun p => last p udef) ps) by (unfold ps; rewrite map_map; cbn; now rewrite map_id).
  rewrite Hps at 1.
  set (S := Rsum (map (fun u => exp (lG0 v0 v1 u)) (u0 :: rm b0 us))).
  assert (HS : Rsum (map exp ll) = S).
  { unfold S, ll. rewrite map_map. symmetry. apply Rsum_perm, Permutation_map.
    replace u0 with (nth b0 us0 udef) by (unfold us0; rewrite nth_set_nth_eq by lia; reflexivity).
    rewrite <- (rm_set_nth b0 u0 us). apply rm_perm. fold us0. lia. }
  rewrite (law_ext _ _ (fun out => F (lastlw (normalise_log ll) out) (lineage ps out) (final_idx b0 refs))).
  - rewrite (law_scan_path F fin _ HF); [|rewrite length_step_data by assumption; lia|now rewrite length_normalise_log|now apply normalise_log_sum|unfold ps; now rewrite map_length|assumption|assumption].
    assert (Hcomb : combine (map exp (normalise_log ll)) ps = map (first_path v0 v1 S) us0).
    { rewrite (exp_normalise ll Hne), HS. unfold ll, ps. rewrite map_map. generalize us0. clear.
      intros us0. induction us0 as [|u us0 IH]; [reflexivity|]. cbn [map combine]. now rewrite IH. }
    rewrite Hcomb. rewrite (nth_indep _ (0, []) (first_path v0 v1 S udef)) by (rewrite map_length; lia). rewrite (map_nth (first_path v0 v1 S)).
    unfold us0 at 1. rewrite nth_set_nth_eq by lia. rewrite rm_map. unfold us0. rewrite rm_set_nth. reflexivity.
  - intros out. assert (Hout : combine (combine (map (fun o => fst (fst o)) out) (map (fun o => snd (fst o)) out)) (map snd out) = out).
    { induction out as [|[[lw A] us1] out IH]; [reflexivity|]. cbn [map combine fst snd]. now rewrite IH. }
    unfold paths_of. cbn [fst snd nth tl]. rewrite Hout. reflexivity.
Qed.

Lemma trace_paths us_star bs_star res B : forward_ok N us_star bs_star res -> (B < N)%nat ->
  fst (trace_of udef res B) = nth B (paths_of res) [].
Proof.
  destruct res as [[As lws] uss]. intros (H1 & H2 & H3 & H4 & H5 & H6 & _) HB. unfold paths_of. cbn [fst snd].
  destruct uss as [|us0 uss]; [cbn in H3; lia|]. destruct lws as [|lw0 lws]; [cbn in H2; lia|].
  cbn [nth tl]. cbn [length] in H2, H3. set (out := combine (combine lws As) uss).
  assert (HA : map (fun o => snd (fst o)) out = As).
  { unfold out. rewrite <- (map_map fst snd), map_fst_combine, map_snd_combine; rewrite ?combine_length; lia || reflexivity. }
  assert (Hu : map snd out = uss) by (unfold out; apply map_snd_combine; rewrite combine_length; lia).
  rewrite <- HA, <- Hu at 1. apply (trace_lineage udef N); [apply (Forall_inv H6)| |lia].
  unfold outs_ok. apply Forall_forall. intros o Ho. split.
  - rewrite Forall_forall in H5. apply H5. rewrite <- HA. now apply (in_map (fun o => snd (fst o))).
  - apply Forall_inv_tail in H6. rewrite Forall_forall in H6. apply H6. rewrite <- Hu. now apply (in_map snd).
Qed.

Lemma forward_ok_star k vs ts u0 b0 refs :
  length vs = Datatypes.S (length refs) -> length ts = length vs -> (b0 < N)%nat -> Forall (fun bu => (fst bu < N)%nat) refs ->
  safe (fwd k (u0 :: map snd refs) (b0 :: map fst refs) vs ts (N - 1)) (forward_ok N (u0 :: map snd refs) (b0 :: map fst refs)).
Proof.
  intros Hv Ht Hb Hr. assert (HN1 : (N - 1 + 1)%nat = N) by lia. rewrite <- HN1 at 2.
  apply (forward_pass_safe udef vdef) with (transition_logpdf := transition_logpdf); cbn [length]; rewrite ?map_length; try (assumption || lia || discriminate).
  rewrite HN1. constructor; [assumption|]. rewrite Forall_map. exact Hr.
Qed.

Lemma law_forward_path k vs ts u0 b0 refs f :
  length vs = Datatypes.S (length refs) -> length ts = length vs -> (b0 < N)%nat -> Forall (fun bu => (fst bu < N)%nat) refs ->
  law (fwd k (u0 :: map snd refs) (b0 :: map fst refs) vs ts (N - 1)) (fun res =>
    Rsum (map (fun B => exp (nth B (last (snd (fst res)) []) 0) * f (fst (trace_of udef res B))) (seq 0 N)))
  = kernel_value (traced f) vs ts u0 (map snd refs).
Proof.
  intros Hv Ht Hb Hr. rewrite <- (law_forward_final _ _ k vs ts u0 b0 refs (traced_final f)) by assumption.
  apply (law_ext_safe _ (forward_ok N (u0 :: map snd refs) (b0 :: map fst refs))); [now apply forward_ok_star|].
  intros res Hok. apply Rsum_map_ext. intros B HB. apply in_seq in HB. f_equal. f_equal. eapply trace_paths; [exact Hok|lia].
Qed.

Theorem kernel_path_law k vs ts us bs f :
  us <> [] -> length bs = length us -> length vs = length us -> length ts = length us -> Forall (fun b => (b < N)%nat) bs ->
  law (kernel k us bs vs ts (N - 1) false) (fun res => f (fst res)) = kernel_value (traced f) vs ts (hd udef us) (tl us).
Proof.
  intros Hne Hb Hv Ht HB.
  rewrite (law_kernel_trace udef vdef _ _ _ _ _ _ N HN Hsh) by assumption.
  destruct us as [|u0 us]; [easy|]. destruct bs as [|b0 bs]; [discriminate|]. cbn [length] in *.
  rewrite <- (map_snd_combine bs us) at 1 by lia. rewrite <- (map_fst_combine bs us) at 2 by lia.
  rewrite law_forward_path; [|rewrite combine_length; lia|lia|exact (Forall_inv HB)|].
  - cbn [hd tl]. now rewrite map_snd_combine by lia.
  - apply Forall_forall. intros [b u] Hin. apply in_combine_l in Hin. apply Forall_inv_tail in HB. rewrite Forall_forall in HB. cbn. auto.
Qed.

(** ** Minorisation *)
Fixpoint fkv (f : list U -> R) (sd : list (V * V * R)) (p : list U) : R :=
  match sd with
  | [] => f p
  | (v, vp, t) :: sd' => pot v vp t p * E (M vp t (last p udef)) (fun u => fkv f sd' (p ++ [u]))
  end.
Lemma fkv_fk f sd : forall p, fkv f sd p = E (fk_path (fk_of M lg sd) (last p udef)) (fun us => f (p ++ us)).
Proof.
  induction sd as [|[[v vp] t] sd IH]; intros p.
  - cbn [fkv fk_of map fk_path]. rewrite E_dret. now rewrite app_nil_r.
  - cbn [fkv fk_of map fk_path]. rewrite E_dscale, E_dbind. unfold pot. f_equal. apply E_ext'. intros u. rewrite IH, E_dmap, last_last.
    apply E_ext'. intros us. now rewrite <- app_assoc.
Qed.
Lemma fkv_nonneg f sd : (forall p, 0 <= f p) -> forall p, 0 <= fkv f sd p.
Proof.
  intros Hf. induction sd as [|[[v vp] t] sd IH]; intros p; [apply Hf|]. cbn [fkv]. apply Rmult_le_pos; [left; apply exp_pos|].
  apply E_nonneg; [apply HM|]. intros; apply IH.
Qed.

Lemma kids_support v vp t S ps l : In l (map snd (dseq (map (kids v vp t S) ps))) -> map fst l = map (fun q => pot v vp t q / S) ps.
Proof.
  intros H. apply dseq_Forall2 in H. revert l H. induction ps as [|q ps IH]; intros l H; inversion H as [|a d l' ds Hd Hl]; subst; [reflexivity|].
  cbn [map]. f_equal; [|now apply IH]. unfold kids, dmap in Hd. rewrite map_map in Hd. apply in_map_iff in Hd.
  destruct Hd as ([w u] & <- & _). reflexivity.
Qed.
Lemma kids_prob v vp t S q : is_prob (kids v vp t S q).
Proof. unfold kids. apply is_prob_dmap, HM. Qed.
Lemma pot_pos v vp t p : 0 < pot v vp t p.
Proof. apply exp_pos. Qed.
Lemma total_pos v vp t p ps : 0 < total v vp t (p :: ps).
Proof.
  unfold total. cbn [map Rsum]. pose proof (pot_pos v vp t p).
  assert (0 <= Rsum (map (pot v vp t) ps)); [|lra]. apply Rsum_nonneg, Forall_map, Forall_forall. intros; left; apply pot_pos.
Qed.
Lemma child_weights v vp t p u' ps l (S := total v vp t (p :: ps)) : map fst l = map (fun q => pot v vp t q / S) ps ->
  weights_ok (map fst (child v vp t S (p, u') :: l)).
Proof.
  intros Hl. cbn [map fst child]. rewrite Hl. pose proof (total_pos v vp t p ps) as HS. fold S in HS. split.
  - change (Forall (fun x => 0 <= x) (map (fun q => pot v vp t q / S) (p :: ps))). apply Forall_map, Forall_forall. intros q _.
    left. apply Rdiv_lt_0_compat; [apply pot_pos|assumption].
  - change (Rsum (map (fun q => pot v vp t q * / S) (p :: ps)) = 1). rewrite Rsum_map_mult_r. apply Rinv_r. lra.
Qed.

Section kernel_minor.
Variable G : R.
Hypothesis HG : forall v vp t u, exp (lg v vp t u) <= G.

(** [Rg]: a condition on the weights that the final choice may need *)
Variable Rg : list R -> Prop.
Hypothesis HRg : forall v vp t us, length us = N -> Rg (normalise (map (lg v vp t) us)).

Lemma child_Rg v vp t p u' ps l (S := total v vp t (p :: ps)) : length ps = (N - 1)%nat -> map fst l = map (fun q => pot v vp t q / S) ps ->
  Rg (map fst (child v vp t S (p, u') :: l)).
Proof.
  intros Hp Hl. cbn [map fst child]. rewrite Hl. pose proof (HRg v vp t (map (fun q => last q udef) (p :: ps))) as H.
  rewrite map_length in H. specialize (H ltac:(cbn [length]; lia)). rewrite normalise_eq in H by discriminate. rewrite !map_map in H. exact H.
Qed.

Variable f : list U -> R.
Variable fin : R * list U -> list (R * list U) -> R.
Hypothesis Hf : forall p, 0 <= f p.
Hypothesis Hfin : forall ref rest, length rest = (N - 1)%nat -> weights_ok (map fst (ref :: rest)) -> Rg (map fst (ref :: rest)) -> E rest f <= fin ref rest.

Lemma path_value_ge sd : forall refs ref rest,
  length refs = length sd -> length rest = (N - 1)%nat -> weights_ok (map fst (ref :: rest)) -> Rg (map fst (ref :: rest)) -> (1 < N)%nat ->
  (kappa (N - 1)%nat / (INR N * G)) ^ length sd * E rest (fkv f sd) <= path_value fin sd refs ref rest.
Proof.
  assert (HG0 : 0 < G) by (eapply Rlt_le_trans; [apply exp_pos|apply (HG vdef vdef 0 udef)]).
  assert (HlN : 0 < INR N) by (apply lt_0_INR; lia). assert (HNG : 0 < INR N * G) by now apply Rmult_lt_0_compat.
  induction sd as [|[[v vp] t] sd IH]; intros refs ref rest Hl Hr Hw HR HN1; destruct refs as [|u' refs]; try discriminate.
  - cbn [length pow path_value]. rewrite Rmult_1_l. change (E rest (fkv f [])) with (E rest f). now apply Hfin.
  - cbn [path_value]. set (K := kappa (N - 1)%nat) in *. assert (HK : 0 < K) by (apply (xs_kappa _ _ Hx); lia).
    set (c := K / (INR N * G)) in *. assert (Hc : 0 < c) by now apply Rdiv_lt_0_compat.
    set (c0 := c ^ length sd * / (INR N * G)). assert (Hcm : 0 < c ^ length sd) by now apply pow_lt.
    apply Rle_trans with (Phi (list U) ref rest (fun _ ps => c0 * Rsum (map (fkv f ((v, vp, t) :: sd)) ps))).
    + rewrite (xs_scal _ _ Hx _ ref rest c0 (fun _ ps => Rsum (map (fkv f ((v, vp, t) :: sd)) ps))).
      apply Rle_trans with (c0 * (K * E rest (fkv f ((v, vp, t) :: sd)))).
      * right. cbn [length pow]. unfold c0, c. field. lra.
      * apply Rmult_le_compat_l; [left; apply Rmult_lt_0_compat; [assumption|now apply Rinv_0_lt_compat]|].
        unfold K. rewrite <- Hr. apply (xs_spread _ _ Hx); [assumption|]. apply fkv_nonneg, Hf.
    + apply (xs_mono _ _ Hx); [destruct Hw as [Hw _]; now rewrite Forall_map in Hw|]. intros ps Hps. cbv zeta.
      set (p := snd ref). set (S := total v vp t (p :: ps)). assert (HS : 0 < S) by apply total_pos.
      assert (HSle : S <= INR N * G).
      { unfold S, total. apply Rle_trans with (Rsum (map (fun _ => G) (p :: ps))).
        - apply Rsum_map_le. intros q _. apply HG.
        - rewrite Rsum_map_const. cbn [length]. right. f_equal. f_equal. lia. }
      apply Rle_trans with (E (dseq (map (kids v vp t S) ps)) (fun l => c ^ length sd * Rsum (map (fun y => fst y * fkv f sd (snd y)) l))).
      * rewrite E_mult_l, E_dseq_sum by (apply Forall_map, Forall_forall; intros; apply kids_prob). rewrite map_map.
        unfold c0. rewrite Rmult_assoc. apply Rmult_le_compat_l; [lra|].
        apply Rle_trans with (/ S * Rsum (map (fkv f ((v, vp, t) :: sd)) ps)).
        -- apply Rmult_le_compat_r; [apply Rsum_nonneg, Forall_map, Forall_forall; intros; now apply fkv_nonneg|]. now apply Rinv_le_contravar.
        -- rewrite <- Rsum_map_mult_l. right. apply Rsum_map_ext. intros q _. unfold kids. rewrite E_dmap. cbn [child fst snd fkv].
           rewrite E_mult_l. unfold Rdiv. ring.
      * apply E_le.
        -- apply dseq_nonneg, Forall_map, Forall_forall. intros q _. apply kids_prob.
        -- intros l Hl'. apply kids_support in Hl'. apply (IH refs (child v vp t S (p, u')) l).
           ++ cbn in Hl. lia.
           ++ rewrite <- (map_length fst l), Hl', map_length. lia.
           ++ now apply child_weights.
           ++ apply child_Rg; [lia|assumption].
           ++ assumption.
Qed.

Variable G0 : R.
Hypothesis HG0 : forall v v' u, exp (lG0 v v' u) <= G0.
Definition minor (K : nat) : R := INR (N - 1) / (INR N * G0) * (kappa (N - 1)%nat / (INR N * G)) ^ K.

Lemma E_smoothing_fkv g vs ts : E (smoothing vdef m0 lG0 M lg vs ts) g
  = E m0 (fun u => exp (lG0 (nth 0 vs vdef) (nth 1 vs vdef) u) * fkv g (step_data vs ts) [u]).
Proof.
  unfold smoothing, fk_measure. rewrite E_dbind. apply E_ext'. intros u. rewrite E_dscale, E_dmap, fkv_fk. reflexivity.
Qed.

Hypothesis HRg0 : forall v v' us, length us = N -> Rg (normalise (map (lG0 v v') us)).
Lemma kernel_value_ge vs ts u0 refs : (1 < N)%nat -> length refs = length (step_data vs ts) ->
  minor (length refs) * E (smoothing vdef m0 lG0 M lg vs ts) f <= kernel_value fin vs ts u0 refs.
Proof.
  intros HN1 Hl. assert (HG0p : 0 < G0) by (eapply Rlt_le_trans; [apply exp_pos|apply (HG0 vdef vdef udef)]).
  assert (HGp : 0 < G) by (eapply Rlt_le_trans; [apply exp_pos|apply (HG vdef vdef 0 udef)]).
  assert (HlN : 0 < INR N) by (apply lt_0_INR; lia). assert (HNG : 0 < INR N * G) by now apply Rmult_lt_0_compat.
  assert (HNG0 : 0 < INR N * G0) by now apply Rmult_lt_0_compat.
  set (K := kappa (N - 1)%nat). assert (HK : 0 < K) by (apply (xs_kappa _ _ Hx); lia).
  unfold kernel_value. cbv zeta. rewrite E_smoothing_fkv. unfold minor. fold K. set (v0 := nth 0 vs vdef). set (v1 := nth 1 vs vdef).
  set (c := K / (INR N * G)). assert (Hc : 0 < c) by now apply Rdiv_lt_0_compat.
  set (sd := step_data vs ts) in *. rewrite Hl. assert (Hcm : 0 < c ^ length sd) by now apply pow_lt.
  set (g := fun u => exp (lG0 v0 v1 u) * fkv f sd [u]).
  assert (Hg : forall u, 0 <= g u) by (intros u; apply Rmult_le_pos; [left; apply exp_pos|now apply fkv_nonneg]).
  assert (Hpr : Forall is_prob (repeat m0 (N - 1))) by apply Forall_repeat, Hm0.
  apply Rle_trans with (E (dseq (repeat m0 (N - 1))) (fun us => c ^ length sd * / (INR N * G0) * Rsum (map g us))).
  - rewrite E_mult_l, E_dseq_sum by assumption.
    rewrite (Rsum_map_ext _ (fun _ => E m0 g)) by (intros d Hd; now rewrite (repeat_spec _ _ _ Hd)).
    rewrite Rsum_map_const, repeat_length. right. unfold Rdiv. ring.
  - apply E_le; [apply dseq_nonneg; eapply Forall_impl; [|exact Hpr]; intros d Hd; apply Hd|].
    intros us Hus. apply dseq_length in Hus. rewrite repeat_length in Hus.
    set (S := Rsum (map (fun u => exp (lG0 v0 v1 u)) (u0 :: us))).
    assert (HSp : 0 < S).
    { unfold S. cbn [map Rsum]. pose proof (exp_pos (lG0 v0 v1 u0)). assert (0 <= Rsum (map (fun u => exp (lG0 v0 v1 u)) us)); [|lra].
      apply Rsum_nonneg, Forall_map, Forall_forall. intros; left; apply exp_pos. }
    assert (HSle : S <= INR N * G0).
    { unfold S. apply Rle_trans with (Rsum (map (fun _ => G0) (u0 :: us))).
      - apply Rsum_map_le. intros q _. apply HG0.
      - rewrite Rsum_map_const. cbn [length]. right. f_equal. f_equal. lia. }
    apply Rle_trans with (c ^ length sd * E (map (first_path v0 v1 S) us) (fkv f sd)).
    + rewrite Rmult_assoc. apply Rmult_le_compat_l; [lra|]. unfold E. rewrite map_map. cbn [first_path fst snd].
      apply Rle_trans with (/ S * Rsum (map g us)).
      * apply Rmult_le_compat_r; [apply Rsum_nonneg, Forall_map, Forall_forall; intros; apply Hg|]. now apply Rinv_le_contravar.
      * rewrite <- Rsum_map_mult_l. right. apply Rsum_map_ext. intros u _. unfold g, Rdiv. ring.
    + apply path_value_ge; try assumption; try (rewrite map_length; lia);
      change (first_path v0 v1 S u0 :: map (first_path v0 v1 S) us) with (map (first_path v0 v1 S) (u0 :: us)); rewrite map_map; cbn [first_path fst].
      2:{ pose proof (HRg0 v0 v1 (u0 :: us) ltac:(cbn [length]; lia)) as HR. rewrite normalise_eq in HR by discriminate. rewrite !map_map in HR. exact HR. }
      split.
      * apply Forall_map, Forall_forall. intros u _. left. apply Rdiv_lt_0_compat; [apply exp_pos|assumption].
      * change (Rsum (map (fun u => exp (lG0 v0 v1 u) * / S) (u0 :: us)) = 1). rewrite Rsum_map_mult_r. apply Rinv_r. lra.
Qed.

End kernel_minor.

Lemma path_value_plus fin1 fin2 fin3 sd : (forall ref rest, fin3 ref rest = fin1 ref rest + fin2 ref rest) -> forall refs ref rest,
  path_value fin3 sd refs ref rest = path_value fin1 sd refs ref rest + path_value fin2 sd refs ref rest.
Proof.
  intros H. induction sd as [|[[v vp] t] sd IH]; intros refs ref rest; [apply H|]. destruct refs as [|u' refs]; [apply H|].
  cbn [path_value]. rewrite <- (xs_plus _ _ Hx). f_equal. apply functional_extensionality. intros p. apply functional_extensionality. intros ps.
  cbv zeta. rewrite <- E_plus. apply E_ext'. intros l. apply IH.
Qed.
Lemma path_value_scal c fin1 fin2 sd : (forall ref rest, fin2 ref rest = c * fin1 ref rest) -> forall refs ref rest,
  path_value fin2 sd refs ref rest = c * path_value fin1 sd refs ref rest.
Proof.
  intros H. induction sd as [|[[v vp] t] sd IH]; intros refs ref rest; [apply H|]. destruct refs as [|u' refs]; [apply H|].
  cbn [path_value]. rewrite <- (xs_scal _ _ Hx). f_equal. apply functional_extensionality. intros p. apply functional_extensionality. intros ps.
  cbv zeta. rewrite <- E_mult_l. apply E_ext'. intros l. apply IH.
Qed.
Lemma kernel_value_plus fin1 fin2 fin3 vs ts u0 refs : (forall ref rest, fin3 ref rest = fin1 ref rest + fin2 ref rest) ->
  kernel_value fin3 vs ts u0 refs = kernel_value fin1 vs ts u0 refs + kernel_value fin2 vs ts u0 refs.
Proof. intros H. unfold kernel_value. cbv zeta. rewrite <- E_plus. apply E_ext'. intros us. now apply path_value_plus. Qed.
Lemma kernel_value_scal c fin1 fin2 vs ts u0 refs : (forall ref rest, fin2 ref rest = c * fin1 ref rest) ->
  kernel_value fin2 vs ts u0 refs = c * kernel_value fin1 vs ts u0 refs.
Proof. intros H. unfold kernel_value. cbv zeta. rewrite <- E_mult_l. apply E_ext'. intros us. now apply path_value_scal. Qed.
Lemma traced_ge f ref rest : (forall p, 0 <= f p) -> weights_ok (map fst (ref :: rest)) -> E rest f <= traced f ref rest.
Proof.
  intros Hf [Hw _]. destruct ref as [w p]. unfold traced. rewrite E_cons. apply Forall_inv in Hw. cbn [fst] in Hw.
  pose proof (Rmult_le_pos _ _ Hw (Hf p)). lra.
Qed.
End kernel_law.
