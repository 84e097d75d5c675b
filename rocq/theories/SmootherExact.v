(** When the backward smoother is exact: filter rows that represent the filtering laws, and a density handed over as
    [transition_logpdf] that carries the likelihood of the following measurement (up to a factor free of the particle). *)
From Verif Require Export Twisted CsmcInv.
Open Scope R_scope.

(** equal weights on the members of a row *)
Definition emp {U} (us : list U) : dist U := map (fun u => (/ INR (length us), u)) us.

Lemma E_map_weights {U} (g : U -> R) us f : E (map (fun u => (g u, u)) us) f = Rsum (map (fun u => g u * f u) us).
Proof. induction us as [|u us IH]; [reflexivity|]. cbn [map]. rewrite E_cons, IH. reflexivity. Qed.

Lemma fk_path_snoc {U} (udef : U) steps lg (M : U -> dist U) : forall u f,
  E (fk_path (steps ++ [(lg, M)]) u) f = E (fk_path steps u) (fun l => exp (lg (last (u :: l) udef)) * E (M (last (u :: l) udef)) (fun y => f (l ++ [y]))).
Proof.
  induction steps as [|[lg' M'] steps IH]; intros u f; cbn [app fk_path].
  - rewrite E_dret, E_dscale, E_dbind. cbn [last app]. f_equal. apply E_ext'. intros y. now rewrite E_dmap, E_dret.
  - rewrite !E_dscale, !E_dbind. f_equal. apply E_ext'. intros u'. rewrite !E_dmap, IH. apply E_ext'. intros l. reflexivity.
Qed.

Lemma fk_measure_snoc {U} (udef : U) m0 lG0 steps lg (M : U -> dist U) f :
  E (fk_measure m0 lG0 (steps ++ [(lg, M)])) f = E (fk_measure m0 lG0 steps) (fun p => exp (lg (last p udef)) * E (M (last p udef)) (fun y => f (p ++ [y]))).
Proof.
  unfold fk_measure. rewrite !E_dbind. apply E_ext'. intros u0. rewrite !E_dscale, !E_dmap, (fk_path_snoc udef). reflexivity.
Qed.

Section exact.
Context {U V : Type} (udef : U).
Variable transition_logpdf : U -> list U -> V -> R -> list R.
Variable lp : V -> R -> U -> U -> R.
Hypothesis Hlp : forall x us v t, transition_logpdf x us v t = map (lp v t x) us.
Variable m0 : dist U.
Variable lG0 : U -> R.

(** one entry per transition: the filter row, the inputs of [transition_logpdf], likelihood and transition of the model *)
Let entry : Type := (list U * V * R * fk_step U)%type.
Definition e_row (e : list U * V * R * fk_step U) := fst (fst (fst e)).
Definition e_v (e : list U * V * R * fk_step U) := snd (fst (fst e)).
Definition e_t (e : list U * V * R * fk_step U) := snd (fst e).
Definition e_step (e : list U * V * R * fk_step U) := snd e.

Definition density_ok (e : list U * V * R * fk_step U) : Prop := exists mu : dist U, forall u f,
  exp (fst (e_step e) u) * E (snd (e_step e) u) f = E mu (fun y => exp (lp (e_v e) (e_t e) y u) * f y).

Definition row_exact (us : list U) (steps : list (fk_step U)) : Prop := us <> [] /\
  0 < E (fk_measure m0 lG0 steps) (fun _ => 1) /\
  forall h, E (emp us) h = E (fk_measure m0 lG0 steps) (fun p => h (last p udef)) / E (fk_measure m0 lG0 steps) (fun _ => 1).

Lemma exchange_row us (mu : dist U) (w : U -> U -> R) (B : U -> U -> R) : us <> [] -> (forall y u, 0 < w y u) ->
  E (emp us) (fun u => E mu (fun y => w y u * E (map (fun u' => (w y u' / Rsum (map (w y) us), u')) us) (fun u' => B u' y))) =
  E (emp us) (fun u => E mu (fun y => w y u * B u y)).
Proof.
  intros Hne Hw. rewrite E_exchange, (E_exchange (emp us)). apply E_ext'. intros y. unfold emp. rewrite !E_map_weights.
  assert (HS : 0 < Rsum (map (w y) us)).
  { destruct us as [|u us]; [easy|]. cbn [map Rsum]. assert (0 <= Rsum (map (w y) us)).
    { clear - Hw. induction us as [|a us IH]; cbn [map Rsum]; [lra|]. specialize (Hw y a). lra. }
    specialize (Hw y u). lra. }
  set (c := / INR (length us)). set (S := Rsum (map (w y) us)) in *.
  assert (G : forall l (k : R), Rsum (map (fun u => c * (w y u * k)) l) = c * k * Rsum (map (w y) l)).
  { intros l k. induction l as [|a l IH]; cbn [map Rsum]; [ring|]. rewrite IH. ring. }
  rewrite G. fold S.
  assert (G2 : forall l, Rsum (map (fun u => w y u / S * B u y) l) * S = Rsum (map (fun u => w y u * B u y) l)).
  { intros l. induction l as [|a l IH]; cbn [map Rsum]; [ring|]. rewrite Rmult_plus_distr_r, IH. field. lra. }
  rewrite Rmult_assoc, G2.
  assert (G3 : forall l, Rsum (map (fun u => c * (w y u * B u y)) l) = c * Rsum (map (fun u => w y u * B u y) l)).
  { intros l. induction l as [|a l IH]; cbn [map Rsum]; [ring|]. rewrite IH. ring. }
  now rewrite G3.
Qed.

Lemma back_walk_exact (es : list (list U * V * R * fk_step U)) : forall rT f,
  Forall density_ok es ->
  (forall k, (k < length es)%nat -> row_exact (nth k (map e_row es) []) (firstn k (map e_step es))) -> row_exact rT (map e_step es) ->
  E (emp rT) (fun uT => E (back_walk lp (rev (map fst es)) uT) (fun l => f (l ++ [uT]))) =
  E (fk_measure m0 lG0 (map e_step es)) f / E (fk_measure m0 lG0 (map e_step es)) (fun _ => 1).
Proof.
  induction es as [|e es IH] using rev_ind; intros rT f Hd Hr HT.
  - cbn [map rev back_walk]. destruct HT as (_ & _ & HT). cbn [map] in HT.
    rewrite (E_ext' _ _ (fun u => f [u])) by (intros u; now rewrite E_dret). rewrite HT. f_equal.
    unfold fk_measure. rewrite !E_dbind. apply E_ext'. intros u0. rewrite !E_dscale, !E_dmap. cbn [fk_path]. rewrite !E_dret. reflexivity.
  - apply Forall_app in Hd. destruct Hd as [Hd He]. apply Forall_inv in He.
    assert (Hlast : row_exact (e_row e) (map e_step es)).
    { specialize (Hr (length es)). rewrite !map_app, app_nth2, map_length, Nat.sub_diag in Hr by (rewrite map_length; lia).
      cbn [map nth] in Hr. rewrite firstn_app, map_length, Nat.sub_diag, firstn_O, app_nil_r in Hr.
      rewrite firstn_all2 in Hr by (rewrite map_length; lia). apply Hr. rewrite app_length. cbn [length]. lia. }
    assert (Hr' : forall k, (k < length es)%nat -> row_exact (nth k (map e_row es) []) (firstn k (map e_step es))).
    { intros k Hk. specialize (Hr k). rewrite !map_app, app_nth1 in Hr by (rewrite map_length; lia).
      rewrite firstn_app, map_length in Hr. replace (k - length es)%nat with 0%nat in Hr by lia. rewrite firstn_O, app_nil_r in Hr.
      apply Hr. rewrite app_length. lia. }
    rewrite !map_app in *. cbn [map] in *. rewrite rev_app_distr. cbn [rev app].
    destruct e as [[[us v] t] [lg M]]. unfold e_row, e_v, e_t, e_step, density_ok in *. cbn [fst snd] in *. cbn [back_walk].
    destruct He as [mu Hmu]. destruct Hlast as (Hne & HZ & Hex). destruct HT as (_ & HZ' & HT).
    set (St := map snd es) in *. set (Z := E (fk_measure m0 lG0 St) (fun _ => 1)) in *.
    set (Z' := E (fk_measure m0 lG0 (St ++ [(lg, M)])) (fun _ => 1)) in *. assert (HZp : 0 < Z') by exact HZ'.
    assert (Hrec : forall h, E (emp rT) h = Z / Z' * E (emp us) (fun u => E mu (fun y => exp (lp v t y u) * h y))).
    { intros h. rewrite HT, (fk_measure_snoc udef). 
      rewrite (E_ext' _ _ (fun p => (fun u => E mu (fun y => exp (lp v t y u) * h y)) (last p udef))).
      2:{ intros p. rewrite <- Hmu. f_equal. apply E_ext'. intros y. now rewrite last_last. }
      rewrite Hex. cbv beta. change (E (fk_measure m0 lG0 (St ++ [(lg, M)])) (fun _ => 1)) with Z'. field. split; apply Rgt_not_eq; assumption. }
    rewrite Hrec.
    rewrite (E_ext' _ _ (fun u => E mu (fun y => exp (lp v t y u) *
       E (map (fun u' => (exp (lp v t y u') / Rsum (map (fun u'' => exp (lp v t y u'')) us), u')) us)
         (fun u' => E (back_walk lp (rev (map fst es)) u') (fun l => f ((l ++ [u']) ++ [y])))))).
    2:{ intros u. apply E_ext'. intros y. f_equal. rewrite E_dbind. apply E_ext'. intros u'. now rewrite E_dmap. }
    rewrite (exchange_row us mu (fun y u => exp (lp v t y u)) (fun u' y => E (back_walk lp (rev (map fst es)) u') (fun l => f ((l ++ [u']) ++ [y]))) Hne (fun y u => exp_pos _)).
    rewrite (E_ext' _ _ (fun u => E (back_walk lp (rev (map fst es)) u) (fun l => (fun p => exp (lg (last p udef)) * E (M (last p udef)) (fun y => f (p ++ [y]))) (l ++ [u])))).
    2:{ intros u. rewrite (E_ext' _ _ (fun y => E (back_walk lp (rev (map fst es)) u) (fun l => exp (lp v t y u) * f ((l ++ [u]) ++ [y])))) by (intros y; now rewrite E_mult_l).
        rewrite E_exchange. apply E_ext'. intros l. cbv beta. rewrite last_last. now rewrite Hmu. }
    assert (Hus : row_exact us St) by (split; [exact Hne|]; split; [exact HZ|exact Hex]).
    pose proof (IH us (fun p => exp (lg (last p udef)) * E (M (last p udef)) (fun y => f (p ++ [y]))) Hd Hr' Hus) as HI.
    etransitivity; [apply f_equal; exact HI|]. change (map e_step es) with St. fold Z.
    etransitivity; [|apply (f_equal (fun z => z / Z')); symmetry; exact (fk_measure_snoc udef m0 lG0 St lg M f)].
    cbv beta. field. split; apply Rgt_not_eq; assumption.
Qed.

Theorem smoother_exact k (es : list (list U * V * R * fk_step U)) rT vT tT f :
  Forall density_ok es ->
  (forall j, (j < length es)%nat -> row_exact (nth j (map e_row es) []) (firstn j (map e_step es))) -> row_exact rT (map e_step es) ->
  law (bootstrap_backward_smoother udef transition_logpdf k (map e_row es ++ [rT]) (map e_v es ++ [vT]) (map e_t es ++ [tT])) f =
  E (fk_measure m0 lG0 (map e_step es)) f / E (fk_measure m0 lG0 (map e_step es)) (fun _ => 1).
Proof.
  intros Hd Hr HT. rewrite (smoother_law udef transition_logpdf lp Hlp).
  - rewrite last_last. unfold smoother_rows. rewrite !removelast_last.
    replace (combine (combine (rev (map e_row es)) (rev (map e_v es))) (rev (map e_t es))) with (rev (map fst es)).
    + exact (back_walk_exact es rT f Hd Hr HT).
    + clear. rewrite <- !map_rev. induction (rev es) as [|[[[us v] t] s] l IH]; [reflexivity|]. cbn [map combine]. rewrite IH. reflexivity.
  - destruct (map e_row es); discriminate.
  - apply Forall_app. split; [|constructor; [apply HT|constructor]].
    apply Forall_forall. intros us Hin. apply (In_nth _ _ []) in Hin. destruct Hin as (j & Hj & <-). rewrite map_length in Hj. apply (Hr j Hj).
  - now rewrite !app_length, !map_length.
  - now rewrite !app_length, !map_length.
Qed.
End exact.

Lemma nth_map_lt {A B} (f : A -> B) l j d d0 : (j < length l)%nat -> nth j (map f l) d = f (nth j l d0).
Proof. intros Hj. rewrite (nth_indep _ d (f d0)) by now rewrite map_length. apply map_nth. Qed.

Section lists.
Context {U V : Type} (udef : U) (vdef : V).
Variable transition_logpdf : U -> list U -> V -> R -> list R.
Variable lp : V -> R -> U -> U -> R.
Hypothesis Hlp : forall x us v t, transition_logpdf x us v t = map (lp v t x) us.
Variable m0 : dist U.
Variable lG0 : U -> R.

Lemma combine4 : forall (rows : list (list U)) (vs : list V) (ts : list R) (steps : list (fk_step U)),
  length rows = length steps -> length vs = length steps -> length ts = length steps ->
  let es := combine (combine (combine rows vs) ts) steps in
  map e_row es = rows /\ map e_v es = vs /\ map e_t es = ts /\ map e_step es = steps.
Proof.
  induction rows as [|r rows IH]; intros [|v vs] [|t ts] [|s steps] H1 H2 H3; try discriminate; [now repeat split|].
  cbn [length] in *. injection H1 as H1. injection H2 as H2. injection H3 as H3. destruct (IH vs ts steps H1 H2 H3) as (A & B & C & D).
  cbn [combine map]. rewrite A, B, C, D. now repeat split.
Qed.

Theorem smoother_exact_lists k rows vs ts (steps : list (fk_step U)) f :
  length rows = S (length steps) -> length vs = S (length steps) -> length ts = S (length steps) ->
  (forall j, (j < length steps)%nat -> exists mu : dist U, forall u g,
     let s := nth j steps (fun _ => 0, dret) in
     exp (fst s u) * E (snd s u) g = E mu (fun y => exp (lp (nth j vs vdef) (nth j ts 0) y u) * g y)) ->
  (forall j, (j <= length steps)%nat -> row_exact udef m0 lG0 (nth j rows []) (firstn j steps)) ->
  law (bootstrap_backward_smoother udef transition_logpdf k rows vs ts) f =
  E (fk_measure m0 lG0 steps) f / E (fk_measure m0 lG0 steps) (fun _ => 1).
Proof.
  intros L1 L2 L3 Hd Hr.
  destruct (@exists_last _ rows) as (rows' & rT & ->); [intros ->; discriminate|].
  destruct (@exists_last _ vs) as (vs' & vT & ->); [intros ->; discriminate|].
  destruct (@exists_last _ ts) as (ts' & tT & ->); [intros ->; discriminate|].
  rewrite app_length in L1, L2, L3. cbn [length] in *.
  destruct (combine4 rows' vs' ts' steps) as (A & B & C & D); [lia|lia|lia|].
  set (es := combine (combine (combine rows' vs') ts') steps) in *.
  assert (Hes : length es = length steps) by (rewrite <- D; now rewrite map_length).
  pose proof (smoother_exact udef transition_logpdf lp Hlp m0 lG0 k es rT vT tT f) as H. rewrite A, B, C, D in H. apply H; clear H.
  - apply Forall_forall. intros e He. set (d0 := (@nil U, vdef, 0, (fun _ : U => 0, @dret U))).
    apply (In_nth _ _ d0) in He. destruct He as (j & Hj & <-). assert (Hj' : (j < length steps)%nat) by (rewrite <- Hes; exact Hj).
    destruct (Hd j Hj') as [mu Hmu]. exists mu. intros u g. specialize (Hmu u g). cbv zeta in Hmu.
    rewrite <- D, <- B, <- C in Hmu. rewrite !app_nth1 in Hmu by (rewrite map_length; exact Hj).
    rewrite (nth_map_lt e_step es j _ d0 Hj), (nth_map_lt e_v es j _ d0 Hj), (nth_map_lt e_t es j _ d0 Hj) in Hmu. exact Hmu.
  - intros j Hj. assert (Hj' : (j < length steps)%nat) by (rewrite <- Hes; exact Hj).
    specialize (Hr j ltac:(lia)). rewrite app_nth1 in Hr by lia. exact Hr.
  - specialize (Hr (length steps) ltac:(lia)). rewrite app_nth2 in Hr by lia. replace (length steps - length rows')%nat with 0%nat in Hr by lia.
    rewrite firstn_all in Hr. exact Hr.
Qed.

(** likelihoods that do not depend on the particle: the transition density alone is enough *)
Theorem smoother_exact_const k rows vs ts (steps : list (fk_step U)) f :
  length rows = S (length steps) -> length vs = S (length steps) -> length ts = S (length steps) ->
  (forall j, (j < length steps)%nat -> exists mu : dist U, forall u g,
     E (snd (nth j steps (fun _ => 0, dret)) u) g = E mu (fun y => exp (lp (nth j vs vdef) (nth j ts 0) y u) * g y)) ->
  (forall j u u', (j < length steps)%nat -> fst (nth j steps (fun _ => 0, dret)) u = fst (nth j steps (fun _ => 0, dret)) u') ->
  (forall j, (j <= length steps)%nat -> row_exact udef m0 lG0 (nth j rows []) (firstn j steps)) ->
  law (bootstrap_backward_smoother udef transition_logpdf k rows vs ts) f =
  E (fk_measure m0 lG0 steps) f / E (fk_measure m0 lG0 steps) (fun _ => 1).
Proof.
  intros L1 L2 L3 Hd Hc Hr. apply smoother_exact_lists; auto. intros j Hj. destruct (Hd j Hj) as [mu Hmu].
  exists (dscale (exp (fst (nth j steps (fun _ => 0, dret)) udef)) mu). intros u g. cbv zeta. rewrite E_dscale, <- Hmu. now rewrite (Hc j u udef Hj).
Qed.
End lists.
