(** Backward sampling (csmc.py:167-227) is exact when the likelihood of the later steps does not depend on the particle. *)
From Verif Require Export CsmcInv.
Open Scope R_scope.

Lemma last_shift {A} (a : A) l d : last (a :: l) d = last l a.
Proof. revert a d; induction l as [|b l IH]; intros a d; [reflexivity|]. change (last (b :: l) d = last (b :: l) a). now rewrite !IH. Qed.

Section mixture.
Context {U : Type} (udef : U).
Variable W : dist nat.
Variable D : nat -> dist U.
Notation eta := (dbind W D).

Lemma mixture_all N : forall g, E (dseq (repeat W N)) (fun A => E (dseq (map D A)) g) = E (dseq (repeat eta N)) g.
Proof.
  induction N as [|N IH]; intros g.
  - cbn [repeat dseq]. rewrite E_dret. reflexivity.
  - cbn [repeat]. rewrite !E_dseq_cons, E_dbind. apply E_ext'. intros a.
    rewrite (E_ext' (dseq (repeat W N)) _ (fun A => E (D a) (fun y => E (dseq (map D A)) (fun l => g (y :: l))))).
    2:{ intros A. cbn [map]. now rewrite E_dseq_cons. }
    rewrite E_exchange. apply E_ext'. intros y. apply IH.
Qed.

(** law of the ancestor of a new particle *)
Variable back : U -> dist nat.
Hypothesis bayes : forall Phi : nat -> U -> R, E W (fun a => E (D a) (fun y => Phi a y)) = E eta (fun y => E (back y) (fun a => Phi a y)).

Lemma mixture_one N : forall b (H : nat -> list U -> R), (b < N)%nat ->
  E (dseq (repeat W N)) (fun A => E (dseq (map D A)) (fun us => H (nth b A 0%nat) us)) =
  E (dseq (repeat eta N)) (fun us => E (back (nth b us udef)) (fun a => H a us)).
Proof.
  induction N as [|N IH]; intros b H Hb; [lia|]. cbn [repeat]. rewrite !E_dseq_cons. destruct b as [|b].
  - rewrite (E_ext' W _ (fun a => E (D a) (fun y => E (dseq (repeat eta N)) (fun l => H a (y :: l))))).
    2:{ intros a. rewrite (E_ext' (dseq (repeat W N)) _ (fun A => E (D a) (fun y => E (dseq (map D A)) (fun l => H a (y :: l))))).
        2:{ intros A. cbn [map nth]. now rewrite E_dseq_cons. }
        rewrite E_exchange. apply E_ext'. intros y. apply mixture_all. }
    rewrite bayes. apply E_ext'. intros y. cbn [nth]. apply E_exchange.
  - rewrite E_dbind. apply E_ext'. intros a.
    rewrite (E_ext' (dseq (repeat W N)) _ (fun A => E (D a) (fun y => E (dseq (map D A)) (fun l => H (nth b A 0%nat) (y :: l))))).
    2:{ intros A. cbn [map nth]. now rewrite E_dseq_cons. }
    rewrite E_exchange. apply E_ext'. intros y. cbn [nth]. apply (IH b (fun a l => H a (y :: l))). lia.
Qed.
End mixture.

Section backward.
Context {U V : Type} (udef : U) (vdef : V).
Variable transition_logpdf : U -> list U -> V -> R -> list R.
Variable M : V -> R -> U -> dist U.
(** [lp v t u y]: log-density of M v t u at y *)
Variable lp : V -> R -> U -> U -> R.
Hypothesis Hlp : forall y us v t, transition_logpdf y us v t = map (fun u => lp v t u y) us.
Hypothesis Hdens : forall v t, exists mu : dist U, forall u f, E (M v t u) f = E mu (fun y => exp (lp v t u y) * f y).

Notation bw := (backward_weights transition_logpdf).

Lemma bw_length y us lw v t : length us = length lw -> length (bw y us lw v t) = length lw.
Proof. intros H. unfold backward_weights. rewrite length_normalise, map_length, combine_length, map_length, Hlp, map_length. lia. Qed.

Lemma bw_ok y us lw v t : length us = length lw -> lw <> [] -> weights_ok (bw y us lw v t).
Proof.
  intros H Hne. unfold backward_weights. apply normalise_ok. intros H0. apply (f_equal (@length R)) in H0.
  rewrite map_length, combine_length, map_length, Hlp, map_length in H0. destruct lw; [easy|]. cbn [length] in *. lia.
Qed.

Lemma bw_eq y us lw v t : length us = length lw -> lw <> [] ->
  bw y us lw v t = map (fun ul => exp (lp v t (fst ul) y) * exp (snd ul) / Rsum (map (fun ul => exp (lp v t (fst ul) y) * exp (snd ul)) (combine us lw))) (combine us lw).
Proof.
  intros H Hne. unfold backward_weights. rewrite Hlp. set (c := Rmax_list _).
  assert (Hc : map (fun ab : R * R => fst ab + snd ab) (combine (map (fun x => x - c) (map (fun u => lp v t u y) us)) lw) =
    map (fun x => x - c) (map (fun ul => lp v t (fst ul) y + snd ul) (combine us lw))).
  { clearbody c. clear. revert lw. induction us as [|u us IH]; intros [|l lw]; try reflexivity. cbn [map combine fst snd]. f_equal; [ring|apply IH]. }
  rewrite Hc, normalise_shift, normalise_eq.
  - rewrite !map_map. assert (He : map (fun x => exp (lp v t (fst x) y + snd x)) (combine us lw) = map (fun ul => exp (lp v t (fst ul) y) * exp (snd ul)) (combine us lw)).
    { apply map_ext. intros [u l]. cbn. now rewrite exp_plus. }
    rewrite He. apply map_ext. intros [u l]. cbn [fst snd]. now rewrite exp_plus.
  - destruct us, lw; cbn in *; try easy; lia.
  - destruct us, lw; cbn in *; try easy; lia.
Qed.

(** Bayes' rule for the ancestor *)
Lemma bw_bayes us lw v t : length us = length lw -> lw <> [] ->
  forall Phi : nat -> U -> R,
  E (dcat (map exp lw)) (fun a => E (M v t (nth a us udef)) (fun y => Phi a y)) =
  E (dbind (dcat (map exp lw)) (fun a => M v t (nth a us udef))) (fun y => E (dcat (bw y us lw v t)) (fun a => Phi a y)).
Proof.
  intros H Hne Phi. destruct (Hdens v t) as [mu Hmu]. rewrite E_dbind.
  rewrite (E_ext' (dcat (map exp lw)) _ (fun a => E mu (fun y => exp (lp v t (nth a us udef) y) * Phi a y))) by (intros; apply Hmu).
  rewrite (E_ext' (dcat (map exp lw)) (fun a => E (M v t (nth a us udef)) _)
     (fun a => E mu (fun y => exp (lp v t (nth a us udef) y) * E (dcat (bw y us lw v t)) (fun a => Phi a y)))) by (intros; apply Hmu).
  rewrite !(E_exchange (dcat (map exp lw)) mu). apply E_ext'. intros y. rewrite E_mult_r, !E_dcat, map_length, bw_length by assumption.
  set (S := Rsum (map (fun ul => exp (lp v t (fst ul) y) * exp (snd ul)) (combine us lw))).
  assert (HS : 0 < S).
  { unfold S. destruct us as [|u us], lw as [|l lw]; try easy. cbn [combine map Rsum fst snd].
    assert (0 < exp (lp v t u y) * exp l) by (apply Rmult_lt_0_compat; apply exp_pos).
    assert (0 <= Rsum (map (fun ul => exp (lp v t (fst ul) y) * exp (snd ul)) (combine us lw))); [|lra].
    apply Rsum_nonneg, Forall_map, Forall_forall. intros ul _. left. apply Rmult_lt_0_compat; apply exp_pos. }
  assert (Hnth : forall a, (a < length lw)%nat -> nth a (combine us lw) (udef, 0) = (nth a us udef, nth a lw 0)).
  { intros a Ha. apply combine_nth. exact H. }
  assert (HE : Rsum (map (fun i => nth i (map exp lw) 0 * exp (lp v t (nth i us udef) y)) (seq 0 (length lw))) = S).
  { unfold S. rewrite <- (map_nth_seq (udef, 0) (combine us lw)) at 1. rewrite combine_length, H, Nat.min_id, map_map.
    apply Rsum_map_ext. intros a Ha. apply in_seq in Ha. rewrite Hnth by lia. cbn [fst snd].
    rewrite (nth_indep _ 0 (exp 0)) by (rewrite map_length; lia). rewrite map_nth. ring. }
  rewrite HE, <- Rsum_map_mult_l. apply Rsum_map_ext. intros a Ha. apply in_seq in Ha.
  rewrite bw_eq by assumption. fold S.
  set (q := fun ul : U * R => exp (lp v t (fst ul) y) * exp (snd ul) / S).
  rewrite (nth_indep (map q _) 0 (q (udef, 0))) by (rewrite map_length, combine_length; lia). rewrite map_nth, Hnth by lia.
  unfold q. cbn [fst snd]. rewrite (nth_indep (map exp lw) 0 (exp 0)) by (rewrite map_length; lia). rewrite map_nth. field. lra.
Qed.

(** ** The law of the backward pass, written from the front *)
Fixpoint bsd (sd : list (V * V * R)) (lw : list R) (us : list U) (out : list (list R * list nat * list U)) : dist (list nat) :=
  match sd, out with
  | (v, vp, t) :: sd', (lw', A, us') :: out' =>
      dbind (bsd sd' lw' us' out') (fun i => dmap (fun a => a :: i) (dcat (bw (nth (hd 0%nat i) us' udef) us lw vp t)))
  | _, _ => dmap (fun b => [b]) (dcat (map exp lw))
  end.

Definition path_of (uss : list (list U)) (i : list nat) : list U := map (fun xb => nth (snd xb) (fst xb) udef) (combine uss i).

Lemma scan_backward_app k l xs lw v t : forall i x g, length xs = length lw -> lw <> [] ->
  law (scan_backward udef transition_logpdf k i x (l ++ [(xs, lw, v, t)])) g =
  law (scan_backward udef transition_logpdf k i x l) (fun out =>
    E (dcat (bw (last (map fst out) x) xs lw v t)) (fun B => g (out ++ [(nth B xs udef, B)]))).
Proof.
  induction l as [|[[[xs' lw'] v'] t'] l IH]; intros i x g H Hne; cbn [app scan_backward].
  - rewrite law_bind, (choice_denotes _ _ (bw_ok x xs lw v t H Hne)). cbn [law]. apply E_ext'. intros B. reflexivity.
  - rewrite !law_bind. apply law_ext. intros B. rewrite !law_bind, IH by assumption. apply law_ext. intros out. cbn [law].
    cbn [map fst]. rewrite last_shift. reflexivity.
Qed.

Definition sizes (N : nat) (o : list R * list nat * list U) : Prop :=
  (length (fst (fst o)) = N /\ Rsum (map exp (fst (fst o))) = 1) /\ length (snd o) = N.

Lemma dbind_support {A B} (d : dist A) (k : A -> dist B) b :
  In b (map snd (dbind d k)) -> exists a, In a (map snd d) /\ In b (map snd (k a)).
Proof.
  intros H. apply in_map_iff in H. destruct H as ([p b'] & <- & H). unfold dbind in H. apply in_flat_map in H. destruct H as ([q a] & Ha & H).
  apply in_map_iff in H. destruct H as ([q2 b2] & He & H). cbn [fst snd] in *. injection He as _ <-.
  exists a. split; [apply in_map_iff; now exists (q, a)|apply in_map_iff; now exists (q2, b2)].
Qed.
Lemma dmap_support {A B} (g : A -> B) (d : dist A) b : In b (map snd (dmap g d)) -> exists a, In a (map snd d) /\ b = g a.
Proof.
  intros H. unfold dmap in H. rewrite map_map in H. cbn [snd] in H. apply in_map_iff in H. destruct H as ([q a] & <- & H). cbn [snd].
  exists a. split; [apply in_map_iff; now exists (q, a)|reflexivity].
Qed.

Lemma bsd_support N : (0 < N)%nat -> forall out sd lw us i, length sd = length out -> length lw = N -> length us = N -> Forall (sizes N) out ->
  In i (map snd (bsd sd lw us out)) -> length i = S (length out) /\ Forall (fun b => (b < N)%nat) i.
Proof.
  intros HN. induction out as [|[[lw' A] us'] out IH]; intros sd lw us i Hsd Hl Hu Ho Hi.
  - destruct sd as [|[[v vp] t] sd]; [|discriminate]. cbn [bsd] in Hi. apply dmap_support in Hi. destruct Hi as (b & Hb & ->).
    apply dcat_support in Hb. rewrite map_length in Hb. split; [reflexivity|]. constructor; [lia|constructor].
  - destruct sd as [|[[v vp] t] sd]; [discriminate|]. cbn [bsd] in Hi. apply dbind_support in Hi. destruct Hi as (i' & Hi' & Hi).
    apply dmap_support in Hi. destruct Hi as (a & Ha & ->). apply dcat_support in Ha. rewrite bw_length in Ha by lia.
    assert (Ho1 := Forall_inv Ho). assert (Ho2 := Forall_inv_tail Ho). destruct Ho1 as [[H1 H2] H3]. cbn [fst snd] in *.
    destruct (IH sd lw' us' i') as [E1 E2]; try assumption; [now injection Hsd|]. split; [cbn [length]; lia|]. constructor; [lia|assumption].
Qed.

Lemma combine_snoc {A B} (a : list A) (b : list B) x y : length a = length b -> combine (a ++ [x]) (b ++ [y]) = combine a b ++ [(x, y)].
Proof.
  revert b; induction a as [|u a IH]; intros [|w b] H; try discriminate; [reflexivity|]. cbn [app combine]. f_equal. apply IH. now injection H.
Qed.

Lemma last_map_fst_combine_rev (p : list U) (i : list nat) x b : length p = length i ->
  last (map fst (combine (rev (x :: p)) (rev (b :: i)))) udef = x.
Proof.
  intros H. cbn [rev]. rewrite combine_snoc by (now rewrite !rev_length). rewrite map_app. apply last_last.
Qed.

Lemma back_front N k kb : (0 < N)%nat -> forall out vs ts lw us g,
  length vs = S (length out) -> length ts = length vs -> length lw = N -> Rsum (map exp lw) = 1 -> length us = N -> Forall (sizes N) out ->
  let uss := us :: map snd out in let lws := lw :: map (fun o => fst (fst o)) out in
  law (bind (choice kb (normalise (last lws []))) (fun B =>
       bind (scan_backward udef transition_logpdf k 0 (nth B (last uss []) udef)
          (combine (combine (combine (rev (removelast uss)) (rev (removelast lws))) (rev (removelast vs))) (rev (removelast ts))))
       (fun o => Ret ((nth B (last uss []) udef, B) :: o)))) g =
  E (bsd (step_data vs ts) lw us out) (fun i => g (combine (rev (path_of uss i)) (rev i))).
Proof.
  intros HN. induction out as [|[[lw' A] us'] out IH]; intros vs ts lw us g Hv Ht Hl Hs Hu Ho uss lws.
  - destruct vs as [|v0 [|v1 vs]]; try discriminate. destruct ts as [|t0 [|t1 ts]]; try discriminate.
    cbn [map] in uss, lws. unfold uss, lws. cbn [last removelast rev combine scan_backward].
    rewrite law_bind, normalise_normed by assumption. rewrite (choice_denotes _ _ (weights_ok_exp _ Hs)).
    cbn [step_data bsd]. rewrite E_dmap. reflexivity.
  - destruct vs as [|v0 [|v1 vs]]; try discriminate. destruct ts as [|t0 [|t1 ts]]; try discriminate.
    assert (Ho1 := Forall_inv Ho). assert (Ho2 := Forall_inv_tail Ho). destruct Ho1 as [[H1 H2] H3]. cbn [fst snd] in *.
    set (uss' := us' :: map snd out). set (lws' := lw' :: map (fun o => fst (fst o)) out).
    assert (Huss : uss = us :: uss') by reflexivity. assert (Hlws : lws = lw :: lws') by reflexivity.
    set (g' := fun res : list (U * nat) => E (dcat (bw (last (map fst res) udef) us lw v0 t0)) (fun a => g (res ++ [(nth a us udef, a)]))).
    assert (Hlen : length lws' = length uss') by (unfold lws', uss'; cbn [length]; now rewrite !map_length).
    cbn [length] in Hv, Ht.
    assert (Hin : combine (combine (combine (rev (removelast uss)) (rev (removelast lws))) (rev (removelast (v0 :: v1 :: vs)))) (rev (removelast (t0 :: t1 :: ts)))
      = combine (combine (combine (rev (removelast uss')) (rev (removelast lws'))) (rev (removelast (v1 :: vs)))) (rev (removelast (t1 :: ts))) ++ [(us, lw, v0, t0)]).
    { rewrite Huss, Hlws. change (removelast (us :: uss')) with (us :: removelast uss'). change (removelast (lw :: lws')) with (lw :: removelast lws').
      change (removelast (v0 :: v1 :: vs)) with (v0 :: removelast (v1 :: vs)). change (removelast (t0 :: t1 :: ts)) with (t0 :: removelast (t1 :: ts)).
      cbn [rev]. assert (HL : length uss' = length (v1 :: vs)) by (unfold uss'; cbn [length]; rewrite map_length; lia).
      rewrite !combine_snoc; [reflexivity|..]; repeat rewrite ?combine_length, ?rev_length, ?length_removelast; cbn [length] in *; lia. }
    assert (Hlast : last uss [] = last uss' []) by reflexivity. assert (Hlastl : last lws [] = last lws' []) by reflexivity.
    rewrite Hin, Hlast, Hlastl. rewrite law_bind.
    rewrite (law_ext _ _ (fun B => law (bind (scan_backward udef transition_logpdf k 0 (nth B (last uss' []) udef)
        (combine (combine (combine (rev (removelast uss')) (rev (removelast lws'))) (rev (removelast (v1 :: vs)))) (rev (removelast (t1 :: ts)))))
       (fun o => Ret ((nth B (last uss' []) udef, B) :: o))) g')).
    2:{ intros B. rewrite !law_bind. rewrite scan_backward_app; [|lia|destruct lw; [cbn in *; lra|discriminate]].
        apply law_ext. intros o. cbn [law]. unfold g'. cbn [map fst]. rewrite last_shift. reflexivity. }
    rewrite <- law_bind. unfold uss', lws'. rewrite IH; [|cbn [length]; lia|cbn [length]; lia|assumption..].
    fold uss'. change (step_data (v0 :: v1 :: vs) (t0 :: t1 :: ts)) with ((v1, v0, t0) :: step_data (v1 :: vs) (t1 :: ts)). cbn [bsd]. rewrite E_dbind. apply E_ext. intros i Hi.
    apply (bsd_support N HN) in Hi; [|rewrite length_step_data; cbn [length]; lia|assumption..]. destruct Hi as [Hi1 _].
    destruct i as [|b i]; [discriminate|]. cbn [hd]. rewrite E_dmap. unfold g'.
    assert (Hp : path_of uss' (b :: i) = nth b us' udef :: path_of (map snd out) i) by reflexivity.
    assert (Hpl : length (path_of (map snd out) i) = length i).
    { unfold path_of. rewrite map_length, combine_length, map_length. cbn [length] in Hi1. lia. }
    rewrite Hp, last_map_fst_combine_rev by assumption.
    apply E_ext'. intros a. f_equal. rewrite Huss.
    change (path_of (us :: uss') (a :: b :: i)) with (nth a us udef :: path_of uss' (b :: i)). rewrite Hp.
    change (rev (nth a us udef :: nth b us' udef :: path_of (map snd out) i)) with (rev (nth b us' udef :: path_of (map snd out) i) ++ [nth a us udef]).
    change (rev (a :: b :: i)) with (rev (b :: i) ++ [a]). rewrite combine_snoc; [reflexivity|]. rewrite !rev_length. cbn [length]. lia.
Qed.

Theorem law_backward N k vs ts lw us out f : (0 < N)%nat ->
  length vs = S (length out) -> length ts = length vs -> length lw = N -> Rsum (map exp lw) = 1 -> length us = N -> Forall (sizes N) out ->
  law (backward_sampling_pass udef transition_logpdf k vs ts (us :: map snd out) (lw :: map (fun o => fst (fst o)) out)) f =
  E (bsd (step_data vs ts) lw us out) (fun i => f (path_of (us :: map snd out) i, i)).
Proof.
  intros HN Hv Ht Hl Hs Hu Ho. unfold backward_sampling_pass, barker_move.
  rewrite (law_bind _ _ f).
  transitivity (law (bind (choice (split_key k (length (us :: map snd out) - 1)) (normalise (last (lw :: map (fun o => fst (fst o)) out) []))) (fun B =>
       bind (scan_backward udef transition_logpdf k 0 (nth B (last (us :: map snd out) []) udef)
          (combine (combine (combine (rev (removelast (us :: map snd out))) (rev (removelast (lw :: map (fun o => fst (fst o)) out)))) (rev (removelast vs))) (rev (removelast ts))))
       (fun o => Ret ((nth B (last (us :: map snd out) []) udef, B) :: o)))) (fun res => f (rev (map fst res), rev (map snd res)))).
  - rewrite law_bind. apply law_ext. intros B. rewrite !law_bind. apply law_ext. intros o. reflexivity.
  - rewrite (back_front N k _ HN out vs ts lw us _ Hv Ht Hl Hs Hu Ho). apply E_ext. intros i Hi.
    apply (bsd_support N HN) in Hi; [|rewrite length_step_data; lia|assumption..]. destruct Hi as [Hi _].
    rewrite map_fst_combine, map_snd_combine, !rev_involutive; [reflexivity|..];
      unfold path_of; rewrite !rev_length, map_length, combine_length; cbn [length]; rewrite map_length; lia.
Qed.
End backward.

(** ** Tracing the ancestors, from the front *)
Lemma trace_back_app {U} (udef : U) l xs A : forall B,
  trace_back udef B (l ++ [(xs, A)]) =
  let B' := nth (last (map snd (trace_back udef B l)) B) A 0%nat in trace_back udef B l ++ [(nth B' xs udef, B')].
Proof.
  induction l as [|[xs' A'] l IH]; intros B; [reflexivity|]. cbn [app trace_back]. cbv zeta. rewrite IH. cbv zeta.
  cbn [map snd app]. rewrite last_shift. reflexivity.
Qed.

Lemma trace_of_cons {U} (udef : U) lw us lw' A us' (out : list (list R * list nat * list U)) B :
  trace_of udef (fwd_out (lw, us, (lw', A, us') :: out)) B =
  let r := trace_of udef (fwd_out (lw', us', out)) B in
  let a := nth (hd 0%nat (snd r)) A 0%nat in (nth a us udef :: fst r, a :: snd r).
Proof.
  unfold fwd_out, trace_of. cbn [map snd fst].
  change (removelast (us :: us' :: map snd out)) with (us :: removelast (us' :: map snd out)).
  change (last (us :: us' :: map snd out) []) with (last (us' :: map snd out) []).
  cbn [rev]. rewrite combine_snoc.
  2:{ rewrite !rev_length, length_removelast. cbn [length]. rewrite !map_length. lia. }
  rewrite trace_back_app. cbv zeta.
  set (x := nth B (last (us' :: map snd out) []) udef).
  set (tb := trace_back udef B _).
  assert (Hhd : hd 0%nat (rev (map snd tb) ++ [B]) = last (map snd tb) B).
  { clearbody tb. destruct tb as [|p tb] using rev_ind; [reflexivity|]. rewrite !map_app. cbn [map]. rewrite rev_app_distr, last_last. reflexivity. }
  rewrite !map_app. cbn [map fst snd]. rewrite !rev_app_distr. cbn [rev app]. rewrite Hhd. reflexivity.
Qed.

Section exact.
Context {U V : Type} (udef : U) (vdef : V).
Variable transition_logpdf : U -> list U -> V -> R -> list R.
Variable M : V -> R -> U -> dist U.
Variable lp : V -> R -> U -> U -> R.
Hypothesis Hlp : forall y us v t, transition_logpdf y us v t = map (fun u => lp v t u y) us.
Hypothesis Hdens : forall v t, exists mu : dist U, forall u f, E (M v t u) f = E mu (fun y => exp (lp v t u y) * f y).
(** the log-likelihood of a later step does not depend on the particle *)
Variable lc : V -> V -> R -> R.
Variable N : nat.
Hypothesis HN : (0 < N)%nat.
Notation lg := (fun v vp t (_ : U) => lc v vp t).
Notation free := (free udef M lg multinomial_dist N).
Notation bsd := (bsd udef transition_logpdf).
Notation bw := (backward_weights transition_logpdf).
Notation path_of := (path_of udef).
Notation trace lw us out b := (trace_of udef (fwd_out (lw, us, out)) b).

Definition strip (out : list (list R * list nat * list U)) := map (fun o => (fst (fst o), snd o)) out.

Lemma bsd_strip sd : forall lw us out out', strip out = strip out' -> bsd sd lw us out = bsd sd lw us out'.
Proof.
  induction sd as [|[[v vp] t] sd IH]; intros lw us out out' H; [reflexivity|].
  destruct out as [|[[l A] x] out], out' as [|[[l' A'] x'] out']; try discriminate H; [reflexivity|].
  cbn [strip map fst snd] in H. injection H as -> -> H. cbn [CsmcBackwardOk.bsd]. now rewrite (IH l' x' out out' H).
Qed.

Definition ll_of v vp t : list R := repeat (lc v vp t) N.
Lemma ll_ne v vp t : ll_of v vp t <> [].
Proof. unfold ll_of. destruct N; [lia|discriminate]. Qed.
Lemma ll_eq v vp t us A : length A = N -> map (lg v vp t) (gather udef us A) = ll_of v vp t.
Proof.
  intros H. unfold gather, ll_of. rewrite map_map, <- H. clear. induction A as [|a A IH]; [reflexivity|]. cbn [map length repeat]. now f_equal.
Qed.

Lemma free_step v vp t sd lw us F : length lw = N -> Rsum (map exp lw) = 1 ->
  free ((v, vp, t) :: sd) lw us F =
  E (multinomial_dist (map exp lw)) (fun A => E (dseq (map (fun a => M vp t (nth a us udef)) A)) (fun us' =>
    / INR N * Rsum (map exp (ll_of v vp t)) * free sd (normalise_log (ll_of v vp t)) us'
      (fun out b => F ((normalise_log (ll_of v vp t), A, us') :: out) b))).
Proof.
  intros Hl Hs. cbn [CsmcInv.free]. apply E_ext. intros A HA.
  destruct (ec_valid _ _ exact_cmultinomial _ _ (weights_ok_exp _ Hs) HA) as [HAl _]. rewrite map_length, Hl in HAl.
  cbv zeta. rewrite (ll_eq v vp t us A HAl). unfold gather. rewrite map_map. reflexivity.
Qed.

Lemma free_ext_sizes sd : forall lw us F G, length lw = N -> Rsum (map exp lw) = 1 ->
  (forall out b, (b < N)%nat -> length out = length sd -> Forall (sizes N) out -> F out b = G out b) -> free sd lw us F = free sd lw us G.
Proof.
  induction sd as [|[[v vp] t] sd IH]; intros lw us F G Hl Hs H.
  - cbn [CsmcInv.free]. apply Rsum_map_ext. intros b Hb. apply in_seq in Hb. rewrite H; [reflexivity|lia|reflexivity|constructor].
  - rewrite !free_step by assumption. apply E_ext. intros A HA.
    destruct (ec_valid _ _ exact_cmultinomial _ _ (weights_ok_exp _ Hs) HA) as [HAl _]. rewrite map_length, Hl in HAl.
    apply E_ext. intros us' Hus'. apply dseq_length in Hus'. rewrite map_length, HAl in Hus'. f_equal.
    assert (L1 : length (normalise_log (ll_of v vp t)) = N) by (rewrite length_normalise_log; apply repeat_length).
    assert (L2 : Rsum (map exp (normalise_log (ll_of v vp t))) = 1) by (apply normalise_log_sum, ll_ne).
    apply IH; [assumption|assumption|]. intros out b Hb Ho Hf. apply H; [assumption|cbn [length]; lia|].
    constructor; [|assumption]. repeat split; assumption.
Qed.

Lemma free_E {X} (d : dist X) sd : forall lw us F,
  free sd lw us (fun out b => E d (fun x => F x out b)) = E d (fun x => free sd lw us (F x)).
Proof.
  induction sd as [|[[v vp] t] sd IH]; intros lw us F; cbn [CsmcInv.free].
  - rewrite E_Rsum. apply Rsum_map_ext. intros b _. now rewrite E_mult_l.
  - rewrite E_exchange. apply E_ext'. intros A. cbv zeta. rewrite E_exchange. apply E_ext'. intros us'. rewrite IH, E_mult_l. reflexivity.
Qed.

Definition ones : dist nat := map (fun j => (1, j)) (seq 0 N).
Lemma E_ones f : E ones f = Rsum (map f (seq 0 N)).
Proof. unfold ones, E. rewrite map_map. apply Rsum_map_ext. intros j _. cbn [fst snd]. ring. Qed.
Lemma E_pick j f : (j < N)%nat -> E ones (fun b => (if Nat.eqb b j then 1 else 0) * f b) = f j.
Proof. intros H. rewrite E_ones. now apply Rsum_indicator. Qed.

Lemma free_trace_backward sd : forall lw us h G, length lw = N -> Rsum (map exp lw) = 1 -> length us = N ->
  (forall out out', strip out = strip out' -> G out = G out') ->
  free sd lw us (fun out b => h (trace lw us out b) * G out) =
  free sd lw us (fun out b => E (bsd sd lw us out) (fun i => h (path_of (us :: map snd out) i, i)) * G out).
Proof.
  induction sd as [|[[v vp] t] sd IH]; intros lw us h G Hl Hs Hu HG.
  - cbn [CsmcInv.free CsmcBackwardOk.bsd map]. rewrite E_dmap, E_dcat, map_length, Hl.
    set (S := Rsum (map (fun i => nth i (map exp lw) 0 * h (path_of [us] [i], [i])) (seq 0 N))).
    rewrite Rsum_map_mult_r. rewrite (Rsum_map_ext (fun b => exp (nth b lw 0)) (fun i => nth i (map exp lw) 0)).
    + rewrite <- Hl, <- (map_length exp lw), map_nth_seq, Hs.
      rewrite (Rsum_map_ext (fun b => exp (nth b lw 0) * _) (fun i => nth i (map exp lw) 0 * h (path_of [us] [i], [i]) * G [])).
      * rewrite Rsum_map_mult_r, map_length, Hl. fold S. ring.
      * intros b Hb. apply in_seq in Hb. rewrite map_length in Hb. rewrite nth_exp by lia. rewrite Rmult_assoc. reflexivity.
    + intros b Hb. apply in_seq in Hb. now rewrite nth_exp by lia.
  - assert (Hlne : lw <> []) by (destruct lw; [cbn in *; lra|discriminate]).
    assert (Hul : length us = length lw) by lia.
    set (lw' := normalise_log (ll_of v vp t)).
    assert (L1 : length lw' = N) by (unfold lw'; rewrite length_normalise_log; apply repeat_length).
    assert (L2 : Rsum (map exp lw') = 1) by (apply normalise_log_sum, ll_ne).
    rewrite !free_step by assumption. fold lw'. set (Z := / INR N * Rsum (map exp (ll_of v vp t))).
    set (D := fun a => M vp t (nth a us udef)).
    set (G0 := fun us' out => G ((lw', [], us') :: out)).
    assert (HG0 : forall us' A out, G ((lw', A, us') :: out) = G0 us' out) by (intros; apply HG; reflexivity).
    (* contribution of the paths through slot b with ancestor a *)
    set (X := fun b a (us' : list U) (out : list (list R * list nat * list U)) =>
       E (bsd sd lw' us' out) (fun i => (if Nat.eqb b (hd 0%nat i) then 1 else 0) * h (nth a us udef :: path_of (us' :: map snd out) i, a :: i)) * G0 us' out).
    assert (HW : multinomial_dist (map exp lw) = dseq (repeat (dcat (map exp lw)) N)) by (unfold multinomial_dist; now rewrite map_length, Hl).
    rewrite HW.
    (* left-hand side *)
    rewrite (E_ext (dseq (repeat (dcat (map exp lw)) N)) _ (fun A => E ones (fun b => E (dseq (map D A)) (fun us' => Z * free sd lw' us' (fun out _ => X b (nth b A 0%nat) us' out))))).
    2:{ intros A HA. rewrite E_exchange. apply E_ext. intros us' Hus'. apply dseq_length in Hus'.
        assert (HAl : length A = N) by (apply dseq_length in HA; now rewrite repeat_length in HA). rewrite map_length, HAl in Hus'.
        rewrite E_mult_l. f_equal.
        set (hA := fun pi : list U * list nat => let a := nth (hd 0%nat (snd pi)) A 0%nat in h (nth a us udef :: fst pi, a :: snd pi)).
        transitivity (free sd lw' us' (fun out b => hA (trace lw' us' out b) * G0 us' out)).
        { apply free_ext_sizes; [assumption|assumption|]. intros out b _ _ _. rewrite HG0, trace_of_cons. reflexivity. }
        rewrite IH; [|assumption|assumption|assumption|].
        2:{ intros out out' Ho. unfold G0. apply HG. cbn [strip map fst snd]. f_equal. exact Ho. }
        rewrite <- free_E. apply free_ext_sizes; [assumption|assumption|]. intros out b _ Ho Hsz. unfold X.
        rewrite E_mult_r, E_exchange. f_equal. apply E_ext. intros i Hi.
        apply (bsd_support udef transition_logpdf lp Hlp N HN) in Hi; [|lia|assumption|assumption|assumption].
        destruct Hi as [Hi1 Hi2]. destruct i as [|c i]; [discriminate|]. cbn [hd]. assert (Hc := Forall_inv Hi2). cbn beta in Hc.
        rewrite (E_pick c (fun b => h (nth (nth b A 0%nat) us udef :: path_of (us' :: map snd out) (c :: i), nth b A 0%nat :: c :: i)) Hc). reflexivity. }
    rewrite E_exchange.
    rewrite (E_ext ones _ (fun b => E (dseq (repeat (dbind (dcat (map exp lw)) D) N)) (fun us' => E (dcat (bw (nth b us' udef) us lw vp t)) (fun a => Z * free sd lw' us' (fun out _ => X b a us' out))))).
    2:{ intros b Hb. assert (Hb' : (b < N)%nat) by (unfold ones in Hb; rewrite map_map in Hb; cbn [snd] in Hb; rewrite map_id in Hb; apply in_seq in Hb; lia).
        exact (mixture_one udef (dcat (map exp lw)) D (fun y => dcat (bw y us lw vp t)) (bw_bayes udef transition_logpdf M lp Hlp Hdens us lw vp t Hul Hlne)
          N b (fun a us' => Z * free sd lw' us' (fun out _ => X b a us' out)) Hb'). }
    rewrite E_exchange.
    (* right-hand side *)
    set (RH := fun us' => Z * free sd lw' us' (fun out _ => E (bsd sd lw' us' out) (fun i => E (dcat (bw (nth (hd 0%nat i) us' udef) us lw vp t)) (fun a =>
       h (nth a us udef :: path_of (us' :: map snd out) i, a :: i))) * G0 us' out)).
    transitivity (E (dseq (repeat (dcat (map exp lw)) N)) (fun A => E (dseq (map D A)) RH)).
    2:{ apply E_ext'. intros A. apply E_ext'. intros us'. unfold RH. f_equal. apply free_ext_sizes; [assumption|assumption|].
        intros out b _ _ _. rewrite HG0. cbn [CsmcBackwardOk.bsd]. rewrite E_dbind. f_equal. apply E_ext'. intros i. rewrite E_dmap. reflexivity. }
    rewrite (mixture_all (dcat (map exp lw)) D). apply E_ext. intros us' Hus'. apply dseq_length in Hus'. rewrite repeat_length in Hus'.
    unfold RH.
    rewrite (E_ext' ones _ (fun b => Z * free sd lw' us' (fun out _ => E (dcat (bw (nth b us' udef) us lw vp t)) (fun a => X b a us' out)))).
    2:{ intros b. rewrite E_mult_l, free_E. reflexivity. }
    rewrite E_mult_l, <- free_E. f_equal. apply free_ext_sizes; [assumption|assumption|]. intros out b _ Ho Hsz.
    unfold X. rewrite <- E_mult_r.
    rewrite (E_ext' ones _ (fun b => E (bsd sd lw' us' out) (fun i => (if Nat.eqb b (hd 0%nat i) then 1 else 0) *
       (E (dcat (bw (nth b us' udef) us lw vp t)) (fun a => h (nth a us udef :: path_of (us' :: map snd out) i, a :: i)) * G0 us' out)))).
    2:{ intros c. rewrite E_mult_r, E_exchange, <- E_mult_r. apply E_ext'. intros i. rewrite E_mult_l. ring. }
    rewrite E_exchange. apply E_ext. intros i Hi.
    apply (bsd_support udef transition_logpdf lp Hlp N HN) in Hi; [|lia|assumption|assumption|assumption].
    destruct Hi as [Hi1 Hi2]. destruct i as [|c i]; [discriminate|]. cbn [hd]. assert (Hc := Forall_inv Hi2). cbn beta in Hc.
    exact (E_pick c (fun b => E (dcat (bw (nth b us' udef) us lw vp t)) (fun a => h (nth a us udef :: path_of (us' :: map snd out) (c :: i), a :: c :: i)) * G0 us' out) Hc).
Qed.
End exact.

Section backward_kernel.
Context {U V : Type} (udef : U) (vdef : V).
Variable init_sampler : key -> nat -> prog (list U).
Variable init_likelihood_logpdf : V -> list U -> V -> list R.
Variable transition_sampler : list U -> V -> R -> key -> prog (list U).
Variable transition_logpdf : U -> list U -> V -> R -> list R.
Variable likelihood_logpdf : V -> list U -> V -> R -> list R.
Variable cond_resampling : key -> list R -> nat -> nat -> bool -> prog (list nat).
Variable m0 : dist U.
Variable lG0 : V -> V -> U -> R.
Variable M : V -> R -> U -> dist U.
Variable lc : V -> V -> R -> R.
Notation lg := (fun v vp t (_ : U) => lc v vp t).
Hypothesis Hmo : model_ok init_sampler init_likelihood_logpdf transition_sampler likelihood_logpdf cond_resampling m0 lG0 M lg multinomial_dist.
Hypothesis Hsh : shapes_ok init_sampler init_likelihood_logpdf transition_sampler transition_logpdf likelihood_logpdf cond_resampling.
Variable lp : V -> R -> U -> U -> R.
Hypothesis Hlp : forall y us v t, transition_logpdf y us v t = map (fun u => lp v t u y) us.
Hypothesis Hdens : forall v t, exists mu : dist U, forall u f, E (M v t u) f = E mu (fun y => exp (lp v t u y) * f y).

Notation kernel := (csmc_kernel udef vdef init_sampler init_likelihood_logpdf transition_sampler transition_logpdf likelihood_logpdf cond_resampling).
Notation fwd := (forward_pass udef vdef init_sampler init_likelihood_logpdf transition_sampler likelihood_logpdf cond_resampling).
Notation bsd := (bsd udef transition_logpdf).
Notation joint := (joint vdef m0 lG0 M lg).

Definition back_law (k : key) (vs : list V) (ts : list R) (res : list (list nat) * list (list R) * list (list U)) (f : list U * list nat -> R) : R :=
  law (backward_sampling_pass udef transition_logpdf k vs ts (snd res) (snd (fst res))) f.

Lemma law_kernel_back k us bs vs ts n f :
  law (kernel k us bs vs ts n true) f = law (fwd (split_key k 0) us bs vs ts n) (fun res => back_law (split_key k 1) vs ts res f).
Proof. unfold csmc_kernel. rewrite law_bind. apply law_ext. intros [[As lws] uss]. reflexivity. Qed.

Lemma bsd_mass N : (0 < N)%nat -> forall sd lw us out c, length sd = length out -> length lw = N -> Rsum (map exp lw) = 1 -> length us = N -> Forall (@sizes U N) out ->
  E (bsd sd lw us out) (fun _ => c) = c.
Proof.
  intros HN. induction sd as [|[[v vp] t] sd IH]; intros lw us out c Ho Hl Hs Hu Hsz.
  - cbn [CsmcBackwardOk.bsd]. rewrite E_dmap. apply E_const, is_prob_dcat. now apply weights_ok_exp.
  - destruct out as [|[[lw' A] us'] out]; [discriminate|]. cbn [CsmcBackwardOk.bsd]. rewrite E_dbind.
    assert (H1 := Forall_inv Hsz). assert (H2 := Forall_inv_tail Hsz). destruct H1 as [[H1 H3] H4]. cbn [fst snd] in *.
    rewrite (E_ext' _ _ (fun _ => c)); [apply IH; try assumption; now injection Ho|].
    intros i. rewrite E_dmap. apply E_const, is_prob_dcat. apply (bw_ok transition_logpdf lp Hlp); [lia|]. destruct lw; [cbn in *; lra|discriminate].
Qed.

Lemma forward_ok_out N us bs res : us <> [] -> forward_ok N us bs res ->
  exists lw0 us0 out, res = fwd_out (lw0, us0, out) /\ length out = (length us - 1)%nat /\
    length lw0 = N /\ Rsum (map exp lw0) = 1 /\ length us0 = N /\ Forall (@sizes U N) out.
Proof.
  destruct res as [[As lws] uss]. intros Hne (HA & HL & HU & HLs & _ & HUs & _).
  destruct us as [|u us]; [easy|]. cbn [length] in *. rewrite Nat.sub_succ, Nat.sub_0_r in *.
  destruct lws as [|lw0 lws]; [discriminate|]. destruct uss as [|us0 uss]; [discriminate|].
  exists lw0, us0, (combine (combine lws As) uss). cbn [length] in *.
  assert (Hl1 : length lws = length As) by lia. assert (Hl2 : length (combine lws As) = length uss) by (rewrite combine_length; lia).
  split.
  - unfold fwd_out. rewrite map_snd_combine by assumption.
    rewrite <- (map_map fst snd), <- (map_map fst fst), map_fst_combine, map_snd_combine, map_fst_combine by assumption. reflexivity.
  - split; [rewrite !combine_length; lia|]. assert (H1 := Forall_inv HLs). assert (H2 := Forall_inv_tail HLs). destruct H1 as [H1 H1'].
    assert (H3 := Forall_inv HUs). assert (H4 := Forall_inv_tail HUs). repeat split; try assumption.
    apply Forall_forall. intros [[lw A] x] Hin. assert (Hc := in_combine_r _ _ _ _ Hin). apply in_combine_l in Hin. apply in_combine_l in Hin.
    rewrite Forall_forall in H2, H4. repeat split; cbn [fst snd]; [apply H2; assumption|apply H2; assumption|apply H4; assumption].
Qed.

Lemma back_law_out N k vs ts lw0 us0 out f : (0 < N)%nat -> length vs = S (length out) -> length ts = length vs ->
  length lw0 = N -> Rsum (map exp lw0) = 1 -> length us0 = N -> Forall (@sizes U N) out ->
  back_law k vs ts (fwd_out (lw0, us0, out)) f = E (bsd (step_data vs ts) lw0 us0 out) (fun i => f (path_of udef (us0 :: map snd out) i, i)).
Proof. intros. unfold back_law, fwd_out. cbn [fst snd]. eapply law_backward; eassumption. Qed.

Lemma kernel_back_total N k us bs vs ts : (0 < N)%nat ->
  us <> [] -> length bs = length us -> length vs = length us -> length ts = length us -> Forall (fun b => (b < N)%nat) bs ->
  law (kernel k us bs vs ts (N - 1)%nat true) (fun _ => 1) = 1.
Proof.
  intros HN Hne Hb Hv Ht HB. rewrite law_kernel_back. assert (HN1 : (N - 1 + 1)%nat = N) by lia.
  rewrite (law_ext_safe _ (forward_ok N us bs) _ (fun _ => 1)).
  - destruct us as [|u0 us]; [easy|]. destruct bs as [|b0 bs]; [discriminate|].
    assert (HB0 := Forall_inv HB); assert (HB1 := Forall_inv_tail HB). simpl in Hb, Hv, Ht.
    rewrite <- (map_snd_combine bs us) by lia. rewrite <- (map_fst_combine bs us) at 2 by lia.
    eapply law_fwd_const; [exact Hmo|exact HN|rewrite combine_length; lia|lia|assumption|].
    apply Forall_forall. intros [b u] Hin. apply in_combine_l in Hin. rewrite Forall_forall in HB1. simpl. auto.
  - rewrite <- HN1 at 2. apply (forward_pass_safe udef vdef) with (transition_logpdf := transition_logpdf); try assumption. now rewrite HN1.
  - intros res Hok. apply forward_ok_out in Hok; [|assumption]. destruct Hok as (lw0 & us0 & out & -> & H1 & H2 & H3 & H4 & H5).
    assert (0 < length us)%nat by (destruct us; [easy|cbn; lia]).
    rewrite (back_law_out N) by (assumption || lia). apply (bsd_mass N HN); try assumption. rewrite length_step_data; lia.
Qed.

Theorem kernel_back_reversible_joint N k vs ts f h : (0 < N)%nat ->
  vs <> [] -> length ts = length vs ->
  joint N vs ts (fun us bs => h (us, bs) * law (kernel k us bs vs ts (N - 1)%nat true) f) =
  joint N vs ts (fun us bs => f (us, bs) * law (kernel k us bs vs ts (N - 1)%nat true) h).
Proof.
  intros HN Hv Ht. assert (HN1 : (N - 1 + 1)%nat = N) by lia. set (sd := step_data vs ts).
  assert (Hsd : length sd = (length vs - 1)%nat) by (unfold sd; now rewrite length_step_data).
  assert (Hvl : (0 < length vs)%nat) by (destruct vs; [easy|cbn; lia]).
  assert (Hone : forall f h, joint N vs ts (fun us bs => h (us, bs) * law (kernel k us bs vs ts (N - 1)%nat true) f) =
     free_run udef m0 lG0 M lg multinomial_dist N sd (nth 0 vs vdef) (nth 1 vs vdef) (fun lw0 us0 out b =>
        E (bsd sd lw0 us0 out) (fun i => h (path_of udef (us0 :: map snd out) i, i)) *
        E (bsd sd lw0 us0 out) (fun i => f (path_of udef (us0 :: map snd out) i, i)))).
  { clear f h. intros f h.
    rewrite (joint_ext vdef m0 lG0 M lg N HN vs ts _ (fun us bs => law (fwd (split_key k 0) us bs vs ts (N - 1)%nat) (fun res =>
       h (trace_of udef res (last bs 0%nat)) * back_law (split_key k 1) vs ts res f)) Hv Ht).
    - transitivity (free_run udef m0 lG0 M lg multinomial_dist N sd (nth 0 vs vdef) (nth 1 vs vdef) (fun lw0 us0 out b =>
         h (trace_of udef (fwd_out (lw0, us0, out)) b) * back_law (split_key k 1) vs ts (fwd_out (lw0, us0, out)) f)).
      { exact (swap_forward udef vdef init_sampler init_likelihood_logpdf transition_sampler likelihood_logpdf cond_resampling m0 lG0 M lg multinomial_dist Hmo N HN
           (split_key k 0) vs ts (fun res b => h (trace_of udef res b) * back_law (split_key k 1) vs ts res f) Hv Ht). }
      unfold free_run. apply E_ext. intros us0 Hus0. apply dseq_length in Hus0. rewrite repeat_length in Hus0. cbv zeta. f_equal.
      set (ll := map (lG0 (nth 0 vs vdef) (nth 1 vs vdef)) us0). set (lw0 := normalise_log ll).
      assert (Hll : length ll = N) by (unfold ll; now rewrite map_length).
      assert (Hllne : ll <> []) by (destruct ll; [simpl in Hll; lia|discriminate]).
      assert (L1 : length lw0 = N) by (unfold lw0; now rewrite length_normalise_log).
      assert (L2 : Rsum (map exp lw0) = 1) by (now apply normalise_log_sum).
      set (G := fun out => E (bsd sd lw0 us0 out) (fun i => f (path_of udef (us0 :: map snd out) i, i))).
      transitivity (CsmcInv.free udef M lg multinomial_dist N sd lw0 us0 (fun out b => h (trace_of udef (fwd_out (lw0, us0, out)) b) * G out)).
      + apply free_ext_sizes; [assumption..|]. intros out b _ Ho Hsz. f_equal.
        unfold G, sd. apply (back_law_out N); try assumption; lia.
      + apply (free_trace_backward udef transition_logpdf M lp Hlp Hdens lc N HN sd lw0 us0 h G L1 L2 Hus0).
        intros out out' Hs. unfold G. rewrite (bsd_strip udef transition_logpdf sd lw0 us0 out out' Hs).
        replace (map snd out') with (map snd out); [reflexivity|].
        assert (Hm : forall o : list (list R * list nat * list U), map snd o = map snd (strip o)) by (intros o; unfold strip; now rewrite map_map).
        now rewrite (Hm out), (Hm out'), Hs.
    - intros us bs Hul Hbl HB.
      assert (Hune : us <> []) by (destruct us, vs; simpl in *; try lia; easy).
      rewrite law_kernel_back.
      transitivity (law (fwd (split_key k 0) us bs vs ts (N - 1)%nat) (fun res => h (us, bs) * back_law (split_key k 1) vs ts res f)).
      2:{ apply (law_ext_safe _ (forward_ok N us bs)).
          - rewrite <- HN1 at 2. apply (forward_pass_safe udef vdef) with (transition_logpdf := transition_logpdf); try assumption; try lia. now rewrite HN1.
          - intros res Hok. rewrite (trace_reference udef N HN res us bs N); try assumption; try lia; reflexivity. }
      symmetry. eapply law_fwd_scal; try eassumption; lia. }
  rewrite (Hone f h), (Hone h f). unfold free_run. apply E_ext'. intros us0. cbv zeta. f_equal.
  apply free_ext; [exact HN|]. intros out b _. apply Rmult_comm.
Qed.

Notation target vs ts := (smoothing vdef m0 lG0 M lg vs ts).

Theorem csmc_back_reversible k vs ts nsamples f h :
  vs <> [] -> length ts = length vs ->
  E (target vs ts) (fun us => E (unif_indices (nsamples + 1) (length vs)) (fun bs =>
     h (us, bs) * law (kernel k us bs vs ts nsamples true) f)) =
  E (target vs ts) (fun us => E (unif_indices (nsamples + 1) (length vs)) (fun bs =>
     f (us, bs) * law (kernel k us bs vs ts nsamples true) h)).
Proof.
  intros Hv Ht. pose proof (kernel_back_reversible_joint (nsamples + 1) k vs ts f h ltac:(lia) Hv Ht) as H.
  rewrite !joint_spec in H by (assumption || lia). replace (nsamples + 1 - 1)%nat with nsamples in H by lia. exact H.
Qed.

Theorem csmc_back_invariant k vs ts nsamples f :
  vs <> [] -> length ts = length vs ->
  E (target vs ts) (fun us => E (unif_indices (nsamples + 1) (length vs)) (fun bs =>
     law (kernel k us bs vs ts nsamples true) f)) =
  E (target vs ts) (fun us => E (unif_indices (nsamples + 1) (length vs)) (fun bs => f (us, bs))).
Proof.
  intros Hv Ht. pose proof (csmc_back_reversible k vs ts nsamples f (fun _ => 1) Hv Ht) as H.
  assert (HN : (nsamples + 1 - 1 = nsamples)%nat) by lia.
  rewrite <- !(joint_spec vdef m0 lG0 M lg (nsamples + 1) ltac:(lia)) in * by assumption.
  rewrite (joint_ext vdef m0 lG0 M lg (nsamples + 1) ltac:(lia) vs ts _ (fun us bs => 1 * law (kernel k us bs vs ts nsamples true) f)) by (try assumption; intros; ring).
  rewrite H. apply joint_ext; [lia|assumption|assumption|]. intros us bs Hu Hb HB.
  pose proof (kernel_back_total (nsamples + 1) k us bs vs ts ltac:(lia)) as Ht1.
  rewrite HN in Ht1. rewrite Ht1; try lia; [ring| |assumption].
  destruct us, vs; simpl in *; try lia; easy.
Qed.
End backward_kernel.

Lemma const_lik {U V : Type} (lg : V -> V -> R -> U -> R) (u0 : U) :
  (forall v vp t u u', lg v vp t u = lg v vp t u') -> lg = (fun v vp t _ => lg v vp t u0).
Proof. intros H. do 4 (apply FunctionalExtensionality.functional_extensionality; intros ?). apply H. Qed.
