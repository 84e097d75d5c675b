(** Small concrete models, used to exercise the theorems on non-trivial data. *)
From Verif Require Export CsmcInv.
Open Scope R_scope.

(** draw one value from a finite law; draw a vector of independent values *)
Definition fin_draw {A} (dflt : A) (k : key) (d : dist A) : prog A :=
  Fin k (map fst d) (fun i => Ret (nth i (map snd d) dflt)).

Fixpoint fin_draws {A} (dflt : A) (k : key) (i : nat) (ds : list (dist A)) : prog (list A) :=
  match ds with
  | [] => Ret []
  | d :: ds' => a <- fin_draw dflt (split_key k i) d ;; l <- fin_draws dflt k (S i) ds' ;; Ret (a :: l)
  end.

Lemma E_dcat_fst {A} (dflt : A) (d : dist A) f : E (dcat (map fst d)) (fun i => f (nth i (map snd d) dflt)) = E d f.
Proof.
  rewrite E_dcat, map_length.
  induction d as [|[p a] d IH]; [reflexivity|].
  rewrite E_cons. cbn [length seq map fst snd nth Rsum]. f_equal.
  rewrite <- seq_shift, map_map. cbn [nth]. exact IH.
Qed.

Lemma fin_draw_denotes {A} (dflt : A) k d : denotes (fin_draw dflt k d) d.
Proof. intros f. exact (E_dcat_fst dflt d f). Qed.

Lemma fin_draws_denotes {A} (dflt : A) k ds : forall i, denotes (fin_draws dflt k i ds) (dseq ds).
Proof.
  induction ds as [|d ds IH]; intros i f; [exact (eq_sym (E_dret [] f))|].
  cbn [fin_draws]. rewrite law_bind, (fin_draw_denotes dflt _ d _), E_dseq_cons. apply E_ext'. intros a.
  rewrite law_bind, (IH _ _). reflexivity.
Qed.

Lemma fin_draws_length {A} (dflt : A) k ds : forall i, safe (fin_draws dflt k i ds) (fun l => length l = length ds).
Proof.
  induction ds as [|d ds IH]; intros i; cbn [fin_draws]; [now apply safe_ret|].
  apply safe_bind with (P := fun _ => True); [intros ? ? ?; exact I|]. intros a _.
  eapply safe_bind; [apply IH|]. intros l Hl. apply safe_ret. cbn [length]. congruence.
Qed.

Lemma fin_draws_good {A} (dflt : A) k ds : forall i, good (map (split_key k) (seq i (length ds))) (fin_draws dflt k i ds).
Proof.
  induction ds as [|d ds IH]; intros i; cbn [fin_draws length seq map]; [apply good_ret|].
  change (split_key k i :: map (split_key k) (seq (S i) (length ds))) with (map (split_key k) ([i] ++ seq (S i) (length ds))).
  apply good_bind_under.
  - intros a b Ha Hb. apply in_seq in Hb. destruct Ha as [<-|[]]. lia.
  - apply good_fin.
  - intros a. apply good_bind_ret. apply IH.
Qed.

Lemma fin_draws_good_key {A} (dflt : A) k i ds : good [k] (fin_draws dflt k i ds).
Proof. eapply good_under. apply fin_draws_good. Qed.

(** ** A two-state model with two-valued measurements *)
Definition coin : dist bool := [(1/2, false); (1/2, true)].
Definition sticky (u : bool) : dist bool := [(3/4, u); (1/4, negb u)].

Lemma coin_prob : is_prob coin.
Proof. split; [repeat constructor; simpl; lra|]. unfold E, coin. simpl. lra. Qed.
Lemma sticky_prob u : is_prob (sticky u).
Proof. split; [repeat constructor; simpl; lra|]. unfold E, sticky. simpl. lra. Qed.

Definition demo_init (k : key) (n : nat) : prog (list bool) := fin_draws false k 0 (repeat coin n).
Definition demo_lG0 (v v' u : bool) : R := if eqb v u then ln 2 else 0.
Definition demo_M (v : bool) (t : R) (u : bool) : dist bool := sticky u.
Definition demo_lg (v v' : bool) (t : R) (u : bool) : R := if eqb v u then ln 3 else 0.
Definition demo_initll (v : bool) (us : list bool) (v' : bool) : list R := map (demo_lG0 v v') us.
Definition demo_trans (us : list bool) (v : bool) (t : R) (k : key) : prog (list bool) := fin_draws false k 0 (map (demo_M v t) us).
Definition demo_translp (x : bool) (us : list bool) (v : bool) (t : R) : list R :=
  map (fun u => if eqb x u then ln (3/4) else ln (1/4)) us.
Definition demo_lik (v : bool) (us : list bool) (v' : bool) (t : R) : list R := map (demo_lg v v' t) us.

Lemma demo_shapes cres :
  (forall k w i j, weights_ok w -> (i < length w)%nat -> (j < length w)%nat ->
     safe (cres k w i j true) (fun A => valid_indices (length w) A /\ nth j A 0%nat = i)) ->
  shapes_ok demo_init demo_initll demo_trans demo_translp demo_lik cres.
Proof.
  intros H. constructor.
  - intros k n. unfold demo_init. eapply safe_weaken; [|apply fin_draws_length]. intros l Hl. now rewrite repeat_length in Hl.
  - intros. apply map_length.
  - intros. unfold demo_trans. eapply safe_weaken; [|apply fin_draws_length]. intros l Hl. now rewrite map_length in Hl.
  - intros. apply map_length.
  - intros. apply map_length.
  - exact H.
Qed.

Lemma demo_model cres r : exact_cres cres r ->
  model_ok demo_init demo_initll demo_trans demo_lik cres coin demo_lG0 demo_M demo_lg r.
Proof.
  intros H. constructor.
  - exact coin_prob.
  - intros. apply sticky_prob.
  - intros. apply fin_draws_denotes.
  - reflexivity.
  - intros. apply fin_draws_denotes.
  - reflexivity.
  - exact H.
Qed.

(** ** A model whose transition forgets the state (for the backward-sampling counterexample) *)
Definition flat_lG0 (v v' u : bool) : R := 0.
Definition flat_M (v : bool) (t : R) (u : bool) : dist bool := coin.
Definition flat_initll (v : bool) (us : list bool) (v' : bool) : list R := map (flat_lG0 v v') us.
Definition flat_trans (us : list bool) (v : bool) (t : R) (k : key) : prog (list bool) := fin_draws false k 0 (map (flat_M v t) us).
Definition flat_translp (x : bool) (us : list bool) (v : bool) (t : R) : list R := map (fun _ => ln (1/2)) us.

Lemma flat_shapes cres :
  (forall k w i j, weights_ok w -> (i < length w)%nat -> (j < length w)%nat ->
     safe (cres k w i j true) (fun A => valid_indices (length w) A /\ nth j A 0%nat = i)) ->
  shapes_ok demo_init flat_initll flat_trans flat_translp demo_lik cres.
Proof.
  intros H. constructor.
  - intros k n. unfold demo_init. eapply safe_weaken; [|apply fin_draws_length]. intros l Hl. now rewrite repeat_length in Hl.
  - intros. apply map_length.
  - intros. unfold demo_trans. eapply safe_weaken; [|apply fin_draws_length]. intros l Hl. now rewrite map_length in Hl.
  - intros. apply map_length.
  - intros. apply map_length.
  - exact H.
Qed.

Lemma flat_model cres r : exact_cres cres r ->
  model_ok demo_init flat_initll flat_trans demo_lik cres coin flat_lG0 flat_M demo_lg r.
Proof.
  intros H. constructor.
  - exact coin_prob.
  - intros. apply coin_prob.
  - intros. apply fin_draws_denotes.
  - reflexivity.
  - intros. apply fin_draws_denotes.
  - reflexivity.
  - exact H.
Qed.
