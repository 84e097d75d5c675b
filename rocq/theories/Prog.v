(** Random programs with explicit keys: syntax and its three readings
    ([runs]/[safe]: all outcomes; [law]: expectation; [hygienic]: key discipline). *)
From Coquelicot Require Import Coquelicot.
From Verif Require Export Dist.
Open Scope R_scope.

(** A key is a path in the tree of splits: [jax.random.split(k, n)[i]] is [k ++ [i]].
    (Simplification: JAX's children also depend on [n].) *)
Definition key := list nat.
Definition split_key (k : key) (i : nat) : key := k ++ [i].

(** Programs consuming keys.
    - [Unif k n c]: [us = jax.random.uniform(k, (n,))], values in [0,1).
    - [Rint k n hi c]: [jax.random.randint(k, (n,), 0, hi)]; JAX returns 0 when [hi <= 0].
    - [Fin k ps c]: an abstract draw of an index with probabilities [ps]; used only to
      write user-supplied samplers (their law is assumed to have finite support). *)
Inductive prog (A : Type) : Type :=
| Ret (a : A)
| Unif (k : key) (n : nat) (c : list R -> prog A)
| Rint (k : key) (n hi : nat) (c : list nat -> prog A)
| Fin (k : key) (ps : list R) (c : nat -> prog A).
Arguments Ret {A} a.
Arguments Unif {A} k n c.
Arguments Rint {A} k n hi c.
Arguments Fin {A} k ps c.

Fixpoint bind {A B} (p : prog A) (g : A -> prog B) : prog B :=
  match p with
  | Ret a => g a
  | Unif k n c => Unif k n (fun us => bind (c us) g)
  | Rint k n hi c => Rint k n hi (fun l => bind (c l) g)
  | Fin k ps c => Fin k ps (fun i => bind (c i) g)
  end.

Declare Scope prog_scope.
Delimit Scope prog_scope with prog.
Notation "x <- p ;; q" := (bind p (fun x => q))
  (at level 61, p at next level, right associativity) : prog_scope.
Notation "' pat <- p ;; q" := (bind p (fun x => match x with pat => q end))
  (at level 61, pat pattern, p at next level, right associativity) : prog_scope.
Open Scope prog_scope.

(** ** All outcomes *)

Definition rint_hi (hi : nat) : nat := Nat.max 1 hi.

(** [runs p tr a]: some outcome of the draws makes [p] return [a] after consuming the keys [tr]. *)
Fixpoint runs {A} (p : prog A) (tr : list key) (a : A) : Prop :=
  match p with
  | Ret x => tr = [] /\ a = x
  | Unif k n c => exists us tr', tr = k :: tr' /\ length us = n /\ Forall in01 us /\ runs (c us) tr' a
  | Rint k n hi c => exists l tr', tr = k :: tr' /\ length l = n /\
                      Forall (fun i => (i < rint_hi hi)%nat) l /\ runs (c l) tr' a
  | Fin k ps c => exists i tr', tr = k :: tr' /\ (i < length ps)%nat /\ runs (c i) tr' a
  end.

Definition safe {A} (p : prog A) (Q : A -> Prop) : Prop := forall tr a, runs p tr a -> Q a.

(** ** Expectation *)

(** n-fold Riemann integral over [0,1]^n *)
Fixpoint uint (n : nat) (F : list R -> R) : R :=
  match n with
  | O => F []
  | S n' => RInt (fun u => uint n' (fun us => F (u :: us))) 0 1
  end.

Fixpoint law {A} (p : prog A) (f : A -> R) : R :=
  match p with
  | Ret a => f a
  | Unif k n c => uint n (fun us => law (c us) f)
  | Rint k n hi c => E (dseq (repeat (dunif (rint_hi hi)) n)) (fun l => law (c l) f)
  | Fin k ps c => E (dcat ps) (fun i => law (c i) f)
  end.

(** [p] has the finite-support law [d] *)
Definition denotes {A} (p : prog A) (d : dist A) : Prop := forall f, law p f = E d f.

(** ** Key discipline *)

Definition prefix (k1 k2 : key) : Prop := exists s, k2 = k1 ++ s.
Definition incomp (k1 k2 : key) : Prop := ~ prefix k1 k2 /\ ~ prefix k2 k1.

(** no key consumed twice, none both consumed and an ancestor of a consumed key *)
Definition hygienic {A} (p : prog A) : Prop := forall tr a, runs p tr a -> ForallOrdPairs incomp tr.

(** every consumed key descends from one of [K] *)
Definition owned {A} (K : list key) (p : prog A) : Prop :=
  forall tr a, runs p tr a -> Forall (fun k => Exists (fun k0 => prefix k0 k) K) tr.

(** ** jax.random.choice *)

(** [jax.random.choice(key, N, (m,), p=p)] as JAX implements it:
    [searchsorted(cumsum p, cumsum(p)[-1] * (1 - uniform(key, (m,))))]. *)
Definition choice_index (p : list R) (u : R) : nat :=
  searchsorted (cumsum p) (last (cumsum p) 0 * (1 - u)).
Definition choices (k : key) (p : list R) (m : nat) : prog (list nat) :=
  Unif k m (fun us => Ret (map (choice_index p) us)).
Definition choice (k : key) (p : list R) : prog nat :=
  Unif k 1 (fun us => Ret (choice_index p (nth 0 us 0))).

(** [jax.random.choice(key, N)] / [choice(key, array)] without [p]: a uniform index. *)
Definition choice_unif (k : key) (n : nat) : prog nat :=
  Rint k 1 n (fun l => Ret (nth 0 l 0%nat)).

(** ** Lemmas *)

Lemma runs_bind {A B} (p : prog A) (g : A -> prog B) tr b :
  runs (bind p g) tr b <-> exists tr1 a tr2, tr = tr1 ++ tr2 /\ runs p tr1 a /\ runs (g a) tr2 b.
Proof.
  revert tr; induction p as [x|k n c IH|k n hi c IH|k ps c IH]; intros tr; simpl.
  - split.
    + intros H. exists [], x, tr. auto.
    + intros (tr1 & a & tr2 & -> & [-> ->] & H). exact H.
  - split.
    + intros (us & tr' & -> & Hl & Hu & H). apply IH in H.
      destruct H as (tr1 & a & tr2 & -> & H1 & H2).
      exists (k :: tr1), a, tr2. split; [reflexivity|]. split; [|assumption].
      exists us, tr1. auto.
    + intros (tr1 & a & tr2 & -> & (us & tr' & -> & Hl & Hu & H1) & H2).
      exists us, (tr' ++ tr2). repeat split; auto. apply IH. exists tr', a, tr2. auto.
  - split.
    + intros (us & tr' & -> & Hl & Hu & H). apply IH in H.
      destruct H as (tr1 & a & tr2 & -> & H1 & H2).
      exists (k :: tr1), a, tr2. split; [reflexivity|]. split; [|assumption].
      exists us, tr1. auto.
    + intros (tr1 & a & tr2 & -> & (us & tr' & -> & Hl & Hu & H1) & H2).
      exists us, (tr' ++ tr2). repeat split; auto. apply IH. exists tr', a, tr2. auto.
  - split.
    + intros (i & tr' & -> & Hl & H). apply IH in H.
      destruct H as (tr1 & a & tr2 & -> & H1 & H2).
      exists (k :: tr1), a, tr2. split; [reflexivity|]. split; [|assumption].
      exists i, tr1. auto.
    + intros (tr1 & a & tr2 & -> & (i & tr' & -> & Hl & H1) & H2).
      exists i, (tr' ++ tr2). repeat split; auto. apply IH. exists tr', a, tr2. auto.
Qed.

Lemma safe_ret {A} (a : A) (Q : A -> Prop) : Q a -> safe (Ret a) Q.
Proof. intros H tr x [_ ->]. exact H. Qed.

Lemma safe_bind {A B} (p : prog A) (g : A -> prog B) (P : A -> Prop) (Q : B -> Prop) :
  safe p P -> (forall a, P a -> safe (g a) Q) -> safe (bind p g) Q.
Proof.
  intros Hp Hg tr b H. apply runs_bind in H. destruct H as (tr1 & a & tr2 & -> & H1 & H2).
  exact (Hg a (Hp _ _ H1) _ _ H2).
Qed.

Lemma safe_weaken {A} (p : prog A) (P Q : A -> Prop) : (forall a, P a -> Q a) -> safe p P -> safe p Q.
Proof. intros H HP tr a Hr. apply H. eapply HP; eauto. Qed.

Lemma safe_unif {A} k n (c : list R -> prog A) Q :
  (forall us, length us = n -> Forall in01 us -> safe (c us) Q) -> safe (Unif k n c) Q.
Proof. intros H tr a (us & tr' & -> & Hl & Hu & Hr). eapply H; eauto. Qed.

Lemma safe_rint {A} k n hi (c : list nat -> prog A) Q :
  (forall l, length l = n -> Forall (fun i => (i < rint_hi hi)%nat) l -> safe (c l) Q) -> safe (Rint k n hi c) Q.
Proof. intros H tr a (us & tr' & -> & Hl & Hu & Hr). eapply H; eauto. Qed.

Lemma safe_fin {A} k ps (c : nat -> prog A) Q :
  (forall i, (i < length ps)%nat -> safe (c i) Q) -> safe (Fin k ps c) Q.
Proof. intros H tr a (i & tr' & -> & Hl & Hr). eapply H; eauto. Qed.

Lemma safe_and {A} (p : prog A) P Q : safe p P -> safe p Q -> safe p (fun a => P a /\ Q a).
Proof. intros HP HQ tr a H; split; [eapply HP|eapply HQ]; eauto. Qed.

(** *** law *)

Lemma uint_ext n F G : (forall us, length us = n -> F us = G us) -> uint n F = uint n G.
Proof.
  revert F G; induction n as [|n IH]; intros F G H; simpl; [now apply H|].
  apply RInt_ext. intros x _. apply IH. intros us Hl. apply H. simpl; now rewrite Hl.
Qed.

Lemma law_ext {A} (p : prog A) f g : (forall a, f a = g a) -> law p f = law p g.
Proof.
  intros H. induction p as [x|k n c IH|k n hi c IH|k ps c IH]; simpl.
  - apply H.
  - apply uint_ext. intros; apply IH.
  - apply E_ext'. intros; apply IH.
  - apply E_ext'. intros; apply IH.
Qed.

Lemma uint_ext_in n F G :
  (forall us, length us = n -> Forall in01 us -> F us = G us) -> uint n F = uint n G.
Proof.
  revert F G; induction n as [|n IH]; intros F G H; simpl; [now apply H|].
  apply RInt_ext. intros x Hx. rewrite Rmin_left, Rmax_right in Hx by lra.
  apply IH. intros us Hl Hu. apply H; [simpl; now rewrite Hl|].
  constructor; [unfold in01; lra|assumption].
Qed.

(** Only reachable results matter for the expectation. *)
Lemma law_ext_safe {A} (p : prog A) (Q : A -> Prop) f g :
  safe p Q -> (forall a, Q a -> f a = g a) -> law p f = law p g.
Proof.
  intros Hs H. induction p as [x|k n c IH|k n hi c IH|k ps c IH]; simpl.
  - apply H. apply (Hs [] x). simpl; auto.
  - apply uint_ext_in. intros us Hl Hu. apply IH. intros tr a Hr.
    apply (Hs (k :: tr) a). simpl. exists us, tr; auto.
  - apply E_ext. intros l Hin. apply IH. intros tr a Hr.
    apply (Hs (k :: tr) a). simpl. exists l, tr. repeat split; auto.
    + rewrite (dseq_length _ _ Hin). apply repeat_length.
    + apply dseq_Forall2 in Hin. clear -Hin. remember (repeat (dunif (rint_hi hi)) n) as ds eqn:Hds.
      assert (Hall : Forall (fun d => d = dunif (rint_hi hi)) ds).
      { subst. apply Forall_forall. intros d Hd. now apply repeat_spec in Hd. }
      clear Hds. induction Hin as [|i d l ds Hi Hin IH]; constructor.
      * inversion Hall; subst. now apply dunif_support in Hi.
      * apply IH. now inversion Hall.
  - apply E_ext. intros i Hin. apply IH. intros tr a Hr.
    apply (Hs (k :: tr) a). simpl. exists i, tr. apply dcat_support in Hin. auto.
Qed.

Lemma law_bind {A B} (p : prog A) (g : A -> prog B) f :
  law (bind p g) f = law p (fun a => law (g a) f).
Proof.
  induction p as [x|k n c IH|k n hi c IH|k ps c IH]; simpl.
  - reflexivity.
  - apply uint_ext. intros; apply IH.
  - apply E_ext'. intros; apply IH.
  - apply E_ext'. intros; apply IH.
Qed.

Lemma denotes_ret {A} (a : A) : denotes (Ret a) (dret a).
Proof. intros f; simpl. now rewrite E_dret. Qed.

Lemma denotes_bind {A B} (p : prog A) (g : A -> prog B) d k :
  denotes p d -> (forall a, In a (map snd d) -> denotes (g a) (k a)) -> denotes (bind p g) (dbind d k).
Proof.
  intros Hp Hg f. rewrite law_bind, (Hp _), E_dbind. apply E_ext. intros a Ha. now apply Hg.
Qed.

(** Real-valued instances of Coquelicot lemmas. *)
Lemma is_RInt_Chasles_R (f : R -> R) a b c (l1 l2 : R) :
  is_RInt f a b l1 -> is_RInt f b c l2 -> is_RInt f a c (l1 + l2).
Proof. intros H1 H2. exact (is_RInt_Chasles f a b c l1 l2 H1 H2). Qed.

Lemma is_RInt_const_R a b (v : R) : is_RInt (fun _ => v) a b ((b - a) * v).
Proof. exact (is_RInt_const (V := R_NormedModule) a b v). Qed.

(** Integral of a function of a categorical inversion. *)
Lemma is_RInt_searchsorted (h : nat -> R) c p :
  Forall (fun x => 0 <= x) p ->
  is_RInt (fun v => h (searchsorted (cumsum_from c p) v)) c (c + Rsum p)
          (Rsum (map (fun i => nth i p 0 * h i) (seq 0 (length p)))).
Proof.
  intros Hp; revert c h; induction Hp as [|x p Hx Hp IH]; intros c h.
  - simpl. rewrite Rplus_0_r. exact (is_RInt_point (V := R_NormedModule) _ c).
  - cbn [length seq map Rsum nth]. rewrite <- seq_shift, map_map.
    replace (c + (x + Rsum p)) with ((c + x) + Rsum p) by ring.
    apply (is_RInt_Chasles_R _ c (c + x)).
    + apply (is_RInt_ext (fun _ => h 0%nat)).
      * intros v Hv. rewrite Rmin_left, Rmax_right in Hv by lra. simpl.
        destruct (Rlt_dec (c + x) v); [lra|reflexivity].
      * replace (x * h 0%nat) with ((c + x - c) * (h 0%nat)) by ring.
        apply is_RInt_const_R.
    + apply (is_RInt_ext (fun v => (fun n => h (S n)) (searchsorted (cumsum_from (c + x) p) v))).
      * intros v Hv. pose proof (Rsum_nonneg _ Hp).
        rewrite Rmin_left, Rmax_right in Hv by lra. simpl.
        destruct (Rlt_dec (c + x) v); [reflexivity|lra].
      * apply (IH (c + x) (fun n => h (S n))).
Qed.

Lemma last_cumsum_from c p d : p <> [] -> last (cumsum_from c p) d = c + Rsum p.
Proof.
  revert c; induction p as [|x p IH]; intros c Hne; [easy|].
  destruct p as [|y p]; [simpl; ring|].
  change (last (cumsum_from c (x :: y :: p)) d) with (last (cumsum_from (c + x) (y :: p)) d).
  rewrite IH by easy. simpl; ring.
Qed.

Lemma last_cumsum p d : p <> [] -> last (cumsum p) d = Rsum p.
Proof. intros H. unfold cumsum. rewrite last_cumsum_from by assumption. ring. Qed.

Lemma choice_index_lt p u : weights_ok p -> in01 u -> (choice_index p u < length p)%nat.
Proof.
  intros Hp Hu. pose proof (weights_ok_nonempty _ Hp) as Hne. destruct Hp as [Hp Hs].
  unfold choice_index. rewrite last_cumsum by assumption. rewrite Hs.
  apply searchsorted_cumsum_lt; [assumption|]. rewrite Hs. unfold in01 in Hu. lra.
Qed.

Lemma is_RInt_choice_index p (h : nat -> R) :
  weights_ok p -> is_RInt (fun u => h (choice_index p u)) 0 1 (E (dcat p) h).
Proof.
  intros Hw. pose proof (weights_ok_nonempty _ Hw) as Hne. destruct Hw as [Hp Hs].
  rewrite E_dcat.
  pose proof (is_RInt_searchsorted h 0 p Hp) as H. rewrite Hs, Rplus_0_l in H.
  apply is_RInt_swap in H.
  assert (H2 := is_RInt_comp_lin (fun v => h (searchsorted (cumsum p) v)) (-1) 1 0 1).
  replace (-1 * 0 + 1) with 1 in H2 by ring. replace (-1 * 1 + 1) with 0 in H2 by ring.
  specialize (H2 _ H). apply is_RInt_opp in H2. rewrite opp_opp in H2.
  apply (is_RInt_ext _ (fun u => h (choice_index p u))) in H2; [exact H2|].
  intros u _. unfold choice_index. rewrite last_cumsum by assumption. rewrite Hs.
  unfold opp, scal; simpl; unfold mult; simpl.
  replace (-1 * u + 1) with (1 * (1 - u)) by ring. ring.
Qed.

(** General product form: a vector of uniforms, each passed through its own
    finite-valued map, is a vector of independent finite draws. *)
Definition zipapp {B} (gs : list (R -> B)) (us : list R) : list B :=
  map (fun gu => fst gu (snd gu)) (combine gs us).

Lemma uint_zipapp {B} (gs : list (R -> B)) (ds : list (dist B)) F :
  Forall2 (fun g d => forall h : B -> R, is_RInt (fun u => h (g u)) 0 1 (E d h)) gs ds ->
  uint (length gs) (fun us => F (zipapp gs us)) = E (dseq ds) F.
Proof.
  intros H; revert F; induction H as [|g d gs ds Hg H IH]; intros F.
  - simpl. now rewrite E_dret.
  - rewrite E_dseq_cons. cbn [length uint].
    rewrite (RInt_ext _ (fun u => (fun b => E (dseq ds) (fun l => F (b :: l))) (g u))).
    + apply is_RInt_unique. apply (Hg (fun b => E (dseq ds) (fun l => F (b :: l)))).
    + intros u _. apply (IH (fun l => F (g u :: l))).
Qed.

Lemma zipapp_repeat {B} (g : R -> B) n us : length us = n -> zipapp (repeat g n) us = map g us.
Proof.
  revert us; induction n as [|n IH]; intros [|u us] H; try discriminate; [reflexivity|].
  unfold zipapp; simpl. f_equal. apply IH. now injection H.
Qed.

Lemma Forall2_repeat {A B} (P : A -> B -> Prop) a b n : P a b -> Forall2 P (repeat a n) (repeat b n).
Proof. intros H; induction n; simpl; constructor; auto. Qed.

(** The categorical draws have the categorical law. *)
Theorem choices_denotes k p m : weights_ok p -> denotes (choices k p m) (dseq (repeat (dcat p) m)).
Proof.
  intros Hw f. simpl.
  rewrite <- (uint_zipapp (repeat (choice_index p) m) (repeat (dcat p) m) f).
  - rewrite repeat_length. apply uint_ext. intros us Hl. now rewrite zipapp_repeat.
  - apply Forall2_repeat. intros h. now apply is_RInt_choice_index.
Qed.

Theorem choice_denotes k p : weights_ok p -> denotes (choice k p) (dcat p).
Proof.
  intros Hw f. simpl. apply is_RInt_unique. now apply is_RInt_choice_index.
Qed.

Theorem choice_unif_denotes k n : (0 < n)%nat -> denotes (choice_unif k n) (dunif n).
Proof.
  intros Hn f.
  change (law (choice_unif k n) f)
    with (E (dseq [dunif (rint_hi n)]) (fun l => f (nth 0 l 0%nat))).
  unfold rint_hi. rewrite Nat.max_r by lia.
  rewrite E_dseq_cons. apply E_ext'. intros a. simpl. now rewrite E_dret.
Qed.

Lemma choices_safe k p m : weights_ok p ->
  safe (choices k p m) (fun l => length l = m /\ Forall (fun i => (i < length p)%nat) l).
Proof.
  intros Hw. apply safe_unif. intros us Hl Hu. apply safe_ret. split; [now rewrite map_length|].
  rewrite Forall_map. eapply Forall_impl; [|exact Hu]. intros; now apply choice_index_lt.
Qed.

Lemma choice_safe k p : weights_ok p -> safe (choice k p) (fun i => (i < length p)%nat).
Proof.
  intros Hw. apply safe_unif. intros us Hl Hu. apply safe_ret.
  destruct us as [|u us]; [discriminate|]. simpl. inversion Hu; subst. now apply choice_index_lt.
Qed.

Lemma choice_unif_safe k n : (0 < n)%nat -> safe (choice_unif k n) (fun i => (i < n)%nat).
Proof.
  intros Hn. apply safe_rint. intros l Hl Hf. apply safe_ret. unfold rint_hi in Hf.
  rewrite Nat.max_r in Hf by lia. destruct l as [|i l]; [discriminate|]. inversion Hf; now subst.
Qed.

(** *** Threshold events: [u * a >= b] *)
Lemma is_RInt_below (h : bool -> R) c :
  0 <= c <= 1 ->
  is_RInt (fun u => h (if Rlt_dec u c then true else false)) 0 1 (E [(c, true); (1 - c, false)] h).
Proof.
  intros Hc. unfold E; simpl. rewrite Rplus_0_r.
  apply (is_RInt_Chasles_R _ 0 c 1).
  - apply (is_RInt_ext (fun _ => h true)).
    + intros u Hu. rewrite Rmin_left, Rmax_right in Hu by lra. destruct (Rlt_dec u c); [reflexivity|lra].
    + replace (c * h true) with ((c - 0) * (h true)) by ring.
      apply is_RInt_const_R.
  - apply (is_RInt_ext (fun _ => h false)).
    + intros u Hu. rewrite Rmin_left, Rmax_right in Hu by lra. destruct (Rlt_dec u c); [lra|reflexivity].
    + apply is_RInt_const_R.
Qed.

Lemma uint1 F : uint 1 F = RInt (fun u => F [u]) 0 1.
Proof. reflexivity. Qed.

(** *** hygiene *)

Lemma prefix_refl k : prefix k k.
Proof. exists []. now rewrite app_nil_r. Qed.
Lemma prefix_trans a b c : prefix a b -> prefix b c -> prefix a c.
Proof. intros [s ->] [t ->]. exists (s ++ t). now rewrite app_assoc. Qed.
Lemma prefix_split k i : prefix k (split_key k i).
Proof. exists [i]. reflexivity. Qed.

Lemma incomp_sym a b : incomp a b -> incomp b a.
Proof. unfold incomp; tauto. Qed.

Lemma prefix_comparable a b c : prefix a c -> prefix b c -> prefix a b \/ prefix b a.
Proof.
  intros [s Hs] [t Ht]. subst c. revert b t Ht.
  induction a as [|x a IH]; intros b t Ht.
  - left. exists b. reflexivity.
  - destruct b as [|y b].
    + right. exists (x :: a). reflexivity.
    + simpl in Ht. injection Ht as <- Ht. destruct (IH _ _ Ht) as [[r ->]|[r ->]].
      * left. exists r. reflexivity.
      * right. exists r. reflexivity.
Qed.

Lemma incomp_descend a b a' b' : incomp a b -> prefix a a' -> prefix b b' -> incomp a' b'.
Proof.
  intros [H1 H2] Ha Hb. split; intros H.
  - destruct (prefix_comparable a b b') as [?|?]; auto. eapply prefix_trans; eauto.
  - destruct (prefix_comparable a b a') as [?|?]; auto. eapply prefix_trans; eauto.
Qed.

Lemma incomp_children k i j : i <> j -> incomp (split_key k i) (split_key k j).
Proof.
  intros Hij; split; intros [s Hs]; unfold split_key in Hs; rewrite <- app_assoc in Hs;
    apply app_inv_head in Hs; injection Hs; intros; congruence.
Qed.

Definition incomp_sets (K1 K2 : list key) : Prop := forall k1 k2, In k1 K1 -> In k2 K2 -> incomp k1 k2.

Lemma ForallOrdPairs_app {A} (P : A -> A -> Prop) l1 l2 :
  ForallOrdPairs P l1 -> ForallOrdPairs P l2 ->
  (forall a b, In a l1 -> In b l2 -> P a b) -> ForallOrdPairs P (l1 ++ l2).
Proof.
  intros H1 H2 H12. induction H1 as [|a l Ha H1 IH]; simpl; [assumption|].
  constructor.
  - apply Forall_app. split; [assumption|]. apply Forall_forall. intros b Hb. apply H12; [now left|assumption].
  - apply IH. intros; apply H12; [now right|assumption].
Qed.

(** [good K p]: [p] is hygienic and only touches keys below [K]. *)
Definition good {A} (K : list key) (p : prog A) : Prop := hygienic p /\ owned K p.

Lemma good_ret {A} K (a : A) : good K (Ret a).
Proof. split; intros tr x [-> _]; constructor. Qed.

Lemma good_weaken {A} K K' (p : prog A) :
  (forall k, In k K -> Exists (fun k' => prefix k' k) K') -> good K p -> good K' p.
Proof.
  intros HK [H1 H2]. split; [assumption|]. intros tr a Hr. specialize (H2 tr a Hr).
  eapply Forall_impl; [|exact H2]. intros k Hk. simpl in Hk.
  apply Exists_exists in Hk. destruct Hk as (k0 & Hin & Hp).
  specialize (HK _ Hin). apply Exists_exists in HK. destruct HK as (k' & Hin' & Hp').
  apply Exists_exists. exists k'. split; [assumption|]. eapply prefix_trans; eauto.
Qed.

Lemma good_bind {A B} K1 K2 (p : prog A) (g : A -> prog B) :
  incomp_sets K1 K2 -> good K1 p -> (forall a, good K2 (g a)) -> good (K1 ++ K2) (bind p g).
Proof.
  intros HK [Hh Ho] Hg. split; intros tr b Hr; apply runs_bind in Hr;
    destruct Hr as (tr1 & a & tr2 & -> & H1 & H2); destruct (Hg a) as [Hgh Hgo].
  - apply ForallOrdPairs_app; [eapply Hh; eauto|eapply Hgh; eauto|].
    intros k1 k2 Hk1 Hk2. specialize (Ho _ _ H1). specialize (Hgo _ _ H2).
    rewrite Forall_forall in Ho, Hgo. specialize (Ho _ Hk1). specialize (Hgo _ Hk2).
    apply Exists_exists in Ho. apply Exists_exists in Hgo.
    destruct Ho as (a1 & Ha1 & Hp1). destruct Hgo as (a2 & Ha2 & Hp2).
    eapply incomp_descend; eauto.
  - apply Forall_app. split.
    + specialize (Ho _ _ H1). eapply Forall_impl; [|exact Ho]. intros k Hk. simpl in *.
      apply Exists_app. now left.
    + specialize (Hgo _ _ H2). eapply Forall_impl; [|exact Hgo]. intros k Hk. simpl in *.
      apply Exists_app. now right.
Qed.

Lemma good_unif {A} k n (c : list R -> A) : good [k] (Unif k n (fun us => Ret (c us))).
Proof.
  split; intros tr a (us & tr' & -> & _ & _ & [-> _]); repeat constructor. apply prefix_refl.
Qed.
Lemma good_rint {A} k n hi (c : list nat -> A) : good [k] (Rint k n hi (fun us => Ret (c us))).
Proof.
  split; intros tr a (us & tr' & -> & _ & _ & [-> _]); repeat constructor. apply prefix_refl.
Qed.
Lemma good_fin {A} k ps (c : nat -> A) : good [k] (Fin k ps (fun us => Ret (c us))).
Proof.
  split; intros tr a (us & tr' & -> & _ & [-> _]); repeat constructor. apply prefix_refl.
Qed.

Lemma good_choices k p m : good [k] (choices k p m).
Proof. apply good_unif. Qed.
Lemma good_choice k p : good [k] (choice k p).
Proof. apply good_unif. Qed.
Lemma good_choice_unif k n : good [k] (choice_unif k n).
Proof. apply good_rint. Qed.

(** Programs using distinct children of one key. *)
Lemma good_under {A} k (is : list nat) (p : prog A) : good (map (split_key k) is) p -> good [k] p.
Proof.
  apply good_weaken. intros k' Hk'. apply in_map_iff in Hk'. destruct Hk' as (i & <- & _).
  constructor. apply prefix_split.
Qed.

Lemma good_bind_under {A B} k (is js : list nat) (p : prog A) (g : A -> prog B) :
  (forall i j, In i is -> In j js -> i <> j) ->
  good (map (split_key k) is) p -> (forall a, good (map (split_key k) js) (g a)) ->
  good (map (split_key k) (is ++ js)) (bind p g).
Proof.
  intros Hd Hp Hg. rewrite map_app. apply good_bind; [|assumption|assumption].
  intros k1 k2 H1 H2. apply in_map_iff in H1. apply in_map_iff in H2.
  destruct H1 as (i & <- & Hi). destruct H2 as (j & <- & Hj). apply incomp_children. now apply Hd.
Qed.

Lemma good_bind_ret {A B} K (p : prog A) (g : A -> B) : good K p -> good K (x <- p ;; Ret (g x)).
Proof.
  intros Hp. rewrite <- (app_nil_r K). apply good_bind; [|assumption|intros; apply good_ret].
  intros k1 k2 _ [].
Qed.

Lemma good_bind_under_ret {A B} K (p : prog A) (g : A -> B) : good K p -> good K (x <- p ;; Ret (g x)).
Proof. apply good_bind_ret. Qed.

Ltac key_disjoint := let i := fresh in let j := fresh in let Hi := fresh in let Hj := fresh in
  intros i j Hi Hj; simpl in Hi, Hj; intuition (subst; discriminate || lia).

Lemma uint_const n c : uint n (fun _ => c) = c.
Proof.
  induction n as [|n IH]; [reflexivity|]. cbn [uint].
  rewrite (RInt_ext _ (fun _ => c)) by (intros; apply IH).
  apply is_RInt_unique. pose proof (is_RInt_const_R 0 1 c) as H. replace ((1 - 0) * c) with c in H by ring. exact H.
Qed.

Lemma law_zero {A} (p : prog A) : law p (fun _ => 0) = 0.
Proof.
  induction p as [x|k n c IH|k n hi c IH|k ps c IH]; cbn [law].
  - reflexivity.
  - rewrite (uint_ext _ _ (fun _ => 0)) by (intros; apply IH). apply uint_const.
  - rewrite (E_ext' _ _ (fun _ => 0)) by (intros; apply IH). apply E_zero.
  - rewrite (E_ext' _ _ (fun _ => 0)) by (intros; apply IH). apply E_zero.
Qed.
