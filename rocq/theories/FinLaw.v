(** Programs whose law has finite support, uniformly in the key. *)
From Coquelicot Require Import Coquelicot.
From Verif Require Export CondResamplingProofs.
Open Scope R_scope.

(** [p k] has the same finite law for every key, with support inside [P]. *)
Definition has_laws {A} (P : A -> Prop) (p : key -> prog A) : Prop :=
  exists d, is_prob d /\ (forall k f, law (p k) f = E d f) /\ (forall a, In a (map snd d) -> P a).

Lemma has_laws_denotes {A} (P : A -> Prop) p d :
  is_prob d -> (forall k, denotes (p k) d) -> (forall a, In a (map snd d) -> P a) -> has_laws P p.
Proof. intros H1 H2 H3. exists d. split; [assumption|]. split; [intros; apply H2|assumption]. Qed.

Lemma has_laws_ret {A} (P : A -> Prop) a : P a -> has_laws P (fun _ => Ret a).
Proof.
  intros H. exists (dret a). split; [apply is_prob_dret|]. split; [intros; cbn [law]; symmetry; apply E_dret|].
  intros x [<-|[]]. exact H.
Qed.

Lemma has_laws_dist {A B} (d : dist A) (Q : B -> Prop) (q : A -> key -> prog B) :
  Forall (fun pa => 0 <= fst pa) d -> (forall a, In a (map snd d) -> has_laws Q (q a)) ->
  exists d', Forall (fun pa => 0 <= fst pa) d' /\ (forall k f, E d (fun a => law (q a k) f) = E d' f) /\
             (forall b, In b (map snd d') -> Q b).
Proof.
  induction d as [|[p a] d IH]; intros Hd Hq.
  - exists []. split; [constructor|]. split; [reflexivity|]. intros b [].
  - destruct IH as (d2 & H1 & H2 & H3); [now inversion Hd|intros; apply Hq; now right|].
    destruct (Hq a (or_introl eq_refl)) as (d1 & [G1 _] & G2 & G3).
    exists (map (fun qb => (p * fst qb, snd qb)) d1 ++ d2). split; [|split].
    + apply Forall_app. split; [|assumption]. apply Forall_map. eapply Forall_impl; [|exact G1].
      intros [q' b] Hq'. cbn [fst] in *. inversion Hd; subst. apply Rmult_le_pos; assumption.
    + intros k f. rewrite E_cons, E_app, E_scale, (H2 k), G2. reflexivity.
    + intros b Hb. rewrite map_app, in_app_iff in Hb. destruct Hb as [Hb|Hb]; [|auto].
      rewrite map_map in Hb. cbn [snd] in Hb. auto.
Qed.

Lemma has_laws_bind {A B} (P : A -> Prop) (Q : B -> Prop) (p : key -> prog A) (q : A -> key -> prog B) (s1 s2 : key -> key) :
  has_laws P p -> (forall a, P a -> has_laws Q (q a)) ->
  has_laws Q (fun k => bind (p (s1 k)) (fun a => q a (s2 k))).
Proof.
  intros (d & [Hd1 Hd2] & Hl & HP) Hq.
  destruct (has_laws_dist d Q q Hd1) as (d' & H1 & H2 & H3); [auto|].
  exists d'. split; [split; [assumption|]|split; [|assumption]].
  - rewrite <- (H2 []). refine (eq_trans _ Hd2). apply E_ext. intros a Ha.
    destruct (Hq a (HP a Ha)) as (da & [_ G] & G2 & _). rewrite G2. exact G.
  - intros k f. rewrite law_bind, Hl. apply H2.
Qed.

Lemma has_laws_weaken {A} (P Q : A -> Prop) p : (forall a, P a -> Q a) -> has_laws P p -> has_laws Q p.
Proof. intros H (d & H1 & H2 & H3). exists d. auto. Qed.

(** consequences: linearity and exchange, which [law] does not have in general *)
Lemma has_laws_lin {A} P (p : key -> prog A) k a b f g : has_laws P p ->
  law (p k) (fun x => a * f x + b * g x) = a * law (p k) f + b * law (p k) g.
Proof. intros (d & _ & H & _). rewrite !H, E_plus, !E_mult_l. reflexivity. Qed.

Lemma has_laws_key {A} P (p : key -> prog A) k k' f : has_laws P p -> law (p k) f = law (p k') f.
Proof. intros (d & _ & H & _). now rewrite !H. Qed.

Lemma has_laws_exchange {A B} P Q (p : key -> prog A) (q : key -> prog B) k k' F : has_laws P p -> has_laws Q q ->
  law (p k) (fun a => law (q k') (fun b => F a b)) = law (q k') (fun b => law (p k) (fun a => F a b)).
Proof.
  intros (d & _ & H & _) (e & _ & G & _).
  rewrite H, G. rewrite (E_ext' d _ (fun a => E e (fun b => F a b))) by (intros; apply G).
  rewrite (E_ext' e (fun b => law (p k) (fun a => F a b)) (fun b => E d (fun a => F a b))) by (intros; apply H). apply E_exchange.
Qed.

(** ** Step functions of one uniform *)
Inductive step {B} (g : R -> B) : R -> R -> Prop :=
| step_const a b v : a < b -> (forall x, a < x < b -> g x = v) -> step g a b
| step_cat a b c : step g a b -> step g b c -> step g a c.

Lemma step_lt {B} (g : R -> B) a b : step g a b -> a < b.
Proof. induction 1; lra. Qed.

Lemma step_restrict {B} (g : R -> B) a b : step g a b -> forall c, a < c < b -> step g a c /\ step g c b.
Proof.
  induction 1 as [a b v Hab Hv|a b c H1 IH1 H2 IH2]; intros x Hx.
  - split; apply (step_const g _ _ v); try lra; intros y Hy; apply Hv; lra.
  - destruct (Rtotal_order x b) as [Hlt|[->|Hgt]].
    + destruct (IH1 x) as [G1 G2]; [lra|]. split; [assumption|]. now apply (step_cat g x b c).
    + now split.
    + destruct (IH2 x) as [G1 G2]; [lra|]. split; [|assumption]. now apply (step_cat g a b x).
Qed.

Lemma step_map {A B} (f : A -> B) g a b : step g a b -> step (fun x => f (g x)) a b.
Proof.
  induction 1 as [a b v Hab Hv|a b c H1 IH1 H2 IH2].
  - apply (step_const _ _ _ (f v)); [assumption|]. intros x Hx. now rewrite Hv.
  - now apply (step_cat _ a b c).
Qed.

Lemma step_ext {B} (g h : R -> B) a b : step g a b -> (forall x, a < x < b -> g x = h x) -> step h a b.
Proof.
  induction 1 as [a b v Hab Hv|a b c H1 IH1 H2 IH2]; intros He.
  - apply (step_const _ _ _ v); [assumption|]. intros x Hx. rewrite <- He by assumption. now apply Hv.
  - pose proof (step_lt _ _ _ H1). pose proof (step_lt _ _ _ H2).
    apply (step_cat _ a b c); [apply IH1|apply IH2]; intros; apply He; lra.
Qed.

Lemma step_pair {A B} (g : R -> A) (h : R -> B) a b : step g a b -> step h a b -> step (fun x => (g x, h x)) a b.
Proof.
  intros H; revert h; induction H as [a b v Hab Hv|a b c H1 IH1 H2 IH2]; intros h Hh.
  - apply (step_ext (fun x => (v, h x))); [now apply (step_map (pair v))|]. intros x Hx. now rewrite Hv.
  - pose proof (step_lt _ _ _ H1). pose proof (step_lt _ _ _ H2).
    destruct (step_restrict h a c Hh b) as [G1 G2]; [lra|].
    apply (step_cat _ a b c); [now apply IH1|now apply IH2].
Qed.

Lemma step_list {A B} (g : A -> R -> B) l a b : a < b -> (forall x, In x l -> step (g x) a b) ->
  step (fun u => map (fun x => g x u) l) a b.
Proof.
  intros Hab. induction l as [|x l IH]; intros H.
  - now apply (step_const _ _ _ []).
  - apply (step_ext (fun u => (fun q => fst q :: snd q) (g x u, map (fun x => g x u) l))); [|reflexivity].
    apply (step_map (fun q => fst q :: snd q)). apply step_pair; [apply H; now left|apply IH; intros; apply H; now right].
Qed.

(** the law of a step function of a uniform *)
Lemma step_law {B} (g : R -> B) a b : step g a b ->
  exists d, Forall (fun pa => 0 <= fst pa) d /\ (forall h, is_RInt (fun u => h (g u)) a b (E d h)) /\
            (forall v, In v (map snd d) -> exists u, a < u < b /\ g u = v).
Proof.
  induction 1 as [a b v Hab Hv|a b c H1 IH1 H2 IH2].
  - exists [(b - a, v)]. split; [|split].
    + constructor; [simpl; lra|constructor].
    + intros h. unfold E. cbn [map fst snd Rsum]. rewrite Rplus_0_r.
      apply (is_RInt_ext (fun _ => h v)); [|apply is_RInt_const_R].
      intros u Hu. rewrite Rmin_left, Rmax_right in Hu by lra. now rewrite Hv.
    + intros x [<-|[]]. exists ((a + b) / 2). split; [lra|]. apply Hv. lra.
  - pose proof (step_lt _ _ _ H1). pose proof (step_lt _ _ _ H2).
    destruct IH1 as (d1 & A1 & A2 & A3). destruct IH2 as (d2 & B1 & B2 & B3).
    exists (d1 ++ d2). split; [|split].
    + apply Forall_app. now split.
    + intros h. rewrite E_app. now apply (is_RInt_Chasles_R _ a b c).
    + intros v Hv. rewrite map_app, in_app_iff in Hv. destruct Hv as [Hv|Hv].
      * destruct (A3 v Hv) as (u & Hu & He). exists u. split; [lra|assumption].
      * destruct (B3 v Hv) as (u & Hu & He). exists u. split; [lra|assumption].
Qed.

Lemma step_prob {B} (g : R -> B) : step g 0 1 ->
  exists d, is_prob d /\ (forall h, is_RInt (fun u => h (g u)) 0 1 (E d h)) /\
            (forall v, In v (map snd d) -> exists u, 0 < u < 1 /\ g u = v).
Proof.
  intros H. destruct (step_law g 0 1 H) as (d & H1 & H2 & H3). exists d. split; [|now split].
  split; [assumption|]. pose proof (H2 (fun _ => 1)) as G. cbv beta in G.
  pose proof (is_RInt_const_R 0 1 1) as K.
  apply (is_RInt_unique (V := R_CompleteNormedModule)) in G. apply (is_RInt_unique (V := R_CompleteNormedModule)) in K.
  refine (eq_trans (eq_sym G) (eq_trans K _)). match goal with |- @eq _ ?a ?b => change (@eq R a b) end. ring.
Qed.

(** thresholds of an increasing affine function *)
Lemma step_threshold c al be : 0 < al ->
  step (fun u => if Rlt_dec c (al * u + be) then true else false) 0 1.
Proof.
  intros Hal. set (x := (c - be) / al).
  assert (Hx : forall u, c < al * u + be <-> x < u).
  { intros u. unfold x. split; intros H.
    - apply (Rmult_lt_reg_l al); [assumption|]. replace (al * ((c - be) / al)) with (c - be) by (field; lra). lra.
    - apply (Rmult_lt_compat_l al) in H; [|assumption]. replace (al * ((c - be) / al)) with (c - be) in H by (field; lra). lra. }
  assert (Hlo : forall a b, a < b -> b <= x -> step (fun u => if Rlt_dec c (al * u + be) then true else false) a b).
  { intros a b Hab Hb. apply (step_const _ _ _ false); [assumption|]. intros u Hu.
    destruct (Rlt_dec c (al * u + be)) as [H|H]; [apply Hx in H; lra|reflexivity]. }
  assert (Hhi : forall a b, a < b -> x <= a -> step (fun u => if Rlt_dec c (al * u + be) then true else false) a b).
  { intros a b Hab Hb. apply (step_const _ _ _ true); [assumption|]. intros u Hu.
    destruct (Rlt_dec c (al * u + be)) as [H|H]; [reflexivity|]. exfalso. apply H, Hx. lra. }
  destruct (Rle_dec 1 x); [apply Hlo; lra|]. destruct (Rle_dec x 0); [apply Hhi; lra|].
  apply (step_cat _ 0 x 1); [apply Hlo; lra|apply Hhi; lra].
Qed.

Lemma step_searchsorted l al be : 0 < al -> step (fun u => searchsorted l (al * u + be)) 0 1.
Proof.
  intros Hal. induction l as [|c l IH].
  - apply (step_const _ _ _ 0%nat); [lra|reflexivity].
  - apply (step_ext (fun u => (fun q : bool * nat => if fst q then S (snd q) else 0%nat)
        (if Rlt_dec c (al * u + be) then true else false, searchsorted l (al * u + be)))).
    + apply (step_map (fun q : bool * nat => if fst q then S (snd q) else 0%nat)).
      apply step_pair; [now apply step_threshold|exact IH].
    + intros u _. cbn [fst snd searchsorted]. destruct (Rlt_dec c (al * u + be)); reflexivity.
Qed.

(** ** The library's resampling schemes *)
Lemma strat_index_step w k : w <> [] ->
  step (fun u => clip_index (length w) (searchsorted (cumsum w) ((INR k + u) / INR (length w)))) 0 1.
Proof.
  intros Hne. assert (Hn : 0 < INR (length w)) by (apply lt_0_INR; destruct w; [easy|simpl; lia]).
  apply (step_map (clip_index (length w))).
  apply (step_ext (fun u => searchsorted (cumsum w) (/ INR (length w) * u + INR k / INR (length w)))).
  - apply step_searchsorted. now apply Rinv_0_lt_compat.
  - intros u _. f_equal. field. lra.
Qed.

Theorem systematic_has_laws w : weights_ok w -> has_laws (valid_indices (length w)) (systematic w).
Proof.
  intros Hw. pose proof (weights_ok_nonempty _ Hw) as Hne.
  assert (Hl : (0 < length w)%nat) by (destruct w; [easy|simpl; lia]).
  destruct (step_prob (systematic_of w)) as (d & H1 & H2 & H3).
  - apply (step_ext (fun u => map (fun k => clip_index (length w) (searchsorted (cumsum w) ((INR k + u) / INR (length w)))) (seq 0 (length w)))).
    + apply (step_list (fun k u => clip_index (length w) (searchsorted (cumsum w) ((INR k + u) / INR (length w))))); [lra|].
      intros k _. now apply strat_index_step.
    + intros u _. unfold systematic_of, inverse_cdf_indices. rewrite strat_points_map, map_map, repeat_length.
      apply map_ext_in. intros i Hi. apply in_seq in Hi. rewrite nth_repeat_lt by lia. reflexivity.
  - exists d. split; [assumption|]. split.
    + intros k f. unfold systematic. cbn [law]. rewrite uint1. apply is_RInt_unique. cbn [nth]. exact (H2 f).
    + intros A HA. destruct (H3 A HA) as (u & Hu & <-).
      apply (systematic_safe w [] Hne [[]]). simpl. exists [u], []. split; [reflexivity|]. split; [reflexivity|].
      split; [|auto]. constructor; [unfold in01; lra|constructor].
Qed.

Lemma combine_map_l {A B C} (g : A -> B) (l : list A) (l' : list C) :
  combine (map g l) l' = map (fun p => (g (fst p), snd p)) (combine l l').
Proof. revert l'; induction l as [|a l IH]; intros [|c l']; simpl; [reflexivity..|]. now rewrite IH. Qed.

Theorem stratified_has_laws w : weights_ok w -> has_laws (valid_indices (length w)) (stratified w).
Proof.
  intros Hw. pose proof (weights_ok_nonempty _ Hw) as Hne.
  assert (Hl : (0 < length w)%nat) by (destruct w; [easy|simpl; lia]).
  set (g := fun k u => clip_index (length w) (searchsorted (cumsum w) ((INR k + u) / INR (length w)))).
  assert (Hds : forall l, exists ds, length ds = length l /\ Forall is_prob ds /\
      Forall2 (fun g d => forall h : nat -> R, is_RInt (fun u => h (g u)) 0 1 (E d h)) (map g l) ds /\
      Forall (fun d => forall v, In v (map snd d) -> (v < length w)%nat) ds).
  { induction l as [|k l (ds & I1 & I2 & I3 & I4)].
    - exists []. repeat split; constructor.
    - destruct (step_prob (g k) (strat_index_step w k Hne)) as (d & H1 & H2 & H3).
      exists (d :: ds). split; [simpl; lia|]. split; [now constructor|]. split; [now constructor|].
      constructor; [|assumption]. intros v Hv. destruct (H3 v Hv) as (u & _ & <-). unfold g, clip_index. lia. }
  destruct (Hds (seq 0 (length w))) as (ds & I1 & I2 & I3 & I4). rewrite seq_length in I1.
  exists (dseq ds). split; [now apply is_prob_dseq|]. split.
  - intros k f. unfold stratified. cbn [law]. rewrite <- (uint_zipapp _ _ f I3). rewrite map_length, seq_length.
    apply uint_ext. intros us Hus. f_equal. unfold stratified_of, inverse_cdf_indices, strat_points, zipapp.
    rewrite combine_map_l, !map_map, Hus. reflexivity.
  - intros A HA. split; [rewrite (dseq_length _ _ HA); assumption|].
    apply dseq_Forall2 in HA. clear -HA I4. induction HA as [|x d l ds Hx H IH]; constructor; inversion I4; subst; auto.
Qed.

Lemma killing_dist_valid w A : weights_ok w -> In A (map snd (killing_dist w)) -> valid_indices (length w) A.
Proof.
  intros Hw HA. split; [now apply killing_dist_length|].
  pose proof (weights_ok_nonempty _ Hw) as Hne. assert (Hl : (0 < length w)%nat) by (destruct w; [easy|simpl; lia]).
  unfold killing_dist in HA. apply dseq_Forall2 in HA.
  remember (map (killing_slot w) (seq 0 (length w))) as ds eqn:Hds.
  assert (Hall : Forall (fun d => forall v, In v (map snd d) -> (v < length w)%nat) ds).
  { subst. apply Forall_map, Forall_forall. intros i Hi v Hv. apply in_seq in Hi.
    unfold killing_slot, dbind in Hv. cbn in Hv. destruct Hv as [<-|Hv]; [lia|].
    rewrite app_nil_r, map_map in Hv. cbn [snd] in Hv. now apply dcat_support in Hv. }
  clear -HA Hall. induction HA as [|x d l ds Hx H IH]; constructor; inversion Hall; subst; auto.
Qed.

Theorem killing_has_laws w : weights_ok w -> has_laws (valid_indices (length w)) (killing w).
Proof.
  intros Hw. apply (has_laws_denotes _ _ (killing_dist w)).
  - now apply is_prob_killing_dist.
  - intros k. now apply killing_denotes.
  - intros A HA. now apply killing_dist_valid.
Qed.
