(** Finite-support (signed) measures and their expectations. *)
From Verif Require Export Base.

Definition dist (A : Type) := list (R * A).

(** expectation of [f] *)
Definition E {A} (d : dist A) (f : A -> R) : R := Rsum (map (fun pa => fst pa * f (snd pa)) d).

(** probability distribution *)
Definition is_prob {A} (d : dist A) : Prop := Forall (fun pa => 0 <= fst pa) d /\ E d (fun _ => 1) = 1.

Definition dret {A} (a : A) : dist A := [(1, a)].
Definition dbind {A B} (d : dist A) (k : A -> dist B) : dist B :=
  flat_map (fun pa => map (fun qb => (fst pa * fst qb, snd qb)) (k (snd pa))) d.
Definition dmap {A B} (g : A -> B) (d : dist A) : dist B := map (fun pa => (fst pa, g (snd pa))) d.

(** independent draws *)
Fixpoint dseq {A} (ds : list (dist A)) : dist (list A) :=
  match ds with
  | [] => dret []
  | d :: ds' => dbind d (fun a => dmap (cons a) (dseq ds'))
  end.

(** categorical law on indices with weights [p] *)
Definition dcat (p : list R) : dist nat := combine p (seq 0 (length p)).
(** uniform law on [0..n-1] *)
Definition dunif (n : nat) : dist nat := dcat (repeat (/ INR n) n).

Lemma E_ext {A} (d : dist A) f g : (forall a, In a (map snd d) -> f a = g a) -> E d f = E d g.
Proof.
  intros H. unfold E. apply Rsum_map_ext. intros [p a] Hin; simpl.
  rewrite H; [reflexivity|]. apply in_map_iff. exists (p, a); auto.
Qed.

Lemma E_ext' {A} (d : dist A) f g : (forall a, f a = g a) -> E d f = E d g.
Proof. intros H. apply E_ext. auto. Qed.

Lemma E_dret {A} (a : A) f : E (dret a) f = f a.
Proof. unfold E; simpl; lra. Qed.

Lemma E_app {A} (d1 d2 : dist A) f : E (d1 ++ d2) f = E d1 f + E d2 f.
Proof. unfold E. now rewrite map_app, Rsum_app. Qed.

Lemma E_cons {A} p a (d : dist A) f : E ((p, a) :: d) f = p * f a + E d f.
Proof. reflexivity. Qed.

Lemma E_scale {A} p (d : dist A) f :
  E (map (fun qb => (p * fst qb, snd qb)) d) f = p * E d f.
Proof.
  unfold E. rewrite map_map; simpl. rewrite <- Rsum_map_mult_l.
  apply Rsum_map_ext; intros; ring.
Qed.

Lemma E_dbind {A B} (d : dist A) (k : A -> dist B) f :
  E (dbind d k) f = E d (fun a => E (k a) f).
Proof.
  induction d as [|[p a] d IH]; [reflexivity|].
  change (dbind ((p, a) :: d) k) with (map (fun qb => (p * fst qb, snd qb)) (k a) ++ dbind d k).
  rewrite E_app, E_scale, IH. reflexivity.
Qed.

Lemma E_dmap {A B} (g : A -> B) (d : dist A) f : E (dmap g d) f = E d (fun a => f (g a)).
Proof. unfold E, dmap. rewrite map_map. reflexivity. Qed.

Lemma E_plus {A} (d : dist A) f g : E d (fun a => f a + g a) = E d f + E d g.
Proof.
  unfold E. rewrite <- Rsum_map_plus. apply Rsum_map_ext; intros; ring.
Qed.

Lemma E_mult_l {A} c (d : dist A) f : E d (fun a => c * f a) = c * E d f.
Proof.
  unfold E. rewrite <- Rsum_map_mult_l. apply Rsum_map_ext; intros; ring.
Qed.

Lemma E_mult_r {A} c (d : dist A) f : E d (fun a => f a * c) = E d f * c.
Proof.
  unfold E. rewrite <- Rsum_map_mult_r. apply Rsum_map_ext; intros; ring.
Qed.

Lemma E_zero {A} (d : dist A) : E d (fun _ => 0) = 0.
Proof. unfold E. induction d; simpl; lra. Qed.

Lemma E_const {A} c (d : dist A) : is_prob d -> E d (fun _ => c) = c.
Proof.
  intros [_ H]. rewrite (E_ext' _ _ (fun _ => c * 1)) by (intros; ring).
  rewrite E_mult_l, H; ring.
Qed.

Lemma E_exchange {A B} (d1 : dist A) (d2 : dist B) f :
  E d1 (fun a => E d2 (fun b => f a b)) = E d2 (fun b => E d1 (fun a => f a b)).
Proof.
  induction d1 as [|[p a] d1 IH].
  - unfold E at 1; simpl. symmetry. apply E_zero.
  - rewrite E_cons, IH, <- E_mult_l, <- E_plus. apply E_ext'; intros. now rewrite E_cons.
Qed.

Lemma E_Rsum {A B} (d : dist A) (f : A -> B -> R) l :
  E d (fun a => Rsum (map (f a) l)) = Rsum (map (fun b => E d (fun a => f a b)) l).
Proof.
  induction l as [|b l IH]; simpl; [apply E_zero|].
  now rewrite E_plus, IH.
Qed.

Lemma E_nonneg {A} (d : dist A) f :
  Forall (fun pa => 0 <= fst pa) d -> (forall a, In a (map snd d) -> 0 <= f a) -> 0 <= E d f.
Proof.
  intros Hd Hf. apply Rsum_nonneg. apply Forall_forall. intros x Hx.
  apply in_map_iff in Hx. destruct Hx as [[p a] [<- Hin]]. simpl.
  rewrite Forall_forall in Hd. pose proof (Hd _ Hin) as Hp; simpl in Hp.
  apply Rmult_le_pos; [assumption|]. apply Hf. apply in_map_iff. exists (p, a); auto.
Qed.

Lemma is_prob_dret {A} (a : A) : is_prob (dret a).
Proof. split; [repeat constructor; simpl; lra|]. now rewrite E_dret. Qed.

Lemma is_prob_dbind {A B} (d : dist A) (k : A -> dist B) :
  is_prob d -> (forall a, In a (map snd d) -> is_prob (k a)) -> is_prob (dbind d k).
Proof.
  intros [Hd1 Hd2] Hk. split.
  - apply Forall_forall. intros [r b] Hin. unfold dbind in Hin. apply in_flat_map in Hin.
    destruct Hin as [[p a] [Hpa Hin]]. apply in_map_iff in Hin.
    destruct Hin as [[q b'] [Heq Hin]]. simpl in *. injection Heq as <- <-.
    rewrite Forall_forall in Hd1. pose proof (Hd1 _ Hpa) as Hp; simpl in Hp.
    destruct (Hk a) as [Hka _]. { apply in_map_iff. exists (p, a); auto. }
    rewrite Forall_forall in Hka. pose proof (Hka _ Hin) as Hq; simpl in Hq.
    now apply Rmult_le_pos.
  - rewrite E_dbind. rewrite (E_ext _ _ (fun _ => 1)); [exact Hd2|].
    intros a Ha. apply (Hk a Ha).
Qed.

Lemma is_prob_dmap {A B} (g : A -> B) (d : dist A) : is_prob d -> is_prob (dmap g d).
Proof.
  intros [H1 H2]. split.
  - unfold dmap. rewrite Forall_map. exact H1.
  - now rewrite E_dmap.
Qed.

Lemma is_prob_dseq {A} (ds : list (dist A)) : Forall is_prob ds -> is_prob (dseq ds).
Proof.
  induction 1 as [|d ds Hd H IH]; simpl; [apply is_prob_dret|].
  apply is_prob_dbind; [assumption|]. intros. now apply is_prob_dmap.
Qed.

Lemma E_dseq_cons {A} (d : dist A) ds f :
  E (dseq (d :: ds)) f = E d (fun a => E (dseq ds) (fun l => f (a :: l))).
Proof. simpl. rewrite E_dbind. apply E_ext'; intros. apply E_dmap. Qed.

Lemma dseq_length {A} (ds : list (dist A)) l : In l (map snd (dseq ds)) -> length l = length ds.
Proof.
  revert l; induction ds as [|d ds IH]; simpl; intros l H.
  - destruct H as [<-|[]]; reflexivity.
  - apply in_map_iff in H. destruct H as [[r l'] [<- H]].
    unfold dbind in H. apply in_flat_map in H. destruct H as [[p a] [_ H]].
    apply in_map_iff in H. destruct H as [[q l''] [Heq H]]. injection Heq as _ <-.
    unfold dmap in H. apply in_map_iff in H. destruct H as [[q' l3] [Heq H]].
    injection Heq as _ <-. simpl. f_equal. apply IH. apply in_map_iff. now exists (q', l3).
Qed.

Lemma dseq_Forall2 {A} (ds : list (dist A)) l :
  In l (map snd (dseq ds)) -> Forall2 (fun a d => In a (map snd d)) l ds.
Proof.
  revert l; induction ds as [|d ds IH]; simpl; intros l H.
  - destruct H as [<-|[]]; constructor.
  - apply in_map_iff in H. destruct H as [[r l'] [<- H]].
    unfold dbind in H. apply in_flat_map in H. destruct H as [[p a] [Ha H]].
    apply in_map_iff in H. destruct H as [[q l''] [Heq H]]. injection Heq as _ <-.
    unfold dmap in H. apply in_map_iff in H. destruct H as [[q' l3] [Heq H]].
    injection Heq as _ <-. simpl. constructor.
    + apply in_map_iff. exists (p, a); auto.
    + apply IH. apply in_map_iff. now exists (q', l3).
Qed.

(** Redrawing component [j] from its own law does not change the joint law. *)
Lemma E_dseq_set_nth {A} (ds : list (dist A)) j d f :
  Forall is_prob ds -> nth_error ds j = Some d ->
  E d (fun a => E (dseq ds) (fun l => f (set_nth j a l))) = E (dseq ds) f.
Proof.
  intros Hds; revert j f; induction Hds as [|d0 ds Hd0 Hds IH]; intros j f Hj.
  - destruct j; discriminate.
  - destruct j as [|j]; simpl in Hj.
    + injection Hj as ->. rewrite (E_ext' _ _ (fun a => E (dseq ds) (fun l => f (a :: l)))).
      * now rewrite E_dseq_cons.
      * intros a. rewrite E_dseq_cons. simpl. now rewrite E_const.
    + rewrite E_dseq_cons.
      rewrite (E_ext' d _ (fun a => E d0 (fun a0 => E (dseq ds) (fun l => f (a0 :: set_nth j a l))))).
      * rewrite E_exchange. apply E_ext'; intros a0.
        apply (IH j (fun l => f (a0 :: l)) Hj).
      * intros a. now rewrite E_dseq_cons.
Qed.

(** One-coordinate marginal. *)
Lemma E_dseq_nth {A} (ds : list (dist A)) j d dflt f :
  Forall is_prob ds -> nth_error ds j = Some d ->
  E (dseq ds) (fun l => f (nth j l dflt)) = E d f.
Proof.
  intros Hds Hj.
  rewrite <- (E_dseq_set_nth ds j d (fun l => f (nth j l dflt)) Hds Hj).
  apply E_ext'; intros a.
  assert (Hlt : (j < length ds)%nat) by (apply nth_error_Some; now rewrite Hj).
  rewrite (E_ext _ _ (fun _ => f a)).
  - apply E_const. now apply is_prob_dseq.
  - intros l Hl. rewrite nth_set_nth_eq; [reflexivity|]. now rewrite (dseq_length _ _ Hl).
Qed.

Lemma E_dcat_aux p k f :
  E (combine p (seq k (length p))) f = Rsum (map (fun i => nth i p 0 * f (k + i)%nat) (seq 0 (length p))).
Proof.
  revert k; induction p as [|x p IH]; intros k; [reflexivity|].
  simpl. rewrite E_cons, IH. rewrite Nat.add_0_r. f_equal.
  rewrite <- seq_shift, map_map. apply Rsum_map_ext. intros i _. f_equal. f_equal. lia.
Qed.

Lemma E_dcat p f : E (dcat p) f = Rsum (map (fun i => nth i p 0 * f i) (seq 0 (length p))).
Proof. unfold dcat. rewrite E_dcat_aux. reflexivity. Qed.

Lemma map_snd_combine_seq {A} (p : list A) k : map snd (combine p (seq k (length p))) = seq k (length p).
Proof. revert k; induction p; simpl; intros; [reflexivity|now rewrite IHp]. Qed.

Lemma dcat_support p i : In i (map snd (dcat p)) <-> (i < length p)%nat.
Proof. unfold dcat. rewrite map_snd_combine_seq, in_seq. lia. Qed.

Lemma E_dcat_one p : E (dcat p) (fun _ => 1) = Rsum p.
Proof.
  rewrite E_dcat. rewrite (Rsum_map_ext _ (fun i => nth i p 0)) by (intros; ring).
  now rewrite map_nth_seq.
Qed.

Lemma map_fst_combine_seq {A} (p : list A) k : map fst (combine p (seq k (length p))) = p.
Proof. revert k; induction p; simpl; intros; [reflexivity|now rewrite IHp]. Qed.

Lemma is_prob_dcat p : weights_ok p -> is_prob (dcat p).
Proof.
  intros [Hp Hs]. split; [|now rewrite E_dcat_one].
  apply Forall_forall. intros [q i] Hin. simpl.
  rewrite Forall_forall in Hp. apply Hp.
  rewrite <- (map_fst_combine_seq p 0%nat). apply in_map_iff. exists (q, i); auto.
Qed.

Lemma weights_ok_unif n : (0 < n)%nat -> weights_ok (repeat (/ INR n) n).
Proof.
  intros Hn. assert (Hp : 0 < INR n) by (apply lt_0_INR; lia). split.
  - apply Forall_forall. intros x Hx. apply repeat_spec in Hx. subst.
    left. now apply Rinv_0_lt_compat.
  - rewrite Rsum_repeat. field. lra.
Qed.

Lemma is_prob_dunif n : (0 < n)%nat -> is_prob (dunif n).
Proof. intros. apply is_prob_dcat. now apply weights_ok_unif. Qed.

Lemma E_dunif n f : E (dunif n) f = / INR n * Rsum (map f (seq 0 n)).
Proof.
  unfold dunif. rewrite E_dcat, repeat_length, <- Rsum_map_mult_l.
  apply Rsum_map_ext. intros i Hi. apply in_seq in Hi.
  rewrite (nth_indep _ 0 (/ INR n)) by (rewrite repeat_length; lia).
  now rewrite nth_repeat.
Qed.

Lemma dunif_support n i : In i (map snd (dunif n)) <-> (i < n)%nat.
Proof. unfold dunif. now rewrite dcat_support, repeat_length. Qed.

(** Sum over a categorical law of an indicator. *)
Lemma Rsum_indicator n i f :
  (i < n)%nat -> Rsum (map (fun k => (if Nat.eqb k i then 1 else 0) * f k) (seq 0 n)) = f i.
Proof.
  intros Hi.
  assert (HH : forall a m, Rsum (map (fun k => (if Nat.eqb k i then 1 else 0) * f k) (seq a m))
                 = if (Nat.leb a i && Nat.ltb i (a + m))%bool then f i else 0).
  { intros a m; revert a; induction m as [|m IH]; intros a; simpl.
    - destruct (Nat.leb_spec a i), (Nat.ltb_spec i (a + 0)); simpl; try lia; reflexivity.
    - rewrite IH. destruct (Nat.eqb_spec a i) as [->|Hne].
      + destruct (Nat.leb_spec (S i) i), (Nat.ltb_spec i (S i + m)), (Nat.leb_spec i i), (Nat.ltb_spec i (i + S m)); simpl; try lia; lra.
      + destruct (Nat.leb_spec (S a) i), (Nat.ltb_spec i (S a + m)), (Nat.leb_spec a i), (Nat.ltb_spec i (a + S m)); simpl; try lia; lra. }
  rewrite HH. destruct (Nat.leb_spec 0 i), (Nat.ltb_spec i (0 + n)); simpl; try lia; reflexivity.
Qed.
