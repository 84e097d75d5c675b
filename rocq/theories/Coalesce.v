(** How fast the ancestors of the particles coalesce under each resampling scheme. *)
From Coq Require Import FunctionalExtensionality Permutation Reals Lra Lia List.
From Coquelicot Require Import Coquelicot.
From Verif Require Export Genealogy.
Open Scope R_scope.

(** all particles have the same ancestor *)
Definition coalesced (l : list nat) : bool := forallb (Nat.eqb (nth 0 l 0%nat)) l.
Definition not_coalesced (l : list nat) : R := if coalesced l then 0 else 1.
(** ordered pairs of slots with different ancestors *)
Definition differ (a b : nat) : R := if Nat.eqb a b then 0 else 1.
Definition distinct_pairs (l : list nat) : R := Rsum (map (fun a => Rsum (map (differ a) l)) l).

Lemma coalesced_spec l : coalesced l = true <-> forall a b, In a l -> In b l -> a = b.
Proof.
  unfold coalesced. rewrite forallb_forall. split.
  - intros H a b Ha Hb. apply H in Ha, Hb. apply Nat.eqb_eq in Ha, Hb. congruence.
  - intros H a Ha. apply Nat.eqb_eq. apply H; [|assumption]. destruct l; [destruct Ha|now left].
Qed.

Lemma coalesced_perm l l' : Permutation l l' -> coalesced l = coalesced l'.
Proof.
  intros H. apply eq_true_iff_eq. rewrite !coalesced_spec. split; intros K a b Ha Hb; apply K; eapply Permutation_in; try eassumption; now apply Permutation_sym.
Qed.

(** ** multinomial *)

Fixpoint hits (i : nat) (A : list nat) : R := match A with [] => 1 | a :: A' => (if Nat.eqb a i then 1 else 0) * hits i A' end.

Lemma hits_01 i A : (hits i A = 1 /\ Forall (eq i) A) \/ hits i A = 0.
Proof.
  induction A as [|a A [[H1 H2]|H]]; cbn [hits].
  - left. split; [reflexivity|constructor].
  - destruct (Nat.eqb_spec a i) as [ ->|Ha]; [left|right; ring]. split; [rewrite H1; ring|now constructor].
  - right. rewrite H. ring.
Qed.

Lemma E_hits w m i : weights_ok w -> (i < length w)%nat -> E (dseq (repeat (dcat w) m)) (hits i) = nth i w 0 ^ m.
Proof.
  intros Hw Hi. induction m as [|m IH]; [cbn [repeat dseq pow]; now rewrite E_dret|]. cbn [repeat pow]. rewrite E_dseq_cons. cbn [hits].
  rewrite (E_ext' _ _ (fun a => (if Nat.eqb a i then 1 else 0) * E (dseq (repeat (dcat w) m)) (hits i))) by (intros; now rewrite E_mult_l).
  rewrite E_mult_r, IH. f_equal. rewrite E_dcat. rewrite (Rsum_map_ext _ (fun j => if Nat.eqb j i then nth i w 0 else 0)).
  - assert (G : forall s N, (s <= i < s + N)%nat -> Rsum (map (fun j => if Nat.eqb j i then nth i w 0 else 0) (seq s N)) = nth i w 0).
    { intros s N; revert s. induction N as [|N IHN]; intros s Hs; [lia|]. cbn [seq map Rsum]. destruct (Nat.eqb_spec s i) as [ ->|Hne].
      - rewrite (Rsum_map_ext _ (fun _ => 0)); [|intros j Hj; apply in_seq in Hj; destruct (Nat.eqb_spec j i); [lia|reflexivity]].
        rewrite Rsum_map_const. ring.
      - rewrite IHN by lia. ring. }
    apply G. lia.
  - intros j _. destruct (Nat.eqb_spec j i) as [ ->|]; ring.
Qed.

Lemma bernoulli x m : -1 <= x -> 1 + INR m * x <= (1 + x) ^ m.
Proof.
  intros Hx. induction m as [|m IH]; [simpl; lra|]. rewrite S_INR. cbn [pow].
  apply Rle_trans with ((1 + x) * (1 + INR m * x)); [|apply Rmult_le_compat_l; lra].
  pose proof (pos_INR m). nra.
Qed.

(** the chance that all [n] multinomial draws agree is least for equal weights *)
Lemma agree_lower w : weights_ok w -> INR (length w) * (/ INR (length w)) ^ length w <= Rsum (map (fun i => nth i w 0 ^ length w) (seq 0 (length w))).
Proof.
  intros Hw. pose proof (weights_ok_nonempty _ Hw) as Hne. assert (Hn : 0 < INR (length w)) by (apply lt_0_INR; destruct w; [easy|simpl; lia]).
  set (n := length w) in *. set (q := / INR n). assert (Hq : INR n * q = 1) by (unfold q; field; lra). assert (0 < q) by (now apply Rinv_0_lt_compat).
  apply Rle_trans with (Rsum (map (fun i => q ^ n * (1 + INR n * (INR n * nth i w 0 - 1))) (seq 0 n))).
  - rewrite Rsum_map_mult_l. rewrite (Rsum_map_ext _ (fun i => (1 - INR n) + INR n * INR n * nth i w 0)) by (intros; ring).
    rewrite Rsum_map_plus, Rsum_map_const, seq_length, Rsum_map_mult_l.
    assert (Hs : Rsum (map (fun i => nth i w 0) (seq 0 n)) = 1) by (unfold n; rewrite (map_nth_seq 0 w); apply Hw). rewrite Hs. right. ring.
  - apply Rsum_map_le. intros i Hi. apply in_seq in Hi.
    assert (Hp : 0 <= nth i w 0) by (apply (Forall_nth_lt (fun x => 0 <= x)); [apply Hw|fold n; lia]).
    replace (nth i w 0) with (q * (1 + (INR n * nth i w 0 - 1))) at 2 by (transitivity (INR n * q * nth i w 0); [ring|rewrite Hq; ring]).
    rewrite Rpow_mult_distr. apply Rmult_le_compat_l; [now apply pow_le, Rlt_le|]. apply bernoulli. assert (0 <= INR n * nth i w 0) by (apply Rmult_le_pos; lra). lra.
Qed.

Definition agree_rate (n : nat) : R := INR n * (/ INR n) ^ n.

Lemma agree_rate_bounds n : (0 < n)%nat -> 0 < agree_rate n <= 1.
Proof.
  intros Hn. assert (0 < INR n) by (apply lt_0_INR; lia). unfold agree_rate. split; [apply Rmult_lt_0_compat; [assumption|]; apply pow_lt; now apply Rinv_0_lt_compat|].
  destruct n as [|m]; [lia|]. cbn [pow]. rewrite <- Rmult_assoc, Rinv_r by lra. rewrite Rmult_1_l, <- (pow1 m). apply pow_incr.
  split; [left; now apply Rinv_0_lt_compat|]. rewrite <- Rinv_1. apply Rinv_le_contravar; [lra|]. rewrite S_INR. pose proof (pos_INR m). lra.
Qed.

Lemma multinomial_agree_step w k (tg : list nat) : weights_ok w -> length tg = length w ->
  law (multinomial w k) (fun A => not_coalesced (gather 0%nat tg A)) <= (1 - agree_rate (length w)) * not_coalesced tg.
Proof.
  intros Hw Hl. pose proof (weights_ok_nonempty _ Hw) as Hne. set (n := length w) in *. assert (Hn : (0 < n)%nat) by (unfold n; destruct w; [easy|simpl; lia]).
  assert (Hp : is_prob (dseq (repeat (dcat w) n))).
  { apply is_prob_dseq, Forall_forall. intros d Hd. apply repeat_spec in Hd. subst. now apply is_prob_dcat. }
  assert (Hin : forall A, In A (map snd (dseq (repeat (dcat w) n))) -> length A = n /\ forall a, In a A -> (a < n)%nat).
  { intros A HA. split; [apply dseq_length in HA; now rewrite repeat_length in HA|]. intros a Ha.
    pose proof (dcat_below w) as Hb. rewrite Forall_forall in Hb.
    destruct (In_nth A a 0%nat Ha) as (j & Hj & <-). apply (Hb (dcat w)); [fold n; destruct n; [lia|left; reflexivity]|].
    assert (HF : forall m A, In A (map snd (dseq (repeat (dcat w) m))) -> Forall (fun a => In a (map snd (dcat w))) A).
    { clear. induction m as [|m IH]; intros A HA; [cbn in HA; destruct HA as [<-|[]]; constructor|]. cbn [repeat dseq] in HA.
      unfold dbind in HA. rewrite in_map_iff in HA. destruct HA as ([p A'] & <- & HA). apply in_flat_map in HA. destruct HA as ([p1 a1] & H1 & HA).
      cbn [snd] in *. apply in_map_iff in HA. destruct HA as ([p2 A2] & E2 & HA). injection E2 as E3 E4. subst.
      unfold dmap in HA. apply in_map_iff in HA. destruct HA as ([p3 A3] & E5 & HA). injection E5 as E6 E7. subst.
      constructor; [exact (in_map snd _ _ H1)|]. apply IH. exact (in_map snd _ _ HA). }
    specialize (HF _ _ HA). rewrite Forall_forall in HF. apply HF. now apply nth_In. }
  rewrite multinomial_law by assumption. fold n. rewrite (E_ext' _ _ (fun A => not_coalesced (gather 0%nat tg A))).
  2:{ intros A. unfold not_coalesced, gather. now rewrite (coalesced_perm _ _ (Permutation_map (fun i => nth i tg 0%nat) (nsort_perm A))). }
  unfold not_coalesced at 2. destruct (coalesced tg) eqn:Hc.
  - rewrite Rmult_0_r. rewrite <- (E_const 0 _ Hp). apply E_le; [apply Hp|]. intros A HA. destruct (Hin A HA) as [_ HA2]. unfold not_coalesced.
    rewrite (proj2 (coalesced_spec _)); [lra|]. rewrite coalesced_spec in Hc. intros a b Ha Hb. unfold gather in Ha, Hb. apply in_map_iff in Ha, Hb.
    destruct Ha as (i & <- & Hi), Hb as (j & <- & Hj). apply HA2 in Hi, Hj. apply Hc; apply nth_In; lia.
  - rewrite Rmult_1_r. apply Rle_trans with (E (dseq (repeat (dcat w) n)) (fun A => 1 + -1 * Rsum (map (fun i => hits i A) (seq 0 n)))).
    + apply E_le; [apply Hp|]. intros A HA. destruct (Hin A HA) as [HA1 HA2].
      assert (Hs : forall s N, 0 <= Rsum (map (fun i => hits i A) (seq s N)) /\
         (Rsum (map (fun i => hits i A) (seq s N)) = 0 \/ exists i, Forall (eq i) A /\ (s <= i)%nat /\ Rsum (map (fun i => hits i A) (seq s N)) = 1)).
      { intros s N; revert s. induction N as [|N IHN]; intros s; [cbn; split; [lra|now left]|]. cbn [seq map Rsum]. destruct (IHN (S s)) as [I1 I2].
        destruct (hits_01 s A) as [[H1 H2]|H0].
        - assert (Z : Rsum (map (fun i => hits i A) (seq (S s) N)) = 0).
          { destruct I2 as [I2|(i & G1 & G2 & _)]; [assumption|]. destruct A as [|a A']; [cbn in HA1; lia|]. assert (Es : s = a) by now inversion H2. assert (Ei : i = a) by now inversion G1. lia. }
          rewrite H1, Z. split; [lra|]. right. exists s. split; [assumption|]. split; [lia|ring].
        - rewrite H0, Rplus_0_l. split; [assumption|]. destruct I2 as [I2|(i & G1 & G2 & G3)]; [now left|right]. exists i. split; [assumption|]. split; [lia|assumption]. }
      destruct (Hs 0%nat n) as [_ [H0|(i & G1 & _ & G3)]].
      * rewrite H0. unfold not_coalesced. cbn beta. destruct (coalesced (gather 0%nat tg A)); lra.
      * rewrite G3. unfold not_coalesced. rewrite (proj2 (coalesced_spec _)); [lra|]. intros a b Ha Hb. unfold gather in Ha, Hb. apply in_map_iff in Ha, Hb.
        destruct Ha as (x & <- & Hx), Hb as (y & <- & Hy). rewrite Forall_forall in G1. rewrite <- (G1 x Hx), <- (G1 y Hy). reflexivity.
    + rewrite E_plus, E_const, E_mult_l by assumption.
      assert (HS : E (dseq (repeat (dcat w) n)) (fun A => Rsum (map (fun i => hits i A) (seq 0 n))) = Rsum (map (fun i => nth i w 0 ^ n) (seq 0 n))).
      { assert (G : forall l, Forall (fun i => (i < n)%nat) l -> E (dseq (repeat (dcat w) n)) (fun A => Rsum (map (fun i => hits i A) l)) = Rsum (map (fun i => nth i w 0 ^ n) l)).
        { induction 1 as [|i l Hi Hf IH]; cbn [map Rsum]; [now rewrite E_zero|]. rewrite E_plus, IH, E_hits by assumption. reflexivity. }
        apply G, Forall_forall. intros i Hi. apply in_seq in Hi. lia. }
      rewrite HS. pose proof (agree_lower w Hw) as H. fold n in H. unfold agree_rate. lra.
Qed.

(** ** multinomial with equal weights: the exact rate *)

Lemma pairs_draws (d : dist nat) (g : nat -> nat -> R) m : is_prob d -> (forall a, g a a = 0) -> (forall a b, g a b = g b a) ->
  E (dseq (repeat d m)) (fun A => Rsum (map (fun a => Rsum (map (g a) A)) A)) = INR m * (INR m - 1) * E d (fun a => E d (g a)).
Proof.
  intros Hd Hz Hsym. induction m as [|m IH]; [cbn [repeat dseq]; rewrite E_dret; cbn; ring|]. cbn [repeat]. rewrite E_dseq_cons.
  assert (HF : Forall is_prob (repeat d m)) by (apply Forall_forall; intros x Hx; apply repeat_spec in Hx; now subst).
  rewrite (E_ext' _ _ (fun a => 2 * (INR m * E d (g a)) + INR m * (INR m - 1) * E d (fun a => E d (g a)))).
  - rewrite E_plus, !E_mult_l, E_const by assumption. rewrite S_INR. ring.
  - intros a. rewrite <- IH. rewrite (E_ext' _ _ (fun A => 2 * Rsum (map (g a) A) + Rsum (map (fun b => Rsum (map (g b) A)) A))).
    + rewrite E_plus, E_mult_l, E_dseq_Rsum by assumption. f_equal. f_equal. clear. induction m as [|m IH]; [cbn; ring|]. cbn [repeat map Rsum]. rewrite IH, S_INR. ring.
    + intros A. cbn [map Rsum]. rewrite Hz, Rplus_0_l.
      rewrite (Rsum_map_ext (fun b => g b a + Rsum (map (g b) A)) (fun b => g a b + Rsum (map (g b) A))) by (intros; now rewrite Hsym).
      rewrite Rsum_map_plus. ring.
Qed.

Lemma weights_equal n : (0 < n)%nat -> weights_ok (repeat (/ INR n) n).
Proof.
  intros Hn. assert (0 < INR n) by (apply lt_0_INR; lia). split.
  - apply Forall_forall. intros x Hx. apply repeat_spec in Hx. subst. left. now apply Rinv_0_lt_compat.
  - assert (G : forall c m, Rsum (repeat c m) = INR m * c) by (intros c; induction m as [|m IH]; [cbn; ring|cbn [repeat Rsum]; rewrite IH, S_INR; ring]).
    rewrite G. field. lra.
Qed.

Lemma normalise_equal n c : (0 < n)%nat -> normalise (repeat c n) = repeat (/ INR n) n.
Proof.
  intros Hn. assert (0 < INR n) by (apply lt_0_INR; lia). rewrite normalise_eq by (destruct n; [lia|discriminate]).
  assert (G : forall c m, Rsum (map exp (repeat c m)) = INR m * exp c) by (intros c'; induction m as [|m IH]; [cbn; ring|cbn [repeat map Rsum]; rewrite IH, S_INR; ring]).
  rewrite G. assert (M : forall (f : R -> R) m, map f (repeat c m) = repeat (f c) m) by (intros f; induction m; cbn; congruence). rewrite M. f_equal.
  pose proof (exp_pos c). field. split; lra.
Qed.

Lemma E_dcat_equal n h : (0 < n)%nat -> E (dcat (repeat (/ INR n) n)) h = / INR n * Rsum (map h (seq 0 n)).
Proof.
  intros Hn. rewrite E_dcat, repeat_length, <- Rsum_map_mult_l. apply Rsum_map_ext. intros i Hi. apply in_seq in Hi. now rewrite nth_repeat_lt by lia.
Qed.

Lemma distinct_pairs_gather tg A : distinct_pairs (gather 0%nat tg A) = Rsum (map (fun a => Rsum (map (fun b => differ (nth a tg 0%nat) (nth b tg 0%nat)) A)) A).
Proof. unfold distinct_pairs, gather. rewrite map_map. apply Rsum_map_ext. intros a _. now rewrite map_map. Qed.

Lemma distinct_pairs_perm l l' : Permutation l l' -> distinct_pairs l = distinct_pairs l'.
Proof.
  intros H. unfold distinct_pairs. rewrite (Rsum_perm _ _ (Permutation_map _ H)). apply Rsum_map_ext. intros a _. apply Rsum_perm. now apply Permutation_map.
Qed.

Lemma multinomial_neutral_step n k (tg : list nat) : (0 < n)%nat -> length tg = n ->
  law (multinomial (repeat (/ INR n) n) k) (fun A => distinct_pairs (gather 0%nat tg A)) = (1 - / INR n) * distinct_pairs tg.
Proof.
  intros Hn Hl. pose proof (weights_equal n Hn) as Hw. assert (0 < INR n) by (apply lt_0_INR; lia). rewrite multinomial_law by assumption.
  rewrite repeat_length. set (g := fun a b => differ (nth a tg 0%nat) (nth b tg 0%nat)).
  rewrite (E_ext' _ _ (fun A => Rsum (map (fun a => Rsum (map (g a) A)) A))).
  2:{ intros A. transitivity (distinct_pairs (gather 0%nat tg A)); [|apply distinct_pairs_gather]. apply distinct_pairs_perm. unfold gather. apply Permutation_map, nsort_perm. }
  rewrite pairs_draws; [|now apply is_prob_dcat| |].
  - rewrite (E_ext' _ _ (fun a => / INR n * Rsum (map (g a) (seq 0 n)))) by (intros; now apply E_dcat_equal).
    rewrite E_mult_l, E_dcat_equal by assumption.
    assert (HD : Rsum (map (fun a => Rsum (map (g a) (seq 0 n))) (seq 0 n)) = distinct_pairs tg).
    { unfold g. rewrite <- (distinct_pairs_gather tg (seq 0 n)). f_equal. unfold gather. rewrite <- Hl. apply map_nth_seq. }
    rewrite HD. field. lra.
  - intros a. unfold g, differ. now rewrite Nat.eqb_refl.
  - intros a b. unfold g, differ. now rewrite Nat.eqb_sym.
Qed.

Lemma distinct_pairs_iota n : distinct_pairs (seq 0 n) = INR n * (INR n - 1).
Proof.
  unfold distinct_pairs. rewrite (Rsum_map_ext _ (fun _ => INR n - 1)).
  - rewrite Rsum_map_const, seq_length. ring.
  - intros a Ha. apply in_seq in Ha.
    assert (G : forall s N, Rsum (map (differ a) (seq s N)) = INR N - (if (Nat.leb s a && Nat.ltb a (s + N))%bool then 1 else 0)).
    { intros s N; revert s. induction N as [|N IH]; intros s; cbn [seq map Rsum].
      - destruct (Nat.leb_spec s a), (Nat.ltb_spec a (s + 0)); cbn [andb]; try lia; cbn [INR]; ring.
      - rewrite IH, S_INR. unfold differ. destruct (Nat.eqb_spec a s), (Nat.leb_spec (S s) a), (Nat.ltb_spec a (S s + N)), (Nat.leb_spec s a), (Nat.ltb_spec a (s + S N)); cbn [andb]; try lia; ring. }
    rewrite G. destruct (Nat.leb_spec 0 a), (Nat.ltb_spec a (0 + n)); cbn [andb]; try lia. reflexivity.
Qed.

(** ** stratified, systematic and killing with equal weights: nobody is lost *)

Lemma Rsum_firstn_repeat c n m : (m <= n)%nat -> Rsum (firstn m (repeat c n)) = INR m * c.
Proof.
  revert m. induction n as [|n IH]; intros m Hm; [assert (m = 0)%nat by lia; subst; cbn; ring|]. destruct m as [|m]; [cbn; ring|].
  cbn [repeat firstn Rsum]. rewrite IH by lia. rewrite S_INR. ring.
Qed.

Lemma equal_index n i u : (0 < n)%nat -> (i < n)%nat -> 0 < u < 1 ->
  clip_index n (searchsorted (cumsum (repeat (/ INR n) n)) ((INR i + u) / INR n)) = i.
Proof.
  intros Hn Hi Hu. assert (Hp : 0 < INR n) by (apply lt_0_INR; lia). destruct (weights_equal n Hn) as [Hw _]. unfold cumsum.
  assert (H1 : (searchsorted (cumsum_from 0 (repeat (/ INR n) n)) ((INR i + u) / INR n) <= i)%nat).
  { apply searchsorted_le_iff; [assumption|now rewrite repeat_length|]. rewrite Rsum_firstn_repeat by lia. rewrite S_INR. unfold Rdiv.
    rewrite Rplus_0_l. apply Rmult_le_compat_r; [left; now apply Rinv_0_lt_compat|lra]. }
  unfold clip_index. destruct i as [|j]; [lia|].
  assert (H2 : ~ (searchsorted (cumsum_from 0 (repeat (/ INR n) n)) ((INR (S j) + u) / INR n) <= j)%nat).
  { rewrite searchsorted_le_iff; [|assumption|rewrite repeat_length; lia]. rewrite Rsum_firstn_repeat by lia. rewrite Rplus_0_l. unfold Rdiv.
    assert (Hi' : 0 < / INR n) by now apply Rinv_0_lt_compat. intros H. apply Rmult_le_reg_r in H; [|assumption]. lra. }
  lia.
Qed.

Lemma is_RInt_const01 (c : R) : is_RInt (fun _ => c) 0 1 c.
Proof.
  pose proof (is_RInt_const_R 0 1 c) as H. now replace ((1 - 0) * c) with c in H by ring.
Qed.

Lemma E_dseq_point {A} (ds : list (dist A)) l f : Forall2 (fun d a => forall h, E d h = h a) ds l -> E (dseq ds) f = f l.
Proof.
  intros H; revert f. induction H as [|d a ds l Hd H IH]; intros f; [cbn [dseq]; now rewrite E_dret|]. rewrite E_dseq_cons, Hd. apply (IH (fun x => f (a :: x))).
Qed.

(** a scheme that copies every particle once when the weights are equal *)
Definition neutral_identity (res : list R -> key -> prog (list nat)) : Prop :=
  forall n k f, (0 < n)%nat -> law (res (repeat (/ INR n) n) k) f = f (seq 0 n).

Theorem stratified_neutral : neutral_identity stratified.
Proof.
  intros n k f Hn. unfold stratified. cbn [law]. rewrite repeat_length.
  set (g := fun i u => clip_index n (searchsorted (cumsum (repeat (/ INR n) n)) ((INR i + u) / INR n))).
  transitivity (uint (length (map g (seq 0 n))) (fun us => f (zipapp (map g (seq 0 n)) us))).
  - rewrite map_length, seq_length. apply uint_ext. intros us Hus. f_equal. unfold stratified_of, inverse_cdf_indices, strat_points, zipapp.
    rewrite combine_map_l, !map_map, Hus, repeat_length. reflexivity.
  - rewrite (uint_zipapp _ (map dret (seq 0 n)) f).
    + apply E_dseq_point. clear. induction (seq 0 n); constructor; [intros; apply E_dret|assumption].
    + assert (G : forall l, Forall (fun i => (i < n)%nat) l -> Forall2 (fun g d => forall h : nat -> R, is_RInt (fun u => h (g u)) 0 1 (E d h)) (map g l) (map dret l)).
      { induction 1 as [|i l Hi Hl IH]; constructor; [|assumption]. intros h. rewrite E_dret.
        apply (is_RInt_ext (fun _ => h i)).
        - intros u Hu. rewrite Rmin_left, Rmax_right in Hu by lra. unfold g. now rewrite equal_index.
        - apply is_RInt_const01. }
      apply G, Forall_forall. intros i Hi. apply in_seq in Hi. lia.
Qed.

Theorem systematic_neutral : neutral_identity systematic.
Proof.
  intros n k f Hn. unfold systematic. cbn [law uint]. apply is_RInt_unique. apply (is_RInt_ext (fun _ => f (seq 0 n))).
  - intros u Hu. rewrite Rmin_left, Rmax_right in Hu by lra. f_equal.
    change (systematic_of (repeat (/ INR n) n) (nth 0 [u] 0)) with (stratified_of (repeat (/ INR n) n) (repeat u (length (repeat (/ INR n) n)))).
    rewrite repeat_length. unfold stratified_of, inverse_cdf_indices. rewrite strat_points_map, map_map, !repeat_length.
    symmetry. etransitivity; [|apply (map_id (seq 0 n))]. apply map_ext_in. intros i Hi. apply in_seq in Hi. rewrite nth_repeat_lt by lia. apply equal_index; lia || lra.
  - apply is_RInt_const01.
Qed.

Theorem killing_neutral : neutral_identity killing.
Proof.
  intros n k f Hn. pose proof (weights_equal n Hn) as Hw. assert (0 < INR n) by (apply lt_0_INR; lia). assert (0 < / INR n) by now apply Rinv_0_lt_compat.
  rewrite (killing_denotes _ k Hw). unfold killing_dist. rewrite repeat_length. apply E_dseq_point.
  assert (G : forall l, Forall (fun i => (i < n)%nat) l -> Forall2 (fun d a => forall h : nat -> R, E d h = h a) (map (killing_slot (repeat (/ INR n) n)) l) l).
  { induction 1 as [|i l Hi Hl IH]; constructor; [|assumption]. intros h. unfold killing_slot. rewrite E_dbind. rewrite Rmax_list_repeat, nth_repeat_lt by assumption.
    unfold E at 1. cbn [map Rsum fst snd]. rewrite E_dret. field. lra. }
  apply G, Forall_forall. intros i Hi. apply in_seq in Hi. lia.
Qed.

(** ** How many particles one resampling loses *)

Definition survivors (N : nat) (A : list nat) : R := Rsum (map (fun i => if Nat.eqb (count i A) 0 then 0 else 1) (seq 0 N)).

Theorem survivors_upper res w k : unbiased_res res -> has_laws (valid_indices (length w)) (res w) -> weights_ok w ->
  law (res w k) (survivors (length w)) <= Rsum (map (fun x => Rmin 1 (INR (length w) * x)) w).
Proof.
  intros Hu HL Hw. set (n := length w). pose proof (unbiased_res_copies res w k) as Hc. destruct HL as (d & Hp & Hd & Hs).
  rewrite (Rsum_gather _ 0 w). fold n. unfold survivors. rewrite Hd.
  assert (G : forall l, Forall (fun i => (i < n)%nat) l -> E d (fun A => Rsum (map (fun i => if Nat.eqb (count i A) 0 then 0 else 1) l)) <= Rsum (map (fun i => Rmin 1 (INR n * nth i w 0)) l)).
  { induction 1 as [|i l Hi Hl IH]; cbn [map Rsum]; [rewrite E_zero; lra|]. rewrite E_plus. apply Rplus_le_compat; [|assumption]. apply Rmin_glb.
    - apply Rle_trans with (E d (fun _ => 1)); [|rewrite (E_const 1 d Hp); lra]. apply E_le; [apply Hp|]. intros A _. destruct (Nat.eqb (count i A) 0); lra.
    - unfold n. rewrite <- (Hc i Hu Hw Hi), Hd. apply E_le; [apply Hp|]. intros A _. destruct (Nat.eqb_spec (count i A) 0) as [H|H]; [apply pos_INR|].
      apply (le_INR 1). lia. }
  apply G, Forall_forall. intros i Hi. apply in_seq in Hi. lia.
Qed.

Lemma E_Rsum {A B} (d : dist A) (f : B -> A -> R) l : E d (fun a => Rsum (map (fun b => f b a) l)) = Rsum (map (fun b => E d (f b)) l).
Proof. induction l as [|b l IH]; cbn [map Rsum]; [apply E_zero|]. now rewrite E_plus, IH. Qed.

(** systematic resampling loses as few as an unbiased scheme can *)
Theorem systematic_survivors w k : weights_ok w ->
  law (systematic w k) (survivors (length w)) = Rsum (map (fun x => Rmin 1 (INR (length w) * x)) w).
Proof.
  intros Hw. set (n := length w). destruct (systematic_has_laws w Hw) as (d & Hp & Hd & Hs).
  rewrite (Rsum_gather _ 0 w). fold n. unfold survivors. rewrite Hd, E_Rsum. apply Rsum_map_ext. intros i Hi. apply in_seq in Hi.
  rewrite <- (Hd k). unfold systematic. cbn [law uint]. change (length w) with n.
  assert (Hi' : (i < length w)%nat) by (fold n; lia).
  destruct (Rle_lt_dec 1 (INR n * nth i w 0)) as [Hge|Hlt].
  - rewrite Rmin_left by assumption. apply is_RInt_unique. apply (is_RInt_ext (fun _ => 1)).
    + intros u Hu. rewrite Rmin_left, Rmax_right in Hu by lra. cbn [nth]. destruct (systematic_offspring w u i Hw) as [_ H]; [unfold in01; lra|assumption|].
      specialize (H ltac:(lra)). apply Rabs_def2 in H. fold n in H. destruct (Nat.eqb_spec (count i (systematic_of w u)) 0) as [H0|]; [|reflexivity]. rewrite H0 in H. cbn [INR] in H. lra.
    + apply is_RInt_const01.
  - rewrite Rmin_right by lra. unfold n. rewrite <- (unbiased_res_copies systematic w k i systematic_unbiased Hw Hi'). unfold systematic. cbn [law uint].
    apply RInt_ext. intros u Hu. rewrite Rmin_left, Rmax_right in Hu by lra. cbn [nth]. destruct (systematic_offspring w u i Hw) as [_ H]; [unfold in01; lra|assumption|].
    specialize (H ltac:(lra)). apply Rabs_def2 in H. fold n in H.
    assert (Hc : INR (count i (systematic_of w u)) < INR 2) by (cbn [INR]; lra). apply INR_lt in Hc.
    destruct (Nat.eqb_spec (count i (systematic_of w u)) 0) as [H0|H0]; [now rewrite H0|]. replace (count i (systematic_of w u)) with 1%nat by lia. reflexivity.
Qed.
