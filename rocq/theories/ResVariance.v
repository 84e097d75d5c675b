(** Variance of the resampling schemes (fbs/samplers/resampling.py): independent slots. *)
From Coquelicot Require Import Coquelicot.
From Coq Require Import Permutation.
From Verif Require Export FinLaw MultinomialLaw SmcProofs.
Open Scope R_scope.

Lemma E_le {A} (d : dist A) f g : Forall (fun pa => 0 <= fst pa) d -> (forall a, In a (map snd d) -> f a <= g a) -> E d f <= E d g.
Proof.
  intros Hd H. assert (0 <= E d (fun a => g a + (-1) * f a)); [|rewrite E_plus, E_mult_l in H0; lra].
  apply E_nonneg; [assumption|]. intros a Ha. specialize (H a Ha). lra.
Qed.

Lemma E_bound {A} (d : dist A) f b : is_prob d -> (forall a, In a (map snd d) -> Rabs (f a) <= b) -> Rabs (E d f) <= b.
Proof.
  intros [H1 H2] H. assert (Hc : forall c, E d (fun _ => c) = c) by (intros; apply E_const; now split).
  apply Rabs_le. split; [rewrite <- (Hc (- b))|rewrite <- (Hc b)]; apply E_le; try assumption;
  intros a Ha; specialize (H a Ha); apply Rabs_le_between in H; lra.
Qed.

(** sum of the slot functions *)
Definition zsum {A} (fs : list (A -> R)) (l : list A) : R := Rsum (map (fun fa => fst fa (snd fa)) (combine fs l)).
Definition variance {A} (d : dist A) (f : A -> R) : R := E d (fun a => (f a) ^ 2) - (E d f) ^ 2.
Definition zmean {A} (fs : list (A -> R)) (ds : list (dist A)) : R := Rsum (map (fun fd => E (snd fd) (fst fd)) (combine fs ds)).
Definition zvar {A} (fs : list (A -> R)) (ds : list (dist A)) : R := Rsum (map (fun fd => variance (snd fd) (fst fd)) (combine fs ds)).

Lemma E_square {A} (d : dist A) f s : is_prob d -> E d (fun a => (s + f a) ^ 2) = (s + E d f) ^ 2 + variance d f.
Proof.
  intros Hd. rewrite (E_ext' _ _ (fun a => s ^ 2 + (2 * s * f a + (f a) ^ 2))) by (intros; ring).
  rewrite !E_plus, E_mult_l, E_const by assumption. unfold variance. ring.
Qed.

Lemma E_dseq_square {A} (ds : list (dist A)) : Forall is_prob ds -> forall fs s, length fs = length ds ->
  E (dseq ds) (fun l => (s + zsum fs l) ^ 2) = (s + zmean fs ds) ^ 2 + zvar fs ds.
Proof.
  induction 1 as [|d ds Hd H IH]; intros [|f fs] s Hl; try discriminate Hl.
  - cbn [dseq]. rewrite E_dret. unfold zsum, zmean, zvar. cbn. ring.
  - cbn in Hl. rewrite E_dseq_cons.
    rewrite (E_ext' _ _ (fun a => ((s + zmean fs ds) + f a) ^ 2 + zvar fs ds)).
    + rewrite E_plus, E_const, E_square by assumption. unfold zmean, zvar. cbn [combine map Rsum fst snd]. ring.
    + intros a. rewrite (E_ext' _ _ (fun l => ((s + f a) + zsum fs l) ^ 2)).
      * rewrite IH by lia. ring.
      * intros l. unfold zsum. cbn [combine map Rsum fst snd]. ring.
Qed.

Lemma variance_le {A} (d : dist A) f b : is_prob d -> (forall a, In a (map snd d) -> Rabs (f a) <= b) -> variance d f <= b ^ 2.
Proof.
  intros Hd H. unfold variance. assert (E d (fun a => f a ^ 2) <= b ^ 2); [|nra].
  rewrite <- (E_const (b ^ 2) d Hd). apply E_le; [apply Hd|]. intros a Ha. specialize (H a Ha).
  apply Rabs_le_between in H. nra.
Qed.

Lemma variance_nonneg {A} (d : dist A) f : is_prob d -> 0 <= variance d f.
Proof.
  intros Hd. assert (H : variance d f = E d (fun a => (- E d f + f a) ^ 2)) by (rewrite E_square by assumption; ring).
  rewrite H. apply E_nonneg; [apply Hd|]. intros. apply pow2_ge_0.
Qed.

Lemma zvar_le {A} (ds : list (dist A)) b : Forall is_prob ds -> forall fs, length fs = length ds ->
  (forall f d a, In (f, d) (combine fs ds) -> In a (map snd d) -> Rabs (f a) <= b) -> zvar fs ds <= INR (length ds) * b ^ 2.
Proof.
  induction 1 as [|d ds Hd H IH]; intros [|f fs] Hl Hb; try discriminate Hl; [unfold zvar; cbn; lra|].
  unfold zvar. cbn [combine map Rsum fst snd]. change (variance d f + zvar fs ds <= INR (length (d :: ds)) * b ^ 2).
  cbn [length]. rewrite S_INR. assert (variance d f <= b ^ 2) by (apply variance_le; [assumption|]; intros a; apply Hb; now left).
  assert (zvar fs ds <= INR (length ds) * b ^ 2); [|lra]. apply IH; [cbn in Hl; lia|]. intros f' d' a Hin. apply Hb. now right.
Qed.

Lemma zsum_repeat {A} (f : A -> R) l n : length l = n -> zsum (repeat f n) l = Rsum (map f l).
Proof. intros <-. unfold zsum. induction l as [|a l IH]; [reflexivity|]. cbn. unfold zsum in IH. now rewrite IH. Qed.
Lemma zmean_repeat {A} (f : A -> R) ds : zmean (repeat f (length ds)) ds = Rsum (map (fun d => E d f) ds).
Proof. unfold zmean. induction ds as [|a l IH]; [reflexivity|]. cbn. now rewrite IH. Qed.

(** ** Schemes *)
(** the error of the resampled sum has variance at most n b^2 *)
Definition small_var (res : list R -> key -> prog (list nat)) : Prop :=
  forall w k h b, weights_ok w -> (forall i, (i < length w)%nat -> Rabs (h i) <= b) ->
  law (res w k) (fun A => (Rsum (map h A) - INR (length w) * E (dcat w) h) ^ 2) <= INR (length w) * b ^ 2.

(** slots independent, up to the order *)
Definition indep_slots (res : list R -> key -> prog (list nat)) : Prop :=
  forall w, weights_ok w -> exists ds, length ds = length w /\ Forall is_prob ds /\
    Forall (fun d => forall v, In v (map snd d) -> (v < length w)%nat) ds /\
    forall k F, (forall A B, Permutation A B -> F A = F B) -> law (res w k) F = E (dseq ds) F.

Lemma indep_small_var res : unbiased_res res -> indep_slots res -> small_var res.
Proof.
  intros Hu Hi w k h b Hw Hb. destruct (Hi w Hw) as (ds & Hl & Hp & Hs & HF).
  rewrite HF by (intros A B HAB; f_equal; f_equal; now apply Rsum_perm, Permutation_map).
  set (c := INR (length w) * E (dcat w) h).
  rewrite (E_ext _ _ (fun A => (- c + zsum (repeat h (length ds)) A) ^ 2)).
  2:{ intros A HA. apply dseq_length in HA. rewrite zsum_repeat by assumption. f_equal. ring. }
  rewrite E_dseq_square by (try assumption; apply repeat_length). rewrite zmean_repeat.
  assert (Hm : Rsum (map (fun d => E d h) ds) = c).
  { rewrite <- E_dseq_Rsum by assumption. rewrite <- (HF k). - now apply Hu. - intros A B HAB. now apply Rsum_perm, Permutation_map. }
  rewrite Hm. replace ((- c + c) ^ 2) with 0 by ring. rewrite Rplus_0_l, <- Hl. apply zvar_le; [assumption|apply repeat_length|].
  intros f d a Hin Ha. assert (f = h) by (apply in_combine_l in Hin; now apply repeat_spec in Hin). subst f.
  apply in_combine_r in Hin. rewrite Forall_forall in Hs. apply Hb. eapply Hs; eassumption.
Qed.

Lemma dcat_below w : Forall (fun d => forall v, In v (map snd d) -> (v < length w)%nat) (repeat (dcat w) (length w)).
Proof. apply Forall_forall. intros d Hd v Hv. apply repeat_spec in Hd. subst. now apply dcat_support in Hv. Qed.

Lemma multinomial_indep : indep_slots multinomial.
Proof.
  intros w Hw. exists (repeat (dcat w) (length w)). split; [apply repeat_length|]. split; [|split; [apply dcat_below|]].
  - apply Forall_forall. intros d Hd. apply repeat_spec in Hd. subst. now apply is_prob_dcat.
  - intros k F HF. rewrite multinomial_law by assumption. apply E_ext'. intros A. apply HF, nsort_perm.
Qed.

Lemma killing_indep : indep_slots killing.
Proof.
  intros w Hw. exists (map (killing_slot w) (seq 0 (length w))). split; [now rewrite map_length, seq_length|]. split; [|split].
  - apply Forall_map, Forall_forall. intros i _. assert (Hb := nth_In_bounds w i Hw). assert (Hm := weights_ok_Rmax_pos w Hw).
    assert (Hq : 0 <= nth i w 0 / Rmax_list w <= 1).
    { split; [apply Rmult_le_pos; [lra|left; now apply Rinv_0_lt_compat]|]. apply (Rmult_le_reg_r (Rmax_list w)); [assumption|].
      unfold Rdiv. rewrite Rmult_assoc, Rinv_l by lra. lra. }
    apply is_prob_dbind.
    + split; [constructor; [cbn [fst]; lra|constructor; [cbn [fst]; lra|constructor]]|]. unfold E. cbn [map fst snd Rsum]. ring.
    + intros [] _; [apply is_prob_dret|now apply is_prob_dcat].
  - apply Forall_map, Forall_forall. intros i Hi v Hv. apply in_seq in Hi.
    unfold killing_slot, dbind in Hv. cbn in Hv. destruct Hv as [<-|Hv]; [lia|].
    rewrite app_nil_r, map_map in Hv. cbn [snd] in Hv. now apply dcat_support in Hv.
  - intros k F _. apply (killing_denotes w k Hw).
Qed.

Lemma stratified_indep : indep_slots stratified.
Proof.
  intros w Hw. pose proof (weights_ok_nonempty _ Hw) as Hne.
  set (g := fun k u => clip_index (length w) (searchsorted (cumsum w) ((INR k + u) / INR (length w)))).
  assert (Hl : (0 < length w)%nat) by (destruct w; [easy|simpl; lia]).
  assert (Hds : forall l, exists ds, length ds = length l /\ Forall is_prob ds /\
      Forall2 (fun g d => forall h : nat -> R, is_RInt (fun u => h (g u)) 0 1 (E d h)) (map g l) ds /\
      Forall (fun d => forall v, In v (map snd d) -> (v < length w)%nat) ds).
  { induction l as [|k l (ds & I1 & I2 & I3 & I4)].
    - exists []. repeat split; constructor.
    - destruct (step_prob (g k) (strat_index_step w k Hne)) as (d & H1 & H2 & H3).
      exists (d :: ds). split; [simpl; lia|]. split; [now constructor|]. split; [now constructor|].
      constructor; [|assumption]. intros v Hv. destruct (H3 v Hv) as (u & _ & <-). unfold g, clip_index. lia. }
  destruct (Hds (seq 0 (length w))) as (ds & I1 & I2 & I3 & I4). rewrite seq_length in I1.
  exists ds. split; [assumption|]. split; [assumption|]. split; [assumption|].
  intros k f _. unfold stratified. cbn [law]. rewrite <- (uint_zipapp _ _ f I3). rewrite map_length, seq_length.
  apply uint_ext. intros us Hus. f_equal. unfold stratified_of, inverse_cdf_indices, strat_points, zipapp.
  rewrite combine_map_l, !map_map, Hus. reflexivity.
Qed.

(** ** Systematic resampling: the error need not vanish *)
Fixpoint alt (a b : R) (m : nat) : list R := match m with O => [] | S m' => a :: b :: alt a b m' end.
Lemma alt_length a b m : length (alt a b m) = (2 * m)%nat.
Proof. induction m as [|m IH]; [reflexivity|]. cbn [alt length]. rewrite IH. lia. Qed.
Lemma alt_firstn_even a b m j : (j <= m)%nat -> Rsum (firstn (2 * j) (alt a b m)) = INR j * (a + b).
Proof.
  revert j; induction m as [|m IH]; intros [|j] Hj; try (cbn; ring); [lia|].
  replace (2 * S j)%nat with (S (S (2 * j))) by lia. cbn [alt firstn Rsum]. rewrite IH by lia. rewrite S_INR. ring.
Qed.
Lemma alt_firstn_odd a b m j : (j < m)%nat -> Rsum (firstn (S (2 * j)) (alt a b m)) = INR j * (a + b) + a.
Proof.
  revert j; induction m as [|m IH]; intros j Hj; [lia|]. destruct j as [|j]; [cbn; ring|].
  replace (S (2 * S j)) with (S (S (S (2 * j)))) by lia. cbn [alt]. cbn [firstn Rsum]. fold (firstn (S (2 * j)) (alt a b m)).
  change (a + (b + Rsum (firstn (S (2 * j)) (alt a b m))) = INR (S j) * (a + b) + a). rewrite IH by lia. rewrite S_INR. ring.
Qed.
Definition bad_weights (m : nat) : list R := alt (1 / (4 * INR m)) (3 / (4 * INR m)) m.
Lemma alt_nonneg a b m : 0 <= a -> 0 <= b -> Forall (fun x => 0 <= x) (alt a b m).
Proof. intros. induction m; cbn; auto. Qed.
Lemma bad_weights_ok m : (0 < m)%nat -> weights_ok (bad_weights m).
Proof.
  intros Hm. assert (0 < INR m) by (apply lt_0_INR; lia). assert (0 < / INR m) by now apply Rinv_0_lt_compat.
  assert (Ha : 1 / (4 * INR m) = / 4 * / INR m) by (field; lra). assert (Hb : 3 / (4 * INR m) = 3 / 4 * / INR m) by (field; lra).
  split; [apply alt_nonneg; rewrite ?Ha, ?Hb; lra|].
  unfold bad_weights. rewrite <- (firstn_all (alt _ _ m)), alt_length, alt_firstn_even by lia. field. lra.
Qed.

Lemma seq_pairs (f : nat -> R) m : Rsum (map f (seq 0 (2 * m))) = Rsum (map (fun j => f (2 * j)%nat + f (S (2 * j))) (seq 0 m)).
Proof.
  induction m as [|m IH]; [reflexivity|]. replace (2 * S m)%nat with (S (S (2 * m))) by lia.
  rewrite !seq_S, !map_app, !Rsum_app, IH. cbn [map Rsum Nat.add]. ring.
Qed.

Definition even_ind (i : nat) : R := if Nat.even i then 1 else 0.

Lemma bad_index m k u i : (0 < m)%nat -> (i < 2 * m)%nat ->
  (searchsorted (cumsum (bad_weights m)) ((INR k + u) / INR (2 * m)) <= i)%nat <-> (INR k + u) / INR (2 * m) <= Rsum (firstn (S i) (bad_weights m)).
Proof.
  intros Hm Hi. unfold cumsum. rewrite searchsorted_le_iff; [now rewrite Rplus_0_l|apply (bad_weights_ok m Hm)|].
  unfold bad_weights. now rewrite alt_length.
Qed.

Lemma bad_pref_even m j : (0 < m)%nat -> (j <= m)%nat -> Rsum (firstn (2 * j) (bad_weights m)) = INR (2 * j) / INR (2 * m).
Proof. intros Hm Hj. assert (0 < INR m) by (apply lt_0_INR; lia). unfold bad_weights. rewrite alt_firstn_even, !mult_INR by assumption. change (INR 2) with 2. field. lra. Qed.
Lemma bad_pref_odd m j : (0 < m)%nat -> (j < m)%nat -> Rsum (firstn (S (2 * j)) (bad_weights m)) = (INR (2 * j) + / 2) / INR (2 * m).
Proof. intros Hm Hj. assert (0 < INR m) by (apply lt_0_INR; lia). unfold bad_weights. rewrite alt_firstn_odd, !mult_INR by assumption. change (INR 2) with 2. field. lra. Qed.

Lemma div_le_iff x y c : 0 < c -> (x / c <= y / c <-> x <= y).
Proof.
  intros Hc. pose proof (Rinv_0_lt_compat _ Hc). unfold Rdiv. split; intros H1; [apply Rmult_le_reg_r in H1; assumption|].
  apply Rmult_le_compat_r; lra.
Qed.

Lemma bad_pairs m u j : (0 < m)%nat -> 0 < u < 1 -> (j < m)%nat ->
  let idx k := clip_index (2 * m) (searchsorted (cumsum (bad_weights m)) ((INR k + u) / INR (2 * m))) in
  even_ind (idx (2 * j)%nat) + even_ind (idx (S (2 * j))) = if Rle_dec u (/ 2) then 1 else 0.
Proof.
  intros Hm Hu Hj idx. assert (HI : 0 < INR (2 * m)) by (apply lt_0_INR; lia).
  assert (H1 : idx (S (2 * j)) = S (2 * j)).
  { unfold idx, clip_index. set (s := searchsorted _ _).
    assert (s <= S (2 * j))%nat.
    { apply bad_index; [lia|lia|]. replace (S (S (2 * j))) with (2 * S j)%nat by lia. rewrite bad_pref_even by lia.
      apply div_le_iff; [assumption|]. replace (2 * S j)%nat with (S (S (2 * j))) by lia. rewrite !S_INR. lra. }
    assert (~ (s <= 2 * j)%nat).
    { intros Hc. apply bad_index in Hc; [|lia|lia]. rewrite bad_pref_odd in Hc by lia. apply div_le_iff in Hc; [|assumption].
      rewrite S_INR in Hc. lra. }
    lia. }
  rewrite H1. assert (He : Nat.even (2 * j) = true) by (rewrite Nat.even_mul; reflexivity).
  assert (Ho : Nat.even (S (2 * j)) = false) by (rewrite Nat.even_succ, <- Nat.negb_even, He; reflexivity).
  unfold even_ind at 2. rewrite Ho, Rplus_0_r.
  destruct (Rle_dec u (/ 2)) as [Hle|Hgt].
  - assert (H0 : idx (2 * j)%nat = (2 * j)%nat).
    { unfold idx, clip_index. set (s := searchsorted _ _).
      assert (s <= 2 * j)%nat.
      { apply bad_index; [lia|lia|]. rewrite bad_pref_odd by lia. apply div_le_iff; [assumption|]. lra. }
      destruct j as [|j]; [lia|].
      assert (~ (s <= S (2 * j))%nat); [|lia].
      intros Hc. apply bad_index in Hc; [|lia|lia]. replace (S (S (2 * j))) with (2 * S j)%nat in Hc by lia.
      rewrite bad_pref_even in Hc by lia. apply div_le_iff in Hc; [|assumption]. lra. }
    rewrite H0. unfold even_ind. now rewrite He.
  - assert (H0 : idx (2 * j)%nat = S (2 * j)).
    { unfold idx, clip_index. set (s := searchsorted _ _).
      assert (s <= S (2 * j))%nat.
      { apply bad_index; [lia|lia|]. replace (S (S (2 * j))) with (2 * S j)%nat by lia. rewrite bad_pref_even by lia.
        apply div_le_iff; [assumption|]. replace (2 * S j)%nat with (S (S (2 * j))) by lia. rewrite !S_INR. lra. }
      assert (~ (s <= 2 * j)%nat); [|lia].
      intros Hc. apply bad_index in Hc; [|lia|lia]. rewrite bad_pref_odd in Hc by lia. apply div_le_iff in Hc; [|assumption]. lra. }
    rewrite H0. unfold even_ind. now rewrite Ho.
Qed.

Lemma bad_mean m : (0 < m)%nat -> E (dcat (bad_weights m)) even_ind = / 4.
Proof.
  intros Hm. assert (0 < INR m) by (apply lt_0_INR; lia). rewrite E_dcat. unfold bad_weights. rewrite alt_length, seq_pairs.
  rewrite (Rsum_map_ext _ (fun _ => 1 / (4 * INR m))).
  - rewrite Rsum_map_const, seq_length. field. lra.
  - intros j Hj. apply in_seq in Hj. assert (He : Nat.even (2 * j) = true) by (rewrite Nat.even_mul; reflexivity).
    assert (Ho : Nat.even (S (2 * j)) = false) by (rewrite Nat.even_succ, <- Nat.negb_even, He; reflexivity).
    unfold even_ind. rewrite He, Ho.
    assert (Hn : forall a b m j, (j < m)%nat -> nth (2 * j) (alt a b m) 0 = a).
    { clear. intros a b m; induction m as [|m IH]; intros j Hj; [lia|]. destruct j as [|j]; [reflexivity|].
      replace (2 * S j)%nat with (S (S (2 * j))) by lia. cbn [alt nth]. apply IH. lia. }
    rewrite Hn by lia. ring.
Qed.

Theorem systematic_error m k : (0 < m)%nat ->
  law (systematic (bad_weights m) k) (fun A => (/ INR (2 * m) * Rsum (map even_ind A) - E (dcat (bad_weights m)) even_ind) ^ 2) = / 16.
Proof.
  intros Hm. assert (0 < INR m) by (apply lt_0_INR; lia). unfold systematic. cbn [law]. rewrite uint1, bad_mean by assumption.
  rewrite (RInt_ext _ (fun _ => / 16)).
  - rewrite RInt_const. unfold scal; cbn; unfold mult; cbn. field.
  - intros u Hu. rewrite Rmin_left, Rmax_right in Hu by lra. cbn [nth]. unfold systematic_of, inverse_cdf_indices, strat_points.
    unfold bad_weights at 1. rewrite repeat_length, alt_length.
    rewrite !map_map.
    assert (Hc : forall n s, combine (seq s n) (repeat u n) = map (fun k => (k, u)) (seq s n)).
    { clear. intros n; induction n as [|n IH]; intros s; [reflexivity|]. cbn. now rewrite IH. }
    assert (Hlen : length (bad_weights m) = (2 * m)%nat) by apply alt_length. rewrite Hlen.
    rewrite Hc, map_map. cbn [fst snd]. rewrite seq_pairs.
    rewrite (Rsum_map_ext _ (fun _ => if Rle_dec u (/ 2) then 1 else 0)).
    + rewrite Rsum_map_const, seq_length, mult_INR. change (INR 2) with 2. match goal with |- @eq _ ?a ?b => change (@eq R a b) end. destruct (Rle_dec u (/ 2)); field; lra.
    + intros j Hj. apply in_seq in Hj. apply (bad_pairs m u j Hm Hu). lia.
Qed.
