(** The values of MNISTResConv, fbs/nn/models.py:144-212, with arbitrary parameters: bounded, and Lipschitz in image and time. *)
From Coq Require Import Reals List Lia Lra Bool PeanoNat Psatz.
From Verif Require Import Base Nets UNet UNetVal UNetShape UNetSep UNetGrow UNetLip UNetLipNet UNetLipMain Mlp MlpProofs MlpMain.
Import ListNotations.
Open Scope R_scope.

(** nn.Conv(features, kernel_size=(3, 3), strides=(s, s)) with padding 'SAME': for s = 1 one zero around the image, for s = 2 and even
    sides (all that occurs) one zero after the last row and column *)
Definition same_conv (P : params) (path : list nat) (features s : nat) (x : tensor) : tensor :=
  Arr4 (sb x) ((sh x + s - 1) / s) ((sw x + s - 1) / s) features
    (fun b i j o => Rsum (map (fun '(di, dj, c) => kernel P path di dj c o * pad (2 - s) x b (i * s + di) (j * s + dj) c) (taps 3 (sc x))) + cbias P path o).
(** x * t1 + t2, line 182 *)
Definition modulate (t1 t2 : nat -> R) (x : tensor) : tensor := Arr4 (sb x) (sh x) (sw x) (sc x) (fun b i j c => dat x b i j c * t1 c + t2 c).
Definition norm_layer (P : params) (path : list nat) (x : tensor) : option tensor := group_norm_val (nscale P path) (nbias P path) 8 x.
(** lines 173-176 *)
Definition mnist_time (P : params) (e : nat -> R) : nat -> R :=
  dense_val (dkernel P [7]%nat) (dbias P [7]%nat) 64 (fun i => gelu (dense_val (dkernel P [6]%nat) (dbias P [6]%nat) 32 e i)).
(** lines 160-198 *)
Definition mnist_body (P : params) (e : nat -> R) (x : tensor) : option tensor :=
  do x1 <- norm_layer P [1]%nat (same_conv P [0]%nat 32 1 x);
  let x1 := tmap swish x1 in
  do x2 <- norm_layer P [4]%nat (same_conv P [3]%nat 64 1 (same_conv P [2]%nat 32 2 x1));
  let x2 := tmap swish x2 in
  let x := same_conv P [5]%nat 64 2 x2 in
  let t := mnist_time P e in
  let x := modulate (fun c => t c) (fun c => t (64 + c)%nat) x in
  do x <- pixel_shuffle 2 (same_conv P [8]%nat (64 * 4) 1 x);
  do x <- norm_layer P [10]%nat (same_conv P [9]%nat 64 1 x);
  do x <- tadd (tmap swish x) x2;
  do x <- pixel_shuffle 2 (same_conv P [11]%nat (32 * 4) 1 x);
  do x <- norm_layer P [13]%nat (same_conv P [12]%nat 32 1 x);
  do x <- tadd (tmap swish x) x1;
  Some (same_conv P [14]%nat 1 1 x).
(** x.reshape(batch_size, 28, 28, 1) of an array with one or two axes; arrays of shape (n, 28, 28) have the same entries as (n, 784) *)
Definition mnist_input (x : arr) : option tensor :=
  match x with
  | Scal _ => None
  | Vect d v => check (d =? 784)%nat (Some (Arr4 1 28 28 1 (fun _ i j _ => v (i * 28 + j)%nat)))
  | Table x => check (rn x * rd x =? rn x * 784)%nat (Some (Arr4 (rn x) 28 28 1 (fun b i j _ => rv x b (i * 28 + j)%nat)))
  end.
(** a scalar time; the other decoder raises, C81 *)
Definition mnist_val (P : params) (dt : R) (x : arr) (t : R) : option arr :=
  do x <- mnist_input x;
  do e <- embed dt 32 t;
  do o <- mnist_body P (fun i => nth i e 0) x;
  Some (rsqueeze (Rows (sb x) 784 (fun b q => dat o b (q / 28) (q mod 28) 0%nat))).

(** * Proofs *)
Lemma mnist_body_shape P e n f : exists g, mnist_body P e (Arr4 n 28 28 1 f) = Some (Arr4 n 28 28 1 g).
Proof.
  assert (N : forall path m h w c g, (c mod 8 = 0)%nat -> exists g', norm_layer P path (Arr4 m h w c g) = Some (Arr4 m h w c g')).
  { intros path m h w c g Hc. unfold norm_layer, group_norm_val. cbn [sb sh sw sc]. rewrite Hc. cbn [Nat.leb Nat.eqb andb check]. eauto. }
  assert (A : forall m h w c g g', exists g2, tadd (Arr4 m h w c g) (Arr4 m h w c g') = Some (Arr4 m h w c g2)).
  { intros. unfold tadd, shape_eqb, shp. cbn [sb sh sw sc bat hei wid cha]. rewrite !Nat.eqb_refl. cbn. eauto. }
  assert (S : forall m h w c (g : nat -> nat -> nat -> nat -> R), (c mod 4 = 0)%nat -> exists g', pixel_shuffle 2 (Arr4 m h w c g) = Some (Arr4 m (h * 2) (w * 2) (c / 4) g')).
  { intros m h w c g Hc. unfold pixel_shuffle. cbn [sb sh sw sc]. change (2 * 2)%nat with 4%nat. rewrite Hc. cbn [Nat.leb Nat.eqb andb]. eauto. }
  assert (C1 : forall path ft m h w c g, exists g', same_conv P path ft 1 (Arr4 m h w c g) = Arr4 m h w ft g').
  { intros. unfold same_conv. cbn [sb sh sw sc]. rewrite !Nat.div_1_r, !Nat.add_sub. eauto. }
  unfold mnist_body. destruct (C1 [0]%nat 32%nat n 28%nat 28%nat 1%nat f) as [g1 ->]. destruct (N [1]%nat n 28%nat 28%nat 32%nat g1 eq_refl) as [g2 ->].
  assert (TM : forall m h w c g, exists g', tmap swish (Arr4 m h w c g) = Arr4 m h w c g') by (intros; eexists; reflexivity).
  assert (C2 : forall g, exists g', same_conv P [2]%nat 32 2 (Arr4 n 28 28 32 g) = Arr4 n 14 14 32 g') by (intros; eexists; reflexivity).
  assert (C5 : forall t1 t2 g, exists g', modulate t1 t2 (same_conv P [5]%nat 64 2 (Arr4 n 14 14 64 g)) = Arr4 n 7 7 64 g') by (intros; eexists; reflexivity).
  cbv zeta. destruct (TM n 28%nat 28%nat 32%nat g2) as [g3 ->]. destruct (C2 g3) as [g4 ->].
  destruct (C1 [3]%nat 64%nat n 14%nat 14%nat 32%nat g4) as [g5 ->]. destruct (N [4]%nat n 14%nat 14%nat 64%nat g5 eq_refl) as [g6 ->]. destruct (TM n 14%nat 14%nat 64%nat g6) as [g7 ->].
  match goal with |- context [modulate ?t1 ?t2 _] => destruct (C5 t1 t2 g7) as [g8 ->] end.
  destruct (C1 [8]%nat (64 * 4)%nat n 7%nat 7%nat 64%nat g8) as [g9 ->]. destruct (S n 7%nat 7%nat (64 * 4)%nat g9 eq_refl) as [g10 ->]. change (64 * 4 / 4)%nat with 64%nat. change (7 * 2)%nat with 14%nat.
  destruct (C1 [9]%nat 64%nat n 14%nat 14%nat 64%nat g10) as [g11 ->]. destruct (N [10]%nat n 14%nat 14%nat 64%nat g11 eq_refl) as [g12 ->].
  destruct (TM n 14%nat 14%nat 64%nat g12) as [g13 ->]. destruct (A n 14%nat 14%nat 64%nat g13 g7) as [g14 ->].
  destruct (C1 [11]%nat (32 * 4)%nat n 14%nat 14%nat 64%nat g14) as [g15 ->]. destruct (S n 14%nat 14%nat (32 * 4)%nat g15 eq_refl) as [g16 ->]. change (32 * 4 / 4)%nat with 32%nat. change (14 * 2)%nat with 28%nat.
  destruct (C1 [12]%nat 32%nat n 28%nat 28%nat 32%nat g16) as [g17 ->]. destruct (N [13]%nat n 28%nat 28%nat 32%nat g17 eq_refl) as [g18 ->].
  destruct (TM n 28%nat 28%nat 32%nat g18) as [g19 ->]. destruct (A n 28%nat 28%nat 32%nat g19 g3) as [g20 ->].
  destruct (C1 [14]%nat 1%nat n 28%nat 28%nat 32%nat g20) as [g21 ->]. eauto.
Qed.

Section body.
  Context {W : Type} (ok : W -> Prop) (del : W -> R) (del_pos : forall w, ok w -> 0 <= del w) (B B' b b' : W -> nat).
  Notation gd := (good ok del). Notation gl := (lip ok del). Notation gt := (gt ok del B B' b b'). Notation ogt := (ogt ok del B B' b b').
  Lemma same_conv_good bd P path f s X X' : gt bd X X' -> gt bd (fun w => same_conv P path f s (X w)) (fun w => same_conv P path f s (X' w)).
  Proof using del_pos.
    intros (h & wd & c & HS & HE). exists ((h + s - 1) / s)%nat, ((wd + s - 1) / s)%nat, f. split.
    - intros w Hw. destruct (HS w Hw) as ((E1 & E2 & E3 & E4) & (F1 & F2 & F3 & F4)). unfold same_conv. cbn [sb sh sw sc]. rewrite E1, E2, E3, F1, F2, F3. auto.
    - intros i j o _ _ _. cbn [same_conv dat].
      apply lip_ext with (fun w => Rsum (map (fun a => (let '(di, dj, ch) := a in fun w => kernel P path di dj ch o * pad (2 - s) (X w) (b w) (i * s + di) (j * s + dj) ch) w) (taps 3 c)) + cbias P path o)
        (fun w => Rsum (map (fun a => (let '(di, dj, ch) := a in fun w => kernel P path di dj ch o * pad (2 - s) (X' w) (b' w) (i * s + di) (j * s + dj) ch) w) (taps 3 c)) + cbias P path o).
      { intros w Hw. destruct (HS w Hw) as ((E1 & E2 & E3 & E4) & (F1 & F2 & F3 & F4)). rewrite E4, F4. split; f_equal; apply Rsum_map_ext; intros [[? ?] ?] _; reflexivity. }
      apply lip_plus; [|now apply lip_const]. apply lip_sum; [assumption|]. intros [[di dj] ch] Hin. apply in_taps in Hin. apply lip_scale; [assumption|]. apply (pad_good ok del del_pos B B' b b') with h wd c; auto. lia.
  Qed.
  Lemma modulate_good (t1 t2 t1' t2' : W -> nat -> R) X X' : (forall c, gd (fun w => t1 w c) (fun w => t1' w c)) -> (forall c, gd (fun w => t2 w c) (fun w => t2' w c)) -> gt true X X' ->
    gt true (fun w => modulate (t1 w) (t2 w) (X w)) (fun w => modulate (t1' w) (t2' w) (X' w)).
  Proof using del_pos.
    intros H1 H2 (h & wd & c & HS & HE). exists h, wd, c. split; [exact HS|]. intros i j k Hi Hj Hk. cbn [modulate dat]. apply good_plus; [|apply H2]. apply good_mult; [assumption|now apply HE|apply H1].
  Qed.
  Lemma mnist_time_good P (e e' : nat -> W -> R) : (forall i, gd (e i) (e' i)) -> forall o, gd (fun w => mnist_time P (fun i => e i w) o) (fun w => mnist_time P (fun i => e' i w) o).
  Proof using del_pos.
    intros He o. unfold mnist_time. apply (lip_dense ok del del_pos true _ _ 64 (fun i w => gelu (dense_val _ _ 32 (fun i => e i w) i)) (fun i w => gelu (dense_val _ _ 32 (fun i => e' i w) i))). intros i _.
    apply (lip_glob ok del del_pos gelu true); [apply gelu_glob|]. apply (lip_dense ok del del_pos true). intros j _. apply He.
  Qed.
  Lemma mnist_body_good P (e e' : nat -> W -> R) X X' : (forall i, gd (e i) (e' i)) -> gt false X X' ->
    ogt true (fun w => mnist_body P (fun i => e i w) (X w)) (fun w => mnist_body P (fun i => e' i w) (X' w)).
  Proof using del_pos.
    intros He HX. unfold mnist_body, norm_layer.
    apply (ogt_bind ok del B B' b b' true true _ _ (fun w y => _) (fun w y => _)); [now apply group_norm_good, same_conv_good|]. intros Y1 Y1' H1. cbv beta zeta. apply swish_good in H1; [|assumption].
    apply (ogt_bind ok del B B' b b' true true _ _ (fun w y => _) (fun w y => _)); [apply group_norm_good; [assumption|]; now apply (gt_weaken ok del B B' b b' true), same_conv_good, same_conv_good|]. intros Y2 Y2' H2. cbv beta zeta. apply swish_good in H2; [|assumption].
    apply (ogt_bind ok del B B' b b' true true _ _ (fun w y => _) (fun w y => _)).
    { apply shuffle_good, same_conv_good. apply modulate_good; [intros c; now apply mnist_time_good|intros c; now apply mnist_time_good|now apply same_conv_good]. }
    intros Y3 Y3' H3. cbv beta.
    apply (ogt_bind ok del B B' b b' true true _ _ (fun w y => _) (fun w y => _)); [apply group_norm_good; [assumption|]; now apply (gt_weaken ok del B B' b b' true), same_conv_good|]. intros Y4 Y4' H4. cbv beta.
    apply (ogt_bind ok del B B' b b' true true _ _ (fun w y => _) (fun w y => _)); [apply tadd_good; [now apply swish_good|exact H2]|]. intros Y5 Y5' H5. cbv beta.
    apply (ogt_bind ok del B B' b b' true true _ _ (fun w y => _) (fun w y => _)); [now apply shuffle_good, same_conv_good|]. intros Y6 Y6' H6. cbv beta.
    apply (ogt_bind ok del B B' b b' true true _ _ (fun w y => _) (fun w y => _)); [apply group_norm_good; [assumption|]; now apply (gt_weaken ok del B B' b b' true), same_conv_good|]. intros Y7 Y7' H7. cbv beta.
    apply (ogt_bind ok del B B' b b' true true _ _ (fun w y => _) (fun w y => _)); [apply tadd_good; [now apply swish_good|exact H1]|]. intros Y8 Y8' H8. cbv beta.
    now apply ogt_some, same_conv_good.
  Qed.
End body.

(** ** The statements *)
Record mcase := MCase { m1 : arr; m2 : arr; mt1 : R; mt2 : R; mb1 : nat; mb2 : nat; mdist : R }.
(** an accepted input *)
Definition mnist_ok (x : arr) : Prop := match x with Scal _ => False | Vect d _ => d = 784%nat | Table x => rn x = 0%nat \/ rd x = 784%nat end.
Definition mallowed (w : mcase) : Prop :=
  mnist_ok (m1 w) /\ mnist_ok (m2 w) /\ (mb1 w < row_count (m1 w))%nat /\ (mb2 w < row_count (m2 w))%nat /\ 0 <= mdist w /\ close 784 (mdist w) (row (m1 w) (mb1 w)) (row (m2 w) (mb2 w)) /\ Rabs (mt1 w - mt2 w) <= mdist w.
Definition as_tensor (x : arr) : tensor := Arr4 (row_count x) 28 28 1 (fun b i j _ => row x b (i * 28 + j)%nat).
Lemma mnist_input_spec x : (mnist_ok x -> exists X, mnist_input x = Some X /\ sb X = row_count x /\ sh X = 28%nat /\ sw X = 28%nat /\ sc X = 1%nat /\
  forall b i j c, (b < row_count x)%nat -> dat X b i j c = row x b (i * 28 + j)%nat) /\ (~ mnist_ok x -> mnist_input x = None).
Proof.
  destruct x as [a|d v|x]; cbn [mnist_ok mnist_input row_count row].
  - split; [contradiction|reflexivity].
  - split; [intros ->; eexists; split; [reflexivity|]; auto|]. intros H. destruct (Nat.eqb_spec d 784); [contradiction|reflexivity].
  - split.
    + intros H. assert (E : (rn x * rd x =? rn x * 784)%nat = true) by (apply Nat.eqb_eq; destruct H as [ ->| ->]; lia). rewrite E. eexists. split; [reflexivity|]. cbn [sb sh sw sc dat]. repeat (split; [reflexivity|]). intros b i j c Hb. now rewrite pick_lt.
    + intros H. destruct (Nat.eqb_spec (rn x * rd x) (rn x * 784)) as [E|E]; [|reflexivity]. exfalso. apply H. destruct (Nat.eq_dec (rn x) 0) as [Z|Z]; [now left|right]. now apply Nat.mul_cancel_l in E.
Qed.
Lemma mnist_value P dt x t : mnist_ok x -> exists X e o y, mnist_input x = Some X /\ e = (fun i => nth i (emb dt 32 t) 0) /\ mnist_body P e X = Some o /\ mnist_val P dt x t = Some y /\
  dims y = no_ones [row_count x; 784%nat] /\ forall b q, (b < row_count x)%nat -> (q < 784)%nat -> get y (b * 784 + q) = dat o b (q / 28) (q mod 28) 0%nat.
Proof.
  intros Hx. destruct (mnist_input_spec x) as [H _]. destruct (H Hx) as (X & HX & S1 & S2 & S3 & S4 & _). exists X, (fun i => nth i (emb dt 32 t) 0).
  assert (EX : X = Arr4 (sb X) 28 28 1 (dat X)) by (destruct X; cbn in *; congruence). destruct (mnist_body_shape P (fun i => nth i (emb dt 32 t) 0) (sb X) (dat X)) as [g Hg]. rewrite <- EX in Hg.
  eexists. eexists. split; [exact HX|]. split; [reflexivity|]. split; [exact Hg|]. unfold mnist_val. rewrite HX, embed_value by (reflexivity || discriminate). rewrite Hg. split; [reflexivity|].
  split; [rewrite squeeze_dims; cbn [rn rd]; now rewrite S1|]. intros b q Hb Hq. apply (squeeze_get (Rows (sb X) 784 (fun b q => dat (Arr4 (sb X) 28 28 1 g) b (q / 28) (q mod 28) 0%nat))); cbn [rn rd]; [now rewrite S1|exact Hq].
Qed.
Theorem mnist_shape P dt x t s : option_map dims (mnist_val P dt x t) = Some s <-> mnist_ok x /\ s = no_ones [row_count x; 784%nat].
Proof.
  split.
  - intros H. destruct (mnist_input_spec x) as [_ HN]. assert (Hx : mnist_ok x).
    { destruct x as [a|d v|x]; cbn [mnist_ok] in *; [cbn in H; discriminate H|destruct (Nat.eq_dec d 784); [assumption|]|destruct (Nat.eq_dec (rn x) 0); [now left|]; destruct (Nat.eq_dec (rd x) 784); [now right|]];
        (unfold mnist_val in H; rewrite HN in H by tauto; discriminate H). }
    split; [exact Hx|]. destruct (mnist_value P dt x t Hx) as (X & e & o & y & _ & _ & _ & Hy & Hd & _). rewrite Hy in H. cbn in H. congruence.
  - intros [Hx ->]. destruct (mnist_value P dt x t Hx) as (X & e & o & y & _ & _ & _ & -> & Hd & _). cbn. now rewrite Hd.
Qed.
Theorem mnist_good P dt : exists M k, 0 <= M /\ 0 <= k /\ forall x x' t t' b b' e, mnist_ok x -> mnist_ok x' -> (b < row_count x)%nat -> (b' < row_count x')%nat ->
  0 <= e -> close 784 e (row x b) (row x' b') -> Rabs (t - t') <= e ->
  exists o o', mnist_val P dt x t = Some o /\ mnist_val P dt x' t' = Some o' /\
    forall i, (i < 784)%nat -> Rabs (get o (b * 784 + i)) <= M /\ Rabs (get o (b * 784 + i) - get o' (b' * 784 + i)) <= k * e.
Proof.
  assert (Hp : forall w, mallowed w -> 0 <= mdist w) by (intros w H; apply H).
  assert (HX : gt mallowed mdist (fun w => row_count (m1 w)) (fun w => row_count (m2 w)) mb1 mb2 false (fun w => as_tensor (m1 w)) (fun w => as_tensor (m2 w))).
  { exists 28%nat, 28%nat, 1%nat. split; [intros w _; cbn; auto 10|]. intros i j c Hi Hj _. exists 1. split; [lra|]. intros w (_ & _ & _ & _ & _ & Hc & _). rewrite Rmult_1_l. cbn [as_tensor dat]. apply Hc. lia. }
  pose proof (emb_good mallowed mdist Hp mt1 mt2 ltac:(intros w Hw; apply Hw) dt 32) as He.
  pose proof (mnist_body_good mallowed mdist Hp _ _ _ _ P (fun i w => nth i (emb dt 32 (mt1 w)) 0) (fun i w => nth i (emb dt 32 (mt2 w)) 0) _ _ He HX) as G.
  destruct G as [G|(Y & Y' & (h & wd & c & HS & HE) & G)].
  { exfalso. assert (Hw : mallowed (MCase (Vect 784 (fun _ => 0)) (Vect 784 (fun _ => 0)) 0 0 0 0 0)).
    { split; [reflexivity|]. split; [reflexivity|]. split; [cbn; lia|]. split; [cbn; lia|]. split; [apply Rle_refl|]. split; [intros i _; cbn|cbn]; rewrite Rminus_eq_0, Rabs_R0; lra. }
    destruct (G _ Hw) as [G1 _]. destruct (mnist_body_shape P (fun i => nth i (emb dt 32 0) 0) 1 (fun b i j _ => row (Vect 784 (fun _ => 0)) b (i * 28 + j)%nat)) as [g Hg]. unfold as_tensor in G1. cbn [m1 mt1 row_count] in G1. congruence. }
  assert (Hs : forall x t, mnist_ok x -> exists g, mnist_body P (fun i => nth i (emb dt 32 t) 0) (as_tensor x) = Some (Arr4 (row_count x) 28 28 1 g)) by (intros x t _; apply mnist_body_shape).
  assert (Hdim : forall w, mallowed w -> h = 28%nat /\ wd = 28%nat /\ c = 1%nat).
  { intros w Hw. destruct (Hs (m1 w) (mt1 w) (proj1 Hw)) as [g Hg]. destruct (G w Hw) as [G1 _]. rewrite Hg in G1. injection G1 as G1. destruct (HS w Hw) as ((_ & E2 & E3 & E4) & _). rewrite <- G1 in E2, E3, E4. cbn in E2, E3, E4. auto. }
  assert (U : exists M k, 0 <= M /\ 0 <= k /\ forall w, mallowed w -> forall q, (q < 784)%nat -> Rabs (dat (Y w) (mb1 w) (q / 28) (q mod 28) 0%nat) <= M /\ Rabs (dat (Y w) (mb1 w) (q / 28) (q mod 28) 0%nat - dat (Y' w) (mb2 w) (q / 28) (q mod 28) 0%nat) <= k * mdist w).
  { assert (K : forall n, (n <= 784)%nat -> exists M k, 0 <= M /\ 0 <= k /\ forall w, mallowed w -> forall q, (q < n)%nat -> Rabs (dat (Y w) (mb1 w) (q / 28) (q mod 28) 0%nat) <= M /\ Rabs (dat (Y w) (mb1 w) (q / 28) (q mod 28) 0%nat - dat (Y' w) (mb2 w) (q / 28) (q mod 28) 0%nat) <= k * mdist w).
    { induction n as [|n IH]; intros Hn; [exists 0, 0; split; [lra|]; split; [lra|]; intros; lia|]. destruct (IH ltac:(lia)) as (M & k & HM & Hk & IHn).
      assert (D : (h = 28 /\ wd = 28 /\ c = 1)%nat -> lip mallowed mdist true (fun w => dat (Y w) (mb1 w) (n / 28) (n mod 28) 0%nat) (fun w => dat (Y' w) (mb2 w) (n / 28) (n mod 28) 0%nat)).
      { intros (-> & -> & ->). apply HE; [apply Nat.div_lt_upper_bound; lia|apply Nat.mod_upper_bound; lia|lia]. }
      destruct (Nat.eq_dec h 28) as [H1|H1]; [|exists 0, 0; split; [lra|]; split; [lra|]; intros w Hw; destruct (Hdim w Hw); contradiction].
      destruct (Nat.eq_dec wd 28) as [H2|H2]; [|exists 0, 0; split; [lra|]; split; [lra|]; intros w Hw; destruct (Hdim w Hw) as (_ & ? & _); contradiction].
      destruct (Nat.eq_dec c 1) as [H3|H3]; [|exists 0, 0; split; [lra|]; split; [lra|]; intros w Hw; destruct (Hdim w Hw) as (_ & _ & ?); contradiction].
      destruct (D (conj H1 (conj H2 H3))) as (M' & k' & HM' & Hk' & D'). exists (M + M'), (k + k'). split; [lra|]. split; [lra|]. intros w Hw q Hq. specialize (Hp w Hw). assert (0 <= k * mdist w) by now apply Rmult_le_pos. assert (0 <= k' * mdist w) by now apply Rmult_le_pos. rewrite Rmult_plus_distr_r.
      destruct (Nat.eq_dec q n) as [ ->|Hne]; [destruct (D' w Hw) as (A1 & _ & A3); split; lra|]. destruct (IHn w Hw q ltac:(lia)) as [A1 A2]. split; lra. }
    apply (K 784%nat). lia. }
  destruct U as (M & k & HM & Hk & U). exists M, k. split; [exact HM|]. split; [exact Hk|]. intros x x' t t' b b' e Hx Hx' Hb Hb' He0 Hc Ht.
  set (w := MCase x x' t t' b b' e). assert (Hw : mallowed w) by (repeat (split; [assumption|]); assumption).
  assert (V : forall z s n, mnist_ok z -> (n < row_count z)%nat -> exists T y, mnist_body P (fun i => nth i (emb dt 32 s) 0) (as_tensor z) = Some T /\ mnist_val P dt z s = Some y /\ forall i, (i < 784)%nat -> get y (n * 784 + i) = dat T n (i / 28) (i mod 28) 0%nat).
  { intros z s n Hz Hn. destruct (mnist_value P dt z s Hz) as (X & ee & o & y & HXz & -> & Ho & Hy & _ & Hv). destruct (Hs z s Hz) as [g Hg]. exists (Arr4 (row_count z) 28 28 1 g), y. split; [exact Hg|]. split; [exact Hy|]. intros i Hi. rewrite (Hv n i Hn Hi).
    destruct (mnist_input_spec z) as [Hin _]. destruct (Hin Hz) as (X' & HX' & S1 & S2 & S3 & S4 & S5). rewrite HXz in HX'. injection HX' as <-.
    (* the body on X and on as_tensor z agree on element n: distance zero *)
    set (okz := fun _ : unit => True). set (zero := fun _ : unit => 0).
    assert (GX : gt okz zero (fun _ => row_count z) (fun _ => row_count z) (fun _ => n) (fun _ => n) false (fun _ => X) (fun _ => as_tensor z)).
    { exists 28%nat, 28%nat, 1%nat. split; [intros ? _; cbn; auto 10|]. intros i' j' c' _ _ _. exists 0. split; [lra|]. intros ? _. rewrite (S5 n i' j' c' Hn). cbn [as_tensor dat]. unfold zero. rewrite Rminus_eq_0, Rabs_R0. lra. }
    assert (Ge : forall i, good okz zero (fun _ => nth i (emb dt 32 s) 0) (fun _ => nth i (emb dt 32 s) 0)) by (intros q; apply good_const; intros ? _; unfold zero; lra).
    destruct (mnist_body_good okz zero ltac:(intros ? _; unfold zero; lra) _ _ _ _ P (fun i _ => nth i (emb dt 32 s) 0) (fun i _ => nth i (emb dt 32 s) 0) _ _ Ge GX) as [F|(Z & Z' & (h0 & w0 & c0 & ZS & ZE) & F)]; [destruct (F tt I) as [F1 _]; congruence|].
    destruct (F tt I) as [F1 F2]. rewrite Ho in F1. rewrite Hg in F2. injection F1 as F1. injection F2 as F2. destruct (ZS tt I) as (_ & (_ & Z2 & Z3 & Z4)). rewrite <- F2 in Z2, Z3, Z4. cbn in Z2, Z3, Z4. subst h0 w0 c0.
    destruct (ZE (i / 28)%nat (i mod 28)%nat 0%nat) as (? & kk & _ & _ & Q); [apply Nat.div_lt_upper_bound; lia|apply Nat.mod_upper_bound; lia|lia|]. destruct (Q tt I) as (_ & _ & Q3). rewrite <- F1, <- F2 in Q3. unfold zero in Q3. rewrite Rmult_0_r in Q3.
    pose proof (Rabs_pos (dat o n (i / 28) (i mod 28) 0%nat - dat (Arr4 (row_count z) 28 28 1 g) n (i / 28) (i mod 28) 0%nat)) as Q4. apply Rminus_diag_uniq. destruct (Req_dec (dat o n (i / 28) (i mod 28) 0%nat - dat (Arr4 (row_count z) 28 28 1 g) n (i / 28) (i mod 28) 0%nat) 0) as [E|E]; [exact E|]. apply Rabs_pos_lt in E. lra. }
  destruct (V x t b Hx Hb) as (T1 & y1 & B1 & V1 & W1). destruct (V x' t' b' Hx' Hb') as (T2 & y2 & B2 & V2 & W2). exists y1, y2. split; [exact V1|]. split; [exact V2|]. intros i Hi. rewrite (W1 i Hi), (W2 i Hi).
  destruct (G w Hw) as [G1 G2]. cbn [m1 m2 mt1 mt2 w] in G1, G2. rewrite B1 in G1. rewrite B2 in G2. injection G1 as G1. injection G2 as G2. specialize (U w Hw i Hi). cbn [mb1 mb2 mdist w] in U. now rewrite <- G1, <- G2 in U.
Qed.
Theorem mnist_lipschitz P dt : exists k, 0 <= k /\ forall x x' t t' b b' e, mnist_ok x -> mnist_ok x' -> (b < row_count x)%nat -> (b' < row_count x')%nat ->
  0 <= e -> close 784 e (row x b) (row x' b') -> Rabs (t - t') <= e ->
  exists o o', mnist_val P dt x t = Some o /\ mnist_val P dt x' t' = Some o' /\ forall i, (i < 784)%nat -> Rabs (get o (b * 784 + i) - get o' (b' * 784 + i)) <= k * e.
Proof.
  destruct (mnist_good P dt) as (M & k & _ & Hk & H). exists k. split; [exact Hk|]. intros x x' t t' b b' e H1 H2 H3 H4 H5 H6 H7. destruct (H x x' t t' b b' e H1 H2 H3 H4 H5 H6 H7) as (o & o' & Ho & Ho' & Hv). exists o, o'. split; [exact Ho|]. split; [exact Ho'|]. intros i Hi. now apply Hv.
Qed.
Lemma close_refl n u : close n 0 u u.
Proof. intros i _. rewrite Rminus_eq_0, Rabs_R0. lra. Qed.
Theorem mnist_separate P dt x t o : mnist_val P dt x t = Some o -> forall b, (b < row_count x)%nat ->
  exists p, mnist_val P dt (Vect 784 (row x b)) t = Some p /\ forall i, (i < 784)%nat -> get o (b * 784 + i) = get p i.
Proof.
  intros Ho b Hb. assert (Hx : mnist_ok x). { assert (E : option_map dims (mnist_val P dt x t) = Some (dims o)) by now rewrite Ho. now apply mnist_shape in E. }
  destruct (mnist_lipschitz P dt) as (k & _ & H). destruct (H x (Vect 784 (row x b)) t t b 0%nat 0 Hx eq_refl Hb ltac:(cbn; lia) (Rle_refl 0) (close_refl 784 _)) as (o' & p & Ho' & Hp & Hv); [rewrite Rminus_eq_0, Rabs_R0; lra|].
  exists p. split; [exact Hp|]. intros i Hi. rewrite Ho in Ho'. injection Ho' as <-. specialize (Hv i Hi). rewrite Rmult_0_r in Hv. cbn [Nat.mul Nat.add] in Hv. apply Rminus_diag_uniq. destruct (Req_dec (get o (b * 784 + i) - get p i) 0) as [E|E]; [exact E|]. apply Rabs_pos_lt in E. lra.
Qed.
Theorem mnist_bounded P dt : exists M, 0 <= M /\ forall x t o, mnist_val P dt x t = Some o -> forall q, (q < row_count x * 784)%nat -> Rabs (get o q) <= M.
Proof.
  destruct (mnist_good P dt) as (M & k & HM & _ & H). exists M. split; [exact HM|]. intros x t o Ho q Hq. assert (Hx : mnist_ok x). { assert (E : option_map dims (mnist_val P dt x t) = Some (dims o)) by now rewrite Ho. now apply mnist_shape in E. }
  assert (Hb : (q / 784 < row_count x)%nat) by (apply Nat.div_lt_upper_bound; lia). destruct (H x x t t _ _ 0 Hx Hx Hb Hb (Rle_refl 0) (close_refl 784 _)) as (o' & o2 & Ho' & _ & Hv); [rewrite Rminus_eq_0, Rabs_R0; lra|].
  rewrite Ho in Ho'. injection Ho' as <-. destruct (Hv (q mod 784)%nat) as [A _]; [apply Nat.mod_upper_bound; lia|]. rewrite Nat.mul_comm, <- Nat.div_mod in A by lia. exact A.
Qed.
(** the score of a Gaussian law is affine in the image: no parameters come near it *)
Theorem mnist_affine_refuted P dt c s i t K : (i < 784)%nat -> c <> 0 -> exists v o, mnist_val P dt (Vect 784 v) t = Some o /\ K < Rabs (get o i - (c * v i + s)).
Proof.
  intros Hi Hc. destruct (mnist_bounded P dt) as (M & HM & H). pose proof (Rabs_pos K) as HK. pose proof (Rabs_pos_lt c Hc) as Hcp. set (v := fun _ : nat => (Rabs K + M + Rabs s + 1) / Rabs c). destruct (mnist_value P dt (Vect 784 v) t eq_refl) as (X & e & o & y & _ & _ & _ & Hy & _ & _). exists v, y. split; [exact Hy|].
  pose proof (H _ _ _ Hy i ltac:(cbn [row_count]; lia)) as B. assert (E : Rabs (c * v i) = Rabs K + M + Rabs s + 1).
  { unfold v. rewrite Rabs_mult, (Rabs_pos_eq (_ / _)); [field; lra|]. pose proof (Rabs_pos s). apply Rmult_le_pos; [lra|left; now apply Rinv_0_lt_compat]. }
  pose proof (Rle_abs K). pose proof (Rabs_triang_inv (c * v i) (get y i - s)) as T. pose proof (Rabs_triang (get y i) (- s)) as T2. rewrite Rabs_Ropp in T2. change (get y i + - s) with (get y i - s) in T2. replace (c * v i - (get y i - s)) with (- (get y i - (c * v i + s))) in T by ring. rewrite Rabs_Ropp in T. lra.
Qed.
