(** The small networks by values: rows, Lipschitz bounds, and the reverse sampler with CrescentMLP as its score. *)
From Coquelicot Require Import Coquelicot.
From Coq Require Import Reals List Lia Lra Bool PeanoNat Psatz.
From Verif Require Sde SdeProofs Sim.
From Verif Require Import Base Dist Prog Mat Nets UNet UNetVal UNetShape UNetSep UNetGrow UNetLip UNetLipNet UNetLipMain EmMoments EmConverge EmStable UNetScore Mlp MlpProofs.
Import ListNotations.
Open Scope R_scope.

(** ** What the statements say *)
(** numpy's rule for two sizes of one axis *)
Definition sizes_agree (m k n : nat) : Prop := (m = k /\ n = m) \/ (m = 1 /\ n = k)%nat \/ (k = 1 /\ n = m)%nat.
Lemma bcast_spec m k n : bcast m k = Some n <-> sizes_agree m k n.
Proof.
  unfold bcast, sizes_agree. destruct (Nat.eqb_spec m k) as [ ->|H1]; [|destruct (Nat.eqb_spec m 1) as [ ->|H2]; [|destruct (Nat.eqb_spec k 1) as [ ->|H3]]]; split; intros H; try (injection H as <-); try discriminate H; try f_equal; try lia.
Qed.
Definition no_ones (s : list nat) : list nat := filter (fun m => negb (m =? 1)%nat) s.
Definition close (d : nat) (e : R) (u v : nat -> R) : Prop := forall i, (i < d)%nat -> Rabs (u i - v i) <= e.
Definition within (d : nat) (M : R) (u : nat -> R) : Prop := forall i, (i < d)%nat -> Rabs (u i) <= M.

Theorem crescent_shape P dt dim h hs x t s :
  option_map dims (crescent_val P dt dim (h :: hs) x t) = Some s <-> is_scalar x = false /\ exists n, sizes_agree (row_count x) (time_count t) n /\ s = no_ones [n; dim].
Proof.
  pose proof (crescent_total P dt dim h hs x t) as H. destruct (is_scalar x) eqn:Hx.
  - rewrite H. split; [discriminate|]. now intros [? _].
  - destruct (bcast (row_count x) (time_count t)) as [n|] eqn:Hb.
    + destruct H as (o & -> & Hd & _). cbn [option_map]. rewrite Hd. split.
      * intros [= <-]. split; [reflexivity|]. exists n. split; [now apply bcast_spec|reflexivity].
      * intros (_ & m & Hm & ->). apply bcast_spec in Hm. rewrite Hb in Hm. injection Hm as ->. reflexivity.
    + rewrite H. split; [discriminate|]. intros (_ & m & Hm & _). apply bcast_spec in Hm. congruence.
Qed.
Theorem crescent_separate P dt dim h hs x t o : crescent_val P dt dim (h :: hs) x t = Some o -> exists n, sizes_agree (row_count x) (time_count t) n /\
  forall b, (b < n)%nat -> exists p, crescent_val P dt dim (h :: hs) (Vect (width x) (row x b)) (At (time_at t b)) = Some p /\
    forall i, (i < dim)%nat -> get o (b * dim + i) = get p i.
Proof.
  intros Ho. pose proof (crescent_total P dt dim h hs x t) as H. destruct (is_scalar x) eqn:Hx; [congruence|]. destruct (bcast (row_count x) (time_count t)) as [n|] eqn:Hb; [|congruence]. exists n. split; [now apply bcast_spec|].
  destruct H as (o' & Ho' & _ & Hv). rewrite Ho in Ho'. injection Ho' as <-. intros b Hlt. pose proof (crescent_total P dt dim h hs (Vect (width x) (row x b)) (At (time_at t b))) as G. cbn [is_scalar row_count time_count bcast Nat.eqb] in G.
  destruct G as (p & Hp & _ & Gv). exists p. split; [exact Hp|]. intros i Hi. rewrite (Hv b i Hlt Hi). specialize (Gv 0%nat i ltac:(lia) Hi). cbn [Nat.mul Nat.add width row time_at] in Gv. now rewrite Gv.
Qed.
Theorem gmsb_shape P dt dim x t s : option_map dims (gmsb_val P dt dim x t) = Some s <-> exists x0, x = Table x0 /\ (time_count t = 1 \/ time_count t = rn x0)%nat /\ s = [rn x0; dim].
Proof.
  pose proof (gmsb_total P dt dim x t) as H. destruct x as [a|d v|x]; try (rewrite H; split; [discriminate|]; now intros (? & ? & _)).
  destruct ((time_count t =? 1) || (time_count t =? rn x))%nat eqn:Hc.
  - destruct H as (o & -> & Hd & _). cbn [option_map]. rewrite Hd. apply orb_true_iff in Hc. rewrite !Nat.eqb_eq in Hc. split; [intros [= <-]; eauto|]. now intros (x0 & [= <-] & _ & ->).
  - rewrite H. apply orb_false_iff in Hc. rewrite !Nat.eqb_neq in Hc. split; [discriminate|]. intros (x0 & [= <-] & [?|?] & _); tauto.
Qed.
Theorem gmsb_separate P dt dim x t o : gmsb_val P dt dim (Table x) t = Some o -> forall b, (b < rn x)%nat ->
  exists p, gmsb_val P dt dim (Table (Rows 1 (rd x) (fun _ => rv x b))) (At (time_at t b)) = Some p /\ forall i, (i < dim)%nat -> get o (b * dim + i) = get p i.
Proof.
  intros Ho b Hb. pose proof (gmsb_total P dt dim (Table x) t) as H. cbv beta iota in H. destruct ((time_count t =? 1) || (time_count t =? rn x))%nat; [|congruence]. destruct H as (o' & Ho' & _ & Hv). rewrite Ho in Ho'. injection Ho' as <-.
  pose proof (gmsb_total P dt dim (Table (Rows 1 (rd x) (fun _ => rv x b))) (At (time_at t b))) as G. cbn [time_count rn rd rv Nat.eqb orb] in G. destruct G as (p & Hp & _ & Gv). exists p. split; [exact Hp|]. intros i Hi. rewrite (Hv b i Hb Hi).
  specialize (Gv 0%nat i ltac:(lia) Hi). cbn [Nat.mul Nat.add time_at] in Gv. now rewrite Gv.
Qed.

(** ** Lipschitz bounds *)
Definition case := ((nat -> R) * (nat -> R) * R * R * R)%type.
Definition cu (w : case) : nat -> R := let '(u, _, _, _, _) := w in u.
Definition cv (w : case) : nat -> R := let '(_, v, _, _, _) := w in v.
Definition ct (w : case) : R := let '(_, _, t, _, _) := w in t.
Definition cs (w : case) : R := let '(_, _, _, s, _) := w in s.
Definition ce (w : case) : R := let '(_, _, _, _, e) := w in e.
Definition pair_of (d : nat) (w : case) : Prop := 0 <= ce w /\ close d (ce w) (cu w) (cv w) /\ Rabs (ct w - cs w) <= ce w.

Lemma over_entries {W} (ok : W -> Prop) del (f f' : nat -> W -> R) n : (forall i, (i < n)%nat -> lip ok del false (f i) (f' i)) -> (forall w, ok w -> 0 <= del w) ->
  exists k, 0 <= k /\ forall w, ok w -> forall i, (i < n)%nat -> Rabs (f i w - f' i w) <= k * del w.
Proof.
  intros H Hd. induction n as [|n IH]; [exists 0; split; [lra|]; intros; lia|]. destruct IH as (k & Hk & IH); [intros i Hi; apply H; lia|]. destruct (H n ltac:(lia)) as (l & Hl & Hn).
  exists (k + l). split; [lra|]. intros w Hw i Hi. specialize (Hd w Hw). rewrite Rmult_plus_distr_r. assert (0 <= k * del w) by now apply Rmult_le_pos. assert (0 <= l * del w) by now apply Rmult_le_pos. destruct (Nat.eq_dec i n) as [ ->|Hne]; [specialize (Hn w Hw); lra|]. specialize (IH w Hw i ltac:(lia)). lra.
Qed.
Lemma coordinate_lip (ok : case -> Prop) d : (forall w, ok w -> pair_of d w) -> forall i, (i < d)%nat -> lip ok ce false (fun w => cu w i) (fun w => cv w i).
Proof. intros H i Hi. exists 1. split; [lra|]. intros w Hw. rewrite Rmult_1_l. destruct (H w Hw) as (_ & Hc & _). now apply Hc. Qed.
Lemma coordinate_good (ok : case -> Prop) d M : 0 <= M -> (forall w, ok w -> pair_of d w /\ within d M (cu w) /\ within d M (cv w)) -> forall i, (i < d)%nat -> lip ok ce true (fun w => cu w i) (fun w => cv w i).
Proof. intros HM H i Hi. exists M, 1. split; [lra|]. split; [lra|]. intros w Hw. rewrite Rmult_1_l. destruct (H w Hw) as ((_ & Hc & _) & Hu & Hv). auto. Qed.
Lemma times_good (ok : case -> Prop) d dt dim : (forall w, ok w -> pair_of d w) -> forall i, good ok ce (fun w => nth i (emb dt dim (ct w)) 0) (fun w => nth i (emb dt dim (cs w)) 0).
Proof. intros H i. apply (emb_good ok ce); [intros w Hw; apply (H w Hw)|intros w Hw; apply (H w Hw)]. Qed.

Section values.
  Variables (P : params) (dt : R) (dim : nat).
  Lemma crescent_vec h hs d u t : exists o, crescent_val P dt dim (h :: hs) (Vect d u) (At t) = Some o /\ forall i, (i < dim)%nat -> get o i = crescent_out P (h :: hs) d (fun i => nth i (emb dt 32 t) 0) u i.
  Proof using.
    pose proof (crescent_total P dt dim h hs (Vect d u) (At t)) as G. cbn [is_scalar row_count time_count bcast Nat.eqb] in G. destruct G as (p & Hp & _ & Gv). exists p. split; [exact Hp|]. intros i Hi. apply (Gv 0%nat i ltac:(lia) Hi).
  Qed.
  Lemma gmsb_one d u t : exists o, gmsb_val P dt dim (Table (Rows 1 d (fun _ => u))) (At t) = Some o /\ forall i, (i < dim)%nat -> get o i = gmsb_row P d (fun i => nth i (emb dt 32 t) 0) u i.
  Proof using.
    pose proof (gmsb_total P dt dim (Table (Rows 1 d (fun _ => u))) (At t)) as G. cbn [time_count rn rd rv Nat.eqb orb] in G. destruct G as (p & Hp & _ & Gv). exists p. split; [exact Hp|]. intros i Hi. apply (Gv 0%nat i ltac:(lia) Hi).
  Qed.
  (** with the same time *)
  Theorem crescent_space h hs d : exists k, 0 <= k /\ forall u v t e, 0 <= e -> close d e u v ->
    exists o p, crescent_val P dt dim (h :: hs) (Vect d u) (At t) = Some o /\ crescent_val P dt dim (h :: hs) (Vect d v) (At t) = Some p /\ close dim (k * e) (get o) (get p).
  Proof using.
    set (ok := fun w => pair_of d w /\ ct w = cs w). assert (Hok : forall w, ok w -> pair_of d w) by now intros w [? _].
    destruct (over_entries ok ce (fun i w => crescent_out P (h :: hs) d (fun j => nth j (emb dt 32 (ct w)) 0) (fun j => cu w j) i) (fun i w => crescent_out P (h :: hs) d (fun j => nth j (emb dt 32 (cs w)) 0) (fun j => cv w j) i) dim) as (k & Hk & H).
    - intros i _. apply (crescent_out_lip ok ce ltac:(intros w Hw; apply (Hok w Hw)) P (fun j w => nth j (emb dt 32 (ct w)) 0) (fun j w => nth j (emb dt 32 (cs w)) 0) (times_good ok d dt 32 Hok) false (h :: hs) d (fun j w => cu w j) (fun j w => cv w j) i).
      + intros _ j w [_ Hw]. now rewrite Hw.
      + now apply coordinate_lip.
    - intros w Hw. apply (Hok w Hw).
    - exists k. split; [assumption|]. intros u v t e He Huv. destruct (crescent_vec h hs d u t) as (o & Ho & Vo). destruct (crescent_vec h hs d v t) as (p & Hp & Vp). exists o, p. split; [exact Ho|]. split; [exact Hp|]. intros i Hi. rewrite Vo, Vp by assumption.
      apply (H (u, v, t, t, e)); [|exact Hi]. split; [|reflexivity]. split; [exact He|]. split; [exact Huv|]. cbn [ct cs ce]. now rewrite Rminus_eq_0, Rabs_R0.
  Qed.
  (** on a bounded set, also with different times *)
  Theorem crescent_joint h hs d M : 0 <= M -> exists k, 0 <= k /\ forall u v t s e, 0 <= e -> within d M u -> within d M v -> close d e u v -> Rabs (t - s) <= e ->
    exists o p, crescent_val P dt dim (h :: hs) (Vect d u) (At t) = Some o /\ crescent_val P dt dim (h :: hs) (Vect d v) (At s) = Some p /\ close dim (k * e) (get o) (get p).
  Proof using.
    intros HM. set (ok := fun w => pair_of d w /\ within d M (cu w) /\ within d M (cv w)). assert (Hok : forall w, ok w -> pair_of d w) by now intros w [? _].
    destruct (over_entries ok ce (fun i w => crescent_out P (h :: hs) d (fun j => nth j (emb dt 32 (ct w)) 0) (fun j => cu w j) i) (fun i w => crescent_out P (h :: hs) d (fun j => nth j (emb dt 32 (cs w)) 0) (fun j => cv w j) i) dim) as (k & Hk & H).
    - intros i _. apply (good_lip ok ce false). apply (crescent_out_lip ok ce ltac:(intros w Hw; apply (Hok w Hw)) P (fun j w => nth j (emb dt 32 (ct w)) 0) (fun j w => nth j (emb dt 32 (cs w)) 0) (times_good ok d dt 32 Hok) true (h :: hs) d (fun j w => cu w j) (fun j w => cv w j) i).
      + discriminate.
      + intros j Hj. now apply (coordinate_good ok d M HM).
    - intros w Hw. apply (Hok w Hw).
    - exists k. split; [assumption|]. intros u v t s e He Hu Hv Huv Hts. destruct (crescent_vec h hs d u t) as (o & Ho & Vo). destruct (crescent_vec h hs d v s) as (p & Hp & Vp). exists o, p. split; [exact Ho|]. split; [exact Hp|]. intros i Hi. rewrite Vo, Vp by assumption.
      apply (H (u, v, t, s, e)); [|exact Hi]. split; [|split; assumption]. split; [exact He|]. split; [exact Huv|exact Hts].
  Qed.
  Theorem gmsb_joint d : exists k, 0 <= k /\ forall u v t s e, 0 <= e -> close d e u v -> Rabs (t - s) <= e ->
    exists o p, gmsb_val P dt dim (Table (Rows 1 d (fun _ => u))) (At t) = Some o /\ gmsb_val P dt dim (Table (Rows 1 d (fun _ => v))) (At s) = Some p /\ close dim (k * e) (get o) (get p).
  Proof using.
    destruct (over_entries (pair_of d) ce (fun i w => gmsb_row P d (fun j => nth j (emb dt 32 (ct w)) 0) (fun j => cu w j) i) (fun i w => gmsb_row P d (fun j => nth j (emb dt 32 (cs w)) 0) (fun j => cv w j) i) dim) as (k & Hk & H).
    - intros i _. apply (gmsb_lip (pair_of d) ce ltac:(now intros w [? _]) P (fun j w => nth j (emb dt 32 (ct w)) 0) (fun j w => nth j (emb dt 32 (cs w)) 0) (times_good (pair_of d) d dt 32 (fun w H => H)) false d (fun j w => cu w j) (fun j w => cv w j) i).
      intros j Hj. now apply (coordinate_lip _ d).
    - now intros w [? _].
    - exists k. split; [assumption|]. intros u v t s e He Huv Hts. destruct (gmsb_one d u t) as (o & Ho & Vo). destruct (gmsb_one d v s) as (p & Hp & Vp). exists o, p. split; [exact Ho|]. split; [exact Hp|]. intros i Hi. rewrite Vo, Vp by assumption.
      apply (H (u, v, t, s, e)); [|exact Hi]. split; [exact He|]. split; [exact Huv|exact Hts].
  Qed.
  Lemma vec_joint ed w1 w2 u1 u2 zs d : (ed mod 2 = 0)%nat -> ed <> 2%nat -> exists k, 0 <= k /\ forall u v t s e, 0 <= e -> close d e u v -> Rabs (t - s) <= e ->
    exists o p, vec_net P ed dim w1 w2 u1 u2 zs d u t = Some o /\ vec_net P ed dim w1 w2 u1 u2 zs d v s = Some p /\ dims o = no_ones [dim] /\ close dim (k * e) (get o) (get p).
  Proof using.
    intros He H2. destruct (over_entries (pair_of d) ce (fun i w => vec_row P ed w1 w2 u1 u2 zs d (fun j => nth j (emb 1 ed (ct w)) 0) (fun j => cu w j) i) (fun i w => vec_row P ed w1 w2 u1 u2 zs d (fun j => nth j (emb 1 ed (cs w)) 0) (fun j => cv w j) i) dim) as (k & Hk & H).
    - intros i _. apply (vec_lip (pair_of d) ce ltac:(now intros w [? _]) P (fun j w => nth j (emb 1 ed (ct w)) 0) (fun j w => nth j (emb 1 ed (cs w)) 0) (times_good (pair_of d) d 1 ed (fun w H => H)) false ed w1 w2 u1 u2 zs d (fun j w => cu w j) (fun j w => cv w j) i).
      intros j Hj. now apply (coordinate_lip _ d).
    - now intros w [? _].
    - exists k. split; [assumption|]. intros u v t s e He0 Huv Hts. destruct (vec_total P ed dim w1 w2 u1 u2 zs d u t He H2) as (o & Ho & Do & Vo). destruct (vec_total P ed dim w1 w2 u1 u2 zs d v s He H2) as (p & Hp & _ & Vp). exists o, p. split; [exact Ho|]. split; [exact Hp|]. split; [exact Do|]. intros i Hi. rewrite Vo, Vp by assumption.
      apply (H (u, v, t, s, e)); [|exact Hi]. split; [exact He0|]. split; [exact Huv|exact Hts].
  Qed.
  (** the value at zero is bounded over all times *)
  Lemma crescent_zero h hs d : exists a, 0 <= a /\ forall t o, crescent_val P dt dim (h :: hs) (Vect d (fun _ => 0)) (At t) = Some o -> within dim a (get o).
  Proof using.
    set (ok := fun w => pair_of d w /\ cu w = (fun _ => 0) /\ cv w = fun _ => 0). assert (Hok : forall w, ok w -> pair_of d w) by now intros w [? _].
    assert (G : forall i, good ok ce (fun w => crescent_out P (h :: hs) d (fun j => nth j (emb dt 32 (ct w)) 0) (fun j => cu w j) i) (fun w => crescent_out P (h :: hs) d (fun j => nth j (emb dt 32 (cs w)) 0) (fun j => cv w j) i)).
    { intros i. apply (crescent_out_lip ok ce ltac:(intros w Hw; apply (Hok w Hw)) P (fun j w => nth j (emb dt 32 (ct w)) 0) (fun j w => nth j (emb dt 32 (cs w)) 0) (times_good ok d dt 32 Hok) true (h :: hs) d (fun j w => cu w j) (fun j w => cv w j) i).
      + discriminate.
      + intros j Hj. apply (coordinate_good ok d 0 (Rle_refl 0)); [|exact Hj]. intros w (Hw & -> & ->). split; [exact Hw|]. split; intros q _; rewrite Rabs_R0; lra. }
    assert (B : exists a, 0 <= a /\ forall i, (i < dim)%nat -> forall t, Rabs (crescent_out P (h :: hs) d (fun j => nth j (emb dt 32 t) 0) (fun _ => 0) i) <= a).
    { generalize dim as n. induction n as [|n (a & Ha & IH)]; [exists 0; split; [lra|]; intros; lia|]. destruct (G n) as (M & l & HM & _ & HG). exists (a + M). split; [lra|]. intros i Hi t. destruct (Nat.eq_dec i n) as [ ->|Hne]; [|specialize (IH i ltac:(lia) t); lra].
      destruct (HG ((fun _ => 0), (fun _ => 0), t, t, 0)) as [H1 _]; [|cbn [ct cu] in H1; lra]. split; [|split; reflexivity]. split; [apply Rle_refl|]. split; [intros q _; cbn [cu cv ce]|cbn [ct cs ce]]; rewrite Rminus_eq_0, Rabs_R0; lra. }
    destruct B as (a & Ha & HB). exists a. split; [exact Ha|]. intros t o Ho i Hi. destruct (crescent_vec h hs d (fun _ => 0) t) as (o' & Ho' & Vo). rewrite Ho in Ho'. injection Ho' as <-. rewrite (Vo i Hi). now apply HB.
  Qed.
End values.

(** ** The time dependence is not uniform in space *)
Definition unit_kernel (i o : nat) : R := if (i =? 0)%nat && (o =? 0)%nat then 1 else 0.
Definition gate_params : params :=
  Params (fun _ _ _ _ _ => 0) (fun _ _ => 0) (fun _ _ => 0) (fun _ _ => 0)
    (fun path i o => match path with
      | [0; _; 0]%nat | [0; 0; 1; 0]%nat | [0; 0; 1; 1]%nat | [1]%nat => unit_kernel i o
      | _ => 0 end)
    (fun path o => match path with [0; S _; 1; 1]%nat => 1 | _ => 0 end).
Lemma unit_dense bias n v : (1 <= n)%nat -> dense_val unit_kernel bias n v 0%nat = v 0%nat + bias 0%nat.
Proof.
  intros Hn. unfold dense_val. destruct n as [|n]; [lia|]. cbn [seq map Rsum]. rewrite (Rsum_map_ext _ (fun _ => 0)); [rewrite Rsum_map_const; unfold unit_kernel; cbn; ring|].
  intros i Hi. apply in_seq in Hi. unfold unit_kernel. destruct (Nat.eqb_spec i 0); [lia|]. cbn. ring.
Qed.
Lemma zero_dense bias n v o : dense_val (fun _ _ => 0) bias n v o = bias o.
Proof. unfold dense_val. rewrite (Rsum_map_ext _ (fun _ => 0)); [rewrite Rsum_map_const; ring|]. intros; ring. Qed.
Lemma gelu_half a : 0 <= a -> a / 2 <= gelu a.
Proof.
  intros Ha. unfold gelu. assert (Hz : 0 <= sqrt (2 / PI) * (a + 44715 / 10 ^ 6 * a ^ 3)).
  { apply Rmult_le_pos; [apply sqrt_pos|]. assert (0 <= a ^ 3) by now apply pow_le. lra. }
  set (z := sqrt (2 / PI) * (a + 44715 / 10 ^ 6 * a ^ 3)) in *. assert (Ht : 0 <= tanh z).
  { unfold tanh. destruct (cosh_sq_ge z) as (_ & _ & H). apply Rmult_le_pos; [|left; now apply Rinv_0_lt_compat]. unfold sinh. assert (exp (- z) <= exp z) by (destruct Hz as [Hz|Hz]; [left; apply exp_increasing; lra|rewrite <- Hz, Ropp_0; lra]). lra. }
  nra.
Qed.
Lemma gelu_0 : gelu 0 = 0. Proof. unfold gelu. lra. Qed.
Fixpoint gelus (n : nat) (a : R) : R := match n with O => a | S n => gelus n (gelu a) end.
Lemma gelus_low n : forall a, 0 <= a -> a / 2 ^ n <= gelus n a.
Proof.
  induction n as [|n IH]; intros a Ha; cbn [gelus pow]; [lra|]. pose proof (gelu_half a Ha). eapply Rle_trans; [|apply IH; lra]. assert (0 < 2 ^ n) by (apply pow_lt; lra). assert (0 < / 2 ^ n) by now apply Rinv_0_lt_compat.
  replace (a / (2 * 2 ^ n)) with (a / 2 * / 2 ^ n) by (field; lra). apply Rmult_le_compat_r; lra.
Qed.
Lemma gelus_0 n : gelus n 0 = 0.
Proof. induction n as [|n IH]; cbn [gelus]; [reflexivity|]. now rewrite gelu_0. Qed.
Lemma gate_step ind h d e x : (1 <= h)%nat -> (1 <= d)%nat -> crescent_step gate_params ind h d e x 0%nat = gelu (x 0%nat * match ind with O => gelu (e 0%nat) | _ => 1 end).
Proof.
  intros Hh Hd. unfold crescent_step, tb_row. cbn [app].
  assert (K2 : forall b, dkernel gate_params [0; ind; 2; b]%nat = fun _ _ => 0) by (intros b; destruct ind; reflexivity).
  assert (B2 : dbias gate_params [0; ind; 2; 1]%nat = fun _ => 0) by (destruct ind; reflexivity).
  assert (K0 : dkernel gate_params [0; ind; 0]%nat = unit_kernel) by (destruct ind; reflexivity). assert (B0 : dbias gate_params [0; ind; 0]%nat = fun _ => 0) by (destruct ind; reflexivity).
  rewrite !K2, !zero_dense, B2, K0, B0, unit_dense by assumption. destruct ind as [|ind].
  - change (dkernel gate_params [0; 0; 1; 1]%nat) with unit_kernel. change (dkernel gate_params [0; 0; 1; 0]%nat) with unit_kernel. rewrite !unit_dense by lia. cbn [dbias gate_params]. now rewrite !Rplus_0_r.
  - change (dkernel gate_params [0; S ind; 1; 1]%nat) with (fun _ _ : nat => 0). rewrite zero_dense. cbn [dbias gate_params]. now rewrite !Rplus_0_r.
Qed.
Lemma gate_rows e : forall hs ind d x, (1 <= ind)%nat -> Forall (fun h => 1 <= h)%nat hs -> (1 <= d)%nat -> crescent_row gate_params ind hs d e x 0%nat = gelus (length hs) (x 0%nat).
Proof.
  induction hs as [|h hs IH]; intros ind d x Hi Hh Hd; [reflexivity|]. cbn [crescent_row length gelus]. inversion_clear Hh. rewrite IH by (assumption || lia). rewrite gate_step by assumption. destruct ind as [|ind]; [lia|]. now rewrite Rmult_1_r.
Qed.
Lemma gate_value dt a t : exists o, crescent_val gate_params dt 1 crescent_hiddens (Vect 1 (fun _ => a)) (At t) = Some o /\ get o 0%nat = gelus 6 (a * gelu (sin (t / dt))).
Proof.
  destruct (crescent_vec gate_params dt 1 256 [256; 128; 64; 32; 16]%nat 1 (fun _ => a) t) as (o & Ho & Vo). exists o. split; [exact Ho|]. rewrite (Vo 0%nat) by lia. unfold crescent_out. cbn [gate_params dkernel dbias].
  change (fun i o : nat => unit_kernel i o) with unit_kernel. rewrite unit_dense by (cbn; lia). rewrite Rplus_0_r. cbn [crescent_row]. 
  change (crescent_row gate_params 1 [256; 128; 64; 32; 16]%nat 256 (fun i => nth i (emb dt 32 t) 0) (crescent_step gate_params 0 256 1 (fun i => nth i (emb dt 32 t) 0) (fun _ => a)) 0%nat = gelus 6 (a * gelu (sin (t / dt)))).
  rewrite gate_rows by (repeat constructor; lia). rewrite gate_step by lia. cbv beta iota.
  assert (E0 : nth 0 (emb dt 32 t) 0 = sin (t / dt)).
  { transitivity (sin (t / dt * freq (10 ^ 4) 16 0)); [reflexivity|]. f_equal. unfold freq. replace (- ln (10 ^ 4) * INR 0 / (INR 16 - 1)) with 0 by (cbn [INR]; unfold Rdiv; ring). rewrite exp_0. ring. }
  rewrite E0. reflexivity.
Qed.
Theorem crescent_time_refuted : exists P, forall dt, dt <> 0 -> forall K, exists a o p,
  crescent_val P dt 1 crescent_hiddens (Vect 1 (fun _ => a)) (At 0) = Some o /\ crescent_val P dt 1 crescent_hiddens (Vect 1 (fun _ => a)) (At (dt * (PI / 2))) = Some p /\ K < Rabs (get p 0%nat - get o 0%nat).
Proof.
  exists gate_params. intros dt Hdt K. set (a := 128 * (Rabs K + 1)). destruct (gate_value dt a 0) as (o & Ho & Vo). destruct (gate_value dt a (dt * (PI / 2))) as (p & Hp & Vp). exists a, o, p. split; [exact Ho|]. split; [exact Hp|].
  rewrite Vo, Vp. replace (0 / dt) with 0 by (field; assumption). rewrite sin_0, gelu_0, Rmult_0_r, gelus_0, Rminus_0_r. replace (dt * (PI / 2) / dt) with (PI / 2) by (field; assumption). rewrite sin_PI2.
  pose proof (gelu_half 1 ltac:(lra)) as G1. pose proof (Rabs_pos K). pose proof (gelus_low 6 (a * gelu 1) ltac:(unfold a; apply Rmult_le_pos; lra)) as G.
  assert (Rabs K + 1 <= a * gelu 1 / 2 ^ 6) by (unfold a; cbn [pow]; nra). pose proof (Rle_abs K). pose proof (Rle_abs (gelus 6 (a * gelu 1))). lra.
Qed.

(** ** The reverse sampler with any Lipschitz score *)
Section sampler.
  Variables (d : nat) (score : list R -> R -> list R) (sde : Sde.linear_sde) (T a k : R).
  Hypotheses (HT : 0 <= T) (Ha : 0 <= a) (Hk : 0 <= k).
  Hypothesis Hl : forall u t, length (score u t) = d.
  Hypothesis HL : forall u v t e, length u = d -> 0 <= e -> near e u v -> near (k * e) (score u t) (score v t).
  Hypothesis HB : forall u t M, length u = d -> 0 <= M -> (forall i, (i < d)%nat -> Rabs (nth i u 0) <= M) -> forall i, (i < d)%nat -> Rabs (nth i (score u t) 0) <= a + k * M.
  Lemma score_start : exists K, 0 <= K /\ forall n ts rndss u v e, (1 <= n)%nat -> ts <> [] -> 0 <= nth 0 ts 0 -> ascending ts -> last ts 0 = T ->
    Forall (Forall (fun r => length r = d)) rndss -> length u = d -> 0 <= e -> near e u v ->
    exists x y, Sim.reverse_simulator score (Sde.drift sde) (Sde.dispersion sde) n true u ts rndss = Some x /\ Sim.reverse_simulator score (Sde.drift sde) (Sde.dispersion sde) n true v ts rndss = Some y /\
      length x = d /\ near (exp (K * T) * e) x y.
  Proof using HT Hk Hl HL.
    destruct (reverse_lipschitz d score sde T k HT Hk Hl HL) as (K & HK & HLip).
    exists K. split; [assumption|]. intros n ts rndss u v e Hn Hne H0 Has Hlast Hr Hu He Huv. unfold Sim.reverse_simulator. rewrite Hlast. cbv zeta.
    eexists. eexists. split; [reflexivity|]. split; [reflexivity|]. destruct ts as [|t ts]; [easy|]. cbn [nth] in H0. unfold Sim.em_terminal.
    destruct (carry_near d _ (Sim.reverse_dispersion (Sde.dispersion sde) T) 0 T K HK HLip n ts Hn t rndss u v e H0 Has ltac:(lra) Hr Hu He Huv) as [C1 [C2 C3]]. split; [exact C1|]. split; [exact C2|].
    intros i Hi. eapply Rle_trans; [now apply C3|]. apply Rmult_le_compat_r; [assumption|]. rewrite Hlast. destruct (Req_dec (K * t) 0) as [E|E]; [right; f_equal; lra|]. left. apply exp_increasing. assert (0 <= K * t) by (apply Rmult_le_pos; lra). lra.
  Qed.
  Lemma score_moment : exists C B, 0 <= C /\ 0 <= B /\ forall normal key n N ts D, (1 <= n)%nat -> ts <> [] -> 0 <= nth 0 ts 0 -> ascending ts -> last ts 0 = T ->
    has_moments d N (fun _ => 0) mid -> (forall k, denotes (normal k n d) (dseq (repeat N n))) -> is_prob D -> (forall u, In u (map snd D) -> length u = d) ->
    E D (fun u0 => law (reverse_prog normal key u0 ts score (Sde.drift sde) (Sde.dispersion sde) n) (on_some sq_norm)) <= exp (C * T) * (E D sq_norm + B * T).
  Proof using HT Ha Hk Hl HB.
    destruct (reverse_grows d score sde T a k HT Ha Hk Hl HB) as (a' & k' & Ha' & Hk' & HG). destruct (dispersion_bound sde T HT) as (G & HG0 & BG).
    assert (BG' : forall t, 0 <= t <= T -> Sim.reverse_dispersion (Sde.dispersion sde) T t ^ 2 <= G) by (intros t Ht; unfold Sim.reverse_dispersion; apply BG; lra).
    set (f := Sim.reverse_drift score (Sde.drift sde) (Sde.dispersion sde) T) in *. set (g := Sim.reverse_dispersion (Sde.dispersion sde) T) in *.
    pose proof (rate_nonneg d 0 T k' HT) as R0. pose proof (source_nonneg d g 0 T a' G HT BG') as S0.
    exists (rate d 0 T k'), (source d 0 T a' G). split; [assumption|]. split; [assumption|].
    intros normal key n N ts D Hn Hne H0 Has Hlast HN Hden Dp Dl.
    assert (Hlaw : E D (fun u0 => law (reverse_prog normal key u0 ts score (Sde.drift sde) (Sde.dispersion sde) n) (on_some sq_norm)) = E (chain_law f g N n ts D) sq_norm).
    { rewrite E_chain_law. apply E_ext. intros x Hx. unfold reverse_prog. rewrite law_bind, (Dl x Hx), (em_draws_law normal key n d N Hden). apply E_ext'. intros rndss. unfold Sim.reverse_simulator. rewrite Hlast. reflexivity. }
    rewrite Hlaw. destruct ts as [|t ts]; [easy|]. cbn [nth] in H0.
    assert (He : 0 <= E D sq_norm) by (rewrite <- (E_const 0 D Dp); apply ResVariance.E_le; [apply Dp|intros; apply sq_norm_nonneg]).
    destruct (chain_bounded d f g N 0 T a' k' G Ha' Hk' HT HG BG' HN (E D sq_norm) n ts He Hn t D H0 Has ltac:(lra)) as [_ Fin].
    - split; [split; assumption|]. unfold moment_bound. rewrite Rminus_0_r. pose proof (exp_lower (rate d 0 T k' * t)) as Hlo. assert (0 <= rate d 0 T k' * t) by now apply Rmult_le_pos.
      assert (0 <= source d 0 T a' G * t) by now apply Rmult_le_pos. nra.
    - unfold moment_bound in Fin. rewrite Hlast, Rminus_0_r in Fin. exact Fin.
  Qed.
End sampler.

(** CrescentMLP with dim = d as a score: the entries of its result *)
Definition crescent_score (P : params) (dt : R) (hs : list nat) (d : nat) (u : list R) (t : R) : list R :=
  match crescent_val P dt d hs (Vect d (fun i => nth i u 0)) (At t) with Some o => map (get o) (seq 0 d) | None => [] end.
Lemma crescent_score_nth P dt h hs d u t o : crescent_val P dt d (h :: hs) (Vect d (fun i => nth i u 0)) (At t) = Some o -> forall i, (i < d)%nat -> nth i (crescent_score P dt (h :: hs) d u t) 0 = get o i.
Proof. intros Ho i Hi. unfold crescent_score. rewrite Ho. rewrite (nth_indep _ 0 (get o 0%nat)) by (rewrite map_length, seq_length; assumption). now rewrite (map_nth (get o)), seq_nth. Qed.
Lemma crescent_score_length P dt h hs d u t : length (crescent_score P dt (h :: hs) d u t) = d.
Proof. unfold crescent_score. destruct (crescent_vec P dt d h hs d (fun i => nth i u 0) t) as (o & -> & _). now rewrite map_length, seq_length. Qed.
Lemma crescent_score_bounds P dt h hs d : exists a k, 0 <= a /\ 0 <= k /\
  (forall u v t e, length u = d -> 0 <= e -> near e u v -> near (k * e) (crescent_score P dt (h :: hs) d u t) (crescent_score P dt (h :: hs) d v t)) /\
  (forall u t M, length u = d -> 0 <= M -> (forall i, (i < d)%nat -> Rabs (nth i u 0) <= M) -> forall i, (i < d)%nat -> Rabs (nth i (crescent_score P dt (h :: hs) d u t) 0) <= a + k * M).
Proof.
  destruct (crescent_space P dt d h hs d) as (k & Hk & HL). destruct (crescent_zero P dt d h hs d) as (a & Ha & HZ). exists a, k. split; [assumption|]. split; [assumption|]. split.
  - intros u v t e Hu He [Hn H]. split; [now rewrite !crescent_score_length|]. rewrite crescent_score_length. rewrite Hu in H. destruct (HL (fun i => nth i u 0) (fun i => nth i v 0) t e He H) as (o & p & Ho & Hp & C).
    intros i Hi. rewrite (crescent_score_nth _ _ _ _ _ _ _ _ Ho i Hi), (crescent_score_nth _ _ _ _ _ _ _ _ Hp i Hi). now apply C.
  - intros u t M Hu HM H i Hi. destruct (HL (fun i => nth i u 0) (fun _ => 0) t M HM) as (o & p & Ho & Hp & C); [intros j Hj; rewrite Rminus_0_r; now apply H|]. rewrite (crescent_score_nth _ _ _ _ _ _ _ _ Ho i Hi).
    specialize (HZ t p Hp i Hi). specialize (C i Hi). replace (get o i) with (get p i + (get o i - get p i)) by ring. eapply Rle_trans; [apply Rabs_triang|]. lra.
Qed.
Theorem crescent_sampler P dt h hs d sde T : 0 <= T -> exists K C B, 0 <= K /\ 0 <= C /\ 0 <= B /\
  (forall n ts rndss u v e, (1 <= n)%nat -> ts <> [] -> 0 <= nth 0 ts 0 -> ascending ts -> last ts 0 = T ->
    Forall (Forall (fun r => length r = d)) rndss -> length u = d -> 0 <= e -> near e u v ->
    exists x y, Sim.reverse_simulator (crescent_score P dt (h :: hs) d) (Sde.drift sde) (Sde.dispersion sde) n true u ts rndss = Some x /\
      Sim.reverse_simulator (crescent_score P dt (h :: hs) d) (Sde.drift sde) (Sde.dispersion sde) n true v ts rndss = Some y /\ length x = d /\ near (exp (K * T) * e) x y) /\
  (forall normal key n N ts D, (1 <= n)%nat -> ts <> [] -> 0 <= nth 0 ts 0 -> ascending ts -> last ts 0 = T ->
    has_moments d N (fun _ => 0) mid -> (forall k, denotes (normal k n d) (dseq (repeat N n))) -> is_prob D -> (forall u, In u (map snd D) -> length u = d) ->
    E D (fun u0 => law (reverse_prog normal key u0 ts (crescent_score P dt (h :: hs) d) (Sde.drift sde) (Sde.dispersion sde) n) (on_some sq_norm)) <= exp (C * T) * (E D sq_norm + B * T)).
Proof.
  intros HT. destruct (crescent_score_bounds P dt h hs d) as (a & k & Ha & Hk & HL & HB). pose proof (crescent_score_length P dt h hs d) as Hl.
  destruct (score_start d _ sde T k HT Hk Hl HL) as (K & HK & H1). destruct (score_moment d _ sde T a k HT Ha Hk Hl HB) as (C & B & HC & HB' & H2). exists K, C, B. auto.
Qed.
