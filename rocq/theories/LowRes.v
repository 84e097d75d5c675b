(** The observation of the super-resolution scripts seen as a small image, and the start interpolated from it
    (experiments/sb_imgs/supr.py). *)
From Coquelicot Require Import Coquelicot.
From Coq Require Import Reals List Lia Lra String.
From Verif Require Import Base Dist Prog Images ImagesProofs ImagesMore.
Import ListNotations.
Open Scope R_scope.

(** ** Model *)
(** sb_imgs/supr.py:208-210 and 156: [jnp.reshape(y0, (low_res, low_res, nchannels))], low_res = resolution // sr_rate; imgs/supr*.py save the same array.
    A pixel is an entry of the list (its channels are not touched). *)
Definition low_res_image {A} (resolution sr_rate : nat) (y : list A) : list (list A) := unravel_image (resolution / sr_rate) (resolution / sr_rate) y.

(** [jax.image.resize(x, shape, method='linear')] enlarging an axis of length n by the factor r: triangle weights around (o + 1/2)/r - 1/2,
    divided by their sum (which is at least 1/2, see [tri_total]).  One channel. *)
Definition tri_weight (r o k : nat) : R := Rmax 0 (1 - Rabs ((INR o + / 2) / INR r - / 2 - INR k)).
Definition lin_weight (r n o k : nat) : R := tri_weight r o k / Rsum (map (tri_weight r o) (seq 0 n)).
Definition upsample (r n : nat) (x : list (list R)) : list (list R) :=
  map (fun o1 => map (fun o2 => Rsum (map (fun k => lin_weight r n o1 k * Rsum (map (fun l => lin_weight r n o2 l * nth l (nth k x []) 0) (seq 0 n))) (seq 0 n)))
    (seq 0 (n * r))) (seq 0 (n * r)).
(** sb_imgs/supr.py:154-159 [interp_x0_sampler] (the key is not used) *)
Definition interp_x0_sampler (resolution sr_rate : nat) (y0 : list R) (m : mask) : list R :=
  fst (unpack 0 (upsample sr_rate (resolution / sr_rate) (low_res_image resolution sr_rate y0)) m).

(** ** Proofs: the small image *)
Section pixels.
  Context {A : Type} (zero : A).
  Lemma nth_concat h : forall (img : list (list A)) i j, Forall (fun r => List.length r = h) img -> (i < List.length img)%nat -> (j < h)%nat ->
    nth (i * h + j) (concat img) zero = nth j (nth i img []) zero.
  Proof using.
    clear. induction img as [|r img IH]; intros i j HF Hi Hj; [cbn in Hi; lia|]. inversion HF as [|? ? Hr HF']; subst. cbn [concat]. destruct i as [|i].
    - cbn [Nat.mul Nat.add nth]. now apply app_nth1.
    - rewrite app_nth2 by lia. replace (S i * List.length r + j - List.length r)%nat with (i * List.length r + j)%nat by lia. cbn [nth]. apply IH; [exact HF'|cbn in Hi; lia|exact Hj].
  Qed.
  Lemma nth_firstn_lt (l : list A) : forall n i, (i < n)%nat -> nth i (firstn n l) zero = nth i l zero.
  Proof using. clear. induction l as [|a l IH]; intros n i Hi; [now rewrite firstn_nil|]. destruct n; [lia|]. destruct i; [reflexivity|]. cbn. apply IH. lia. Qed.
  Lemma nth_skipn_add (l : list A) : forall n i, nth i (skipn n l) zero = nth (n + i) l zero.
  Proof using. clear. induction l as [|a l IH]; intros n i; [rewrite skipn_nil; transitivity zero; [now destruct i|now destruct (n + i)%nat]|]. destruct n; [reflexivity|]. cbn. apply IH. Qed.
  Lemma nth_unravel w h (l : list A) i j : (i < w)%nat -> (j < h)%nat -> nth j (nth i (unravel_image w h l) []) zero = nth (i * h + j) l zero.
  Proof using.
    clear. intros Hi Hj. unfold unravel_image. rewrite (nth_indep _ [] (firstn h (skipn (0 * h) l))) by now rewrite map_length, seq_length.
    rewrite (map_nth (fun i => firstn h (skipn (i * h) l))), seq_nth by exact Hi. rewrite nth_firstn_lt by exact Hj. apply nth_skipn_add.
  Qed.
End pixels.
Lemma nth_list_prod {A B} (da : A) (db : B) (l' : list B) : forall (l : list A) i j, (i < List.length l)%nat -> (j < List.length l')%nat ->
  nth (i * List.length l' + j) (list_prod l l') (da, db) = (nth i l da, nth j l' db).
Proof.
  induction l as [|a l IH]; intros i j Hi Hj; [cbn in Hi; lia|]. cbn [list_prod]. destruct i as [|i].
  - cbn [Nat.mul Nat.add]. rewrite app_nth1 by now rewrite map_length. rewrite (nth_indep _ (da, db) (a, db)) by now rewrite map_length. now rewrite (map_nth (fun y => (a, y))).
  - rewrite app_nth2 by (rewrite map_length; lia). rewrite map_length. replace (S i * List.length l' + j - List.length l')%nat with (i * List.length l' + j)%nat by lia. cbn [nth]. apply IH; [cbn in Hi; lia|exact Hj].
Qed.

(** where the pixels of the small image come from *)
Definition shows_blocks (q rate : nat) (random : bool) (m : mask) : Prop :=
  exists shift : nat -> nat -> nat * nat,
    (forall i j, (i < q)%nat -> (j < q)%nat -> (fst (shift i j) < rate)%nat /\ (snd (shift i j) < rate)%nat /\ (random = false -> shift i j = (rate / 2, rate / 2)%nat)) /\
    forall (A : Type) (zero : A) (img : list (list A)), image_shape (q * rate) (q * rate) img -> forall i j, (i < q)%nat -> (j < q)%nat ->
      nth j (nth i (low_res_image (q * rate) rate (snd (unpack zero img m))) []) zero =
      nth (j * rate + snd (shift i j)) (nth (i * rate + fst (shift i j)) img []) zero.

Lemma in_block r a q i : (a < q)%nat -> (i < r)%nat -> (a * r + i < q * r)%nat.
Proof. intros Ha Hi. assert (S a * r <= q * r)%nat by (apply Nat.mul_le_mono_r; lia). lia. Qed.
Lemma supr_shows q rate random shifts : (1 <= rate)%nat -> (1 <= q)%nat -> List.length shifts = (q * q)%nat -> Forall (fun p => (fst p < rate)%nat /\ (snd p < rate)%nat) shifts ->
  (random = false -> forall p, In p shifts -> p = (rate / 2, rate / 2)%nat) -> exists m, supr_mask (q * rate) (q * rate) rate shifts = Some m /\ shows_blocks q rate random m.
Proof.
  intros Hr Hq Hl Hs Hrand. rewrite (supr_mask_form q q rate Hr Hq Hq shifts Hl Hs). eexists. split; [reflexivity|].
  exists (fun i j => nth (i * q + j) shifts (0, 0)%nat).
  assert (Hidx : forall i j, (i < q)%nat -> (j < q)%nat -> (i * q + j < q * q)%nat) by (intros i j Hi Hj; assert (S i * q <= q * q)%nat by (apply Nat.mul_le_mono_r; lia); lia).
  split.
  - intros i j Hi Hj. assert (Hin : In (nth (i * q + j) shifts (0, 0)%nat) shifts) by (apply nth_In; rewrite Hl; now apply Hidx).
    rewrite Forall_forall in Hs. destruct (Hs _ Hin). split; [assumption|]. split; [assumption|]. intros Hf. now apply Hrand.
  - intros A zero img [Himg HF] i j Hi Hj. unfold low_res_image. rewrite Nat.div_mul by lia. rewrite nth_unravel by assumption. unfold unpack. cbn [snd obs_inds]. unfold gather.
    assert (Hso : List.length (supr_obs q q rate shifts) = (q * q)%nat) by (unfold supr_obs; rewrite map_length, combine_length, prod_length, !seq_length; lia).
    rewrite (nth_indep _ zero (nth 0 (ravel_image img) zero)) by (rewrite map_length, Hso; now apply Hidx).
    rewrite (map_nth (fun i => nth i (ravel_image img) zero)). set (s := nth (i * q + j) shifts (0, 0)%nat).
    assert (Hpix : nth (i * q + j) (supr_obs q q rate shifts) 0%nat = pixel (q * rate) (i * rate + fst s) (j * rate + snd s)).
    { unfold supr_obs. set (g := fun p : nat * nat * (nat * nat) => pixel (q * rate) (fst (fst p) * rate + fst (snd p)) (snd (fst p) * rate + snd (snd p))).
      rewrite (nth_indep _ 0%nat (g ((0, 0), (0, 0))%nat)) by (rewrite map_length, combine_length, prod_length, !seq_length, Hl; specialize (Hidx i j Hi Hj); lia).
      rewrite (map_nth g), combine_nth by (rewrite prod_length, !seq_length; lia). fold s.
      assert (Hp : nth (i * q + j) (list_prod (seq 0 q) (seq 0 q)) (0, 0)%nat = (i, j)).
      { pose proof (nth_list_prod 0%nat 0%nat (seq 0 q) (seq 0 q) i j) as H. rewrite seq_length in H. rewrite H by assumption. now rewrite !seq_nth by assumption. }
      rewrite Hp. reflexivity. }
    rewrite Hpix. unfold pixel, ravel_image.
    assert (Hin : In s shifts) by (apply nth_In; rewrite Hl; now apply Hidx). rewrite Forall_forall in Hs. destruct (Hs _ Hin) as [S1 S2].
    apply nth_concat; [exact HF|rewrite Himg; now apply in_block|now apply in_block].
Qed.
Theorem low_res_blocks k task q rate random : supr_task task rate -> (1 <= rate)%nat -> (1 <= q)%nat ->
  safe (gen_mask k task (q * rate) (q * rate) random) (fun om => exists m, om = Some m /\ shows_blocks q rate random m).
Proof.
  intros (H0 & H1 & H2) Hr Hq. unfold gen_mask. rewrite H0, H1, H2. unfold gen_supr_mask. destruct (Nat.eqb_spec rate 0) as [E|_]; [lia|]. destruct (Nat.eqb_spec (q * rate * (q * rate)) 0) as [E|_]; [nia|]. cbn [orb]. cbv zeta.
  assert (EN : (q * rate * (q * rate) / (rate * rate) = q * q)%nat) by (replace (q * rate * (q * rate))%nat with (q * q * (rate * rate))%nat by lia; apply Nat.div_mul; nia).
  rewrite EN. destruct random.
  - apply safe_rint. intros l Hl HF. apply safe_ret. apply supr_shows; try assumption; [now apply pairs_length| |discriminate].
    apply (pairs_Forall (fun i => (i < rate)%nat) (q * q)); [exact Hl|]. revert HF. apply Forall_impl. unfold rint_hi. intros; lia.
  - apply safe_ret. apply supr_shows; try assumption; [apply repeat_length| |].
    + apply Forall_forall. intros p Hp. apply repeat_spec in Hp. subst p. cbn [fst snd]. assert (rate / 2 < rate)%nat by (apply Nat.div_lt; lia). lia.
    + intros _ p Hp. now apply repeat_spec in Hp.
Qed.

(** ** The interpolation *)
Section weights.
  Variables r n o : nat.
  Hypothesis Hr : (1 <= r)%nat.
  Hypothesis Ho : (o < n * r)%nat.
  Let rpos : 0 < INR r.
  Proof using Hr. apply lt_0_INR. lia. Qed.
  Lemma tri_nonneg k : 0 <= tri_weight r o k.
  Proof using. apply Rmax_l. Qed.
  Lemma tri_total : / 2 <= Rsum (map (tri_weight r o) (seq 0 n)).
  Proof using Hr Ho.
    apply Rle_trans with (tri_weight r o (o / r)).
    - unfold tri_weight. pose proof (Nat.div_mod o r ltac:(lia)) as D. assert (Hm : (o mod r < r)%nat) by (apply Nat.mod_upper_bound; lia).
      apply Rle_trans with (1 - Rabs ((INR o + / 2) / INR r - / 2 - INR (o / r))); [|apply Rmax_r].
      assert (Eo : INR o = INR r * INR (o / r) + INR (o mod r)) by (rewrite <- mult_INR, <- plus_INR; now f_equal).
      assert (Hq : (INR o + / 2) / INR r - / 2 - INR (o / r) = (INR (o mod r) + / 2) / INR r - / 2) by (rewrite Eo; field; lra).
      rewrite Hq. assert (H1 : INR (o mod r) + 1 <= INR r) by (rewrite <- S_INR; apply le_INR; lia). pose proof (pos_INR (o mod r)) as H0.
      assert (0 <= (INR (o mod r) + / 2) / INR r <= 1).
      { split; [apply Rmult_le_pos; [lra|left; now apply Rinv_0_lt_compat]|]. apply Rmult_le_reg_r with (INR r); [exact rpos|]. unfold Rdiv. rewrite Rmult_assoc, Rinv_l by lra. lra. }
      assert (Rabs ((INR (o mod r) + / 2) / INR r - / 2) <= / 2) by (apply Rabs_le; lra). lra.
    - assert (Hin : In (o / r)%nat (seq 0 n)) by (apply in_seq; split; [lia|]; apply Nat.div_lt_upper_bound; lia).
      revert Hin. generalize (seq 0 n). intros l. induction l as [|a l IH]; intros Hin; [easy|]. cbn [map Rsum].
      assert (Hl : 0 <= Rsum (map (tri_weight r o) l)) by (apply Rsum_nonneg; apply Forall_forall; intros x Hx; apply in_map_iff in Hx as (k & <- & _); apply tri_nonneg).
      pose proof (tri_nonneg a). destruct Hin as [ ->|Hin]; [lra|]. specialize (IH Hin). lra.
  Qed.
  Lemma lin_weight_avg : (forall k, 0 <= lin_weight r n o k) /\ Rsum (map (lin_weight r n o) (seq 0 n)) = 1.
  Proof using Hr Ho.
    pose proof tri_total as T. split.
    - intros k. apply Rmult_le_pos; [apply tri_nonneg|]. left. apply Rinv_0_lt_compat. lra.
    - unfold lin_weight, Rdiv. rewrite Rsum_map_mult_r. field. lra.
  Qed.
  (** inside the image the weights interpolate linearly *)
  Hypothesis Hlo : (r <= 2 * o + 1)%nat.
  Hypothesis Hhi : (2 * o + 1 <= r * (2 * n - 1))%nat.
  Let f : nat := ((2 * o + 1 - r) / (2 * r))%nat.
  Let th : R := INR ((2 * o + 1 - r) mod (2 * r)) / (2 * INR r).
  Let s : R := (INR o + / 2) / INR r - / 2.
  Lemma s_split : s = INR f + th /\ 0 <= th < 1.
  Proof using Hr Ho Hlo Hhi rpos.
    pose proof (Nat.div_mod (2 * o + 1 - r) (2 * r) ltac:(lia)) as D. assert (Hm : ((2 * o + 1 - r) mod (2 * r) < 2 * r)%nat) by (apply Nat.mod_upper_bound; lia). fold f in D. unfold th, s.
    set (q := ((2 * o + 1 - r) mod (2 * r))%nat) in *. assert (D2 : (2 * o + 1 = r + 2 * r * f + q)%nat) by lia. apply (f_equal INR) in D2. rewrite !plus_INR, !mult_INR in D2. cbn [INR] in D2.
    split; [apply (Rmult_eq_reg_l (2 * INR r)); [|lra]; field_simplify; lra|]. pose proof (pos_INR q). assert (Hq : INR q + 1 <= 2 * INR r) by (rewrite <- S_INR; replace (2 * INR r) with (INR (2 * r)) by (rewrite mult_INR; cbn [INR]; ring); apply le_INR; lia).
    split; [apply Rmult_le_pos; [assumption|left; apply Rinv_0_lt_compat; lra]|]. apply Rmult_lt_reg_r with (2 * INR r); [lra|]. unfold Rdiv. rewrite Rmult_assoc, Rinv_l by lra. lra.
  Qed.
  Lemma f_bound : (f <= n - 1)%nat /\ (f = (n - 1)%nat -> th = 0).
  Proof using Hr Ho Hlo Hhi rpos.
    pose proof (Nat.div_mod (2 * o + 1 - r) (2 * r) ltac:(lia)) as D. fold f in D. unfold th. set (q := ((2 * o + 1 - r) mod (2 * r))%nat) in *.
    assert (H : (2 * r * f + q <= 2 * r * (n - 1))%nat) by (destruct n; [lia|]; cbn [Nat.sub] in *; rewrite Nat.sub_0_r in *; lia).
    split; [nia|]. intros E. rewrite E in H. assert (q = 0)%nat as -> by lia. cbn [INR]. unfold Rdiv. ring.
  Qed.
  Lemma tri_values k : tri_weight r o k = (if Nat.eqb k f then 1 else 0) * (1 - th) + (if Nat.eqb k (S f) then 1 else 0) * th.
  Proof using Hr Ho Hlo Hhi rpos.
    destruct s_split as [Es Ht]. unfold tri_weight. fold s. rewrite Es. destruct (Nat.eqb_spec k f) as [ ->|N1].
    - destruct (Nat.eqb_spec f (S f)); [lia|]. replace (INR f + th - INR f) with th by ring. rewrite Rabs_pos_eq by lra. rewrite Rmax_right by lra. ring.
    - destruct (Nat.eqb_spec k (S f)) as [ ->|N2].
      + rewrite S_INR. replace (INR f + th - (INR f + 1)) with (th - 1) by ring. rewrite Rabs_left1 by lra. rewrite Rmax_right by lra. ring.
      + rewrite Rmax_left; [ring|]. assert (Hk : (k < f \/ S (S f) <= k)%nat) by lia. destruct Hk as [Hk|Hk].
        * apply le_INR in Hk. rewrite S_INR in Hk. unfold Rabs. destruct Rcase_abs; lra.
        * apply le_INR in Hk. rewrite !S_INR in Hk. unfold Rabs. destruct Rcase_abs; lra.
  Qed.
  Lemma tri_sum (v : nat -> R) : Rsum (map (fun k => tri_weight r o k * v k) (seq 0 n)) = (1 - th) * v f + th * v (S f).
  Proof using Hr Ho Hlo Hhi rpos.
    destruct f_bound as [F1 F2]. rewrite (Rsum_map_ext _ (fun k => (if Nat.eqb k f then 1 else 0) * ((1 - th) * v k) + (if Nat.eqb k (S f) then 1 else 0) * (th * v k))) by (intros k _; rewrite tri_values; ring).
    rewrite Rsum_map_plus. assert (n <> 0)%nat by lia. rewrite (Rsum_indicator n f (fun k => (1 - th) * v k)) by lia. f_equal. destruct (Nat.eq_dec f (n - 1)) as [E|E].
    - rewrite (F2 E). rewrite (Rsum_map_ext _ (fun _ => 0)); [rewrite Rsum_map_const; ring|]. intros k _. ring.
    - apply (Rsum_indicator n (S f) (fun k => th * v k)). lia.
  Qed.
  Lemma lin_weight_affine a b : Rsum (map (fun k => lin_weight r n o k * (a + b * INR k)) (seq 0 n)) = a + b * s.
  Proof using Hr Ho Hlo Hhi rpos.
    pose proof (tri_sum (fun _ => 1)) as T1. rewrite (Rsum_map_ext _ (tri_weight r o)) in T1 by (intros; ring).
    unfold lin_weight. rewrite T1. replace ((1 - th) * 1 + th * 1) with 1 by ring. rewrite (Rsum_map_ext _ (fun k => tri_weight r o k * (a + b * INR k))) by (intros; field). rewrite tri_sum, S_INR. destruct s_split as [-> _]. ring.
  Qed.
  Lemma lin_weight_node v : th = 0 -> Rsum (map (fun k => lin_weight r n o k * v k) (seq 0 n)) = v f.
  Proof using Hr Ho Hlo Hhi rpos.
    intros Hz. pose proof (tri_sum (fun _ => 1)) as T1. rewrite (Rsum_map_ext _ (tri_weight r o)) in T1 by (intros; ring).
    unfold lin_weight. rewrite T1. replace ((1 - th) * 1 + th * 1) with 1 by ring. rewrite (Rsum_map_ext _ (fun k => tri_weight r o k * v k)) by (intros; field). rewrite tri_sum, Hz. ring.
  Qed.
End weights.

(** ** The interpolated start *)
Lemma upsample_shape r n x : image_shape (n * r) (n * r) (upsample r n x).
Proof. unfold image_shape, upsample. rewrite map_length, seq_length. split; [reflexivity|]. apply Forall_forall. intros l Hl. apply in_map_iff in Hl as (o & <- & _). now rewrite map_length, seq_length. Qed.
Lemma nth_upsample r n x o1 o2 : (o1 < n * r)%nat -> (o2 < n * r)%nat -> nth o2 (nth o1 (upsample r n x) []) 0 =
  Rsum (map (fun k => lin_weight r n o1 k * Rsum (map (fun l => lin_weight r n o2 l * nth l (nth k x []) 0) (seq 0 n))) (seq 0 n)).
Proof.
  intros H1 H2. unfold upsample. set (g := fun o1 o2 => Rsum (map (fun k => lin_weight r n o1 k * Rsum (map (fun l => lin_weight r n o2 l * nth l (nth k x []) 0) (seq 0 n))) (seq 0 n))).
  rewrite (nth_indep _ [] (map (g 0%nat) (seq 0 (n * r)))) by now rewrite map_length, seq_length. rewrite (map_nth (fun o1 => map (g o1) (seq 0 (n * r)))), seq_nth by exact H1.
  rewrite (nth_indep _ 0 (g o1 0%nat)) by now rewrite map_length, seq_length. rewrite (map_nth (g o1)), seq_nth by exact H2. reflexivity.
Qed.
Lemma average_between (w v : nat -> R) n a b : (forall k, 0 <= w k) -> Rsum (map w (seq 0 n)) = 1 -> (forall k, (k < n)%nat -> a <= v k <= b) -> a <= Rsum (map (fun k => w k * v k) (seq 0 n)) <= b.
Proof.
  intros Hw H1 Hv.
  assert (L : forall l, (forall k, In k l -> (k < n)%nat) -> a * Rsum (map w l) <= Rsum (map (fun k => w k * v k) l) <= b * Rsum (map w l)).
  { induction l as [|k l IH]; intros Hl; cbn [map Rsum]; [lra|]. specialize (IH (fun k H => Hl k (or_intror H))). pose proof (Hv k (Hl k (or_introl eq_refl))) as Hk. pose proof (Hw k). nra. }
  pose proof (L (seq 0 n) (fun k Hk => proj2 (proj1 (in_seq n 0 k) Hk))) as HL. rewrite H1 in HL. lra.
Qed.
Section interp.
  Variables (q rate : nat) (m : mask) (random : bool).
  Hypothesis Hr : (1 <= rate)%nat.
  Hypothesis Hsplit : splits_image (q * rate * (q * rate)) m.
  Hypothesis Hblocks : shows_blocks q rate random m.
  Variable img : list (list R).
  Hypothesis Himg : image_shape (q * rate) (q * rate) img.
  Let y0 := snd (unpack 0 img m).
  Let w := (q * rate)%nat.

  Lemma interp_length : List.length (interp_x0_sampler w rate y0 m) = List.length (unobs_inds m).
  Proof using. clear. unfold interp_x0_sampler, unpack. cbn [fst]. unfold gather. apply map_length. Qed.
  (** entry t of the start is the interpolated value of the pixel with index u *)
  Lemma interp_entry t : (t < List.length (unobs_inds m))%nat -> let u := nth t (unobs_inds m) 0%nat in (u / w < w)%nat /\ (u mod w < w)%nat /\
    nth t (interp_x0_sampler w rate y0 m) 0 = nth (u mod w) (nth (u / w) (upsample rate q (low_res_image w rate y0)) []) 0.
  Proof using Hr Hsplit.
    intros Ht u. assert (Hu : (u < w * w)%nat).
    { assert (Hin : In u (unobs_inds m ++ obs_inds m)) by (apply in_or_app; left; now apply nth_In). apply (Permutation.Permutation_in _ Hsplit) in Hin. apply in_seq in Hin. unfold w. lia. }
    assert (Hw : (w <> 0)%nat) by (intros E; rewrite E in Hu; lia). assert (U1 : (u / w < w)%nat) by (apply Nat.div_lt_upper_bound; lia). assert (U2 : (u mod w < w)%nat) by now apply Nat.mod_upper_bound.
    split; [exact U1|]. split; [exact U2|]. unfold interp_x0_sampler. assert (Eq : (w / rate = q)%nat) by (unfold w; apply Nat.div_mul; lia). rewrite Eq. unfold unpack. cbn [fst]. unfold gather.
    set (U := upsample rate q (low_res_image w rate y0)). rewrite (nth_indep _ 0 (nth 0 (ravel_image U) 0)) by now rewrite map_length. rewrite (map_nth (fun i => nth i (ravel_image U) 0)). fold u.
    destruct (upsample_shape rate q (low_res_image w rate y0)) as [L1 L2]. fold U w in L1, L2. rewrite <- (nth_concat 0 w U (u / w) (u mod w)); [|exact L2|rewrite L1; exact U1|exact U2].
    unfold ravel_image. f_equal. pose proof (Nat.div_mod u w Hw). lia.
  Qed.
  Lemma interp_range a b : (forall i j, (i < w)%nat -> (j < w)%nat -> a <= nth j (nth i img []) 0 <= b) -> Forall (fun v => a <= v <= b) (interp_x0_sampler w rate y0 m).
  Proof using Hr Hsplit Hblocks Himg.
    intros Hab. apply Forall_forall. intros v Hv. apply (In_nth _ _ 0) in Hv as (t & Ht & <-). rewrite interp_length in Ht. destruct (interp_entry t Ht) as (U1 & U2 & ->). set (u := nth t (unobs_inds m) 0%nat) in *.
    rewrite nth_upsample by assumption. destruct (lin_weight_avg rate q (u / w) Hr U1) as [A1 A2]. destruct (lin_weight_avg rate q (u mod w) Hr U2) as [B1 B2]. destruct Hblocks as (shift & S1 & S2).
    apply average_between; [exact A1|exact A2|]. intros k Hk. apply average_between; [exact B1|exact B2|]. intros l Hl. unfold y0, w. rewrite (S2 R 0 img Himg k l Hk Hl). destruct (S1 k l Hk Hl) as (T1 & T2 & _). apply Hab; now apply in_block.
  Qed.
  Hypothesis Hfixed : random = false.
  (** half a pixel for even rates *)
  Definition interp_shift : R := if Nat.even rate then / 2 else 0.
  Definition inside (o : nat) : Prop := (rate <= 2 * o + 1)%nat /\ (2 * o + 1 <= rate * (2 * q - 1))%nat.
  Lemma shift_value o : ((INR o + / 2) / INR rate - / 2) * INR rate + INR (rate / 2) = INR o + interp_shift.
  Proof using Hr.
    clear - Hr.
    assert (0 < INR rate) by (apply lt_0_INR; lia). replace (((INR o + / 2) / INR rate - / 2) * INR rate) with (INR o + / 2 - INR rate / 2) by (field; lra).
    unfold interp_shift. destruct (Nat.even rate) eqn:Ev.
    - apply Nat.even_spec in Ev as [h Eh]. rewrite Eh. replace (2 * h / 2)%nat with h by (rewrite Nat.mul_comm, Nat.div_mul; lia). rewrite mult_INR. cbn [INR]. field.
    - assert (Od : Nat.odd rate = true) by (unfold Nat.odd; now rewrite Ev). apply Nat.odd_spec in Od as [h Eh]. rewrite Eh. replace ((2 * h + 1) / 2)%nat with h by (rewrite Nat.mul_comm, Nat.div_add_l by lia; cbn; lia). rewrite plus_INR, mult_INR. cbn [INR]. field.
  Qed.
  Lemma interp_affine al be ga : (forall i j, (i < w)%nat -> (j < w)%nat -> nth j (nth i img []) 0 = al + be * INR i + ga * INR j) ->
    forall t, (t < List.length (unobs_inds m))%nat -> let u := nth t (unobs_inds m) 0%nat in inside (u / w) -> inside (u mod w) ->
    nth t (interp_x0_sampler w rate y0 m) 0 = al + be * (INR (u / w) + interp_shift) + ga * (INR (u mod w) + interp_shift).
  Proof using Hr Hsplit Hblocks Himg Hfixed.
    intros Haff t Ht u [I1 I2] [J1 J2]. destruct (interp_entry t Ht) as (U1 & U2 & ->). fold u in U1, U2 |- *. rewrite nth_upsample by assumption. destruct Hblocks as (shift & S1 & S2).
    set (h := (rate / 2)%nat). set (s2 := (INR (u mod w) + / 2) / INR rate - / 2). set (s1 := (INR (u / w) + / 2) / INR rate - / 2).
    rewrite (Rsum_map_ext _ (fun k => lin_weight rate q (u / w) k * ((al + be * INR h + ga * INR h + ga * INR rate * s2) + be * INR rate * INR k))).
    - rewrite (lin_weight_affine rate q (u / w) Hr U1 I1 I2). fold s1. rewrite <- (shift_value (u / w)), <- (shift_value (u mod w)). fold s1 s2 h. ring.
    - intros k Hk. apply in_seq in Hk. f_equal.
      rewrite (Rsum_map_ext _ (fun l => lin_weight rate q (u mod w) l * ((al + be * INR h + ga * INR h + be * INR rate * INR k) + ga * INR rate * INR l))).
      + rewrite (lin_weight_affine rate q (u mod w) Hr U2 J1 J2). fold s2. ring.
      + intros l Hl. apply in_seq in Hl. unfold y0, w. rewrite (S2 R 0 img Himg k l) by lia. fold w. destruct (S1 k l) as (T1 & T2 & T3); [lia|lia|]. rewrite (T3 Hfixed) in *. cbn [fst snd] in *. fold h in T1, T2 |- *.
        rewrite Haff by (unfold w; apply in_block; lia). rewrite !plus_INR, !mult_INR. ring.
  Qed.
End interp.

(** the start only depends on the observation; its values lie in every interval containing the observed ones *)
Lemma interp_range_obs q rate m y a b : (1 <= rate)%nat -> splits_image (q * rate * (q * rate)) m -> List.length y = (q * q)%nat -> Forall (fun v => a <= v <= b) y ->
  Forall (fun v => a <= v <= b) (interp_x0_sampler (q * rate) rate y m).
Proof.
  intros Hr Hs Hl Hy. set (w := (q * rate)%nat) in *. apply Forall_forall. intros v Hv. apply (In_nth _ _ 0) in Hv as (t & Ht & <-).
  assert (Et : List.length (interp_x0_sampler w rate y m) = List.length (unobs_inds m)) by (unfold interp_x0_sampler, unpack; cbn [fst]; apply map_length). rewrite Et in Ht.
  assert (Hu : (nth t (unobs_inds m) 0 < w * w)%nat).
  { assert (Hin : In (nth t (unobs_inds m) 0%nat) (unobs_inds m ++ obs_inds m)) by (apply in_or_app; left; now apply nth_In). apply (Permutation.Permutation_in _ Hs) in Hin. apply in_seq in Hin. lia. }
  set (u := nth t (unobs_inds m) 0%nat) in *. assert (Hw : (w <> 0)%nat) by (intros E; rewrite E in Hu; lia).
  assert (U1 : (u / w < w)%nat) by (apply Nat.div_lt_upper_bound; lia). assert (U2 : (u mod w < w)%nat) by now apply Nat.mod_upper_bound.
  assert (Eq : (w / rate = q)%nat) by (unfold w; apply Nat.div_mul; lia).
  assert (En : nth t (interp_x0_sampler w rate y m) 0 = nth (u mod w) (nth (u / w) (upsample rate q (low_res_image w rate y)) []) 0).
  { unfold interp_x0_sampler. rewrite Eq. unfold unpack. cbn [fst]. unfold gather. set (U := upsample rate q (low_res_image w rate y)). rewrite (nth_indep _ 0 (nth 0 (ravel_image U) 0)) by now rewrite map_length.
    rewrite (map_nth (fun i => nth i (ravel_image U) 0)). fold u. destruct (upsample_shape rate q (low_res_image w rate y)) as [L1 L2]. fold U w in L1, L2.
    rewrite <- (nth_concat 0 w U (u / w) (u mod w)); [|exact L2|rewrite L1; exact U1|exact U2]. unfold ravel_image. f_equal. pose proof (Nat.div_mod u w Hw). lia. }
  rewrite En, nth_upsample by assumption. destruct (lin_weight_avg rate q (u / w) Hr U1) as [A1 A2]. destruct (lin_weight_avg rate q (u mod w) Hr U2) as [B1 B2].
  apply average_between; [exact A1|exact A2|]. intros k Hk. apply average_between; [exact B1|exact B2|]. intros l Hl'. unfold low_res_image. rewrite Eq. rewrite nth_unravel by assumption.
  rewrite Forall_forall in Hy. apply Hy. apply nth_In. rewrite Hl. assert (S k * q <= q * q)%nat by (apply Nat.mul_le_mono_r; lia). lia.
Qed.

(** for odd rates the interpolation passes through the low-resolution image *)
Lemma upsample_nodes q h x i j : (i < q)%nat -> (j < q)%nat -> let r := (2 * h + 1)%nat in
  nth (j * r + h) (nth (i * r + h) (upsample r q x) []) 0 = nth j (nth i x []) 0.
Proof.
  intros Hi Hj r. assert (Hr : (1 <= r)%nat) by (unfold r; lia).
  assert (Hnode : forall i, (i < q)%nat -> forall v, Rsum (map (fun k => lin_weight r q (i * r + h) k * v k) (seq 0 q)) = v i).
  { intros i' Hi' v. assert (B : (i' * r + h < q * r)%nat) by (apply in_block; unfold r; lia).
    assert (L1 : (r <= 2 * (i' * r + h) + 1)%nat) by (unfold r; lia). assert (L2 : (2 * (i' * r + h) + 1 <= r * (2 * q - 1))%nat) by (replace (2 * (i' * r + h) + 1)%nat with (r * (2 * i' + 1))%nat by (unfold r; lia); apply Nat.mul_le_mono_l; lia).
    assert (E : (2 * (i' * r + h) + 1 - r = i' * (2 * r))%nat) by (unfold r; lia).
    rewrite (lin_weight_node r q (i' * r + h) Hr B L1 L2 v).
    - rewrite E, Nat.div_mul by lia. reflexivity.
    - rewrite E, Nat.mod_mul by lia. cbn [INR]. unfold Rdiv. ring. }
  rewrite nth_upsample by (apply in_block; unfold r; lia). rewrite (Hnode i Hi (fun k => Rsum (map (fun l => lin_weight r q (j * r + h) l * nth l (nth k x []) 0) (seq 0 q)))). exact (Hnode j Hj (fun l => nth l (nth i x []) 0)).
Qed.

(** ** Statements over the generated masks *)
(** pixels between the centres of the outermost blocks *)
Definition in_hull (q rate o : nat) : Prop := (rate <= 2 * o + 1)%nat /\ (2 * o + 1 <= rate * (2 * q - 1))%nat.
Definition ramp (w : nat) (al be ga : R) : list (list R) := map (fun i => map (fun j => al + be * INR i + ga * INR j) (seq 0 w)) (seq 0 w).
Lemma ramp_shape w al be ga : image_shape w w (ramp w al be ga).
Proof. unfold image_shape, ramp. rewrite map_length, seq_length. split; [reflexivity|]. apply Forall_forall. intros l Hl. apply in_map_iff in Hl as (o & <- & _). now rewrite map_length, seq_length. Qed.
Lemma nth_ramp w al be ga i j : (i < w)%nat -> (j < w)%nat -> nth j (nth i (ramp w al be ga) []) 0 = al + be * INR i + ga * INR j.
Proof.
  intros Hi Hj. unfold ramp. set (g := fun i j => al + be * INR i + ga * INR j). rewrite (nth_indep _ [] (map (g 0%nat) (seq 0 w))) by now rewrite map_length, seq_length. rewrite (map_nth (fun i => map (g i) (seq 0 w))), seq_nth by exact Hi.
  rewrite (nth_indep _ 0 (g i 0%nat)) by now rewrite map_length, seq_length. rewrite (map_nth (g i)), seq_nth by exact Hj. reflexivity.
Qed.
Lemma supr_both k task q rate random : supr_task task rate -> (1 <= rate)%nat -> (1 <= q)%nat ->
  safe (gen_mask k task (q * rate) (q * rate) random) (fun om => exists m, om = Some m /\ splits_image (q * rate * (q * rate)) m /\ shows_blocks q rate random m).
Proof.
  intros Ht Hr Hq. pose proof (low_res_blocks k task q rate random Ht Hr Hq) as H1. pose proof (gen_supr_ok k task q q rate random Ht Hr Hq Hq) as H2.
  revert H1 H2. intros H1 H2. eapply safe_weaken; [|exact (safe_and _ _ _ H1 H2)]. intros om [(m & -> & B) (m' & E & S & _)]. injection E as <-. exists m. auto.
Qed.
Theorem interp_range_safe k task q rate random : supr_task task rate -> (1 <= rate)%nat -> (1 <= q)%nat ->
  safe (gen_mask k task (q * rate) (q * rate) random) (fun om => exists m, om = Some m /\ forall y a b, List.length y = (q * q)%nat -> Forall (fun v => a <= v <= b) y ->
    List.length (interp_x0_sampler (q * rate) rate y m) = List.length (unobs_inds m) /\ Forall (fun v => a <= v <= b) (interp_x0_sampler (q * rate) rate y m)).
Proof.
  intros Ht Hr Hq. eapply safe_weaken; [|exact (supr_both k task q rate random Ht Hr Hq)]. intros om (m & -> & S & _). exists m. split; [reflexivity|]. intros y a b Hl Hy. split; [unfold interp_x0_sampler, unpack; cbn [fst]; unfold gather; now rewrite map_length|]. now apply interp_range_obs.
Qed.
Theorem interp_ramp_safe k task q rate : supr_task task rate -> (1 <= rate)%nat -> (1 <= q)%nat ->
  safe (gen_mask k task (q * rate) (q * rate) false) (fun om => exists m, om = Some m /\ forall al be ga t, (t < List.length (unobs_inds m))%nat ->
    forall o1 o2, (o2 < q * rate)%nat -> nth t (unobs_inds m) 0%nat = (o1 * (q * rate) + o2)%nat -> in_hull q rate o1 -> in_hull q rate o2 ->
    nth t (interp_x0_sampler (q * rate) rate (snd (unpack 0 (ramp (q * rate) al be ga) m)) m) 0 =
    al + be * (INR o1 + if Nat.even rate then / 2 else 0) + ga * (INR o2 + if Nat.even rate then / 2 else 0)).
Proof.
  intros Ht Hr Hq. eapply safe_weaken; [|exact (supr_both k task q rate false Ht Hr Hq)]. intros om (m & -> & S & B). exists m. split; [reflexivity|]. intros al be ga t Hlt o1 o2 Ho E I1 I2.
  pose proof (interp_affine q rate m false Hr S B (ramp (q * rate) al be ga) (ramp_shape _ _ _ _) eq_refl al be ga (nth_ramp _ _ _ _) t Hlt) as H. cbv zeta in H. rewrite E in H.
  assert (D1 : ((o1 * (q * rate) + o2) / (q * rate) = o1)%nat) by (rewrite Nat.div_add_l by lia; rewrite Nat.div_small by exact Ho; lia).
  assert (D2 : ((o1 * (q * rate) + o2) mod (q * rate) = o2)%nat) by (rewrite Nat.add_comm, Nat.mod_add by lia; now apply Nat.mod_small).
  rewrite D1, D2 in H. exact (H I1 I2).
Qed.

(** for odd rates and the fixed mask the interpolated image keeps the observed pixels *)
Theorem interp_keeps_safe k task q h : supr_task task (2 * h + 1) -> (1 <= q)%nat -> let rate := (2 * h + 1)%nat in
  safe (gen_mask k task (q * rate) (q * rate) false) (fun om => exists m, om = Some m /\ forall img, image_shape (q * rate) (q * rate) img ->
    forall i j, (i < q)%nat -> (j < q)%nat ->
    nth (j * rate + h) (nth (i * rate + h) (upsample rate q (low_res_image (q * rate) rate (snd (unpack 0 img m)))) []) 0 = nth (j * rate + h) (nth (i * rate + h) img []) 0).
Proof.
  intros Ht Hq rate. assert (Hr : (1 <= rate)%nat) by (unfold rate; lia). eapply safe_weaken; [|exact (supr_both k task q rate false Ht Hr Hq)].
  intros om (m & -> & S & B). exists m. split; [reflexivity|]. intros img Himg i j Hi Hj. destruct B as (shift & S1 & S2). unfold rate at 1 2. rewrite (upsample_nodes q h _ i j Hi Hj). fold rate. rewrite (S2 R 0 img Himg i j Hi Hj).
  destruct (S1 i j Hi Hj) as (_ & _ & E). rewrite (E eq_refl). cbn [fst snd]. assert (E2 : (rate / 2 = h)%nat) by (unfold rate; rewrite Nat.mul_comm, Nat.div_add_l by lia; cbn; lia). now rewrite E2.
Qed.

(** ** The default of the script: rate 4, 28 x 28 *)
Lemma default_mask k : exists m, runs (gen_mask k "supr-4" 28 28 false) [] (Some m) /\ (382 < List.length (unobs_inds m))%nat /\ nth 382 (unobs_inds m) 0%nat = (14 * 28 + 15)%nat.
Proof.
  assert (H : match gen_mask k "supr-4" 28 28 false with Ret (Some m) => Nat.ltb 382 (List.length (unobs_inds m)) && Nat.eqb (nth 382 (unobs_inds m) 0%nat) (14 * 28 + 15) | _ => false end = true) by (vm_compute; reflexivity).
  destruct (gen_mask k "supr-4" 28 28 false) as [[m|]| | |]; try discriminate H. exists m. apply andb_prop in H as [H1 H2]. apply Nat.ltb_lt in H1. apply Nat.eqb_eq in H2. split; [split; reflexivity|]. split; assumption.
Qed.
Lemma supr4_task : supr_task "supr-4" 4.
Proof. repeat split. Qed.
Theorem default_off_by_half k : exists m, runs (gen_mask k "supr-4" 28 28 false) [] (Some m) /\ (382 < List.length (unobs_inds m))%nat /\ nth 382 (unobs_inds m) 0%nat = (14 * 28 + 15)%nat /\
  let img := ramp 28 0 0 1 in nth 15 (nth 14 img []) 0 = 15 /\ nth 382 (fst (unpack 0 img m)) 0 = 15 /\ nth 382 (interp_x0_sampler 28 4 (snd (unpack 0 img m)) m) 0 = 15 + / 2.
Proof.
  destruct (default_mask k) as (m & Hm & H1 & H2). exists m. split; [exact Hm|]. split; [exact H1|]. split; [exact H2|]. cbv zeta.
  assert (E : nth 15 (nth 14 (ramp 28 0 0 1) []) 0 = 15) by (rewrite nth_ramp by lia; rewrite (INR_IZR_INZ 15); cbn [Z.of_nat Pos.of_succ_nat Pos.succ]; ring). split; [exact E|]. split.
  - unfold unpack. cbn [fst]. unfold gather. rewrite (nth_indep _ 0 (nth 0 (ravel_image (ramp 28 0 0 1)) 0)) by (rewrite map_length; exact H1). rewrite (map_nth (fun i => nth i (ravel_image (ramp 28 0 0 1)) 0)), H2.
    unfold ravel_image. destruct (ramp_shape 28 0 0 1) as [L1 L2]. rewrite (nth_concat 0 28 (ramp 28 0 0 1) 14 15); [exact E|exact L2|rewrite L1; lia|lia].
  - pose proof (interp_ramp_safe k "supr-4" 7 4 supr4_task ltac:(lia) ltac:(lia)) as S. change (7 * 4)%nat with 28%nat in S. destruct (S _ _ Hm) as (m' & Em & H). injection Em as <-.
    rewrite (H 0 0 1 382%nat H1 14%nat 15%nat); [|lia|exact H2|unfold in_hull; lia|unfold in_hull; lia]. cbn [Nat.even]. rewrite !INR_IZR_INZ. cbn [Z.of_nat Pos.of_succ_nat Pos.succ]. ring.
Qed.
