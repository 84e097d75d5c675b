(** Model of the autocorrelation figures: experiments/tabulators/plot_autocorrs_toy.py, plot_autocorrs_imgs.py.

    The autocorrelation itself is [numpyro.diagnostics.autocorrelation] (numpyro 0.14): the series is centred, padded with zeros
    to an even length at least twice its own, correlated with itself by the discrete Fourier transform (here: the circular
    correlation it computes), cut to its first N lags and divided by lag 0.  [bias = false] divides lag k by N - k first; the
    scripts use the default [bias = true].  A NaN is [None]. *)
From Verif Require Import Base Dist Mat CondResamplingProofs.
Open Scope R_scope.

(** a series of [n] numbers *)
Definition series := nat -> R.
Definition smean (n : nat) (x : series) : R := Rsum (map x (seq 0 n)) / INR n.
Definition padded (n : nat) (x : series) : series := fun i => if Nat.ltb i n then x i - smean n x else 0.
(** irfft(rfft(x) * conj(rfft(x))) of length m *)
Definition circular (m : nat) (x : series) (k : nat) : R := Rsum (map (fun i => x i * x ((i + k) mod m)%nat) (seq 0 m)).
Definition fast_len_ok (n m : nat) : Prop := (n <= m)%nat.
Definition autocov (n m : nat) (x : series) (k : nat) : R := circular (2 * m) (padded n x) k.
Definition weight (bias : bool) (n k : nat) : R := if bias then 1 else / INR (n - k).
Definition autocorrelation (bias : bool) (n m : nat) (x : series) (k : nat) : option R :=
  if Req_EM_T (autocov n m x 0) 0 then None
  else Some (weight bias n k * autocov n m x k / (weight bias n 0 * autocov n m x 0)).

(** [np.mean] and [np.max] with NaNs *)
Fixpoint all_some (l : list (option R)) : option (list R) :=
  match l with
  | [] => Some []
  | Some a :: l' => match all_some l' with Some r => Some (a :: r) | None => None end
  | None :: _ => None
  end.
Definition omean (l : list (option R)) : option R := match all_some l with Some r => Some (Rmean r) | None => None end.
Definition Rmax_list (l : list R) : R := match l with [] => 0 | a :: l' => fold_left Rmax l' a end.
Definition Rmin_list (l : list R) : R := match l with [] => 0 | a :: l' => fold_left Rmin l' a end.
Definition omax (l : list (option R)) : option R := match all_some l with Some r => Some (Rmax_list r) | None => None end.
(** [np.nanmin] *)
Definition drop_nan (l : list (option R)) : list R := flat_map (fun o => match o with Some a => [a] | None => [] end) l.
Definition onanmin (l : list (option R)) : option R := match drop_nan l with [] => None | r => Some (Rmin_list r) end.

(** a chain: [chain i j] is variable [j] of sample [i] *)
Definition chain := nat -> nat -> R.
Definition variable (c : chain) (j : nat) : series := fun i => c i j.
(** plot_autocorrs_toy.py:42-43, 57-59: mean over the chains of a run, maximum over the [d] variables *)
Definition toy_run_ac (n m d : nat) (chains : list chain) (k : nat) : option R :=
  omax (map (fun j => omean (map (fun c => autocorrelation true n m (variable c j) k) chains)) (seq 0 d)).
(** plot_autocorrs_toy.py:61: mean over the runs *)
Definition toy_curve (n m d : nat) (runs : list (list chain)) (k : nat) : option R := omean (map (fun r => toy_run_ac n m d r k) runs).
(** plot_autocorrs_imgs.py:16-19 [ac_fn]: negative values set to zero, NaNs kept *)
Definition ac_fn (n m : nat) (x : series) (k : nat) : option R :=
  match autocorrelation true n m x k with Some a => Some (if Rlt_dec a 0 then 0 else a) | None => None end.
(** plot_autocorrs_imgs.py:59 *)
Definition img_run_ac (n m d : nat) (c : chain) (k : nat) : option R := onanmin (map (fun j => ac_fn n m (variable c j) k) (seq 0 d)).
(** plot_autocorrs_imgs.py:62 *)
Definition img_curve (n m d : nat) (runs : list chain) (k : nat) : option R := omean (map (fun c => img_run_ac n m d c k) runs).

(** ** The autocovariance *)
(** by its textbook formula *)
Definition lagged (n : nat) (z : series) (k : nat) : R := Rsum (map (fun i => z i * z (i + k)%nat) (seq 0 (n - k))).
Definition centred (n : nat) (x : series) : series := fun i => x i - smean n x.
Definition spread2 (n : nat) (x : series) : R := Rsum (map (fun i => centred n x i * centred n x i) (seq 0 n)).

Lemma Rsum_zero {A} (f : A -> R) l : (forall a, In a l -> f a = 0) -> Rsum (map f l) = 0.
Proof. intros H. rewrite (Rsum_map_ext f (fun _ => 0)) by assumption. rewrite Rsum_map_const. ring. Qed.
Lemma seq_last (f : nat -> R) d : Rsum (map f (seq 0 (S d))) = Rsum (map f (seq 0 d)) + f d.
Proof. rewrite seq_S, map_app, Rsum_app. cbn. ring. Qed.
Lemma autocov_lagged n m x k : fast_len_ok n m -> (k < n)%nat -> autocov n m x k = lagged n (centred n x) k.
Proof.
  unfold fast_len_ok. intros Hm Hk. unfold autocov, circular, lagged. replace (seq 0 (2 * m)) with (seq 0 (n - k) ++ seq (n - k) (2 * m - (n - k))) by (rewrite <- seq_app; f_equal; lia).
  rewrite map_app, Rsum_app. rewrite (Rsum_zero _ (seq (n - k) _)).
  - rewrite Rplus_0_r. apply Rsum_map_ext. intros i Hi. apply in_seq in Hi. rewrite Nat.mod_small by lia. unfold padded, centred.
    destruct (Nat.ltb_spec i n); [|lia]. destruct (Nat.ltb_spec (i + k) n); [reflexivity|lia].
  - intros i Hi. apply in_seq in Hi. unfold padded. destruct (Nat.ltb_spec i n); [|ring]. rewrite Nat.mod_small by lia. destruct (Nat.ltb_spec (i + k) n); [lia|ring].
Qed.
Lemma lagged_0 n x : lagged n (centred n x) 0 = spread2 n x.
Proof. unfold lagged, spread2. rewrite Nat.sub_0_r. apply Rsum_map_ext. intros i _. now rewrite Nat.add_0_r. Qed.
Lemma spread2_nonneg n x : 0 <= spread2 n x.
Proof. apply Rsum_nonneg, Forall_map, Forall_forall. intros i _. apply Rle_0_sqr. Qed.
Lemma smean_ext n x y : (forall i, (i < n)%nat -> x i = y i) -> smean n x = smean n y.
Proof. intros H. unfold smean. f_equal. apply Rsum_map_ext. intros i Hi. apply in_seq in Hi. apply H. lia. Qed.
Lemma spread2_zero n x : (0 < n)%nat -> (spread2 n x = 0 <-> forall i j, (i < n)%nat -> (j < n)%nat -> x i = x j).
Proof.
  intros Hn. split.
  - intros H. assert (Z : forall i, (i < n)%nat -> x i = smean n x).
    { intros i Hi. assert (P : 0 <= centred n x i * centred n x i) by apply Rle_0_sqr.
      assert (L : centred n x i * centred n x i <= spread2 n x).
      { apply Rsum_In_le; [apply Forall_map, Forall_forall; intros j _; apply Rle_0_sqr|]. apply (in_map (fun i => centred n x i * centred n x i)). apply in_seq. lia. }
      assert (Q : centred n x i * centred n x i = 0) by lra. unfold centred in Q. apply Rmult_integral in Q. lra. }
    intros i j Hi Hj. rewrite (Z i Hi), (Z j Hj). reflexivity.
  - intros H. assert (M : smean n x = x 0%nat).
    { rewrite (smean_ext n x (fun _ => x 0%nat)) by (intros i Hi; apply H; lia). unfold smean. rewrite Rsum_map_const, seq_length. assert (INR n <> 0) by (apply not_0_INR; lia). field. assumption. }
    unfold spread2. apply Rsum_zero. intros i Hi. apply in_seq in Hi. unfold centred. rewrite M, (H i 0%nat) by lia. ring.
Qed.
(** the value in closed form; NaN exactly for a constant series *)
Lemma ac_value n m x k : fast_len_ok n m -> (k < n)%nat -> spread2 n x <> 0 -> autocorrelation true n m x k = Some (lagged n (centred n x) k / spread2 n x).
Proof.
  intros Hm Hk Hs. unfold autocorrelation. rewrite (autocov_lagged n m x 0) by (auto; lia). rewrite lagged_0. destruct (Req_EM_T (spread2 n x) 0); [contradiction|].
  rewrite autocov_lagged by assumption. cbn [weight]. now rewrite !Rmult_1_l.
Qed.
Lemma ac_none b n m x k : fast_len_ok n m -> (0 < n)%nat -> (autocorrelation b n m x k = None <-> spread2 n x = 0).
Proof.
  intros Hm Hn. unfold autocorrelation. rewrite (autocov_lagged n m x 0) by (auto; lia). rewrite lagged_0. destruct (Req_EM_T (spread2 n x) 0); split; intros; congruence.
Qed.
(** the other version *)
Lemma ac_value_unbiased n m x k : fast_len_ok n m -> (k < n)%nat -> spread2 n x <> 0 ->
  autocorrelation false n m x k = Some (INR n / INR (n - k) * (lagged n (centred n x) k / spread2 n x)).
Proof.
  intros Hm Hk Hs. unfold autocorrelation. rewrite (autocov_lagged n m x 0) by (auto; lia). rewrite lagged_0. destruct (Req_EM_T (spread2 n x) 0); [contradiction|].
  rewrite autocov_lagged by assumption. cbn [weight]. rewrite Nat.sub_0_r. f_equal. assert (INR n <> 0) by (apply not_0_INR; lia). assert (INR (n - k) <> 0) by (apply not_0_INR; lia). field. auto.
Qed.

Lemma centred_sum n x : (0 < n)%nat -> Rsum (map (centred n x) (seq 0 n)) = 0.
Proof.
  intros Hn. unfold centred. rewrite (Rsum_map_ext _ (fun i => x i + - smean n x)) by (intros; ring). rewrite Rsum_map_plus, Rsum_map_const, seq_length. unfold smean.
  assert (INR n <> 0) by (apply not_0_INR; lia). field. assumption.
Qed.
(** all lags together *)
Lemma lagged_sum n (z : series) : Rsum (map z (seq 0 n)) * Rsum (map z (seq 0 n)) =
  Rsum (map (fun i => z i * z i) (seq 0 n)) + 2 * Rsum (map (lagged n z) (seq 1 (n - 1))).
Proof.
  induction n as [|n IH]; [cbn; ring|]. rewrite !seq_last. replace (S n - 1)%nat with n by lia.
  assert (St : Rsum (map (lagged (S n) z) (seq 1 n)) = Rsum (map (lagged n z) (seq 1 (n - 1))) + z n * Rsum (map z (seq 0 n))).
  { rewrite (Rsum_map_ext (lagged (S n) z) (fun k => lagged n z k + z (n - k)%nat * z n)).
    - rewrite Rsum_map_plus. f_equal.
      + destruct n as [|n]; [reflexivity|]. replace (S n - 1)%nat with n by lia. rewrite seq_S, map_app, Rsum_app. cbn [map Rsum]. unfold lagged at 2. replace (S n - (1 + n))%nat with 0%nat by lia. cbn. ring.
      + rewrite Rsum_map_mult_r, Rmult_comm. f_equal. transitivity (Rsum (map (fun i => z (n - 1 - i)%nat) (seq 0 n))).
        * rewrite <- seq_shift, map_map. apply Rsum_map_ext. intros i Hi. f_equal. lia.
        * apply (Rsum_reindex z (fun i => n - 1 - i)%nat n); intros; lia.
    - intros k Hk. apply in_seq in Hk. unfold lagged. replace (S n - k)%nat with (S (n - k)) by lia. rewrite seq_last. do 2 f_equal. f_equal. lia. }
  rewrite St. lra.
Qed.
Lemma lagged_total n x : (0 < n)%nat -> Rsum (map (lagged n (centred n x)) (seq 1 (n - 1))) = - (spread2 n x) / 2.
Proof. intros Hn. assert (H := lagged_sum n (centred n x)). rewrite centred_sum in H by assumption. fold (spread2 n x) in H. lra. Qed.
Lemma lagged_bound n (z : series) k : (k <= n)%nat -> Rabs (lagged n z k) <= Rsum (map (fun i => z i * z i) (seq 0 n)).
Proof.
  intros Hk. set (S := Rsum (map (fun i => z i * z i) (seq 0 n))).
  assert (L1 : Rsum (map (fun i => z i * z i) (seq 0 (n - k))) <= S).
  { unfold S. replace (seq 0 n) with (seq 0 (n - k) ++ seq (n - k) k) by (rewrite <- seq_app; f_equal; lia). rewrite map_app, Rsum_app.
    assert (0 <= Rsum (map (fun i => z i * z i) (seq (n - k) k))) by (apply Rsum_nonneg, Forall_map, Forall_forall; intros; apply Rle_0_sqr). lra. }
  assert (L2 : Rsum (map (fun i => z (i + k)%nat * z (i + k)%nat) (seq 0 (n - k))) <= S).
  { unfold S. replace (seq 0 n) with (seq 0 k ++ seq k (n - k)) by (rewrite <- seq_app; f_equal; lia). rewrite map_app, Rsum_app.
    assert (0 <= Rsum (map (fun i => z i * z i) (seq 0 k))) by (apply Rsum_nonneg, Forall_map, Forall_forall; intros; apply Rle_0_sqr).
    replace (Rsum (map (fun i => z i * z i) (seq k (n - k)))) with (Rsum (map (fun i => z (i + k)%nat * z (i + k)%nat) (seq 0 (n - k)))); [lra|].
    generalize (n - k)%nat as q. intros q. clear. rewrite <- (map_map (fun i => i + k)%nat (fun i => z i * z i)). f_equal. f_equal.
    revert k. induction q as [|q IH]; intros k; [reflexivity|]. rewrite !seq_S, map_app, IH. cbn. do 2 f_equal. lia. }
  unfold lagged. apply Rabs_le. split.
  - assert (H : 0 <= Rsum (map (fun i => (z i + z (i + k)%nat) * (z i + z (i + k)%nat)) (seq 0 (n - k)))) by (apply Rsum_nonneg, Forall_map, Forall_forall; intros; apply Rle_0_sqr).
    rewrite (Rsum_map_ext _ (fun i => z i * z i + (z (i + k)%nat * z (i + k)%nat + 2 * (z i * z (i + k)%nat)))) in H by (intros; ring). rewrite !Rsum_map_plus, Rsum_map_mult_l in H. lra.
  - assert (H : 0 <= Rsum (map (fun i => (z i - z (i + k)%nat) * (z i - z (i + k)%nat)) (seq 0 (n - k)))) by (apply Rsum_nonneg, Forall_map, Forall_forall; intros; apply Rle_0_sqr).
    rewrite (Rsum_map_ext _ (fun i => z i * z i + (z (i + k)%nat * z (i + k)%nat + - 2 * (z i * z (i + k)%nat)))) in H by (intros; ring). rewrite !Rsum_map_plus, Rsum_map_mult_l in H. lra.
Qed.
Lemma ac_bound n m x k a : fast_len_ok n m -> (k < n)%nat -> autocorrelation true n m x k = Some a -> -1 <= a <= 1.
Proof.
  intros Hm Hk H. assert (Hs : spread2 n x <> 0) by (intros Z; apply (ac_none true n m x k Hm ltac:(lia)) in Z; congruence).
  rewrite ac_value in H by assumption. injection H as <-. assert (P := spread2_nonneg n x). assert (B := lagged_bound n (centred n x) k ltac:(lia)). fold (spread2 n x) in B.
  assert (B1 := Rle_abs (lagged n (centred n x) k)). assert (B2 := Rle_abs (- lagged n (centred n x) k)). rewrite Rabs_Ropp in B2. assert (0 < spread2 n x) by lra. split.
  - apply (Rmult_le_reg_r (spread2 n x)); [assumption|]. unfold Rdiv. rewrite Rmult_assoc, Rinv_l by lra. lra.
  - apply (Rmult_le_reg_r (spread2 n x)); [assumption|]. unfold Rdiv. rewrite Rmult_assoc, Rinv_l by lra. lra.
Qed.
Lemma ac_zero n m x : fast_len_ok n m -> (0 < n)%nat -> spread2 n x <> 0 -> autocorrelation true n m x 0 = Some 1.
Proof. intros Hm Hn Hs. rewrite ac_value by auto. rewrite lagged_0. f_equal. field. assumption. Qed.
Lemma centred_affine n x a b i : (0 < n)%nat -> centred n (fun i => a * x i + b) i = a * centred n x i.
Proof.
  intros Hn. unfold centred, smean. rewrite Rsum_map_plus, Rsum_map_mult_l, Rsum_map_const, seq_length. assert (INR n <> 0) by (apply not_0_INR; lia). field. assumption.
Qed.
Lemma ac_affine n m x a b k : fast_len_ok n m -> (k < n)%nat -> a <> 0 -> autocorrelation true n m (fun i => a * x i + b) k = autocorrelation true n m x k.
Proof.
  intros Hm Hk Ha. assert (S : spread2 n (fun i => a * x i + b) = a * a * spread2 n x).
  { unfold spread2. rewrite <- Rsum_map_mult_l. apply Rsum_map_ext. intros i _. rewrite centred_affine by lia. ring. }
  assert (L : lagged n (centred n (fun i => a * x i + b)) k = a * a * lagged n (centred n x) k).
  { unfold lagged. rewrite <- Rsum_map_mult_l. apply Rsum_map_ext. intros i _. rewrite !centred_affine by lia. ring. }
  destruct (Req_EM_T (spread2 n x) 0) as [Z|Z].
  - rewrite (proj2 (ac_none true n m x k Hm ltac:(lia)) Z). apply ac_none; [assumption|lia|]. rewrite S, Z. ring.
  - rewrite !ac_value; auto; [|rewrite S; intros H; apply Rmult_integral in H as [H|H]; [apply Rmult_integral in H; tauto|contradiction]]. f_equal. rewrite S, L. field. auto.
Qed.

(** ** What a perfect sampler shows *)
(** exchanging two samples *)
Definition swap (i j k : nat) : nat := if Nat.eqb k i then j else if Nat.eqb k j then i else k.
(** the samples are exchangeable (independent draws from one law are) *)
Definition exchangeable (n : nat) (D : dist series) : Prop :=
  forall i j, (i < n)%nat -> (j < n)%nat -> forall g : series -> R, E D g = E D (fun x => g (fun k => x (swap i j k))).
Lemma swap_inv i j k : swap i j (swap i j k) = k.
Proof.
  unfold swap. destruct (Nat.eqb_spec k i) as [ ->|H1].
  - destruct (Nat.eqb_spec j i) as [ ->|H2]; [reflexivity|]. now rewrite Nat.eqb_refl.
  - destruct (Nat.eqb_spec k j) as [ ->|H2]; [now rewrite Nat.eqb_refl|]. apply Nat.eqb_neq in H1, H2. now rewrite H1, H2.
Qed.
Lemma swap_lt i j n k : (i < n)%nat -> (j < n)%nat -> (k < n)%nat -> (swap i j k < n)%nat.
Proof. intros. unfold swap. destruct (Nat.eqb k i); [assumption|]. destruct (Nat.eqb k j); assumption. Qed.
Lemma Rsum_swap (f : nat -> R) i j n : (i < n)%nat -> (j < n)%nat -> Rsum (map (fun k => f (swap i j k)) (seq 0 n)) = Rsum (map f (seq 0 n)).
Proof. intros Hi Hj. apply Rsum_reindex; [intros; now apply swap_lt|]. intros a b _ _ H. rewrite <- (swap_inv i j a), <- (swap_inv i j b). now rewrite H. Qed.
(** normalised product of two centred samples *)
Definition rr (n : nat) (a b : nat) (x : series) : R := centred n x a * centred n x b / spread2 n x.
Lemma rr_swap n i j a b x : (i < n)%nat -> (j < n)%nat -> rr n a b (fun k => x (swap i j k)) = rr n (swap i j a) (swap i j b) x.
Proof.
  intros Hi Hj. assert (M : smean n (fun k => x (swap i j k)) = smean n x) by (unfold smean; f_equal; now apply Rsum_swap).
  assert (S : spread2 n (fun k => x (swap i j k)) = spread2 n x).
  { unfold spread2, centred. rewrite M. apply (Rsum_swap (fun k => (x k - smean n x) * (x k - smean n x)) i j n Hi Hj). }
  unfold rr. rewrite S. unfold centred. rewrite M. reflexivity.
Qed.
Lemma rr_sym n a b x : rr n a b x = rr n b a x.
Proof. unfold rr. now rewrite (Rmult_comm (centred n x a)). Qed.
Lemma exch_rr n D a b : exchangeable n D -> (a < n)%nat -> (b < n)%nat -> a <> b -> E D (rr n a b) = E D (rr n 0 1).
Proof.
  intros HE Ha Hb Hab.
  assert (S1 : E D (rr n a b) = E D (rr n 0 (swap 0 a b))).
  { rewrite (HE 0%nat a ltac:(lia) Ha (rr n a b)). apply E_ext'. intros x. rewrite rr_swap by lia. f_equal. unfold swap. rewrite Nat.eqb_refl. destruct (Nat.eqb_spec a 0); [now subst|reflexivity]. }
  rewrite S1. set (c := swap 0 a b). assert (Hc : (c < n)%nat) by (apply swap_lt; lia). assert (Hc0 : c <> 0%nat).
  { unfold c, swap. destruct (Nat.eqb_spec b 0) as [ ->|]; [assumption|]. destruct (Nat.eqb_spec b a); [congruence|assumption]. }
  rewrite (HE 1%nat c ltac:(lia) Hc (rr n 0 c)). apply E_ext'. intros x. rewrite rr_swap by lia. f_equal.
  - unfold swap. destruct (Nat.eqb_spec 0 1); [discriminate|]. destruct (Nat.eqb_spec 0 c); [congruence|reflexivity].
  - unfold swap. rewrite Nat.eqb_refl. destruct (Nat.eqb_spec c 1); congruence.
Qed.
Lemma rr_pairs n x : (0 < n)%nat -> spread2 n x <> 0 -> Rsum (map (fun k => Rsum (map (fun i => rr n i (i + k) x) (seq 0 (n - k)))) (seq 1 (n - 1))) = - (1 / 2).
Proof.
  intros Hn Hs. rewrite (Rsum_map_ext _ (fun k => / spread2 n x * lagged n (centred n x) k)).
  - rewrite Rsum_map_mult_l, lagged_total by assumption. field. assumption.
  - intros k _. unfold lagged. rewrite <- Rsum_map_mult_l. apply Rsum_map_ext. intros i _. unfold rr, Rdiv. ring.
Qed.
Lemma pairs_count n : Rsum (map (fun k => INR (n - k)) (seq 1 (n - 1))) = INR n * INR (n - 1) / 2.
Proof.
  induction n as [|n IH]; [cbn; field|]. replace (S n - 1)%nat with n by lia. destruct n as [|n]; [cbn; field|]. rewrite seq_S, map_app, Rsum_app. cbn [map Rsum]. replace (S (S n) - (1 + n))%nat with 1%nat by lia.
  rewrite (Rsum_map_ext _ (fun k => INR (S n - k) + 1)); [|intros k Hk; apply in_seq in Hk; replace (S (S n) - k)%nat with (S (S n - k)) by lia; now rewrite S_INR].
  rewrite Rsum_map_plus. replace (S n - 1)%nat with n in IH by lia. rewrite IH, Rsum_map_const, seq_length. rewrite !S_INR. cbn [INR]. field.
Qed.
Lemma exch_mean n D : (2 <= n)%nat -> is_prob D -> Forall (fun x => spread2 n x <> 0) (map snd D) -> exchangeable n D -> E D (rr n 0 1) = - / (INR n * INR (n - 1)).
Proof.
  intros Hn HD HF HE. rewrite Forall_forall in HF.
  assert (T : E D (fun x => Rsum (map (fun k => Rsum (map (fun i => rr n i (i + k) x) (seq 0 (n - k)))) (seq 1 (n - 1)))) = - (1 / 2)).
  { rewrite (E_ext D _ (fun _ => - (1 / 2))) by (intros x Hx; apply rr_pairs; [lia|auto]). rewrite E_const by assumption. reflexivity. }
  rewrite E_Rsum in T. rewrite (Rsum_map_ext _ (fun k => INR (n - k) * E D (rr n 0 1))) in T.
  - rewrite Rsum_map_mult_r, pairs_count in T. assert (INR n <> 0) by (apply not_0_INR; lia). assert (INR (n - 1) <> 0) by (apply not_0_INR; lia).
    assert (P : INR n * INR (n - 1) <> 0) by (now apply Rmult_integral_contrapositive_currified). apply (Rmult_eq_reg_l (INR n * INR (n - 1))); [|assumption]. rewrite Ropp_mult_distr_r_reverse, Rinv_r by assumption. lra.
  - intros k Hk. apply in_seq in Hk. rewrite E_Rsum. rewrite (Rsum_map_ext _ (fun _ => E D (rr n 0 1))); [now rewrite Rsum_map_const, seq_length|]. intros i Hi. apply in_seq in Hi. apply exch_rr; auto; lia.
Qed.
(** the mean value at lag k, a NaN counting as any number *)
Lemma exch_lag n m D k dflt : fast_len_ok n m -> (2 <= n)%nat -> (0 < k < n)%nat -> is_prob D -> Forall (fun x => spread2 n x <> 0) (map snd D) -> exchangeable n D ->
  E D (fun x => match autocorrelation true n m x k with Some a => a | None => dflt end) = - (INR (n - k) / (INR n * INR (n - 1))).
Proof.
  intros Hm Hn Hk HD HF HE. assert (HF' := HF). rewrite Forall_forall in HF'. rewrite (E_ext D _ (fun x => Rsum (map (fun i => rr n i (i + k) x) (seq 0 (n - k))))).
  - rewrite E_Rsum, (Rsum_map_ext _ (fun _ => E D (rr n 0 1))).
    + rewrite Rsum_map_const, seq_length, exch_mean by assumption. unfold Rdiv. ring.
    + intros i Hi. apply in_seq in Hi. apply exch_rr; auto; lia.
  - intros x Hx. rewrite ac_value by (auto; lia). unfold lagged, Rdiv. rewrite Rmult_comm, <- Rsum_map_mult_l. apply Rsum_map_ext. intros i _. unfold rr, Rdiv. ring.
Qed.
Lemma exch_lag_unbiased n m D k dflt : fast_len_ok n m -> (2 <= n)%nat -> (0 < k < n)%nat -> is_prob D -> Forall (fun x => spread2 n x <> 0) (map snd D) -> exchangeable n D ->
  E D (fun x => match autocorrelation false n m x k with Some a => a | None => dflt end) = - / INR (n - 1).
Proof.
  intros Hm Hn Hk HD HF HE. assert (HF' := HF). rewrite Forall_forall in HF'.
  rewrite (E_ext D _ (fun x => INR n / INR (n - k) * match autocorrelation true n m x k with Some a => a | None => 0 end)) by (intros x Hx; rewrite ac_value_unbiased, ac_value by (auto; lia); reflexivity).
  rewrite E_mult_l, exch_lag by assumption. assert (INR n <> 0) by (apply not_0_INR; lia). assert (INR (n - 1) <> 0) by (apply not_0_INR; lia). assert (INR (n - k) <> 0) by (apply not_0_INR; lia). field. auto.
Qed.

(** ** The figures *)
Lemma all_some_none l : all_some l = None <-> In None l.
Proof.
  induction l as [|[a|] l IH]; cbn; [split; [discriminate|easy]| |split; auto].
  destruct (all_some l) as [r|]; [split; [discriminate|]; intros [H|H]; [discriminate|apply IH in H; discriminate]|]. split; [intros _; right; now apply IH|reflexivity].
Qed.
Lemma all_some_map l r : all_some l = Some r -> l = map Some r.
Proof.
  revert r. induction l as [|[a|] l IH]; cbn; intros r H; [now injection H as <-| |discriminate]. destruct (all_some l) as [r'|]; [|discriminate]. injection H as <-. cbn. f_equal. now apply IH.
Qed.
Lemma all_some_somes (r : list R) : all_some (map Some r) = Some r.
Proof. induction r as [|a r IH]; [reflexivity|]. cbn. now rewrite IH. Qed.
Lemma fold_max_ge l : forall a, a <= fold_left Rmax l a /\ (forall b, In b l -> b <= fold_left Rmax l a).
Proof.
  induction l as [|c l IH]; intros a; cbn; [split; [lra|easy]|]. destruct (IH (Rmax a c)) as [H1 H2]. split; [eapply Rle_trans; [apply Rmax_l|exact H1]|]. intros b [<-|Hb]; [eapply Rle_trans; [apply Rmax_r|exact H1]|auto].
Qed.
Lemma fold_max_in l : forall a, fold_left Rmax l a = a \/ In (fold_left Rmax l a) l.
Proof.
  induction l as [|c l IH]; intros a; cbn; [now left|]. destruct (IH (Rmax a c)) as [H|H]; [|auto]. rewrite H. unfold Rmax. destruct (Rle_dec a c); auto.
Qed.
Lemma fold_min_le l : forall a, fold_left Rmin l a <= a /\ (forall b, In b l -> fold_left Rmin l a <= b).
Proof.
  induction l as [|c l IH]; intros a; cbn; [split; [lra|easy]|]. destruct (IH (Rmin a c)) as [H1 H2]. split; [eapply Rle_trans; [exact H1|apply Rmin_l]|]. intros b [<-|Hb]; [eapply Rle_trans; [exact H1|apply Rmin_r]|auto].
Qed.
Lemma fold_min_in l : forall a, fold_left Rmin l a = a \/ In (fold_left Rmin l a) l.
Proof.
  induction l as [|c l IH]; intros a; cbn; [now left|]. destruct (IH (Rmin a c)) as [H|H]; [|auto]. rewrite H. unfold Rmin. destruct (Rle_dec a c); auto.
Qed.
Lemma Rmax_list_spec l : l <> [] -> In (Rmax_list l) l /\ forall b, In b l -> b <= Rmax_list l.
Proof.
  destruct l as [|a l]; [easy|]. intros _. cbn [Rmax_list]. split; [destruct (fold_max_in l a) as [H|H]; [rewrite H; now left|now right]|]. destruct (fold_max_ge l a) as [G1 G2]. intros b [<-|Hb]; auto.
Qed.
Lemma Rmin_list_spec l : l <> [] -> In (Rmin_list l) l /\ forall b, In b l -> Rmin_list l <= b.
Proof.
  destruct l as [|a l]; [easy|]. intros _. cbn [Rmin_list]. split; [destruct (fold_min_in l a) as [H|H]; [rewrite H; now left|now right]|]. destruct (fold_min_le l a) as [G1 G2]. intros b [<-|Hb]; auto.
Qed.
Lemma omean_none l : omean l = None <-> In None l.
Proof. unfold omean. rewrite <- all_some_none. destruct (all_some l); split; congruence. Qed.
Lemma omax_none l : omax l = None <-> In None l.
Proof. unfold omax. rewrite <- all_some_none. destruct (all_some l); split; congruence. Qed.
Definition constant (n : nat) (x : series) : Prop := forall i j, (i < n)%nat -> (j < n)%nat -> x i = x j.

(** a single constant variable of a single chain of a single run blanks the whole curve *)
Lemma toy_curve_none n m d runs k : fast_len_ok n m -> (0 < n)%nat ->
  (toy_curve n m d runs k = None <-> exists chains c j, In chains runs /\ In c chains /\ (j < d)%nat /\ constant n (variable c j)).
Proof.
  intros Hm Hn. unfold toy_curve. rewrite omean_none, in_map_iff. split.
  - intros (chains & H & Hin). unfold toy_run_ac in H. apply omax_none in H. apply in_map_iff in H as (j & H & Hj). apply in_seq in Hj. apply omean_none in H. apply in_map_iff in H as (c & H & Hc).
    apply ac_none in H; [|assumption|assumption]. exists chains, c, j. split; [assumption|]. split; [assumption|]. split; [lia|]. exact (proj1 (spread2_zero n _ Hn) H).
  - intros (chains & c & j & Hin & Hc & Hj & H). exists chains. split; [|assumption]. unfold toy_run_ac. apply omax_none, in_map_iff. exists j. split; [|apply in_seq; lia]. apply omean_none, in_map_iff. exists c. split; [|assumption].
    apply ac_none; [assumption|assumption|]. now apply spread2_zero.
Qed.
Lemma Rmean_bounds l lo hi : l <> [] -> (forall a, In a l -> lo <= a <= hi) -> lo <= Rmean l <= hi.
Proof.
  intros Hl H. unfold Rmean. assert (P : 0 < INR (length l)) by (apply lt_0_INR; destruct l; [easy|cbn; lia]).
  assert (B : INR (length l) * lo <= Rsum l <= INR (length l) * hi).
  { clear Hl P. induction l as [|a l IH]; [cbn; lra|]. cbn [length Rsum]. rewrite S_INR. assert (H1 := H a (or_introl eq_refl)). assert (IH' := IH (fun b Hb => H b (or_intror Hb))). lra. }
  split; (apply (Rmult_le_reg_l (INR (length l))); [assumption|]); (replace (INR (length l) * (Rsum l / INR (length l))) with (Rsum l) by (field; lra)); lra.
Qed.
Lemma omean_bounds l v lo hi : l <> [] -> (forall a, In (Some a) l -> lo <= a <= hi) -> omean l = Some v -> lo <= v <= hi.
Proof.
  intros Hl H Hv. unfold omean in Hv. destruct (all_some l) as [r|] eqn:Hr; [|discriminate]. injection Hv as <-. apply all_some_map in Hr. subst l.
  apply Rmean_bounds; [intros ->; now apply Hl|]. intros a Ha. apply H. now apply in_map.
Qed.
Lemma toy_run_bounds n m d chains k v : fast_len_ok n m -> (k < n)%nat -> (0 < d)%nat -> chains <> [] -> toy_run_ac n m d chains k = Some v -> -1 <= v <= 1 /\ (k = 0%nat -> v = 1).
Proof.
  intros Hm Hk Hd Hc H. unfold toy_run_ac, omax in H. destruct (all_some _) as [r|] eqn:Hr; [|discriminate]. injection H as <-. apply all_some_map in Hr.
  assert (Hne : r <> []) by (intros ->; destruct d; [lia|cbn in Hr; discriminate]). destruct (Rmax_list_spec r Hne) as [Hin _].
  assert (Hin' : In (Some (Rmax_list r)) (map Some r)) by now apply in_map. rewrite <- Hr in Hin'. apply in_map_iff in Hin' as (j & Hj & _).
  assert (Hne' : map (fun c => autocorrelation true n m (variable c j) k) chains <> []) by (destruct chains; easy). split.
  - refine (omean_bounds _ _ _ _ Hne' _ Hj). intros a Ha. apply in_map_iff in Ha as (c & Ha & _). now apply (ac_bound n m (variable c j) k).
  - intros ->. enough (1 <= Rmax_list r <= 1) by lra. refine (omean_bounds _ _ _ _ Hne' _ Hj). intros a Ha. apply in_map_iff in Ha as (c & Ha & _).
    assert (Hs : spread2 n (variable c j) <> 0) by (intros Z; apply (ac_none true n m _ 0%nat Hm ltac:(lia)) in Z; congruence). rewrite ac_zero in Ha by auto. injection Ha as <-. lra.
Qed.
Lemma toy_curve_bounds n m d runs k v : fast_len_ok n m -> (k < n)%nat -> (0 < d)%nat -> runs <> [] -> Forall (fun c => c <> []) runs -> toy_curve n m d runs k = Some v -> -1 <= v <= 1 /\ (k = 0%nat -> v = 1).
Proof.
  intros Hm Hk Hd Hr HF H. rewrite Forall_forall in HF. assert (Hne : map (fun r => toy_run_ac n m d r k) runs <> []) by (destruct runs; easy). split.
  - refine (omean_bounds _ _ _ _ Hne _ H). intros a Ha. apply in_map_iff in Ha as (c & Ha & Hc). apply (toy_run_bounds n m d c k a) in Ha; auto. apply Ha.
  - intros ->. enough (1 <= v <= 1) by lra. refine (omean_bounds _ _ _ _ Hne _ H). intros a Ha. apply in_map_iff in Ha as (c & Ha & Hc). apply (toy_run_bounds n m d c 0%nat a) in Ha; auto. destruct Ha as [_ Ha]. rewrite Ha by reflexivity. lra.
Qed.
(** the worst variable is at least any variable *)
Lemma toy_run_worst n m d chains k v j a : toy_run_ac n m d chains k = Some v -> (j < d)%nat -> omean (map (fun c => autocorrelation true n m (variable c j) k) chains) = Some a -> a <= v.
Proof.
  intros H Hj Ha. unfold toy_run_ac, omax in H. destruct (all_some _) as [r|] eqn:Hr; [|discriminate]. injection H as <-. apply all_some_map in Hr.
  assert (I : In (Some a) (map Some r)) by (rewrite <- Hr, <- Ha; apply (in_map (fun j => omean (map (fun c => autocorrelation true n m (variable c j) k) chains))), in_seq; lia).
  apply in_map_iff in I as (b & Hb & Hi). injection Hb as ->. apply Rmax_list_spec; [intros ->; easy|assumption].
Qed.

Lemma in_drop_nan l a : In a (drop_nan l) <-> In (Some a) l.
Proof.
  unfold drop_nan. rewrite in_flat_map. split; [intros (o & Ho & Ha); destruct o as [b|]; [destruct Ha as [<-|[]]; assumption|destruct Ha]|]. intros H. exists (Some a). split; [assumption|now left].
Qed.
Lemma onanmin_none l : onanmin l = None <-> forall o, In o l -> o = None.
Proof.
  unfold onanmin. destruct (drop_nan l) as [|a r] eqn:Hd.
  - split; [|reflexivity]. intros _ [a|] Ho; [|reflexivity]. apply in_drop_nan in Ho. now rewrite Hd in Ho.
  - split; [discriminate|]. intros H. assert (Ha : In a (drop_nan l)) by (rewrite Hd; now left). apply in_drop_nan in Ha. apply H in Ha. discriminate.
Qed.
Lemma onanmin_spec l v : onanmin l = Some v -> In (Some v) l /\ forall a, In (Some a) l -> v <= a.
Proof.
  unfold onanmin. intros H. assert (Hne : drop_nan l <> []) by (intros Z; rewrite Z in H; discriminate). destruct (Rmin_list_spec _ Hne) as [H1 H2].
  assert (Hv : v = Rmin_list (drop_nan l)) by (destruct (drop_nan l); [discriminate|]; injection H as <-; reflexivity). subst v. split; [now apply in_drop_nan|]. intros a Ha. apply H2. now apply in_drop_nan.
Qed.
(** clipping before or after the minimum is the same; constant pixels play no part *)
Lemma img_run_ac_spec n m d c k v : fast_len_ok n m -> (k < n)%nat ->
  (img_run_ac n m d c k = Some v <->
   (exists j a, (j < d)%nat /\ autocorrelation true n m (variable c j) k = Some a /\ v = Rmax 0 a) /\
   (forall j a, (j < d)%nat -> autocorrelation true n m (variable c j) k = Some a -> v <= Rmax 0 a)).
Proof.
  intros Hm Hk. assert (C : forall a : R, (if Rlt_dec a 0 then 0 else a) = Rmax 0 a) by (intros a; unfold Rmax; destruct (Rlt_dec a 0), (Rle_dec 0 a); lra).
  assert (I : forall a, In (Some a) (map (fun j => ac_fn n m (variable c j) k) (seq 0 d)) <-> exists j b, (j < d)%nat /\ autocorrelation true n m (variable c j) k = Some b /\ a = Rmax 0 b).
  { intros a. rewrite in_map_iff. split.
    - intros (j & H & Hj). apply in_seq in Hj. unfold ac_fn in H. destruct (autocorrelation true n m (variable c j) k) as [b|] eqn:Hb; [|discriminate]. injection H as <-. exists j, b. rewrite C. repeat split; auto. lia.
    - intros (j & b & Hj & Hb & ->). exists j. split; [|apply in_seq; lia]. unfold ac_fn. rewrite Hb. now rewrite C. }
  unfold img_run_ac. split.
  - intros H. apply onanmin_spec in H as [H1 H2]. split; [now apply I|]. intros j a Hj Ha. apply H2, I. eauto.
  - intros [H1 H2]. apply I in H1. destruct (onanmin _) as [w|] eqn:Hw.
    + apply onanmin_spec in Hw as [W1 W2]. f_equal. apply Rle_antisym; [now apply W2|]. apply I in W1 as (j & b & Hj & Hb & ->). now apply (H2 j).
    + assert (N := proj1 (onanmin_none _) Hw (Some v) H1). discriminate.
Qed.
Lemma img_run_ac_none n m d c k : fast_len_ok n m -> (0 < n)%nat -> (img_run_ac n m d c k = None <-> forall j, (j < d)%nat -> constant n (variable c j)).
Proof.
  intros Hm Hn. unfold img_run_ac. rewrite onanmin_none. split.
  - intros H j Hj. refine (proj1 (spread2_zero n _ Hn) _). apply (ac_none true n m _ k Hm Hn). assert (Z : ac_fn n m (variable c j) k = None) by (apply H; apply (in_map (fun j => ac_fn n m (variable c j) k)), in_seq; lia).
    unfold ac_fn in Z. destruct (autocorrelation true n m (variable c j) k); [discriminate|reflexivity].
  - intros H o Ho. apply in_map_iff in Ho as (j & <- & Hj). apply in_seq in Hj. unfold ac_fn. rewrite (proj2 (ac_none true n m (variable c j) k Hm Hn)); [reflexivity|]. apply spread2_zero; [assumption|]. apply H. lia.
Qed.
(** the curve is zero exactly when in each run some pixel has no positive autocorrelation *)
Lemma img_run_zero n m d c k : fast_len_ok n m -> (k < n)%nat -> (img_run_ac n m d c k = Some 0 <-> exists j a, (j < d)%nat /\ autocorrelation true n m (variable c j) k = Some a /\ a <= 0).
Proof.
  intros Hm Hk. rewrite img_run_ac_spec by assumption. split.
  - intros [(j & a & Hj & Ha & Hv) _]. exists j, a. split; [assumption|]. split; [assumption|]. unfold Rmax in Hv. destruct (Rle_dec 0 a); lra.
  - intros (j & a & Hj & Ha & Hle). split; [exists j, a; repeat split; auto; unfold Rmax; destruct (Rle_dec 0 a); lra|]. intros. apply Rmax_l.
Qed.
Lemma img_run_nonneg n m d c k v : fast_len_ok n m -> (k < n)%nat -> img_run_ac n m d c k = Some v -> 0 <= v <= 1.
Proof.
  intros Hm Hk H. apply img_run_ac_spec in H as [(j & a & Hj & Ha & ->) _]; [|assumption|assumption]. apply ac_bound in Ha; [|assumption|assumption]. unfold Rmax. destruct (Rle_dec 0 a); lra.
Qed.
Lemma Rmean_zero l : l <> [] -> (forall a, In a l -> 0 <= a) -> (Rmean l = 0 <-> forall a, In a l -> a = 0).
Proof.
  intros Hl H. assert (P : 0 < INR (length l)) by (apply lt_0_INR; destruct l; [easy|cbn; lia]). unfold Rmean. split.
  - intros Z a Ha. assert (S0 : Rsum l = 0) by (apply (Rmult_eq_reg_r (/ INR (length l))); [unfold Rdiv in Z; rewrite Z; ring|apply Rinv_neq_0_compat; lra]).
    assert (a <= Rsum l) by (apply Rsum_In_le; [now apply Forall_forall|assumption]). assert (0 <= a) by auto. lra.
  - intros Z. assert (S0 : Rsum l = 0) by (clear -Z; induction l as [|b l IH]; [reflexivity|]; cbn; rewrite IH by (intros; apply Z; now right); rewrite (Z b (or_introl eq_refl)); ring). rewrite S0. unfold Rdiv. ring.
Qed.
Lemma img_curve_zero n m d runs k : fast_len_ok n m -> (k < n)%nat -> runs <> [] -> Forall (fun c => exists j, (j < d)%nat /\ ~ constant n (variable c j)) runs ->
  (img_curve n m d runs k = Some 0 <-> Forall (fun c => exists j a, (j < d)%nat /\ autocorrelation true n m (variable c j) k = Some a /\ a <= 0) runs).
Proof.
  intros Hm Hk Hr HF. rewrite Forall_forall in HF. unfold img_curve, omean. destruct (all_some _) as [r|] eqn:Ha.
  - apply all_some_map in Ha. assert (Hne : r <> []) by (intros ->; destruct runs; [easy|discriminate]).
    assert (N : forall a, In a r -> 0 <= a). { intros a Hi. assert (I : In (Some a) (map Some r)) by now apply in_map. rewrite <- Ha in I. apply in_map_iff in I as (c & Hc & _). now apply img_run_nonneg in Hc. }
    rewrite Forall_forall. split.
    + intros H c Hc. injection H as H. apply img_run_zero; [assumption|assumption|]. destruct (img_run_ac n m d c k) as [a|] eqn:Hv.
      * f_equal. assert (I : In (Some a) (map Some r)) by (rewrite <- Ha, <- Hv; now apply (in_map (fun c => img_run_ac n m d c k))). apply in_map_iff in I as (b & Hb & Hi). injection Hb as ->. now apply (proj1 (Rmean_zero r Hne N) H).
      * assert (I : In None (map Some r)) by (rewrite <- Ha, <- Hv; now apply (in_map (fun c => img_run_ac n m d c k))). apply in_map_iff in I as (b & Hb & _). discriminate.
    + intros H. f_equal. apply Rmean_zero; [assumption|assumption|]. intros a Hi. assert (I : In (Some a) (map Some r)) by now apply in_map. rewrite <- Ha in I. apply in_map_iff in I as (c & Hc & Hcr).
      assert (Z := H c Hcr). apply img_run_zero in Z; [|assumption|assumption]. congruence.
  - apply all_some_none, in_map_iff in Ha as (c & Hc & Hcr). exfalso. destruct (HF c Hcr) as (j & Hj & Hn). apply Hn. apply (img_run_ac_none n m d c k); auto. lia.
Qed.
