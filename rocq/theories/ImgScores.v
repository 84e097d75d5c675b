(** The scores of the image table: experiments/tabulators/tabulate_imgs.py. *)
From Coquelicot Require Import Coquelicot.
From Coq Require Import Permutation.
From Verif Require Import Base CondResamplingProofs Dist FinLaw ResVariance GaussDiv Corrupt CorruptProofs Mat.
Open Scope R_scope.

(** an image with all its entries in one row of length [n] (the scores only sum over entries) *)
Definition flat := vec.
(** tabulate_imgs.py 15-17 [to_img]; images.py 413-417 *)
Definition to_img (x : flat) : flat := fun i => clip01 (x i).
(** skimage [mean_squared_error] *)
Definition mse (n : nat) (a b : flat) : R := Rmean (map (fun i => (a i - b i) ^ 2) (seq 0 n)).
(** skimage [peak_signal_noise_ratio(true, test, data_range)]: 10 log10(range^2 / mse) *)
Definition psnr (n : nat) (range : R) (a b : flat) : R := 10 * (ln (range ^ 2 / mse n a b) / ln 10).
(** tabulate_imgs.py 56-64 *)
Definition table_psnr (n : nat) (true_img restored : flat) : R := psnr n 1 (to_img true_img) (to_img restored).
Definition unit_img (n : nat) (x : flat) : Prop := forall i, (i < n)%nat -> 0 <= x i <= 1.

Lemma ln10_pos : 0 < ln 10.
Proof. rewrite <- ln_1. apply ln_increasing; lra. Qed.
Lemma clip01_lipschitz x y : (clip01 x - clip01 y) ^ 2 <= (x - y) ^ 2.
Proof.
  rewrite <- !Rsqr_pow2. apply Rsqr_le_abs_1.
  assert (H : forall u, (u < 0 /\ clip01 u = 0) \/ (1 < u /\ clip01 u = 1) \/ (0 <= u <= 1 /\ clip01 u = u)).
  { intros u. destruct (clip01_spec u) as (Hb & Hi & _ & _). destruct (Rlt_dec u 0) as [H0|H0].
    - left. split; [assumption|]. unfold clip01. repeat destruct (Rlt_dec _ _); try lra.
    - destruct (Rlt_dec 1 u) as [H1|H1]; [right; left; split; [assumption|]; unfold clip01; repeat destruct (Rlt_dec _ _); lra|]. right. right. split; [lra|]. apply Hi. lra. }
  destruct (H x) as [[Hx ->]|[[Hx ->]|[Hx ->]]], (H y) as [[Hy ->]|[[Hy ->]|[Hy ->]]]; unfold Rabs; repeat destruct Rcase_abs; lra.
Qed.
Lemma Rmean_le {A} (f g : A -> R) l : l <> [] -> (forall a, In a l -> f a <= g a) -> Rmean (map f l) <= Rmean (map g l).
Proof.
  intros Hl H. unfold Rmean. rewrite !map_length. apply Rmult_le_compat_r; [left; apply Rinv_0_lt_compat, lt_0_INR; destruct l; [congruence|cbn; lia]|]. now apply Rsum_map_le.
Qed.
Lemma seq_nonnil n : (0 < n)%nat -> seq 0 n <> [].
Proof. destruct n; [lia|discriminate]. Qed.
Lemma mse_clip n a b : (0 < n)%nat -> mse n (to_img a) (to_img b) <= mse n a b.
Proof. intros Hn. apply Rmean_le; [now apply seq_nonnil|]. intros i _. apply clip01_lipschitz. Qed.
Lemma mse_to_img n a b : unit_img n a -> mse n (to_img a) b = mse n a b.
Proof.
  intros Ha. unfold mse, Rmean. f_equal; [|now rewrite !map_length]. apply Rsum_map_ext. intros i Hi. apply in_seq in Hi. unfold to_img.
  destruct (clip01_spec (a i)) as (_ & Hc & _). rewrite Hc; [reflexivity|]. apply Ha. lia.
Qed.
Lemma mse_sym n a b : mse n a b = mse n b a.
Proof. unfold mse, Rmean. rewrite !map_length. f_equal. apply Rsum_map_ext. intros i _. ring. Qed.
Lemma psnr_order n range a b c d : range <> 0 -> 0 < mse n a b -> 0 < mse n c d -> (psnr n range a b <= psnr n range c d <-> mse n c d <= mse n a b).
Proof.
  intros Hr H1 H2. unfold psnr. assert (Hr2 : 0 < range ^ 2) by (rewrite <- Rsqr_pow2; now apply Rsqr_pos_lt). assert (L := ln10_pos).
  rewrite !ln_div by assumption. split; intros H.
  - apply Rmult_le_reg_l in H; [|lra]. apply Rmult_le_reg_r in H; [|now apply Rinv_0_lt_compat].
    destruct (Rle_dec (mse n c d) (mse n a b)) as [|N]; [assumption|]. exfalso. assert (ln (mse n a b) < ln (mse n c d)) by (apply ln_increasing; lra). lra.
  - apply Rmult_le_compat_l; [lra|]. apply Rmult_le_compat_r; [left; now apply Rinv_0_lt_compat|].
    assert (ln (mse n c d) <= ln (mse n a b)) by (destruct H as [H| ->]; [left; now apply ln_increasing|lra]). lra.
Qed.
(** clipping both images never lowers the score when the true image has its values in [0,1] *)
Lemma clip_helps n t r : (0 < n)%nat -> unit_img n t -> 0 < mse n (to_img t) (to_img r) -> psnr n 1 t r <= table_psnr n t r.
Proof.
  intros Hn Ht Hp. apply psnr_order; [lra| |assumption|now apply mse_clip]. assert (H := mse_clip n t r Hn). lra.
Qed.
Lemma mse_unit n a b : (0 < n)%nat -> mse n (to_img a) (to_img b) <= 1.
Proof.
  intros Hn. apply Rle_trans with (Rmean (map (fun _ => 1) (seq 0 n))).
  - apply Rmean_le; [now apply seq_nonnil|]. intros i _. unfold to_img. destruct (clip01_spec (a i)) as (Ha & _), (clip01_spec (b i)) as (Hb & _).
    assert (-1 <= clip01 (a i) - clip01 (b i) <= 1) by lra. nra.
  - unfold Rmean. rewrite Rsum_map_const, map_length, seq_length. right. field. apply not_0_INR. lia.
Qed.
Lemma table_psnr_nonneg n t r : (0 < n)%nat -> 0 < mse n (to_img t) (to_img r) -> 0 <= table_psnr n t r.
Proof.
  intros Hn Hp. unfold table_psnr, psnr. assert (H := mse_unit n t r Hn). rewrite pow1, ln_div, ln_1 by lra.
  assert (ln (mse n (to_img t) (to_img r)) <= 0) by (rewrite <- ln_1; destruct H as [H| ->]; [left; now apply ln_increasing|lra]).
  apply Rmult_le_pos; [lra|]. apply Rmult_le_pos; [lra|]. left. apply Rinv_0_lt_compat, ln10_pos.
Qed.

(** *** restorations that copy the observation: only the hidden entries count *)
Definition mse_on (idx : list nat) (a b : flat) : R := Rmean (map (fun i => (a i - b i) ^ 2) idx).
Lemma mse_split n hidden obs a b : Permutation (hidden ++ obs) (seq 0 n) -> hidden <> [] -> (forall i, In i obs -> a i = b i) ->
  mse n a b = INR (length hidden) / INR n * mse_on hidden a b.
Proof.
  intros HP Hh Ho. unfold mse, mse_on, Rmean. rewrite !map_length, seq_length.
  assert (E : Rsum (map (fun i => (a i - b i) ^ 2) (seq 0 n)) = Rsum (map (fun i => (a i - b i) ^ 2) hidden)).
  { rewrite <- (Rsum_perm _ _ (Permutation_map _ HP)). rewrite map_app, Rsum_app.
    rewrite (Rsum_map_ext (fun i => (a i - b i) ^ 2) (fun _ => 0) obs) by (intros i Hi; rewrite (Ho i Hi); ring). rewrite Rsum_map_const. ring. }
  rewrite E. assert (Hl := Permutation_length HP). rewrite app_length, seq_length in Hl. assert (length hidden <> 0)%nat by (destruct hidden; [congruence|discriminate]).
  field. split; apply not_0_INR; lia.
Qed.
Lemma psnr_hidden n hidden obs a b : Permutation (hidden ++ obs) (seq 0 n) -> hidden <> [] -> (forall i, In i obs -> a i = b i) -> 0 < mse_on hidden a b ->
  psnr n 1 a b = 10 * (ln (1 / mse_on hidden a b) / ln 10) + 10 * (ln (INR n / INR (length hidden)) / ln 10).
Proof.
  intros HP Hh Ho Hp. unfold psnr. rewrite (mse_split n hidden obs a b) by assumption.
  assert (Hl := Permutation_length HP). rewrite app_length, seq_length in Hl. assert (length hidden <> 0)%nat by (destruct hidden; [congruence|discriminate]).
  assert (0 < INR (length hidden)) by (apply lt_0_INR; lia). assert (0 < INR n) by (apply lt_0_INR; lia). assert (L := ln10_pos).
  assert (0 < INR (length hidden) / INR n) by now apply Rdiv_lt_0_compat.
  assert (0 < INR (length hidden) / INR n * mse_on hidden a b) by now apply Rmult_lt_0_compat.
  rewrite pow1, (ln_div 1 (_ * _)), ln_mult, !ln_div, ln_1 by (assumption || lra). field. lra.
Qed.

(** *** an exact posterior sampler against the posterior mean *)
Definition mean_img (D : dist flat) : flat := fun i => E D (fun x => x i).
Definition exact_mse (n : nat) (D : dist flat) : R := E D (fun t => E D (fun r => mse n t r)).
Definition mean_mse (n : nat) (D : dist flat) : R := E D (fun t => mse n t (mean_img D)).
Lemma E_mse n (D : dist flat) t : E D (fun r => mse n t r) = Rmean (map (fun i => E D (fun r => (t i - r i) ^ 2)) (seq 0 n)).
Proof.
  unfold mse, Rmean. rewrite map_length. rewrite (E_ext' _ _ (fun r => / INR (length (seq 0 n)) * Rsum (map (fun i => (t i - r i) ^ 2) (seq 0 n)))) by (intros r; rewrite map_length; unfold Rdiv; ring).
  rewrite E_mult_l, (E_Rsum D (fun (r : flat) i => (t i - r i) ^ 2)). unfold Rdiv. ring.
Qed.
Lemma twice_variance {A} (D : dist A) (f : A -> R) : is_prob D -> E D (fun t => E D (fun r => (f t - f r) ^ 2)) = 2 * E D (fun t => (f t - E D f) ^ 2).
Proof.
  intros HD. set (mu := E D f). set (s2 := E D (fun x => f x ^ 2)).
  assert (H1 : forall t, E D (fun r => (f t - f r) ^ 2) = f t ^ 2 + (- 2 * mu * f t + s2)).
  { intros t. rewrite (E_ext' _ _ (fun r => f t ^ 2 + (- 2 * f t * f r + f r ^ 2))) by (intros r; ring). rewrite !E_plus, E_mult_l, (E_const _ D HD). fold s2. try change (E D (fun a => f a)) with mu. fold mu. ring. }
  rewrite (E_ext' _ _ _ H1), !E_plus, E_mult_l, (E_const _ D HD). try change (E D (fun a => f a)) with mu. fold mu. fold s2.
  rewrite (E_ext' D (fun t => (f t - mu) ^ 2) (fun t => f t ^ 2 + (- 2 * mu * f t + mu ^ 2))) by (intros; ring).
  rewrite !E_plus, E_mult_l, (E_const _ D HD). try change (E D (fun a => f a)) with mu. fold mu. fold s2. ring.
Qed.
Lemma exact_twice n (D : dist flat) : is_prob D -> exact_mse n D = 2 * mean_mse n D.
Proof.
  intros HD. unfold exact_mse, mean_mse. rewrite (E_ext' D _ _ (fun t => E_mse n D t)).
  assert (A : forall F : flat -> nat -> R, E D (fun t => Rmean (map (F t) (seq 0 n))) = Rmean (map (fun i => E D (fun t => F t i)) (seq 0 n))).
  { intros F. unfold Rmean. rewrite map_length. rewrite (E_ext' _ _ (fun t => / INR (length (seq 0 n)) * Rsum (map (F t) (seq 0 n)))) by (intros t; rewrite map_length; unfold Rdiv; ring).
    rewrite E_mult_l, E_Rsum. unfold Rdiv. ring. }
  rewrite (A (fun t i => E D (fun r => (t i - r i) ^ 2))). unfold mse. rewrite (A (fun t i => (t i - mean_img D i) ^ 2)).
  unfold Rmean. rewrite !map_length. unfold Rdiv. rewrite <- Rmult_assoc. f_equal. rewrite <- Rsum_map_mult_l. apply Rsum_map_ext. intros i _.
  exact (twice_variance D (fun x => x i) HD).
Qed.
Lemma mean_unit n (D : dist flat) : is_prob D -> Forall (unit_img n) (map snd D) -> unit_img n (mean_img D).
Proof.
  intros HD HF i Hi. rewrite Forall_forall in HF. unfold mean_img. split.
  - rewrite <- (E_const 0 D HD). apply E_le; [apply HD|]. intros x Hx. now apply HF.
  - rewrite <- (E_const 1 D HD). apply E_le; [apply HD|]. intros x Hx. now apply HF.
Qed.
Lemma table_mse_exact n (D : dist flat) : is_prob D -> Forall (unit_img n) (map snd D) ->
  E D (fun t => E D (fun r => mse n (to_img t) (to_img r))) = 2 * E D (fun t => mse n (to_img t) (to_img (mean_img D))).
Proof.
  intros HD HF. assert (HFm := mean_unit n D HD HF). rewrite Forall_forall in HF. assert (T := exact_twice n D HD). unfold exact_mse, mean_mse in T.
  rewrite (E_ext D (fun t => mse n (to_img t) (to_img (mean_img D))) (fun t => mse n t (mean_img D))).
  - rewrite <- T. apply E_ext. intros t Ht. apply E_ext. intros r Hr. rewrite mse_to_img, mse_sym, mse_to_img by (now apply HF). apply mse_sym.
  - intros t Ht. rewrite mse_to_img, mse_sym, mse_to_img by (auto; now apply HF). apply mse_sym.
Qed.

(** *** the input of LPIPS: tabulate_imgs.py 20-26 [expand_dims(swapaxes(img, -1, 0), 0) * 2 - 1] *)
Definition to_torch (img : nat -> nat -> nat -> R) : nat -> nat -> nat -> nat -> R := fun b x y z => (fun x y z => img z y x) x y z * 2 - 1.
(** the documented layout (1, c, h, w) *)
Definition torch_doc (img : nat -> nat -> nat -> R) : nat -> nat -> nat -> nat -> R := fun b c i j => img i j c * 2 - 1.
Lemma to_torch_transposed img b c i j : to_torch img b c i j = torch_doc (fun h w ch => img w h ch) b c i j.
Proof. reflexivity. Qed.
Lemma to_torch_doc h w c img : (forall b k i j, (b < 1)%nat -> (k < c)%nat -> (i < h)%nat -> (j < w)%nat -> to_torch img b k i j = torch_doc img b k i j) <->
  (forall i j k, (i < h)%nat -> (j < w)%nat -> (k < c)%nat -> img i j k = img j i k).
Proof.
  unfold to_torch, torch_doc. split; intros H.
  - intros i j k Hi Hj Hk. specialize (H 0%nat k i j ltac:(lia) Hk Hi Hj). cbn beta in H. lra.
  - intros b k i j _ Hk Hi Hj. cbn beta. rewrite (H i j k) by assumption. reflexivity.
Qed.

(** *** any restoration law: truth and restoration independent given the observation *)
Definition cross_mse (n : nat) (D G : dist flat) : R := E D (fun t => E G (fun r => mse n t r)).
Definition spread (n : nat) (G : dist flat) : R := E G (fun r => mse n r (mean_img G)).
Lemma cross_square {A B} (D : dist A) (G : dist B) f g : is_prob D -> is_prob G ->
  E D (fun t => E G (fun r => (f t - g r) ^ 2)) = E D (fun t => (f t - E D f) ^ 2) + (E D f - E G g) ^ 2 + E G (fun r => (g r - E G g) ^ 2).
Proof.
  intros HD HG. set (m := E D f). set (k := E G g).
  assert (A1 : E D (fun t => f t - m) = 0) by (rewrite E_minus, (E_const _ D HD); try change (E D (fun a => f a)) with m; fold m; ring).
  assert (A2 : E G (fun t => g t - k) = 0) by (rewrite E_minus, (E_const _ G HG); try change (E G (fun a => g a)) with k; fold k; ring).
  assert (H1 : forall t, E G (fun r => (f t - g r) ^ 2) = ((f t - m) ^ 2 + 2 * (m - k) * (f t - m)) + ((m - k) ^ 2 + E G (fun r => (g r - k) ^ 2))).
  { intros t. rewrite (E_ext' _ _ (fun r => (f t - k) ^ 2 + (- 2 * (f t - k) * (g r - k) + (g r - k) ^ 2))) by (intros r; ring).
    rewrite !E_plus, E_mult_l, A2, (E_const _ G HG). ring. }
  rewrite (E_ext' _ _ _ H1), !E_plus, E_mult_l, A1, !(E_const _ D HD). ring.
Qed.
Lemma Rmean_map_plus {A} (f g : A -> R) l : Rmean (map (fun a => f a + g a) l) = Rmean (map f l) + Rmean (map g l).
Proof. unfold Rmean. rewrite !map_length, Rsum_map_plus. unfold Rdiv. ring. Qed.
Lemma Rmean_map_ext {A} (f g : A -> R) l : (forall a, In a l -> f a = g a) -> Rmean (map f l) = Rmean (map g l).
Proof. intros H. unfold Rmean. rewrite !map_length. f_equal. now apply Rsum_map_ext. Qed.
Lemma E_Rmean {A B} (D : dist A) (F : A -> B -> R) l : E D (fun t => Rmean (map (F t) l)) = Rmean (map (fun i => E D (fun t => F t i)) l).
Proof.
  unfold Rmean. rewrite map_length. rewrite (E_ext' _ _ (fun t => / INR (length l) * Rsum (map (F t) l))) by (intros t; rewrite map_length; unfold Rdiv; ring).
  rewrite E_mult_l, E_Rsum. unfold Rdiv. ring.
Qed.
Lemma cross_mse_split n (D G : dist flat) : is_prob D -> is_prob G -> cross_mse n D G = spread n D + mse n (mean_img D) (mean_img G) + spread n G.
Proof.
  intros HD HG. unfold cross_mse, spread. rewrite (E_ext' D _ _ (fun t => E_mse n G t)).
  rewrite (E_Rmean D (fun t i => E G (fun r => (t i - r i) ^ 2))). unfold mse. rewrite (E_Rmean D (fun t i => (t i - mean_img D i) ^ 2)), (E_Rmean G (fun t i => (t i - mean_img G i) ^ 2)).
  rewrite <- !Rmean_map_plus. apply Rmean_map_ext. intros i _. exact (cross_square D G (fun x => x i) (fun x => x i) HD HG).
Qed.
Lemma mse_nonneg n a b : 0 <= mse n a b.
Proof.
  unfold mse, Rmean. destruct n; [cbn; unfold Rdiv; rewrite Rmult_0_l; lra|]. apply Rmult_le_pos; [|left; apply Rinv_0_lt_compat, lt_0_INR; rewrite map_length, seq_length; lia].
  apply Rsum_nonneg, Forall_forall. intros x Hx. apply in_map_iff in Hx as (i & <- & _). apply pow2_ge_0.
Qed.
Lemma mse_zero n a b : (0 < n)%nat -> (mse n a b = 0 <-> forall i, (i < n)%nat -> a i = b i).
Proof.
  intros Hn. split.
  - intros H. assert (N : INR n <> 0) by (apply not_0_INR; lia). unfold mse, Rmean in H. rewrite map_length, seq_length in H.
    assert (S : Rsum (map (fun i => (a i - b i) ^ 2) (seq 0 n)) = 0) by (apply (Rmult_eq_reg_r (/ INR n)); [unfold Rdiv in H; rewrite H; ring|now apply Rinv_neq_0_compat]).
    intros i Hi. assert (Hin : In i (seq 0 n)) by (apply in_seq; lia). apply in_split in Hin as (l1 & l2 & E). rewrite E, map_app, Rsum_app in S. cbn [map Rsum fold_right] in S.
    assert (P : forall l, 0 <= Rsum (map (fun i => (a i - b i) ^ 2) l)) by (intros l; apply Rsum_nonneg, Forall_forall; intros x Hx; apply in_map_iff in Hx as (k & <- & _); apply pow2_ge_0).
    assert (P1 := P l1). assert (P2 := P l2). assert (P3 := pow2_ge_0 (a i - b i)). fold (Rsum (map (fun i => (a i - b i) ^ 2) l2)) in S.
    assert (Z : (a i - b i) ^ 2 = 0) by (cbn [Rsum] in *; lra). assert (a i - b i = 0) by nra. lra.
  - intros H. unfold mse. rewrite (Rmean_map_ext _ (fun _ => 0)); [unfold Rmean; rewrite Rsum_map_const; unfold Rdiv; ring|]. intros i Hi. apply in_seq in Hi. rewrite H by lia. ring.
Qed.
(** the best law to restore with, by mean squared error, is the point mass at the posterior mean, and the exact posterior is
    the worst of the laws with the right mean and no more spread than the posterior *)
Lemma mean_best n (D G : dist flat) : is_prob D -> is_prob G -> cross_mse n D (dret (mean_img D)) <= cross_mse n D G.
Proof.
  intros HD HG. rewrite (cross_mse_split n D G HD HG). assert (P : is_prob (dret (mean_img D))) by apply is_prob_dret. rewrite (cross_mse_split n D _ HD P).
  assert (A : forall x : flat, (0 < n)%nat -> mse n x (mean_img (dret x)) = 0) by (intros x Hn; apply mse_zero; [assumption|]; intros i _; unfold mean_img, E, dret; cbn; ring).
  assert (0 <= spread n G).
  { unfold spread. rewrite <- (E_const 0 G HG). apply E_le; [apply HG|]. intros r _. apply mse_nonneg. }
  assert (N := mse_nonneg n (mean_img D) (mean_img G)).
  destruct n as [|n]; [unfold spread, mse, Rmean; cbn; unfold Rdiv; rewrite !Rmult_0_l, !E_const by assumption; lra|].
  assert (Z : spread (S n) (dret (mean_img D)) = 0) by (unfold spread, E, dret; cbn [map fst snd Rsum]; fold (dret (mean_img D)); rewrite A by lia; ring).
  rewrite Z, A by lia. lra.
Qed.

(** *** averaging decibels: the mean PSNR is at least the PSNR of the mean error *)
Lemma ln_le_sub x : 0 < x -> ln x <= x - 1.
Proof. intros H. destruct (Rle_dec (ln x) (x - 1)) as [|N]; [assumption|]. exfalso. assert (K := exp_ineq1_le (ln x)). rewrite exp_ln in K by assumption. lra. Qed.
Lemma ln_jensen (l : list R) : l <> [] -> Forall (fun x => 0 < x) l -> Rmean (map ln l) <= ln (Rmean l).
Proof.
  intros Hl HF. assert (Hn : 0 < INR (length l)) by (apply lt_0_INR; destruct l; [congruence|cbn; lia]).
  assert (Hs : 0 < Rsum l) by (destruct l as [|x l]; [congruence|]; inversion_clear HF; cbn; enough (0 <= Rsum l) by lra; apply Rsum_nonneg; eapply Forall_impl; [|eassumption]; cbn; intros; lra).
  set (m := Rmean l). assert (Hm : 0 < m) by now apply Rdiv_lt_0_compat.
  assert (B : Rsum (map ln l) <= Rsum (map (fun x => ln m + (x / m - 1)) l)).
  { apply Rsum_map_le. intros x Hx. rewrite Forall_forall in HF. assert (Px := HF x Hx). assert (K := ln_le_sub (x / m) ltac:(now apply Rdiv_lt_0_compat)). rewrite ln_div in K by assumption. lra. }
  unfold Rmean. rewrite map_length. apply (Rmult_le_reg_r (INR (length l))); [assumption|]. unfold Rdiv. rewrite Rmult_assoc, Rinv_l, Rmult_1_r by lra.
  eapply Rle_trans; [exact B|]. rewrite Rsum_map_plus, Rsum_map_const. rewrite (Rsum_map_ext _ (fun x => / m * x + -1)) by (intros; unfold Rdiv; ring).
  rewrite Rsum_map_plus, Rsum_map_const, Rsum_map_mult_l, map_id. unfold m at 2. unfold Rmean. right. fold m. rewrite Rinv_div. field. lra.
Qed.
Definition mean_psnr (n : nat) (pairs : list (flat * flat)) : R := Rmean (map (fun p => table_psnr n (fst p) (snd p)) pairs).
Definition psnr_of_mse (e : R) : R := 10 * (ln (1 / e) / ln 10).
Lemma mean_psnr_jensen n pairs : pairs <> [] -> Forall (fun p => 0 < mse n (to_img (fst p)) (to_img (snd p))) pairs ->
  psnr_of_mse (Rmean (map (fun p => mse n (to_img (fst p)) (to_img (snd p))) pairs)) <= mean_psnr n pairs.
Proof.
  intros Hp HF. set (es := map (fun p => mse n (to_img (fst p)) (to_img (snd p))) pairs).
  assert (He : Forall (fun x => 0 < x) es) by (apply Forall_map; exact HF). assert (Hn : es <> []) by (destruct pairs; [congruence|discriminate]).
  assert (J := ln_jensen es Hn He). assert (L := ln10_pos).
  assert (Hs : 0 < Rmean es) by (apply Rdiv_lt_0_compat; [destruct es as [|x l]; [congruence|]; inversion_clear He; cbn; enough (0 <= Rsum l) by lra; apply Rsum_nonneg; eapply Forall_impl; [|eassumption]; cbn; intros; lra|apply lt_0_INR; destruct es; [congruence|cbn; lia]]).
  assert (M : mean_psnr n pairs = - (10 / ln 10) * Rmean (map ln es)).
  { unfold mean_psnr. rewrite (Rmean_map_ext _ (fun p => - (10 / ln 10) * ln (mse n (to_img (fst p)) (to_img (snd p))))).
    - unfold Rmean, es. rewrite !map_length, Rsum_map_mult_l, map_map. unfold Rdiv. ring.
    - intros p Hin. rewrite Forall_forall in HF. unfold table_psnr, psnr. rewrite pow1, ln_div, ln_1 by (try lra; now apply HF). field. lra. }
  rewrite M. unfold psnr_of_mse. rewrite ln_div, ln_1 by lra.
  replace (10 * ((0 - ln (Rmean es)) / ln 10)) with (- (10 / ln 10) * ln (Rmean es)) by (field; lra).
  assert (0 < 10 / ln 10) by (apply Rdiv_lt_0_compat; lra). nra.
Qed.

(** *** the structural similarity of skimage: [structural_similarity(a, b, data_range=1, channel_axis)] with its defaults
    (uniform windows of 7 x 7, sample covariance, K1 = 0.01, K2 = 0.03), averaged over the windows inside the image *)
Definition ssim_c1 : R := (1 / 100) ^ 2.
Definition ssim_c2 : R := (3 / 100) ^ 2.
Definition win_mean (w : list nat) (a : flat) : R := Rmean (map a w).
(** NP/(NP-1) * (mean of products - product of means) *)
Definition win_cov (w : list nat) (a b : flat) : R := INR (length w) / (INR (length w) - 1) * (Rmean (map (fun i => a i * b i) w) - win_mean w a * win_mean w b).
Definition ssim_at (a b : flat) (w : list nat) : R :=
  ((2 * win_mean w a * win_mean w b + ssim_c1) * (2 * win_cov w a b + ssim_c2)) /
  ((win_mean w a ^ 2 + win_mean w b ^ 2 + ssim_c1) * (win_cov w a a + win_cov w b b + ssim_c2)).
Definition ssim (windows : list (list nat)) (a b : flat) : R := Rmean (map (ssim_at a b) windows).

Lemma win_cov_sum (w : list nat) a b : (2 <= length w)%nat -> win_cov w a b = / (INR (length w) - 1) * Rsum (map (fun i => (a i - win_mean w a) * (b i - win_mean w b)) w).
Proof.
  intros Hw. assert (H2 : 2 <= INR (length w)) by (replace 2 with (INR 2) by reflexivity; now apply le_INR).
  rewrite (Rsum_map_ext _ (fun i => a i * b i + (- win_mean w b * a i + (- win_mean w a * b i + win_mean w a * win_mean w b)))) by (intros; ring).
  rewrite !Rsum_map_plus, !Rsum_map_mult_l, Rsum_map_const. unfold win_cov, win_mean, Rmean. rewrite !map_length. field. lra.
Qed.
Lemma win_cov_self w a : (2 <= length w)%nat -> 0 <= win_cov w a a.
Proof.
  intros Hw. rewrite win_cov_sum by assumption. assert (H2 : 2 <= INR (length w)) by (replace 2 with (INR 2) by reflexivity; now apply le_INR).
  apply Rmult_le_pos; [left; apply Rinv_0_lt_compat; lra|]. apply Rsum_nonneg, Forall_forall. intros x Hx. apply in_map_iff in Hx as (i & <- & _). apply Rle_0_sqr.
Qed.
Lemma win_cov_bound w a b : (2 <= length w)%nat -> - (win_cov w a a + win_cov w b b) <= 2 * win_cov w a b <= win_cov w a a + win_cov w b b.
Proof.
  intros Hw. rewrite !win_cov_sum by assumption. assert (H2 : 2 <= INR (length w)) by (replace 2 with (INR 2) by reflexivity; now apply le_INR).
  assert (K : 0 < / (INR (length w) - 1)) by (apply Rinv_0_lt_compat; lra). set (k := / (INR (length w) - 1)) in *.
  set (u := fun i => a i - win_mean w a). set (v := fun i => b i - win_mean w b).
  assert (P : forall s, 0 <= Rsum (map (fun i => (u i + s * v i) ^ 2) w)) by (intros s; apply Rsum_nonneg, Forall_forall; intros x Hx; apply in_map_iff in Hx as (i & <- & _); apply pow2_ge_0).
  assert (Q : forall s, Rsum (map (fun i => (u i + s * v i) ^ 2) w) = Rsum (map (fun i => u i * u i) w) + (2 * s * Rsum (map (fun i => u i * v i) w) + s * s * Rsum (map (fun i => v i * v i) w))).
  { intros s. rewrite <- !Rsum_map_mult_l, <- !Rsum_map_plus. apply Rsum_map_ext. intros i _. ring. }
  assert (P1 := P 1). assert (P2 := P (-1)). rewrite Q in P1, P2.
  change (Rsum (map (fun i => (a i - win_mean w a) * (b i - win_mean w b)) w)) with (Rsum (map (fun i => u i * v i) w)).
  change (Rsum (map (fun i => (a i - win_mean w a) * (a i - win_mean w a)) w)) with (Rsum (map (fun i => u i * u i) w)).
  change (Rsum (map (fun i => (b i - win_mean w b) * (b i - win_mean w b)) w)) with (Rsum (map (fun i => v i * v i) w)).
  nra.
Qed.
Lemma win_mean_nonneg w a : w <> [] -> (forall i, In i w -> 0 <= a i) -> 0 <= win_mean w a.
Proof.
  intros Hw H. apply Rmult_le_pos; [apply Rsum_nonneg, Forall_forall; intros x Hx; apply in_map_iff in Hx as (i & <- & Hi); now apply H|].
  left. apply Rinv_0_lt_compat, lt_0_INR. rewrite map_length. destruct w; [congruence|cbn; lia].
Qed.
Lemma ssim_at_range a b w : (2 <= length w)%nat -> (forall i, In i w -> 0 <= a i) -> (forall i, In i w -> 0 <= b i) -> -1 <= ssim_at a b w <= 1.
Proof.
  intros Hw Ha Hb. assert (Hn : w <> []) by (destruct w; [cbn in Hw; lia|discriminate]).
  assert (Ma := win_mean_nonneg w a Hn Ha). assert (Mb := win_mean_nonneg w b Hn Hb). assert (B := win_cov_bound w a b Hw). assert (Sa := win_cov_self w a Hw). assert (Sb := win_cov_self w b Hw).
  unfold ssim_at, ssim_c1, ssim_c2. set (x := win_mean w a) in *. set (y := win_mean w b) in *. set (c := win_cov w a b) in *. set (va := win_cov w a a) in *. set (vb := win_cov w b b) in *.
  set (c1 := (1 / 100) ^ 2). set (c2 := (3 / 100) ^ 2). assert (0 < c1) by (unfold c1; lra). assert (0 < c2) by (unfold c2; lra).
  assert (Xy : 0 <= x * y) by now apply Rmult_le_pos. assert (Sq := pow2_ge_0 (x - y)).
  set (p := 2 * x * y + c1). set (q := x ^ 2 + y ^ 2 + c1). assert (0 < p) by (unfold p; lra). assert (p <= q) by (unfold p, q; nra).
  set (r := 2 * c + c2). set (s := va + vb + c2). assert (0 < s) by (unfold s; lra). assert (- s <= r <= s) by (unfold r, s; lra).
  assert (0 < q * s) by (apply Rmult_lt_0_compat; lra). assert (p * s <= q * s) by (apply Rmult_le_compat_r; lra). assert (p * r <= p * s) by (apply Rmult_le_compat_l; lra).
  assert (p * - s <= p * r) by (apply Rmult_le_compat_l; lra). split; apply (Rmult_le_reg_r (q * s)); try assumption; unfold Rdiv; rewrite Rmult_assoc, Rinv_l by lra; lra.
Qed.
Lemma ssim_range windows a b : windows <> [] -> Forall (fun w => (2 <= length w)%nat) windows -> (forall i, 0 <= a i) -> (forall i, 0 <= b i) -> -1 <= ssim windows a b <= 1.
Proof.
  intros Hn HF Ha Hb. assert (N : 0 < INR (length windows)) by (apply lt_0_INR; destruct windows; [congruence|cbn; lia]). rewrite Forall_forall in HF.
  assert (C : forall c, Rmean (map (fun _ : list nat => c) windows) = c) by (intros c; unfold Rmean; rewrite map_length, Rsum_map_const; field; lra).
  split.
  - rewrite <- (C (-1)). apply Rmean_le; [assumption|]. intros w Hw. apply ssim_at_range; auto.
  - rewrite <- (C 1). apply Rmean_le; [assumption|]. intros w Hw. apply ssim_at_range; auto.
Qed.
Lemma ssim_at_one a b w : (2 <= length w)%nat -> (forall i, In i w -> 0 <= a i) -> (forall i, In i w -> 0 <= b i) -> (ssim_at a b w = 1 <-> forall i, In i w -> a i = b i).
Proof.
  intros Hw Ha Hb. assert (Hn : w <> []) by (destruct w; [cbn in Hw; lia|discriminate]). split.
  - intros H. assert (Ma := win_mean_nonneg w a Hn Ha). assert (Mb := win_mean_nonneg w b Hn Hb). assert (B := win_cov_bound w a b Hw). assert (Sa := win_cov_self w a Hw). assert (Sb := win_cov_self w b Hw).
    assert (Hc := conj (win_cov_sum w a b Hw) (conj (win_cov_sum w a a Hw) (win_cov_sum w b b Hw))).
    unfold ssim_at, ssim_c1, ssim_c2 in H. set (x := win_mean w a) in *. set (y := win_mean w b) in *. set (c := win_cov w a b) in *. set (va := win_cov w a a) in *. set (vb := win_cov w b b) in *.
    set (c1 := (1 / 100) ^ 2) in *. set (c2 := (3 / 100) ^ 2) in *. assert (0 < c1) by (unfold c1; lra). assert (0 < c2) by (unfold c2; lra).
    assert (Xy : 0 <= x * y) by now apply Rmult_le_pos. assert (Sq := pow2_ge_0 (x - y)).
    set (p := 2 * x * y + c1) in *. set (q := x ^ 2 + y ^ 2 + c1) in *. assert (0 < p) by (unfold p; lra). assert (Hpq : q = p + (x - y) ^ 2) by (unfold p, q; ring).
    set (r := 2 * c + c2) in *. set (s := va + vb + c2) in *. assert (0 < s) by (unfold s; lra). assert (- s <= r <= s) by (unfold r, s; lra).
    assert (Hqs : 0 < q * s) by nra. assert (Epr : p * r = q * s) by (apply (Rmult_eq_reg_r (/ (q * s))); [rewrite Rinv_r by lra; exact H|apply Rinv_neq_0_compat; lra]).
    assert (x = y) by (assert ((x - y) ^ 2 * s <= 0) by nra; assert ((x - y) ^ 2 = 0) by nra; nra).
    assert (r = s) by nra. assert (D : va + vb - 2 * c = 0) by (unfold r, s in *; lra).
    destruct Hc as (Ec & Ea & Eb). rewrite Ec, Ea, Eb in D. assert (HN2 : 2 <= INR (length w)) by (replace 2 with (INR 2) by reflexivity; now apply le_INR).
    assert (Z : Rsum (map (fun i => (a i - b i) ^ 2) w) = 0).
    { apply (Rmult_eq_reg_l (/ (INR (length w) - 1))); [|apply Rinv_neq_0_compat; lra]. rewrite Rmult_0_r, <- D, <- !Rmult_plus_distr_l.
      rewrite (Rsum_map_ext (fun i => (a i - b i) ^ 2) (fun i => (a i - x) * (a i - x) + (b i - y) * (b i - y) + - 2 * ((a i - x) * (b i - y)))) by (intros i _; replace y with x by assumption; ring).
      rewrite !Rsum_map_plus, Rsum_map_mult_l. ring. }
    intros i Hi. apply in_split in Hi as (l1 & l2 & E). rewrite E, map_app, Rsum_app in Z. cbn [map Rsum] in Z.
    assert (P : forall l, 0 <= Rsum (map (fun i => (a i - b i) ^ 2) l)) by (intros l; apply Rsum_nonneg, Forall_forall; intros u Hu; apply in_map_iff in Hu as (k & <- & _); apply pow2_ge_0).
    assert (P1 := P l1). assert (P2 := P l2). assert (P3 := pow2_ge_0 (a i - b i)). assert ((a i - b i) ^ 2 = 0) by (cbn in *; lra). nra.
  - intros H. assert (Em : win_mean w a = win_mean w b) by (apply Rmean_map_ext; exact H).
    assert (E1 : win_cov w a b = win_cov w b b) by (unfold win_cov; rewrite Em; do 2 f_equal; apply Rmean_map_ext; intros i Hi; now rewrite H).
    assert (E2 : win_cov w a a = win_cov w b b) by (unfold win_cov; rewrite Em; do 2 f_equal; apply Rmean_map_ext; intros i Hi; now rewrite H).
    assert (S := win_cov_self w b Hw). unfold ssim_at. rewrite E1, E2, Em. assert (Q := pow2_ge_0 (win_mean w b)). unfold ssim_c1, ssim_c2. field. split; lra.
Qed.
