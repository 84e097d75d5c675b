(** Weight standardized convolution, fbs/nn/unet.py 77-124. *)
From Coq Require Import Reals List Lia Lra Bool PeanoNat Psatz.
From Verif Require Import Base Nets UNet UNetVal UNetShape UNetSep UNetGrow.
Import ListNotations.
Open Scope R_scope.

Notation kern := (nat -> nat -> nat -> nat -> R).
(** sum over the entries of the kernel that make one output channel *)
Definition ksum (k cin : nat) (f : nat -> nat -> nat -> R) : R := Rsum (map (fun '(di, dj, c) => f di dj c) (taps k cin)).
Definition nk (k cin : nat) : R := INR (k * k * cin).

Lemma taps_length k cin : length (taps k cin) = (k * k * cin)%nat.
Proof. unfold taps. now rewrite !prod_length, !seq_length. Qed.
Lemma nk_pos k cin : (0 < k)%nat -> (0 < cin)%nat -> 0 < nk k cin.
Proof. intros. apply lt_0_INR. nia. Qed.
Lemma ksum_ext k cin f g : (forall di dj c, (di < k)%nat -> (dj < k)%nat -> (c < cin)%nat -> f di dj c = g di dj c) -> ksum k cin f = ksum k cin g.
Proof. intros H. unfold ksum. apply Rsum_map_ext. intros [[di dj] c] Hin. apply in_taps in Hin. apply H; lia. Qed.
Lemma ksum_plus k cin f g : ksum k cin (fun a b c => f a b c + g a b c) = ksum k cin f + ksum k cin g.
Proof. unfold ksum. rewrite <- Rsum_map_plus. apply Rsum_map_ext. now intros [[di dj] c] _. Qed.
Lemma ksum_scale k cin f r : ksum k cin (fun a b c => r * f a b c) = r * ksum k cin f.
Proof. unfold ksum. rewrite <- Rsum_map_mult_l. apply Rsum_map_ext. now intros [[di dj] c] _. Qed.
Lemma ksum_const k cin r : ksum k cin (fun _ _ _ => r) = nk k cin * r.
Proof. unfold ksum, nk. rewrite <- taps_length, <- Rsum_map_const. apply Rsum_map_ext. now intros [[di dj] c] _. Qed.
Lemma ksum_nonneg k cin f : (forall a b c, 0 <= f a b c) -> 0 <= ksum k cin f.
Proof. intros H. apply total_nonneg. intros [[a b] c]. apply H. Qed.
Lemma ksum_zero k cin f : (forall a b c, 0 <= f a b c) -> ksum k cin f = 0 -> forall di dj c, (di < k)%nat -> (dj < k)%nat -> (c < cin)%nat -> f di dj c = 0.
Proof.
  intros Hf H di dj c H1 H2 H3. apply Rle_antisym; [|apply Hf]. rewrite <- H. apply (Rsum_In_le (map (fun '(di, dj, c) => f di dj c) (taps k cin))).
  - apply Forall_forall. intros z Hz. apply in_map_iff in Hz as ([[? ?] ?] & <- & _). apply Hf.
  - apply in_map_iff. exists (di, dj, c). split; [reflexivity|]. now apply in_taps.
Qed.
Lemma kernel_mean_eq k cin (K : kern) o : kernel_mean k cin K o = ksum k cin (fun di dj c => K di dj c o) / nk k cin.
Proof. unfold kernel_mean, Rmean, ksum, nk. now rewrite map_length, taps_length. Qed.
Lemma kernel_var_eq k cin (K : kern) o : kernel_var k cin K o = ksum k cin (fun di dj c => (K di dj c o - kernel_mean k cin K o) * (K di dj c o - kernel_mean k cin K o)) / nk k cin.
Proof. unfold kernel_var, Rmean, ksum, nk. now rewrite map_length, taps_length. Qed.
Lemma kernel_var_nonneg k cin K o : (0 < k)%nat -> (0 < cin)%nat -> 0 <= kernel_var k cin K o.
Proof. intros Hk Hc. rewrite kernel_var_eq. apply Rmult_le_pos; [apply ksum_nonneg; intros; apply Rle_0_sqr|]. left. apply Rinv_0_lt_compat. now apply nk_pos. Qed.
Lemma ws_eps_pos : 0 < ws_eps.
Proof. unfold ws_eps. apply Rinv_0_lt_compat. lra. Qed.
Lemma sd_pos k cin K o : (0 < k)%nat -> (0 < cin)%nat -> 0 < sqrt (kernel_var k cin K o + ws_eps).
Proof. intros Hk Hc. apply sqrt_lt_R0. pose proof (kernel_var_nonneg k cin K o Hk Hc). pose proof ws_eps_pos. lra. Qed.

(** mean zero *)
Lemma standardized_mean k cin (K : kern) o : (0 < k)%nat -> (0 < cin)%nat -> ksum k cin (fun di dj c => standardized k cin K di dj c o) = 0.
Proof.
  intros Hk Hc. pose proof (sd_pos k cin K o Hk Hc). pose proof (nk_pos k cin Hk Hc).
  rewrite (ksum_ext k cin _ (fun di dj c => / sqrt (kernel_var k cin K o + ws_eps) * (K di dj c o + - kernel_mean k cin K o))) by (intros; unfold standardized, Rdiv, Rminus; ring).
  rewrite ksum_scale, ksum_plus, ksum_const, kernel_mean_eq. field. split; lra.
Qed.
(** variance just below one *)
Lemma standardized_var k cin (K : kern) o : (0 < k)%nat -> (0 < cin)%nat ->
  ksum k cin (fun di dj c => standardized k cin K di dj c o * standardized k cin K di dj c o) = nk k cin * (kernel_var k cin K o / (kernel_var k cin K o + ws_eps)).
Proof.
  intros Hk Hc. pose proof (kernel_var_nonneg k cin K o Hk Hc) as Hv. pose proof ws_eps_pos. pose proof (nk_pos k cin Hk Hc). pose proof (sd_pos k cin K o Hk Hc).
  rewrite (ksum_ext k cin _ (fun di dj c => / (kernel_var k cin K o + ws_eps) * ((K di dj c o - kernel_mean k cin K o) * (K di dj c o - kernel_mean k cin K o)))).
  - rewrite ksum_scale. rewrite (kernel_var_eq k cin K o) at 2. field. lra.
  - intros di dj c _ _ _. unfold standardized. rewrite <- (sqrt_sqrt (kernel_var k cin K o + ws_eps)) at 3 by lra. field. lra.
Qed.
Lemma kernel_var_zero k cin (K : kern) o : (0 < k)%nat -> (0 < cin)%nat ->
  (kernel_var k cin K o = 0 <-> forall di dj c, (di < k)%nat -> (dj < k)%nat -> (c < cin)%nat -> K di dj c o = K 0%nat 0%nat 0%nat o).
Proof.
  intros Hk Hc. pose proof (nk_pos k cin Hk Hc) as Hn. rewrite kernel_var_eq. split.
  - intros H. assert (Z : ksum k cin (fun di dj c => (K di dj c o - kernel_mean k cin K o) * (K di dj c o - kernel_mean k cin K o)) = 0).
    { apply Rmult_eq_reg_r with (/ nk k cin); [unfold Rdiv in H; lra|]. apply Rinv_neq_0_compat. lra. }
    assert (Q : forall di dj c, (di < k)%nat -> (dj < k)%nat -> (c < cin)%nat -> K di dj c o = kernel_mean k cin K o).
    { intros di dj c H1 H2 H3. pose proof (ksum_zero k cin _ (fun a b c => Rle_0_sqr (K a b c o - kernel_mean k cin K o)) Z di dj c H1 H2 H3) as G. apply Rsqr_0_uniq in G. lra. }
    intros di dj c H1 H2 H3. rewrite !Q; auto.
  - intros H. assert (M : kernel_mean k cin K o = K 0%nat 0%nat 0%nat o).
    { rewrite kernel_mean_eq. rewrite (ksum_ext k cin _ (fun _ _ _ => K 0%nat 0%nat 0%nat o)) by auto. rewrite ksum_const. field. lra. }
    rewrite (ksum_ext k cin _ (fun _ _ _ => 0)); [rewrite ksum_const; field; lra|]. intros di dj c H1 H2 H3. rewrite M, (H di dj c) by assumption. ring.
Qed.
(** a constant added to the kernel, and a factor *)
Lemma standardized_affine k cin (K : kern) (a c : nat -> R) o di dj ch : (0 < k)%nat -> (0 < cin)%nat -> 0 < a o ->
  standardized k cin (fun di dj ch o => a o * K di dj ch o + c o) di dj ch o = (K di dj ch o - kernel_mean k cin K o) / sqrt (kernel_var k cin K o + ws_eps / (a o * a o)).
Proof.
  intros Hk Hc Ha. pose proof (nk_pos k cin Hk Hc). pose proof (kernel_var_nonneg k cin K o Hk Hc) as Hv. pose proof ws_eps_pos.
  assert (M : kernel_mean k cin (fun di dj ch o => a o * K di dj ch o + c o) o = a o * kernel_mean k cin K o + c o).
  { rewrite !kernel_mean_eq. rewrite ksum_plus, ksum_scale, ksum_const. field. lra. }
  assert (V : kernel_var k cin (fun di dj ch o => a o * K di dj ch o + c o) o = a o * a o * kernel_var k cin K o).
  { rewrite (kernel_var_eq k cin K o), kernel_var_eq, M. rewrite (ksum_ext k cin _ (fun di dj ch => (a o * a o) * ((K di dj ch o - kernel_mean k cin K o) * (K di dj ch o - kernel_mean k cin K o)))) by (intros; ring).
    rewrite ksum_scale. field. lra. }
  assert (0 < a o * a o) by nra. assert (P : 0 < kernel_var k cin K o + ws_eps / (a o * a o)) by (assert (0 < ws_eps / (a o * a o)) by (now apply Rdiv_lt_0_compat); lra).
  unfold standardized. rewrite M, V. replace (a o * a o * kernel_var k cin K o + ws_eps) with (a o * a o * (kernel_var k cin K o + ws_eps / (a o * a o))) by (field; lra).
  rewrite sqrt_mult by lra. rewrite sqrt_square by lra. pose proof (sqrt_lt_R0 _ P). field. split; lra.
Qed.

(** ** The layer *)
Definition window (k s p : nat) (x : tensor) (b i j : nat) : nat -> nat -> nat -> R := fun di dj c => pad p x b (i * s + di) (j * s + dj) c.
Lemma ws_value K bias f k s p x b i j o : dat (ws_conv K bias f k s p x) b i j o = ksum k (sc x) (fun di dj c => standardized k (sc x) K di dj c o * window k s p x b i j di dj c) + bias o.
Proof. reflexivity. Qed.
Lemma sq_sum_le {A} (f g : A -> R) l : Rsum (map (fun a => f a * g a) l) * Rsum (map (fun a => f a * g a) l) <= Rsum (map (fun a => f a * f a) l) * Rsum (map (fun a => g a * g a) l).
Proof.
  set (p := Rsum (map (fun a => f a * g a) l)). set (u := Rsum (map (fun a => f a * f a) l)). set (v := Rsum (map (fun a => g a * g a) l)).
  assert (Hu : 0 <= u) by (apply total_nonneg; intros; apply Rle_0_sqr).
  assert (Q : forall r q, 0 <= r * r * u - 2 * (r * q) * p + q * q * v).
  { intros r q. replace (r * r * u - 2 * (r * q) * p + q * q * v) with (Rsum (map (fun a => (r * f a - q * g a) * (r * f a - q * g a)) l)); [apply total_nonneg; intros; apply Rle_0_sqr|].
    unfold u, v, p. clear. induction l as [|a l IH]; cbn [map Rsum]; [ring|]. rewrite IH. ring. }
  destruct (Req_dec u 0) as [E|E].
  - assert (Hv : 0 <= v) by (apply total_nonneg; intros; apply Rle_0_sqr). destruct (Req_dec p 0) as [ ->|Hp]; [rewrite E; lra|]. exfalso. pose proof (Q ((v + 1) / p) 1) as H1. rewrite E in H1.
    replace ((v + 1) / p * ((v + 1) / p) * 0 - 2 * ((v + 1) / p * 1) * p + 1 * 1 * v) with (- v - 2) in H1 by (field; assumption). lra.
  - pose proof (Q p u) as H1. assert (0 < u) by lra. nra.
Qed.
Lemma ws_bound K bias f k s p x b i j o : (0 < k)%nat -> (0 < sc x)%nat ->
  (dat (ws_conv K bias f k s p x) b i j o - bias o) ^ 2 <= nk k (sc x) * ksum k (sc x) (fun di dj c => window k s p x b i j di dj c * window k s p x b i j di dj c).
Proof.
  intros Hk Hc. rewrite ws_value. replace (ksum _ _ _ + bias o - bias o) with (ksum k (sc x) (fun di dj c => standardized k (sc x) K di dj c o * window k s p x b i j di dj c)) by ring.
  set (w2 := ksum k (sc x) (fun di dj c => window k s p x b i j di dj c * window k s p x b i j di dj c)). assert (Hw : 0 <= w2) by (apply ksum_nonneg; intros; apply Rle_0_sqr).
  assert (CS := sq_sum_le (fun '(di, dj, c) => standardized k (sc x) K di dj c o) (fun '(di, dj, c) => window k s p x b i j di dj c) (taps k (sc x))).
  assert (E1 : Rsum (map (fun a => (let '(di, dj, c) := a in standardized k (sc x) K di dj c o) * (let '(di, dj, c) := a in window k s p x b i j di dj c)) (taps k (sc x))) = ksum k (sc x) (fun di dj c => standardized k (sc x) K di dj c o * window k s p x b i j di dj c)) by (apply Rsum_map_ext; now intros [[? ?] ?] _).
  assert (E2 : Rsum (map (fun a => (let '(di, dj, c) := a in standardized k (sc x) K di dj c o) * (let '(di, dj, c) := a in standardized k (sc x) K di dj c o)) (taps k (sc x))) = nk k (sc x) * (kernel_var k (sc x) K o / (kernel_var k (sc x) K o + ws_eps))) by (rewrite <- standardized_var by assumption; apply Rsum_map_ext; now intros [[? ?] ?] _).
  assert (E3 : Rsum (map (fun a => (let '(di, dj, c) := a in window k s p x b i j di dj c) * (let '(di, dj, c) := a in window k s p x b i j di dj c)) (taps k (sc x))) = w2) by (apply Rsum_map_ext; now intros [[? ?] ?] _).
  cbv beta in CS. rewrite E1, E2, E3 in CS. simpl pow. rewrite Rmult_1_r. eapply Rle_trans; [exact CS|]. apply Rmult_le_compat_r; [assumption|]. rewrite <- (Rmult_1_r (nk k (sc x))) at 2. apply Rmult_le_compat_l; [left; now apply nk_pos|].
  pose proof (kernel_var_nonneg k (sc x) K o Hk Hc). pose proof ws_eps_pos. apply Rmult_le_reg_r with (kernel_var k (sc x) K o + ws_eps); [lra|]. unfold Rdiv. rewrite Rmult_assoc, Rinv_l; lra.
Qed.
(** a constant added to the whole image *)
Definition brighter (r : R) (x : tensor) : tensor := tmap (fun a => a + r) x.
(** the window of the output pixel lies inside the image *)
Definition inside (k s p n i : nat) : Prop := (p <= i * s /\ i * s + k <= n + p)%nat.
Lemma pad_inside p x b i j c : (p <= i)%nat -> (i < sh x + p)%nat -> (p <= j)%nat -> (j < sw x + p)%nat -> pad p x b i j c = dat x b (i - p) (j - p) c.
Proof.
  intros H1 H2 H3 H4. unfold pad. replace ((p <=? i) && (i - p <? sh x) && (p <=? j) && (j - p <? sw x))%nat with true; [reflexivity|]. symmetry. rewrite !andb_true_iff, !Nat.leb_le, !Nat.ltb_lt. lia.
Qed.
Lemma ws_brighter K bias f k s p r x b i j o : (0 < k)%nat -> (0 < sc x)%nat -> inside k s p (sh x) i -> inside k s p (sw x) j ->
  dat (ws_conv K bias f k s p (brighter r x)) b i j o = dat (ws_conv K bias f k s p x) b i j o.
Proof.
  intros Hk Hc [I1 I2] [J1 J2]. rewrite !ws_value. change (sc (brighter r x)) with (sc x). f_equal.
  rewrite (ksum_ext k (sc x) _ (fun di dj c => standardized k (sc x) K di dj c o * window k s p x b i j di dj c + r * standardized k (sc x) K di dj c o)).
  - rewrite ksum_plus, ksum_scale, standardized_mean by assumption. ring.
  - intros di dj c H1 H2 H3. unfold window. rewrite !pad_inside; cbn [brighter tmap sh sw dat]; try lia. ring.
Qed.
Lemma standardized_ext k cin (K K' : kern) di dj ch o : (forall a b c, K a b c o = K' a b c o) -> standardized k cin K di dj ch o = standardized k cin K' di dj ch o.
Proof.
  intros H. assert (M : kernel_mean k cin K o = kernel_mean k cin K' o) by (rewrite !kernel_mean_eq; f_equal; apply ksum_ext; intros; apply H).
  assert (V : kernel_var k cin K o = kernel_var k cin K' o) by (rewrite !kernel_var_eq, M; f_equal; apply ksum_ext; intros; now rewrite H). unfold standardized. now rewrite M, V, H.
Qed.
