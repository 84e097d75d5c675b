(** C120: what the autocorrelation figures show. *)
From Verif Require Import Base Dist Mat AutoCorr.
From Coq Require FunctionalExtensionality.
Open Scope R_scope.

(** the value at a lag, whatever the length of the Fourier transform: the textbook formula; NaN exactly for a constant series *)
Theorem C120_autocorrelation : forall n m x k, (n <= m)%nat -> (k < n)%nat ->
  (autocorrelation true n m x k = None <-> constant n x) /\
  (~ constant n x -> autocorrelation true n m x k = Some (Rsum (map (fun i => (x i - smean n x) * (x (i + k)%nat - smean n x)) (seq 0 (n - k))) / Rsum (map (fun i => (x i - smean n x) * (x i - smean n x)) (seq 0 n)))) /\
  (forall a, autocorrelation true n m x k = Some a -> -1 <= a <= 1 /\ (k = 0%nat -> a = 1)) /\
  (forall a b, a <> 0 -> autocorrelation true n m (fun i => a * x i + b) k = autocorrelation true n m x k).
Proof.
  intros n m x k Hm Hk. assert (Hn : (0 < n)%nat) by lia. assert (Z := spread2_zero n x Hn). split; [rewrite (ac_none true n m x k Hm Hn); exact Z|]. split; [intros H; apply ac_value; auto; intros H0; exact (H (proj1 Z H0))|].
  split; [|intros; now apply ac_affine]. intros a H. split; [now apply (ac_bound n m x k)|]. intros ->. assert (Hs : spread2 n x <> 0) by (intros H0; apply (ac_none true n m x 0%nat Hm Hn) in H0; congruence). rewrite ac_zero in H by auto. now injection H.
Qed.
Print Assumptions C120_autocorrelation.

(** the lags after the first always add up to -1/2: no series has all of them above zero *)
Theorem C120_sum : forall n m x, (n <= m)%nat -> (0 < n)%nat -> ~ constant n x ->
  exists rho, (forall k, (k < n)%nat -> autocorrelation true n m x k = Some (rho k)) /\ Rsum (map rho (seq 1 (n - 1))) = - (1 / 2).
Proof.
  intros n m x Hm Hn Hc. assert (Hs : spread2 n x <> 0) by (intros H; apply Hc; exact (proj1 (spread2_zero n x Hn) H)).
  exists (fun k => lagged n (centred n x) k / spread2 n x). split; [intros k Hk; now apply ac_value|].
  rewrite (Rsum_map_ext _ (fun k => / spread2 n x * lagged n (centred n x) k)) by (intros; unfold Rdiv; ring). rewrite Rsum_map_mult_l, lagged_total by assumption. field. assumption.
Qed.
Print Assumptions C120_sum.

(** exchangeable samples, as independent ones, do not show zero on average but less, with the default and without the bias *)
Theorem C120_independent_zero_refuted : forall n m D k dflt, (n <= m)%nat -> (0 < k < n)%nat -> is_prob D -> Forall (fun x => ~ constant n x) (map snd D) -> exchangeable n D ->
  E D (fun x => match autocorrelation true n m x k with Some a => a | None => dflt end) = - (INR (n - k) / (INR n * INR (n - 1))) /\
  E D (fun x => match autocorrelation false n m x k with Some a => a | None => dflt end) = - / INR (n - 1) /\
  - (INR (n - k) / (INR n * INR (n - 1))) < 0.
Proof.
  intros n m D k dflt Hm Hk HD HF HE.
  assert (HF' : Forall (fun x => spread2 n x <> 0) (map snd D)) by (eapply Forall_impl; [|exact HF]; intros x Hx H; apply Hx; exact (proj1 (spread2_zero n x ltac:(lia)) H)).
  split; [apply exch_lag; auto; lia|]. split; [apply (exch_lag_unbiased n m D k); auto; lia|].
  assert (0 < INR n) by (apply lt_0_INR; lia). assert (0 < INR (n - 1)) by (apply lt_0_INR; lia). assert (0 < INR (n - k)) by (apply lt_0_INR; lia).
  assert (0 < INR (n - k) / (INR n * INR (n - 1))) by (apply Rdiv_lt_0_compat; [assumption|now apply Rmult_lt_0_compat]). lra.
Qed.
Print Assumptions C120_independent_zero_refuted.

(** the figure of the synthetic experiment: starts at 1, stays within [-1, 1], is at least the curve of any variable *)
Theorem C120_toy_curve : forall n m d runs k v, (n <= m)%nat -> (k < n)%nat -> (0 < d)%nat -> runs <> [] -> Forall (fun c => c <> []) runs -> toy_curve n m d runs k = Some v ->
  -1 <= v <= 1 /\ (k = 0%nat -> v = 1).
Proof. exact toy_curve_bounds. Qed.
Print Assumptions C120_toy_curve.
Theorem C120_worst_variable : forall n m d chains k v j a, toy_run_ac n m d chains k = Some v -> (j < d)%nat ->
  omean (map (fun c => autocorrelation true n m (variable c j) k) chains) = Some a -> a <= v.
Proof. exact toy_run_worst. Qed.
Print Assumptions C120_worst_variable.
(** but one variable that does not move in one chain of one run leaves the whole curve blank *)
Theorem C120_toy_blank_refuted : forall n m d runs k, (n <= m)%nat -> (0 < n)%nat ->
  (toy_curve n m d runs k = None <-> exists chains c j, In chains runs /\ In c chains /\ (j < d)%nat /\ constant n (variable c j)).
Proof. exact toy_curve_none. Qed.
Print Assumptions C120_toy_blank_refuted.

(** the figure of the image experiment: the least value over the pixels that move, negative values counted as zero *)
Theorem C120_img_run : forall n m d c k v, (n <= m)%nat -> (k < n)%nat ->
  (img_run_ac n m d c k = Some v <->
   (exists j a, (j < d)%nat /\ autocorrelation true n m (variable c j) k = Some a /\ v = Rmax 0 a) /\
   (forall j a, (j < d)%nat -> autocorrelation true n m (variable c j) k = Some a -> v <= Rmax 0 a)) /\
  (img_run_ac n m d c k = None <-> forall j, (j < d)%nat -> constant n (variable c j)).
Proof. intros n m d c k v Hm Hk. split; [now apply img_run_ac_spec|]. apply img_run_ac_none; [assumption|lia]. Qed.
Print Assumptions C120_img_run.
Theorem C120_img_zero : forall n m d runs k, (n <= m)%nat -> (k < n)%nat -> runs <> [] -> Forall (fun c => exists j, (j < d)%nat /\ ~ constant n (variable c j)) runs ->
  (img_curve n m d runs k = Some 0 <-> Forall (fun c => exists j a, (j < d)%nat /\ autocorrelation true n m (variable c j) k = Some a /\ a <= 0) runs).
Proof. exact img_curve_zero. Qed.
Print Assumptions C120_img_zero.

(** two pixels over four samples: 1, -1, 1, -1 and 1, 1, -1, -1 *)
Definition two_pixels : chain := fun i j => nth i (nth j [[1; -1; 1; -1]; [1; 1; -1; -1]] []) 0.
Lemma two_pixels_moves : spread2 4 (variable two_pixels 0) = 4 /\ spread2 4 (variable two_pixels 1) = 4.
Proof. unfold spread2, centred, smean, variable, two_pixels. cbn [seq map nth Rsum INR]. split; field. Qed.
Lemma two_pixels_values : forall m, (4 <= m)%nat ->
  map (autocorrelation true 4 m (variable two_pixels 0)) [1; 2; 3]%nat = map Some [-3/4; 1/2; -1/4] /\ map (autocorrelation true 4 m (variable two_pixels 1)) [1; 2; 3]%nat = map Some [1/4; -1/2; -1/4].
Proof.
  intros m Hm. destruct two_pixels_moves as [H0 H1]. cbn [map].
  rewrite !ac_value by (auto; try lia; rewrite ?H0, ?H1; lra). rewrite H0, H1. unfold lagged, centred, smean, variable, two_pixels. cbn [seq map nth Rsum INR Nat.sub Nat.add].
  assert (L : forall a b c a' b' c' : R, a = a' -> b = b' -> c = c' -> [Some a; Some b; Some c] = [Some a'; Some b'; Some c']) by congruence.
  split; apply L; field.
Qed.
(** the curve is zero at all three lags, though it is labelled the best variable and each variable has a lag of at least 1/4 *)
Theorem C120_best_variable_refuted : forall m, (4 <= m)%nat ->
  (forall k, In k [1; 2; 3]%nat -> img_run_ac 4 m 2 two_pixels k = Some 0) /\ forall j, (j < 2)%nat -> exists k a, In k [1; 2; 3]%nat /\ ac_fn 4 m (variable two_pixels j) k = Some a /\ 1/4 <= a.
Proof.
  intros m Hm. destruct (two_pixels_values m Hm) as [V0 V1]. cbn [map] in V0, V1. injection V0 as A1 A2 A3. injection V1 as B1 B2 B3. split.
  - intros k [<-|[<-|[<-|[]]]]; apply img_run_zero; auto; try lia.
    + exists 0%nat, (-3/4). repeat split; [lia|exact A1|lra].
    + exists 1%nat, (-1/2). repeat split; [lia|exact B2|lra].
    + exists 0%nat, (-1/4). repeat split; [lia|exact A3|lra].
  - intros j Hj. assert (j = 0%nat \/ j = 1%nat) as [ ->| ->] by lia.
    + exists 2%nat, (1/2). split; [cbn; auto|]. unfold ac_fn. rewrite A2. destruct (Rlt_dec (1/2) 0); [lra|]. split; [reflexivity|lra].
    + exists 1%nat, (1/4). split; [cbn; auto|]. unfold ac_fn. rewrite B1. destruct (Rlt_dec (1/4) 0); [lra|]. split; [reflexivity|lra].
Qed.
Print Assumptions C120_best_variable_refuted.

(** two samples 0 and 1 in either order are exchangeable and show -1/2 *)
Definition s01 : series := fun i => match i with 0%nat => 0 | 1%nat => 1 | _ => 7 end.
Definition s10 : series := fun i => match i with 0%nat => 1 | 1%nat => 0 | _ => 7 end.
Definition coin_pair : dist series := [(1/2, s01); (1/2, s10)].
Example coin_pair_exchangeable : exchangeable 2 coin_pair.
Proof.
  intros i j Hi Hj g. unfold E, coin_pair. cbn [map fst snd Rsum].
  assert (C : i = j \/ (i = 0%nat /\ j = 1%nat) \/ (i = 1%nat /\ j = 0%nat)) by lia. destruct C as [<-|[[-> ->]|[-> ->]]].
  - assert (S : forall x : series, (fun k => x (swap i i k)) = x) by (intros x; apply FunctionalExtensionality.functional_extensionality; intros k; unfold swap; destruct (Nat.eqb_spec k i) as [ ->|]; reflexivity). now rewrite !S.
  - assert (S1 : (fun k => s01 (swap 0 1 k)) = s10) by (apply FunctionalExtensionality.functional_extensionality; intros [|[|k]]; reflexivity).
    assert (S2 : (fun k => s10 (swap 0 1 k)) = s01) by (apply FunctionalExtensionality.functional_extensionality; intros [|[|k]]; reflexivity). rewrite S1, S2. ring.
  - assert (S1 : (fun k => s01 (swap 1 0 k)) = s10) by (apply FunctionalExtensionality.functional_extensionality; intros [|[|k]]; reflexivity).
    assert (S2 : (fun k => s10 (swap 1 0 k)) = s01) by (apply FunctionalExtensionality.functional_extensionality; intros [|[|k]]; reflexivity). rewrite S1, S2. ring.
Qed.
Example C120_example : E coin_pair (fun x => match autocorrelation true 2 8 x 1 with Some a => a | None => 0 end) = - (1 / 2).
Proof.
  assert (P : is_prob coin_pair) by (split; [repeat (apply Forall_cons; [cbn; lra|]); apply Forall_nil|unfold E, coin_pair; cbn; lra]).
  assert (F : Forall (fun x => ~ constant 2 x) (map snd coin_pair)) by (repeat (apply Forall_cons; [intros H; specialize (H 0%nat 1%nat ltac:(lia) ltac:(lia)); cbn in H; lra|]); apply Forall_nil).
  destruct (C120_independent_zero_refuted 2 8 coin_pair 1 0 ltac:(lia) ltac:(lia) P F coin_pair_exchangeable) as [H _]. rewrite H. cbn. field.
Qed.
