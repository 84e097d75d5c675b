(** The Bures and variance columns of tabulate_toy.py and the Bures curves of plot_sb.py: what they are on independent samples. *)
From Coquelicot Require Import Coquelicot.
From Coq Require Import Reals List Lia Lra FunctionalExtensionality.
From Verif Require Import Base Dist Prog FinLaw Hygiene Mat MatMore Cholesky ResVariance GaussDiv Bures Spectral CholFun SbTotal BuresBound ScriptRuns SampleStats CsmcInv.
From Verif Require ToyCond.
Import ListNotations.
Open Scope R_scope.

(** experiments/tabulators/tabulate_toy.py 54-60 and plot_sb.py 37-40: [err_bures] is bures_dist of the reference moments and
    the sample moments; [r] gives it for every list of [n] samples. *)
Definition bures_column (d n : nat) (gp_mean : vec) (gp_cov : mat) (r : list vec -> R) : Prop :=
  forall l, length l = n -> bures_returns d gp_mean gp_cov (approx_mean l) (approx_cov l) (r l).

Lemma iid_sum_square {A} (D : dist A) (dflt : A) n Y : is_prob D -> E D Y = 0 ->
  E (dseq (repeat D n)) (fun l => Rsum (map Y l) ^ 2) = INR n * E D (fun x => Y x ^ 2).
Proof.
  intros HD HY.
  rewrite (E_ext _ _ (fun l => Rsum (map (fun s => Rsum (map (fun t => Y (nth s l dflt) * Y (nth t l dflt)) (seq 0 n))) (seq 0 n)))).
  2:{ intros l Hl. apply dseq_repeat_support in Hl as [Hl _]. replace (Rsum (map Y l) ^ 2) with (Rsum (map Y l) * Rsum (map Y l)) by ring.
      assert (En : map Y l = map (fun t => Y (nth t l dflt)) (seq 0 n)) by (rewrite <- Hl; rewrite <- (map_map (fun t => nth t l dflt) Y); f_equal; symmetry; apply map_nth_seq).
      rewrite En. apply prod_sums. }
  rewrite E_Rsum. rewrite (Rsum_map_ext _ (fun s => Rsum (map (fun t => if Nat.eqb s t then E D (fun x => Y x ^ 2) else 0) (seq 0 n)))); [apply diag_sum|].
  intros s Hs. apply in_seq in Hs. rewrite E_Rsum. apply Rsum_map_ext. intros t Ht. apply in_seq in Ht. destruct (Nat.eqb_spec s t) as [<-|N].
  - rewrite (E_ext' _ _ (fun l => (fun x => Y x ^ 2) (nth s l dflt))) by (intros; ring). apply (E_iid_one D dflt n HD s (fun x => Y x ^ 2)). lia.
  - rewrite (E_iid_two D dflt n HD s t Y Y) by lia. rewrite HY. ring.
Qed.

Section stat.
  Context (d n : nat) (D : dist vec) (B : R).
  Hypothesis (HD : is_prob D) (HB : 0 <= B) (Hb : forall x, In x (map snd D) -> forall i, (i < d)%nat -> Rabs (x i - mean_vec D i) <= B) (Hn : (2 <= n)%nat).
  Let W := dseq (repeat D n).
  Lemma W_prob : is_prob W.
  Proof using HD. apply is_prob_dseq, Forall_forall. intros x Hx. apply repeat_spec in Hx. now subst. Qed.
  Lemma n_big : 2 <= INR n.
  Proof using Hn. apply (le_INR 2). exact Hn. Qed.
  Let z (i : nat) (x : vec) := x i - mean_vec D i.
  Lemma z_mean i : E D (z i) = 0.
  Proof using HD. unfold z. rewrite E_minus, (E_const _ _ HD). unfold mean_vec. ring. Qed.
  Lemma z_sq x i : In x (map snd D) -> (i < d)%nat -> z i x ^ 2 <= B ^ 2.
  Proof using Hb. intros Hx Hi. rewrite <- (pow2_abs (z i x)). apply pow_incr. split; [apply Rabs_pos|now apply Hb]. Qed.
  Lemma sum_z_abs l i : (i < d)%nat -> Forall (fun a => In a (map snd D)) l -> Rabs (Rsum (map (z i) l)) <= INR (length l) * B.
  Proof using Hb.
    intros Hi H. induction H as [|x l Hx _ IH]; [cbn; rewrite Rabs_R0; lra|]. cbn [map Rsum length]. rewrite S_INR. eapply Rle_trans; [apply Rabs_triang|]. pose proof (Hb x Hx i Hi). unfold z at 1. lra.
  Qed.
  Lemma cov_form l i j : In l (map snd W) -> approx_cov l i j = / (INR n - 1) * (Rsum (map (fun x => z i x * z j x) l) - Rsum (map (z i) l) * Rsum (map (z j) l) / INR n).
  Proof using Hn HD.
    intros Hl. apply dseq_repeat_support in Hl as [Hl _]. pose proof n_big. unfold approx_cov. rewrite (centred_products l i j (mean_vec D i) (mean_vec D j)) by (destruct l; [cbn in Hl; lia|discriminate]). rewrite Hl. unfold z. field. lra.
  Qed.
  Lemma cov_unbiased i j : (i < d)%nat -> (j < d)%nat -> E W (fun l => approx_cov l i j) = cov_mat D i j.
  Proof using HD Hn.
    intros Hi Hj. pose proof n_big. unfold W. rewrite (cov_mean d n _ _ _ (iid_moments d n D HD) ltac:(lia) i j Hn Hi Hj).
    rewrite (Rsum_map_ext _ (fun _ => cov_mat D i j)) by (intros t _; now rewrite Nat.eqb_refl).
    rewrite Rsum_map_const, seq_length.
    rewrite (Rsum_map_ext _ (fun s => Rsum (map (fun t => if Nat.eqb s t then cov_mat D i j else 0) (seq 0 n)))).
    - rewrite diag_sum. field. lra.
    - intros s _. apply Rsum_map_ext. intros t _. destruct (Nat.eqb s t); reflexivity.
  Qed.
  Lemma mean_sq i : (i < d)%nat -> E W (fun l => (approx_mean l i - mean_vec D i) ^ 2) = cov_mat D i i / INR n.
  Proof using HD Hn.
    intros Hi. pose proof n_big. unfold W. rewrite (mean_square d n _ _ _ (iid_moments d n D HD) ltac:(lia) i Hi).
    rewrite (Rsum_map_ext _ (fun s => Rsum (map (fun t => if Nat.eqb s t then cov_mat D i i else 0) (seq 0 n)))).
    - rewrite diag_sum. field. lra.
    - intros s _. apply Rsum_map_ext. intros t _. destruct (Nat.eqb s t); reflexivity.
  Qed.
  Lemma bias_var {A} (L : dist A) (f : A -> R) (c : R) : is_prob L -> E L (fun a => (f a - c) ^ 2) = (E L f - c) ^ 2 + E L (fun a => (f a - E L f) ^ 2).
  Proof using.
    intros HL. set (m := E L f).
    rewrite (E_ext' _ (fun a => (f a - c) ^ 2) (fun a => (f a - m) ^ 2 + (2 * (m - c) * f a + ((m - c) ^ 2 - 2 * (m - c) * m)))) by (intros; ring).
    rewrite !E_plus, E_mult_l, (E_const _ _ HL). fold m. ring.
  Qed.
  Lemma var_le_sq {A} (L : dist A) (f : A -> R) : is_prob L -> E L (fun a => (f a - E L f) ^ 2) <= E L (fun a => f a ^ 2).
  Proof using. intros HL. pose proof (bias_var L f 0 HL) as H. rewrite (E_ext' _ (fun a => (f a - 0) ^ 2) (fun a => f a ^ 2)) in H by (intros; ring). pose proof (pow2_ge_0 (E L f - 0)). lra. Qed.
  Lemma E_bound {A} (L : dist A) f c : is_prob L -> (forall a, In a (map snd L) -> f a <= c) -> E L f <= c.
  Proof using. intros HL H. rewrite <- (E_const c L HL). apply E_le; [apply HL|exact H]. Qed.
  Theorem cov_variance i j : (i < d)%nat -> (j < d)%nat -> E W (fun l => (approx_cov l i j - cov_mat D i j) ^ 2) <= 16 * B ^ 4 / INR n.
  Proof using HD HB Hb Hn.
    intros Hi Hj. pose proof n_big as N2. pose proof W_prob as HW. set (c := cov_mat D i j). set (Y := fun x => z i x * z j x - c).
    set (V := fun l : list vec => Rsum (map (z i) l) * Rsum (map (z j) l) / INR n).
    assert (B2 : 0 <= B ^ 2) by apply pow2_ge_0. assert (B4 : 0 <= B ^ 4) by (replace (B ^ 4) with ((B ^ 2) ^ 2) by ring; apply pow2_ge_0).
    assert (Y0 : E D Y = 0) by (unfold Y; rewrite E_minus, (E_const _ _ HD); unfold c, cov_mat, z; ring).
    assert (Y2 : E D (fun x => Y x ^ 2) <= B ^ 4).
    { eapply Rle_trans; [exact (var_le_sq D (fun x => z i x * z j x) HD)|]. apply E_bound; [exact HD|]. intros x Hx. pose proof (z_sq x i Hx Hi). pose proof (z_sq x j Hx Hj). replace ((z i x * z j x) ^ 2) with (z i x ^ 2 * z j x ^ 2) by ring. replace (B ^ 4) with (B ^ 2 * B ^ 2) by ring. apply Rmult_le_compat; try assumption; apply pow2_ge_0. }
    assert (V1 : E W V = c).
    { unfold V. rewrite (E_ext' _ _ (fun l => / INR n * (Rsum (map (fun s : vec => s i - mean_vec D i) l) * Rsum (map (fun s : vec => s j - mean_vec D j) l)))) by (intros; unfold z, Rdiv; ring).
      unfold W. rewrite E_mult_l, (cov_double d n _ _ _ (iid_moments d n D HD) ltac:(lia) i j Hi Hj).
      rewrite (Rsum_map_ext _ (fun s => Rsum (map (fun t => if Nat.eqb s t then c else 0) (seq 0 n)))); [rewrite diag_sum; field; lra|]. intros s _. apply Rsum_map_ext. intros t _. destruct (Nat.eqb s t); reflexivity. }
    assert (V2 : E W (fun l => (V l - c) ^ 2) <= INR n * B ^ 4).
    { rewrite <- V1. eapply Rle_trans; [exact (var_le_sq W V HW)|]. apply Rle_trans with (E W (fun l => B ^ 2 * Rsum (map (z j) l) ^ 2)).
      - apply E_le; [apply HW|]. intros l Hl. apply dseq_repeat_support in Hl as [Hl Hf]. pose proof (sum_z_abs l i Hi Hf) as Q. rewrite Hl in Q. unfold V.
        replace ((Rsum (map (z i) l) * Rsum (map (z j) l) / INR n) ^ 2) with ((Rsum (map (z i) l) / INR n) ^ 2 * Rsum (map (z j) l) ^ 2) by (field; lra).
        apply Rmult_le_compat_r; [apply pow2_ge_0|]. rewrite <- (pow2_abs (_ / _)). apply pow_incr. split; [apply Rabs_pos|]. unfold Rdiv. rewrite Rabs_mult, (Rabs_pos_eq (/ INR n)) by (left; apply Rinv_0_lt_compat; lra).
        apply (Rmult_le_reg_r (INR n)); [lra|]. rewrite Rmult_assoc, Rinv_l, Rmult_1_r by lra. lra.
      - rewrite E_mult_l. unfold W. rewrite (iid_sum_square D (fun _ => 0) n (z j) HD (z_mean j)).
        assert (E D (fun x => z j x ^ 2) <= B ^ 2) by (apply E_bound; [exact HD|]; intros x Hx; now apply z_sq).
        replace (INR n * B ^ 4) with (B ^ 2 * (INR n * B ^ 2)) by ring. apply Rmult_le_compat_l; [exact B2|]. apply Rmult_le_compat_l; lra. }
    assert (S2 : E W (fun l => Rsum (map Y l) ^ 2) <= INR n * B ^ 4) by (unfold W; rewrite (iid_sum_square D (fun _ => 0) n Y HD Y0); apply Rmult_le_compat_l; lra).
    apply Rle_trans with (E W (fun l => 2 * / (INR n - 1) ^ 2 * (Rsum (map Y l) ^ 2 + (V l - c) ^ 2))).
    - apply E_le; [apply HW|]. intros l Hl. rewrite (cov_form l i j Hl). apply dseq_repeat_support in Hl as [Hl _].
      assert (EY : Rsum (map Y l) = Rsum (map (fun x => z i x * z j x) l) - INR n * c).
      { rewrite <- Hl. clear. unfold Y. induction l as [|x l IH]; [cbn; ring|]. cbn [map Rsum length]. rewrite IH, S_INR. ring. }
      set (y := Rsum (map Y l)) in *. fold (V l). set (v := V l).
      replace (/ (INR n - 1) * (Rsum (map (fun x => z i x * z j x) l) - v) - c) with (/ (INR n - 1) * (y - (v - c))) by (rewrite EY; field; lra).
      replace ((/ (INR n - 1) * (y - (v - c))) ^ 2) with (/ (INR n - 1) ^ 2 * (y - (v - c)) ^ 2) by (field; lra). rewrite Rmult_assoc, (Rmult_comm 2), Rmult_assoc. apply Rmult_le_compat_l; [left; apply Rinv_0_lt_compat; nra|]. pose proof (pow2_ge_0 (y + (v - c))). nra.
    - rewrite E_mult_l, E_plus. apply Rle_trans with (2 * / (INR n - 1) ^ 2 * (2 * (INR n * B ^ 4))).
      + apply Rmult_le_compat_l; [|lra]. apply Rmult_le_pos; [lra|]. left. apply Rinv_0_lt_compat. nra.
      + apply (Rmult_le_reg_l (INR n * (INR n - 1) ^ 2)); [nra|].
        replace (INR n * (INR n - 1) ^ 2 * (2 * / (INR n - 1) ^ 2 * (2 * (INR n * B ^ 4)))) with (4 * INR n ^ 2 * B ^ 4) by (field; lra).
        replace (INR n * (INR n - 1) ^ 2 * (16 * B ^ 4 / INR n)) with (16 * (INR n - 1) ^ 2 * B ^ 4) by (field; lra). apply Rmult_le_compat_r; [exact B4|]. nra.
  Qed.
  (** mean squared Frobenius error against any reference covariance *)
  Lemma frob_error C : E W (fun l => frob d (msub (approx_cov l) C)) <= frob d (msub (cov_mat D) C) + INR d ^ 2 * (16 * B ^ 4 / INR n).
  Proof using HD HB Hb Hn.
    unfold frob. rewrite E_Rsum. replace (INR d ^ 2 * (16 * B ^ 4 / INR n)) with (Rsum (map (fun _ : nat => Rsum (map (fun _ : nat => 16 * B ^ 4 / INR n) (seq 0 d))) (seq 0 d))) by (rewrite !Rsum_map_const, !seq_length; ring).
    rewrite <- Rsum_map_plus. apply sum_mono. intros i Hi. rewrite E_Rsum, <- Rsum_map_plus. apply sum_mono. intros j Hj. unfold msub. rewrite (bias_var W (fun l => approx_cov l i j) (C i j) W_prob), (cov_unbiased i j Hi Hj).
    pose proof (cov_variance i j Hi Hj). lra.
  Qed.
  Lemma mean_error (m : vec) : E W (fun l => Rsum (map (fun i => (m i - approx_mean l i) ^ 2) (seq 0 d))) = Rsum (map (fun i => (m i - mean_vec D i) ^ 2) (seq 0 d)) + mtrace d (cov_mat D) / INR n.
  Proof using HD Hn.
    rewrite E_Rsum. unfold mtrace, Rdiv. rewrite <- Rsum_map_mult_r, <- Rsum_map_plus. apply Rsum_map_ext. intros i Hi. apply in_seq in Hi.
    rewrite (E_ext' _ _ (fun l => (approx_mean l i - m i) ^ 2)) by (intros; ring). rewrite (bias_var W (fun l => approx_mean l i) (m i) W_prob). unfold W at 1 3. rewrite (mean_unbiased d n _ _ _ (iid_moments d n D HD) ltac:(lia) i ltac:(lia)).
    fold W. rewrite mean_sq by lia. unfold Rdiv. ring.
  Qed.
  Context (gp_mean : vec) (gp_cov : mat) (lam : R) (r : list vec -> R) (sampler : key -> prog vec).
  Hypothesis (GS : symmetric d gp_cov) (Hl : 0 < lam) (GP : forall x, lam * dot d x x <= quad d gp_cov x) (Hr : bures_column d n gp_mean gp_cov r) (Hs : forall k, denotes (sampler k) D).
  Let floor := Rsum (map (fun i => (gp_mean i - mean_vec D i) ^ 2) (seq 0 d)) + mtrace d (cov_mat D) / INR n.
  Lemma column_pointwise l : In l (map snd W) -> Rsum (map (fun i => (gp_mean i - approx_mean l i) ^ 2) (seq 0 d)) <= r l <= Rsum (map (fun i => (gp_mean i - approx_mean l i) ^ 2) (seq 0 d)) + frob d (msub (approx_cov l) gp_cov) / lam.
  Proof using Hn GS Hl GP Hr.
    intros Hin. apply dseq_repeat_support in Hin as [Hlen _]. destruct (cov_psd d l ltac:(lia)) as [S1 P1]. apply (bures_bounds d gp_cov (approx_cov l) lam GS Hl GP S1 P1). now apply Hr.
  Qed.
  Theorem bures_bias k : floor <= law (sample_loop sampler k n) r <= floor + (frob d (msub (cov_mat D) gp_cov) + 16 * INR d ^ 2 * B ^ 4 / INR n) / lam.
  Proof using HD HB Hb Hn GS Hl GP Hr Hs.
    rewrite (sample_loop_denotes sampler D Hs n k _). fold W. unfold floor. rewrite <- mean_error. split.
    - apply E_le; [apply W_prob|]. intros l Hin. apply (column_pointwise l Hin).
    - eapply Rle_trans; [apply E_le with (g := fun l => Rsum (map (fun i => (gp_mean i - approx_mean l i) ^ 2) (seq 0 d)) + / lam * frob d (msub (approx_cov l) gp_cov)); [apply W_prob|]|].
      + intros l Hin. destruct (column_pointwise l Hin) as [_ H]. unfold Rdiv in H. lra.
      + rewrite E_plus, E_mult_l. apply Rplus_le_compat_l. pose proof (frob_error gp_cov) as F. unfold Rdiv at 1. rewrite Rmult_comm. apply Rmult_le_compat_r; [left; now apply Rinv_0_lt_compat|].
        replace (16 * INR d ^ 2 * B ^ 4 / INR n) with (INR d ^ 2 * (16 * B ^ 4 / INR n)) by (unfold Rdiv; ring). exact F.
  Qed.
  Theorem var_column k : Rmean (map (fun i => Rabs (cov_mat D i i - gp_cov i i)) (seq 0 d)) <= law (sample_loop sampler k n) (err_var d gp_cov) <=
    Rmean (map (fun i => Rabs (cov_mat D i i - gp_cov i i) + 4 * B ^ 2 / sqrt (INR n)) (seq 0 d)).
  Proof using HD HB Hb Hn Hs.
    rewrite (sample_loop_denotes sampler D Hs n k _). fold W. unfold err_var.
    rewrite (E_Rmean W (fun l i => Rabs (approx_cov l i i - gp_cov i i))). pose proof n_big as N2. split; apply (Rmean_le n ltac:(lia)); intros i Hi; apply in_seq in Hi.
    - pose proof (E_abs_lower W (fun l => approx_cov l i i - gp_cov i i) W_prob) as H. rewrite E_minus, (E_const _ _ W_prob), (cov_unbiased i i) in H by lia. exact H.
    - apply Rle_trans with (E W (fun l => Rabs (cov_mat D i i - gp_cov i i) + Rabs (approx_cov l i i - cov_mat D i i))).
      + apply E_le; [apply W_prob|]. intros l _. replace (approx_cov l i i - gp_cov i i) with ((cov_mat D i i - gp_cov i i) + (approx_cov l i i - cov_mat D i i)) by ring. apply Rabs_triang.
      + rewrite E_plus, (E_const _ _ W_prob). apply Rplus_le_compat_l. eapply Rle_trans; [apply (E_abs_upper W (fun l => approx_cov l i i - cov_mat D i i) (16 * B ^ 4 / INR n) W_prob)|].
        * apply cov_variance; lia.
        * right. rewrite sqrt_div_alt by lra. f_equal. replace (16 * B ^ 4) with ((4 * B ^ 2) ^ 2) by ring. apply sqrt_pow2. pose proof (pow2_ge_0 B). lra.
  Qed.
End stat.

(** the distance is single-valued, so the column is a function of the samples *)
Lemma bures_unique d m0 c0 m1 c1 r r' : symmetric d c0 -> psd d c0 -> psd d c1 -> bures_returns d m0 c0 m1 c1 r -> bures_returns d m0 c0 m1 c1 r' -> r = r'.
Proof.
  intros S0 P0 P1 (S & Q & HS & HQ & ->) (S' & Q' & HS' & HQ' & ->).
  destruct (sqrtm_correct d c0 S P0 HS) as (A1 & A2 & A3). destruct (sqrtm_correct d c0 S' P0 HS') as (B1 & B2 & B3).
  pose proof (sqrtm_unique d c0 S S' P0 HS B1 B2 B3) as ES.
  assert (PM : forall S, symmetric d S -> psd d (mmul d (mmul d S c1) S)) by (intros T HT x; rewrite quad_conj_sym by exact HT; apply P1).
  destruct (sqrtm_correct d _ Q' (PM S' B1) HQ') as (C1 & C2 & C3).
  assert (EQ : meq d Q Q') by (apply (sqrtm_unique d _ Q Q' (PM S A1) HQ C1 C2); rewrite C3, ES; reflexivity).
  now rewrite EQ.
Qed.
Theorem column_exists d n gp_mean gp_cov : symmetric d gp_cov -> psd d gp_cov -> (2 <= n)%nat -> exists r, bures_column d n gp_mean gp_cov r.
Proof.
  intros GS GP Hn. exists (fun l => real (Lub_Rbar (fun x => bures_returns d gp_mean gp_cov (approx_mean l) (approx_cov l) x))). intros l Hl.
  destruct (cov_psd d l ltac:(lia)) as [S1 P1]. destruct (bures_total d gp_mean gp_cov (approx_mean l) (approx_cov l) GS GP S1) as (r & Hr).
  assert (E : Lub_Rbar (fun x => bures_returns d gp_mean gp_cov (approx_mean l) (approx_cov l) x) = Finite r).
  { apply is_lub_Rbar_unique. split.
    - intros x Hx. rewrite (bures_unique d _ _ _ _ x r GS GP P1 Hx Hr). apply Rbar_le_refl.
    - intros b H. now apply H. }
  now rewrite E.
Qed.
Lemma frob_zero d A B : meq d A B -> frob d (msub A B) = 0.
Proof.
  intros H. unfold frob. rewrite (Rsum_map_ext _ (fun _ => 0)); [rewrite Rsum_map_const; ring|]. intros i Hi. apply in_seq in Hi.
  rewrite (Rsum_map_ext _ (fun _ => 0)); [rewrite Rsum_map_const; ring|]. intros j Hj. apply in_seq in Hj. unfold msub. rewrite H by lia. ring.
Qed.
(** a sampler that has the reference moments *)
Theorem bures_exact_sampler d n D B : is_prob D -> 0 <= B -> (forall x, In x (map snd D) -> forall i, (i < d)%nat -> Rabs (x i - mean_vec D i) <= B) -> (2 <= n)%nat ->
  forall lam r sampler, symmetric d (cov_mat D) -> 0 < lam -> (forall x, lam * dot d x x <= quad d (cov_mat D) x) ->
  bures_column d n (mean_vec D) (cov_mat D) r -> (forall k, denotes (sampler k) D) -> forall k,
  mtrace d (cov_mat D) / INR n <= law (sample_loop sampler k n) r <= (mtrace d (cov_mat D) + 16 * INR d ^ 2 * B ^ 4 / lam) / INR n.
Proof.
  intros HD HB Hb Hn lam r sampler GS Hl GP Hr Hs k. assert (N2 : 2 <= INR n) by (apply (le_INR 2); exact Hn).
  pose proof (bures_bias d n D B HD HB Hb Hn (mean_vec D) (cov_mat D) lam r sampler GS Hl GP Hr Hs k) as H. cbv zeta in H. rewrite (frob_zero d (cov_mat D) (cov_mat D) (fun i j _ _ => eq_refl)) in H.
  rewrite (Rsum_map_ext _ (fun _ => 0)) in H by (intros; ring). rewrite Rsum_map_const, Rmult_0_r, Rplus_0_l in H.
  replace ((mtrace d (cov_mat D) + 16 * INR d ^ 2 * B ^ 4 / lam) / INR n) with (mtrace d (cov_mat D) / INR n + (0 + 16 * INR d ^ 2 * B ^ 4 / INR n) / lam) by (field; split; lra). exact H.
Qed.

(** ** In one dimension: the fair sign *)
Definition coin : dist vec := [(1 / 2, fun _ => 1); (1 / 2, fun _ => -1)].
Definition coin_r (l : list vec) : R := approx_mean l 0%nat ^ 2 + (1 + approx_cov l 0%nat 0%nat - 2 * sqrt (approx_cov l 0%nat 0%nat)).
Lemma sqrtm_one c Q : Q 0%nat 0%nat = sqrt (c 0%nat 0%nat) -> sqrtm_returns 1 c Q.
Proof.
  intros H. exists (fun _ => c 0%nat 0%nat), mid. split; [split; [|split]|]; intros [|] [|] Hi Hj; try lia; unfold sqrtm, mmul, mdiag, mtr, mid; cbn; try rewrite H; ring.
Qed.
Lemma coin_prob : is_prob coin.
Proof. split; [repeat (apply Forall_cons; [cbn; lra|]); constructor|]. unfold E, coin. cbn. lra. Qed.
Lemma coin_mean i : mean_vec coin i = 0.
Proof. unfold mean_vec, E, coin. cbn. lra. Qed.
Lemma coin_cov i j : cov_mat coin i j = 1.
Proof. unfold cov_mat. rewrite !coin_mean. unfold E, coin. cbn. lra. Qed.
Lemma coin_column n : (2 <= n)%nat -> bures_column 1 n (mean_vec coin) (cov_mat coin) coin_r.
Proof.
  intros Hn l Hl. exists (fun _ _ => 1), (fun _ _ => sqrt (approx_cov l 0%nat 0%nat)). split; [apply sqrtm_one; rewrite coin_cov; symmetry; apply sqrt_1|]. split.
  - apply sqrtm_one. unfold mmul. cbn. f_equal. ring.
  - unfold coin_r, mtrace, msub, madd, mscale. cbn [seq map Rsum]. rewrite coin_mean, coin_cov. ring.
Qed.
Lemma coin_two : E (dseq (repeat coin 2)) coin_r = 5 / 2 - sqrt 2.
Proof.
  assert (A : forall a b : vec, approx_mean [a; b] 0%nat = (a 0%nat + b 0%nat) / 2) by (intros; unfold approx_mean, Rmean; cbn; field).
  assert (C : forall a b : vec, approx_cov [a; b] 0%nat 0%nat = (a 0%nat - b 0%nat) ^ 2 / 2) by (intros; unfold approx_cov; rewrite !A; cbn; field).
  unfold E, coin. cbn [repeat dseq dbind map app fst snd Rsum flat_map dret dmap]. cbn. unfold coin_r. rewrite !A, !C.
  replace ((1 - 1) ^ 2 / 2) with 0 by field. replace ((-1 - -1) ^ 2 / 2) with 0 by field. replace ((1 - -1) ^ 2 / 2) with 2 by field. replace ((-1 - 1) ^ 2 / 2) with 2 by field. rewrite sqrt_0. field.
Qed.
