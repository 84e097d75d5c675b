(** The spectral theorem for real symmetric matrices: jnp.linalg.eigh has something to return (fbs/utils.py 21-28). *)
From Coquelicot Require Import Coquelicot.
From Coq Require Import Reals List Lia Lra Morphisms Setoid Classical.
From Verif Require Import Base Dist Mat MatMore Cholesky GaussDiv Bures.
From Verif Require ToyCond EmConverge.
Import ListNotations.
Open Scope R_scope.

(** ** Bounds *)
Definition msum (d : nat) (M : mat) : R := Rsum (map (fun i => Rsum (map (fun j => M i j ^ 2) (seq 0 d))) (seq 0 d)).
Lemma Rsum_le (f g : nat -> R) l : (forall i, In i l -> f i <= g i) -> Rsum (map f l) <= Rsum (map g l).
Proof. induction l as [|a l IH]; intros H; cbn [map Rsum]; [lra|]. pose proof (H a (or_introl eq_refl)). assert (Rsum (map f l) <= Rsum (map g l)) by (apply IH; intros; apply H; now right). lra. Qed.
Lemma sum_cs (f g : nat -> R) l : Rsum (map (fun i => f i * g i) l) ^ 2 <= Rsum (map (fun i => f i ^ 2) l) * Rsum (map (fun i => g i ^ 2) l).
Proof.
  assert (HP : forall h : nat -> R, 0 <= Rsum (map (fun i => h i ^ 2) l)) by (intros h; apply Rsum_nonneg, Forall_forall; intros y Hy; apply in_map_iff in Hy as (i & <- & _); apply pow2_ge_0).
  set (a := Rsum (map (fun i => f i ^ 2) l)). set (c := Rsum (map (fun i => g i ^ 2) l)). set (b := Rsum (map (fun i => f i * g i) l)).
  assert (H : forall s t, 0 <= s ^ 2 * a + 2 * s * t * b + t ^ 2 * c).
  { intros s t. replace (s ^ 2 * a + 2 * s * t * b + t ^ 2 * c) with (Rsum (map (fun i => (s * f i + t * g i) ^ 2) l)); [apply HP|]. unfold a, b, c. rewrite <- !Rsum_map_mult_l, <- !Rsum_map_plus. apply Rsum_map_ext. intros i _. ring. }
  assert (Ha : 0 <= a) by apply HP. assert (Hc : 0 <= c) by apply HP. destruct (Req_dec c 0) as [E|N].
  - assert (Z : forall i, In i l -> g i ^ 2 = 0) by (apply (Rsum_zero_nonneg (fun i => g i ^ 2) l); [intros; apply pow2_ge_0|exact E]).
    assert (B : b = 0); [|rewrite B, E; lra]. unfold b. rewrite (Rsum_map_ext _ (fun _ => 0)); [rewrite Rsum_map_const; ring|]. intros i Hi. specialize (Z i Hi). assert (g i = 0) as -> by nra. ring.
  - specialize (H c (- b)). assert (0 <= c * (c * a - b ^ 2)) by nra. assert (0 < c) by lra. nra.
Qed.
Lemma mvec_bound d M x : dot d (mvec d M x) (mvec d M x) <= msum d M * dot d x x.
Proof.
  rewrite !dot_self. unfold msum. rewrite Rmult_comm, <- Rsum_map_mult_l. apply Rsum_le. intros i _. rewrite Rmult_comm. unfold mvec. apply sum_cs.
Qed.
Lemma msum_nonneg d M : 0 <= msum d M.
Proof. apply Rsum_nonneg, Forall_forall. intros y Hy. apply in_map_iff in Hy as (i & <- & _). apply Rsum_nonneg, Forall_forall. intros y Hy. apply in_map_iff in Hy as (j & <- & _). apply pow2_ge_0. Qed.
Lemma dot_cs d x y : dot d x y ^ 2 <= dot d x x * dot d y y.
Proof. rewrite !dot_self. apply sum_cs. Qed.
Lemma quad_bound d M x : quad d M x <= (1 + msum d M) * dot d x x.
Proof.
  rewrite quad_dot. pose proof (dot_cs d x (mvec d M x)) as C. pose proof (mvec_bound d M x) as B. pose proof (dot_self_nonneg d x) as X. pose proof (msum_nonneg d M) as S.
  set (q := dot d x (mvec d M x)) in *. set (n := dot d x x) in *. set (m := dot d (mvec d M x) (mvec d M x)) in *. assert (q ^ 2 <= (msum d M) * n ^ 2) by nra.
  assert (H1 : q ^ 2 <= ((1 + msum d M) * n) ^ 2) by nra. assert (0 <= (1 + msum d M) * n) by nra. destruct (Rle_lt_dec q 0); [lra|]. apply Rsqr_incr_0_var; [unfold Rsqr; lra|assumption].
Qed.

(** ** An eigenvector: the supremum of the quadratic form on the sphere is an eigenvalue *)
Lemma mvec_vscale d M c x i : mvec d M (vscale c x) i = c * mvec d M x i.
Proof. unfold mvec, vscale. rewrite <- Rsum_map_mult_l. apply Rsum_map_ext. intros; ring. Qed.
Lemma quad_vscale d M c x : quad d M (vscale c x) = c ^ 2 * quad d M x.
Proof. unfold quad. rewrite <- Rsum_map_mult_l. apply Rsum_map_ext. intros i _. rewrite mvec_vscale. unfold vscale. ring. Qed.
Lemma dot_vscale d c x : dot d (vscale c x) (vscale c x) = c ^ 2 * dot d x x.
Proof. unfold dot, vscale. rewrite <- Rsum_map_mult_l. apply Rsum_map_ext. intros; ring. Qed.
Lemma dot_pos d x : ~ veq d x (fun _ => 0) -> 0 < dot d x x.
Proof. intros H. destruct (Rle_lt_or_eq_dec 0 _ (dot_self_nonneg d x)) as [P|E]; [exact P|]. exfalso. apply H. now apply dot_self_zero. Qed.
Lemma unit_of d x : ~ veq d x (fun _ => 0) -> dot d (vscale (/ sqrt (dot d x x)) x) (vscale (/ sqrt (dot d x x)) x) = 1.
Proof.
  intros H. pose proof (dot_pos d x H) as P. rewrite dot_vscale. pose proof (sqrt_lt_R0 _ P). rewrite <- (sqrt_sqrt (dot d x x)) at 2 by lra. field. lra.
Qed.
Lemma eigenvector d M : symmetric (S d) M -> exists lam x, dot (S d) x x = 1 /\ veq (S d) (mvec (S d) M x) (vscale lam x).
Proof.
  intros HM. set (n := S d). set (Q := fun r => exists x, dot n x x = 1 /\ r = quad n M x).
  assert (E0 : dot n (mid 0%nat) (mid 0%nat) = 1) by (unfold dot, n; cbn [seq map Rsum]; rewrite (Rsum_map_ext _ (fun _ => 0)); [rewrite Rsum_map_const; unfold mid; cbn; ring|]; intros k Hk; apply in_seq in Hk; unfold mid; destruct k; [lia|cbn; ring]).
  destruct (completeness Q) as [lam Hl].
  - exists (1 + msum n M). intros r (x & Hx & ->). pose proof (quad_bound n M x). rewrite Hx in H. lra.
  - exists (quad n M (mid 0%nat)). now exists (mid 0%nat).
  - destruct Hl as [Hub Hlub]. set (N := msub (mscale lam mid) M).
    assert (QN : forall x, quad n N x = lam * dot n x x - quad n M x).
    { intros x. unfold quad. rewrite (Rsum_map_ext _ (fun i => lam * (x i * x i) + (-1) * (x i * mvec n M x i))).
      - rewrite Rsum_map_plus, !Rsum_map_mult_l. unfold dot. ring.
      - intros i Hi. apply in_seq in Hi. unfold N. rewrite ToyCond.mvec_sub_l, ToyCond.mvec_scale_l. assert (Ei : mvec n mid x i = x i); [|rewrite Ei; ring].
        unfold mvec, mid. rewrite (Rsum_map_ext _ (fun k => (if Nat.eqb k i then 1 else 0) * x k)) by (intros k _; now rewrite Nat.eqb_sym). apply (Rsum_indicator n i x). unfold n in *. lia. }
    assert (SN : symmetric n N).
    { intros i j Hi Hj. unfold mtr, N, msub, mscale. rewrite <- (HM i j Hi Hj). unfold mtr, mid. now rewrite Nat.eqb_sym. }
    assert (PN : psd n N).
    { intros x. rewrite QN. destruct (veq_dec n x) as [Z|NZ].
      - rewrite Z. assert (quad n M (fun _ => 0) = 0) as -> by (unfold quad; rewrite (Rsum_map_ext _ (fun _ => 0)); [rewrite Rsum_map_const; ring|intros; ring]).
        assert (dot n (fun _ => 0) (fun _ => 0) = 0) as -> by (unfold dot; rewrite (Rsum_map_ext _ (fun _ => 0)); [rewrite Rsum_map_const; ring|intros; ring]). lra.
      - pose proof (dot_pos n x NZ) as P. pose proof (Hub (quad n M (vscale (/ sqrt (dot n x x)) x)) (ex_intro _ _ (conj (unit_of n x NZ) eq_refl))) as U. rewrite quad_vscale in U.
        assert (Es : (/ sqrt (dot n x x)) ^ 2 = / dot n x x) by (rewrite pow_inv; now rewrite pow2_sqrt by lra). rewrite Es in U.
        apply (Rmult_le_compat_l (dot n x x)) in U; [|lra]. rewrite <- Rmult_assoc, Rinv_r in U by lra. lra. }
    destruct (classic (exists x, ~ veq n x (fun _ => 0) /\ quad n N x = 0)) as [(x & NZ & Z)|NE].
    + exists lam, (vscale (/ sqrt (dot n x x)) x). split; [now apply unit_of|].
      assert (K : veq n (mvec n N x) (fun _ => 0)).
      { apply dot_self_zero. pose proof (EmConverge.quad_cauchy_schwarz n N (mvec n N x) x SN PN) as C. rewrite Z, Rmult_0_r in C. pose proof (pow2_ge_0 (dot n (mvec n N x) (mvec n N x))). nra. }
      intros i Hi. rewrite mvec_vscale. unfold vscale. specialize (K i Hi). unfold N in K. rewrite ToyCond.mvec_sub_l, ToyCond.mvec_scale_l in K.
      assert (Ei : mvec n mid x i = x i) by (unfold mvec, mid; rewrite (Rsum_map_ext _ (fun k => (if Nat.eqb k i then 1 else 0) * x k)) by (intros k _; now rewrite Nat.eqb_sym); apply (Rsum_indicator n i x); exact Hi).
      rewrite Ei in K. assert (mvec n M x i = lam * x i) as -> by lra. ring.
    + exfalso. assert (PD : posdef n N).
      { intros x Hx. destruct (Rle_lt_or_eq_dec _ _ (PN x)) as [P|E]; [exact P|]. exfalso. apply NE. exists x. auto. }
      destruct (ToyCond.posdef_inverse n N SN PD) as (Pi & P1 & _ & _).
      set (K := msum n Pi). set (B := 1 + msum n N). assert (HK : 0 <= K) by apply msum_nonneg. assert (HB : 0 < B) by (unfold B; pose proof (msum_nonneg n N); lra).
      assert (L : forall x, dot n x x = 1 -> / (K * B + 1) <= quad n N x).
      { intros x Hx. assert (A1 : 1 <= K * dot n (mvec n N x) (mvec n N x)).
        { rewrite <- Hx. assert (Ex : veq n (mvec n Pi (mvec n N x)) x).
          { rewrite mvec_mul, P1. intros i Hi. unfold mvec, mid. rewrite (Rsum_map_ext _ (fun k => (if Nat.eqb k i then 1 else 0) * x k)) by (intros k _; now rewrite Nat.eqb_sym). now apply (Rsum_indicator n i x). }
          apply Rle_trans with (dot n (mvec n Pi (mvec n N x)) (mvec n Pi (mvec n N x))); [right; now rewrite Ex|]. apply mvec_bound. }
        assert (A2 : dot n (mvec n N x) (mvec n N x) <= B * quad n N x).
        { pose proof (EmConverge.quad_cauchy_schwarz n N (mvec n N x) x SN PN) as C. pose proof (quad_bound n N (mvec n N x)) as Q1. fold B in Q1. pose proof (PN x). set (v := dot n (mvec n N x) (mvec n N x)) in *. pose proof (dot_self_nonneg n (mvec n N x)). fold v in H0.
          destruct (Req_dec v 0) as [ ->|Nv]; [nra|]. assert (v ^ 2 <= B * v * quad n N x) by (eapply Rle_trans; [exact C|]; apply Rmult_le_compat_r; assumption). nra. }
        assert (A3 : 1 <= (K * B + 1) * quad n N x) by (pose proof (PN x); nra). assert (0 < K * B + 1) by nra.
        apply (Rmult_le_reg_l (K * B + 1)); [assumption|]. rewrite Rinv_r by lra. exact A3. }
      assert (0 < / (K * B + 1)) by (apply Rinv_0_lt_compat; nra).
      assert (UB : is_upper_bound Q (lam - / (K * B + 1))) by (intros r (x & Hx & ->); specialize (L x Hx); rewrite QN, Hx in L; lra).
      specialize (Hlub _ UB). lra.
Qed.

(** ** A reflection that exchanges two unit vectors *)
Definition reflection (v : vec) (c : R) : mat := fun i j => mid i j - c * (v i * v j).
Lemma mvec_mid d x : veq d (mvec d mid x) x.
Proof. intros i Hi. unfold mvec, mid. rewrite (Rsum_map_ext _ (fun k => (if Nat.eqb k i then 1 else 0) * x k)) by (intros k _; now rewrite Nat.eqb_sym). now apply (Rsum_indicator d i x). Qed.
Lemma reflection_mvec d v c x i : (i < d)%nat -> mvec d (reflection v c) x i = x i - c * dot d v x * v i.
Proof.
  intros Hi. unfold mvec, reflection. rewrite (Rsum_map_ext _ (fun k => mid i k * x k + - (c * v i) * (v k * x k))) by (intros; ring).
  rewrite Rsum_map_plus, Rsum_map_mult_l. fold (mvec d mid x i). rewrite (mvec_mid d x i Hi). unfold dot. ring.
Qed.
Lemma reflection_sym d v c : symmetric d (reflection v c).
Proof. intros i j _ _. unfold mtr, reflection, mid. rewrite Nat.eqb_sym. ring. Qed.
Lemma mmul_column d A B i j : mmul d A B i j = mvec d A (fun k => B k j) i.
Proof. reflexivity. Qed.
Lemma reflection_square d v c : c * dot d v v = 2 \/ c = 0 -> meq d (mmul d (reflection v c) (reflection v c)) mid.
Proof.
  intros Hc i j Hi Hj. rewrite mmul_column, reflection_mvec by exact Hi.
  assert (D : dot d v (fun k => reflection v c k j) = v j - c * dot d v v * v j).
  { transitivity (mvec d (reflection v c) v j); [|now apply reflection_mvec]. unfold dot, mvec. apply Rsum_map_ext. intros k _. rewrite <- (reflection_sym (S (k + j)) v c j k) by lia. unfold mtr. ring. }
  rewrite D. unfold reflection. destruct Hc as [H| ->]; [|ring]. replace (c * (v j - c * dot d v v * v j)) with (c * v j * (1 - c * dot d v v)) by ring. rewrite H. ring.
Qed.
Lemma reflection_exists d x y : dot d x x = 1 -> dot d y y = 1 -> exists H, symmetric d H /\ meq d (mmul d H H) mid /\ veq d (mvec d H x) y /\ veq d (mvec d H y) x.
Proof.
  intros Hx Hy. destruct (veq_dec d (vsub x y)) as [Z|NZ].
  - assert (E : veq d x y) by (intros i Hi; specialize (Z i Hi); unfold vsub in Z; lra).
    exists (reflection (fun _ => 0) 0). split; [apply reflection_sym|]. split; [apply reflection_square; now right|]. split; intros i Hi; rewrite reflection_mvec by exact Hi; rewrite (E i Hi); ring.
  - pose proof (dot_pos d _ NZ) as P. set (v := vsub x y) in *. assert (Dvx : dot d v x = 1 - dot d x y) by (rewrite <- Hx; unfold dot, v, vsub; rewrite (Rsum_map_ext _ (fun i => x i * x i + (-1) * (x i * y i))) by (intros; ring); rewrite Rsum_map_plus, Rsum_map_mult_l; ring).
    assert (Dvy : dot d v y = dot d x y - 1) by (rewrite <- Hy; unfold dot, v, vsub; rewrite (Rsum_map_ext _ (fun i => x i * y i + (-1) * (y i * y i))) by (intros; ring); rewrite Rsum_map_plus, Rsum_map_mult_l; ring).
    assert (Dvv : dot d v v = 2 * (1 - dot d x y)) by (transitivity (dot d v x - dot d v y); [unfold dot; rewrite <- (Rmult_1_l (Rsum (map (fun i => v i * y i) _))); unfold Rminus; rewrite <- Ropp_mult_distr_l_reverse, <- Rsum_map_mult_l, <- Rsum_map_plus; apply Rsum_map_ext; intros; unfold v, vsub; ring|lra]).
    exists (reflection v (2 / dot d v v)). split; [apply reflection_sym|]. split; [apply reflection_square; left; field; lra|].
    assert (C1 : 2 / dot d v v * dot d v x = 1) by (rewrite Dvx, Dvv; field; lra). assert (C2 : 2 / dot d v v * dot d v y = - (1)) by (rewrite Dvy, Dvv; field; lra).
    split; intros i Hi; rewrite reflection_mvec by exact Hi; [rewrite C1|rewrite C2]; unfold v, vsub; ring.
Qed.

(** ** Diagonalisation *)
Definition border (d : nat) (V : mat) : mat := fun i j => if andb (Nat.ltb i d) (Nat.ltb j d) then V i j else mid i j.
Definition vborder (d : nat) (w : vec) (lam : R) : vec := fun i => if Nat.ltb i d then w i else lam.
Lemma border_in d V i j : (i < d)%nat -> (j < d)%nat -> border d V i j = V i j.
Proof. intros Hi Hj. unfold border. apply Nat.ltb_lt in Hi, Hj. now rewrite Hi, Hj. Qed.
Lemma border_row d V j : border d V d j = mid d j.
Proof. unfold border. now rewrite Nat.ltb_irrefl. Qed.
Lemma border_col d V i : border d V i d = mid i d.
Proof. unfold border. rewrite Nat.ltb_irrefl. now rewrite Bool.andb_false_r. Qed.
Lemma mmul_S d A B i j : mmul (S d) A B i j = mmul d A B i j + A i d * B d j.
Proof. unfold mmul. apply Rsum_seq_S. Qed.
Lemma mmul_zero_l d A B i j : (forall k, (k < d)%nat -> A i k = 0) -> mmul d A B i j = 0.
Proof. intros H. unfold mmul. rewrite (Rsum_map_ext _ (fun _ => 0)); [rewrite Rsum_map_const; ring|]. intros k Hk. apply in_seq in Hk. rewrite H by lia. ring. Qed.
Lemma mmul_zero_r d A B i j : (forall k, (k < d)%nat -> B k j = 0) -> mmul d A B i j = 0.
Proof. intros H. unfold mmul. rewrite (Rsum_map_ext _ (fun _ => 0)); [rewrite Rsum_map_const; ring|]. intros k Hk. apply in_seq in Hk. rewrite H by lia. ring. Qed.
Lemma mmul_ext_in d A A' B B' i j : (forall k, (k < d)%nat -> A i k = A' i k) -> (forall k, (k < d)%nat -> B k j = B' k j) -> mmul d A B i j = mmul d A' B' i j.
Proof. intros H1 H2. unfold mmul. apply Rsum_map_ext. intros k Hk. apply in_seq in Hk. now rewrite H1, H2 by lia. Qed.
(** block diagonal matrices with one trailing entry *)
Definition blocky (d : nat) (A : mat) (a : R) : Prop := (forall k, (k < d)%nat -> A d k = 0 /\ A k d = 0) /\ A d d = a.
Lemma blocky_mul d A B a b : blocky d A a -> blocky d B b -> blocky d (mmul (S d) A B) (a * b) /\ forall i j, (i < d)%nat -> (j < d)%nat -> mmul (S d) A B i j = mmul d A B i j.
Proof.
  intros [HA <-] [HB <-]. split; [split|].
  - intros k Hk. destruct (HA k Hk) as [A1 A2], (HB k Hk) as [B1 B2]. rewrite !mmul_S. split.
    + rewrite mmul_zero_l by (intros m Hm; now apply HA). rewrite B1. ring.
    + rewrite mmul_zero_r by (intros m Hm; now apply HB). rewrite A2. ring.
  - rewrite mmul_S, mmul_zero_l by (intros m Hm; now apply HA). ring.
  - intros i j Hi Hj. rewrite mmul_S. destruct (HB j Hj) as [B1 _]. rewrite B1. ring.
Qed.
Lemma blocky_eq d A B a : blocky d A a -> blocky d B a -> meq d A B -> meq (S d) A B.
Proof.
  intros [HA A1] [HB B1] H i j Hi Hj. destruct (Nat.eq_dec i d) as [ ->|Ni]; destruct (Nat.eq_dec j d) as [ ->|Nj]; [now rewrite A1, B1|..].
  - destruct (HA j ltac:(lia)) as [-> _], (HB j ltac:(lia)) as [-> _]. reflexivity.
  - destruct (HA i ltac:(lia)) as [_ ->], (HB i ltac:(lia)) as [_ ->]. reflexivity.
  - apply H; lia.
Qed.
Lemma blocky_mid d : blocky d mid 1.
Proof. split; [|unfold mid; now rewrite Nat.eqb_refl]. intros k Hk. unfold mid. destruct (Nat.eqb_spec d k), (Nat.eqb_spec k d); try lia; auto. Qed.
Lemma blocky_tr d A a : blocky d A a -> blocky d (mtr A) a.
Proof. intros [H <-]. split; [|reflexivity]. intros k Hk. destruct (H k Hk). unfold mtr. auto. Qed.

Theorem spectral_theorem : forall d M, symmetric d M -> exists w V, eigh d M w V.
Proof.
  induction d as [|d IH]; intros M HM.
  - exists (fun _ => 0), mid. split; [|split]; intros i j Hi; lia.
  - destruct (eigenvector d M HM) as (lam & x & Hx & Hex). set (e := (fun i => mid i d) : vec).
    assert (He : dot (S d) e e = 1).
    { unfold dot, e. rewrite (Rsum_map_ext _ (fun k => (if Nat.eqb k d then 1 else 0) * 1)) by (intros k _; unfold mid; destruct (Nat.eqb k d); ring). apply (Rsum_indicator (S d) d (fun _ => 1)). lia. }
    destruct (reflection_exists (S d) x e Hx He) as (H & HS & HH & Hxe & Hex').
    set (M' := mmul (S d) (mmul (S d) H M) H). assert (SM' : symmetric (S d) M').
    { pose proof HS as HS'. pose proof HM as HM'. unfold symmetric in HS', HM' |- *. unfold M'. rewrite !mtr_mul. rewrite HS', HM'. now rewrite mmul_assoc. }
    assert (Col : forall i, (i < S d)%nat -> M' i d = lam * e i).
    { intros i Hi. unfold M'.
      assert (E1 : meq (S d) (mmul (S d) (mmul (S d) H M) H) (mmul (S d) H (mmul (S d) M H))) by now rewrite mmul_assoc. rewrite (E1 i d Hi ltac:(lia)). rewrite mmul_column.
      assert (E2 : veq (S d) (fun k => mmul (S d) M H k d) (vscale lam x)).
      { intros k Hk. rewrite mmul_column. assert (E3 : veq (S d) (fun k0 => H k0 d) x).
        { intros m Hm. rewrite <- (Hex' m Hm). unfold mvec, e. rewrite (Rsum_map_ext _ (fun k0 => (if Nat.eqb k0 d then 1 else 0) * H m k0)) by (intros k0 _; unfold mid; destruct (Nat.eqb k0 d); ring). symmetry. apply (Rsum_indicator (S d) d (fun k0 => H m k0)). lia. }
        transitivity (mvec (S d) M x k); [|now apply Hex]. apply (mvec_proper (S d) M M (reflexivity _) _ _ E3 k Hk). }
      rewrite (mvec_proper (S d) H H (reflexivity _) _ _ E2 i Hi). rewrite mvec_vscale, (Hxe i Hi). reflexivity. }
    assert (BM : blocky d M' lam).
    { split.
      - intros k Hk. assert (Z : M' k d = 0) by (rewrite Col by lia; unfold e, mid; destruct (Nat.eqb_spec k d); [lia|ring]). split; [|exact Z]. rewrite <- (SM' d k) by lia. exact Z.
      - rewrite Col by lia. unfold e, mid. rewrite Nat.eqb_refl. ring. }
    destruct (IH M') as (w & V & E1 & E2 & E3). { intros i j Hi Hj. apply SM'; lia. }
    set (V1 := border d V). set (w1 := vborder d w lam).
    assert (BV : blocky d V1 1) by (split; [intros k Hk; unfold V1; rewrite border_row, border_col; unfold mid; destruct (Nat.eqb_spec d k), (Nat.eqb_spec k d); try lia; auto|unfold V1; rewrite border_row; unfold mid; now rewrite Nat.eqb_refl]).
    assert (BD : blocky d (mdiag w1) lam).
    { split; [intros k Hk; unfold mdiag; destruct (Nat.eqb_spec d k), (Nat.eqb_spec k d); try lia; auto|]. unfold mdiag, w1, vborder. now rewrite Nat.eqb_refl, Nat.ltb_irrefl. }
    assert (EV : meq d V1 V) by (intros i j Hi Hj; now apply border_in).
    assert (ED : meq d (mdiag w1) (mdiag w)) by (intros i j Hi Hj; unfold mdiag, w1, vborder; apply Nat.ltb_lt in Hi; now rewrite Hi).
    pose proof (blocky_tr d V1 1 BV) as BT.
    destruct (blocky_mul d V1 (mdiag w1) 1 lam BV BD) as [B1 M1]. destruct (blocky_mul d _ (mtr V1) _ 1 B1 BT) as [B2 M2]. destruct (blocky_mul d (mtr V1) V1 1 1 BT BV) as [B3 M3]. destruct (blocky_mul d V1 (mtr V1) 1 1 BV BT) as [B4 M4].
    assert (F1 : meq (S d) (mmul (S d) (mmul (S d) V1 (mdiag w1)) (mtr V1)) M').
    { apply (blocky_eq d _ _ lam); [replace lam with (1 * lam * 1) by ring; exact B2|exact BM|]. intros i j Hi Hj. rewrite (M2 i j Hi Hj). rewrite <- (E1 i j Hi Hj). apply mmul_ext_in.
      - intros k Hk. rewrite (M1 i k Hi Hk). apply (mmul_proper d _ _ EV _ _ ED i k Hi Hk).
      - intros k Hk. unfold mtr. now apply EV. }
    assert (F2 : meq (S d) (mmul (S d) (mtr V1) V1) mid).
    { apply (blocky_eq d _ _ 1); [replace 1 with (1 * 1) by ring; exact B3|apply blocky_mid|]. intros i j Hi Hj. rewrite (M3 i j Hi Hj), <- (E2 i j Hi Hj). apply mmul_ext_in; intros k Hk; unfold mtr; now apply EV. }
    assert (F3 : meq (S d) (mmul (S d) V1 (mtr V1)) mid).
    { apply (blocky_eq d _ _ 1); [replace 1 with (1 * 1) by ring; exact B4|apply blocky_mid|]. intros i j Hi Hj. rewrite (M4 i j Hi Hj), <- (E3 i j Hi Hj). apply mmul_ext_in; intros k Hk; unfold mtr; now apply EV. }
    exists w1, (mmul (S d) H V1). unfold symmetric in HS. split; [|split].
    + rewrite mtr_mul, HS. rewrite <- (mmul_assoc (S d) H V1 (mdiag w1)). rewrite (mmul_assoc (S d) (mmul (S d) H (mmul (S d) V1 (mdiag w1)))). rewrite <- (mmul_assoc (S d) H (mmul (S d) V1 (mdiag w1)) (mtr V1)). rewrite F1. unfold M'.
      rewrite !mmul_assoc, HH, mmul_1_l. rewrite <- mmul_assoc, HH, mmul_1_r. reflexivity.
    + rewrite mtr_mul, HS. rewrite mmul_assoc. rewrite <- (mmul_assoc (S d) (mtr V1) H H). rewrite HH, mmul_1_r. exact F2.
    + rewrite mtr_mul, HS. rewrite mmul_assoc. rewrite <- (mmul_assoc (S d) H V1 (mtr V1)). rewrite F3, mmul_1_r. exact HH.
Qed.
