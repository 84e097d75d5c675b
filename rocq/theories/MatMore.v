(** More about real matrices: quadratic forms, traces, triangular systems, and laws with
    given first two moments. *)
From Coquelicot Require Import Coquelicot.
From Coq Require Import Reals List Lia Lra Morphisms Setoid.
From Verif Require Import Base Dist Mat.
Import ListNotations.
Open Scope R_scope.

(** x^T M x *)
Definition quad (d : nat) (M : mat) (x : vec) : R := Rsum (map (fun i => x i * mvec d M x i) (seq 0 d)).
Definition dot (d : nat) (x y : vec) : R := Rsum (map (fun i => x i * y i) (seq 0 d)).
Definition mtrace (d : nat) (M : mat) : R := Rsum (map (fun i => M i i) (seq 0 d)).
Definition mdiag (w : vec) : mat := fun i j => if Nat.eqb i j then w i else 0.
Definition psd (d : nat) (M : mat) : Prop := forall x, 0 <= quad d M x.
Definition posdef (d : nat) (M : mat) : Prop := forall x, ~ veq d x (fun _ => 0) -> 0 < quad d M x.

Lemma quad_conj d E G x : quad d (mmul d E (mmul d G (mtr E))) x = quad d G (mvec d (mtr E) x).
Proof.
  unfold quad.
  transitivity (Rsum (map (fun i => x i * mvec d E (mvec d G (mvec d (mtr E) x)) i) (seq 0 d))).
  - apply Rsum_map_ext. intros i Hi. apply in_seq in Hi. f_equal.
    rewrite <- (mvec_mul d E (mmul d G (mtr E)) x i) by lia. unfold mvec at 1 3. apply Rsum_map_ext. intros k Hk. apply in_seq in Hk.
    f_equal. symmetry. rewrite <- (mvec_mul d G (mtr E) x k) by lia. reflexivity.
  - set (y := mvec d G (mvec d (mtr E) x)). unfold mvec. 
    transitivity (Rsum (map (fun i => Rsum (map (fun k => x i * E i k * y k) (seq 0 d))) (seq 0 d))).
    + apply Rsum_map_ext. intros i _. rewrite <- Rsum_map_mult_l. apply Rsum_map_ext. intros; ring.
    + rewrite Rsum_exchange. apply Rsum_map_ext. intros k _. rewrite <- Rsum_map_mult_r. apply Rsum_map_ext. intros i _. unfold mtr. ring.
Qed.


#[global] Instance veq_equiv d : Equivalence (veq d).
Proof.
  split; red; unfold veq.
  - reflexivity.
  - intros A B H i Hi. symmetry. now apply H.
  - intros A B C H1 H2 i Hi. now rewrite H1, H2.
Qed.
#[global] Instance mvec_proper d : Proper (meq d ==> veq d ==> veq d) (mvec d).
Proof. intros A B H x y H' i Hi. unfold mvec. apply Rsum_map_ext. intros k Hk. apply in_seq in Hk. rewrite H, H' by lia. reflexivity. Qed.
#[global] Instance mtrace_proper d : Proper (meq d ==> eq) (mtrace d).
Proof. intros A B H. unfold mtrace. apply Rsum_map_ext. intros k Hk. apply in_seq in Hk. apply H; lia. Qed.
#[global] Instance quad_proper d : Proper (meq d ==> veq d ==> eq) (quad d).
Proof.
  intros A B H x y H'. unfold quad. apply Rsum_map_ext. intros k Hk. apply in_seq in Hk. rewrite (H' k) by lia. f_equal.
  apply (mvec_proper d A B H x y H'). lia.
Qed.
#[global] Instance dot_proper d : Proper (veq d ==> veq d ==> eq) (dot d).
Proof. intros x y H x' y' H'. unfold dot. apply Rsum_map_ext. intros k Hk. apply in_seq in Hk. now rewrite H, H' by lia. Qed.

Lemma mtr_mid d : meq d (mtr mid) mid.
Proof. intros i j _ _. unfold mtr, mid. now rewrite Nat.eqb_sym. Qed.

Lemma mtrace_comm d A B : mtrace d (mmul d A B) = mtrace d (mmul d B A).
Proof.
  unfold mtrace, mmul. rewrite Rsum_exchange. apply Rsum_map_ext. intros k _. apply Rsum_map_ext. intros; ring.
Qed.
Lemma mtrace_add d A B : mtrace d (madd A B) = mtrace d A + mtrace d B.
Proof. unfold mtrace, madd. now rewrite Rsum_map_plus. Qed.
Lemma mtrace_scale d c A : mtrace d (mscale c A) = c * mtrace d A.
Proof. unfold mtrace, mscale. now rewrite Rsum_map_mult_l. Qed.
Lemma mtrace_sub d A B : mtrace d (msub A B) = mtrace d A - mtrace d B.
Proof.
  transitivity (mtrace d (madd A (mscale (-(1)) B))).
  - unfold mtrace, msub, madd, mscale. apply Rsum_map_ext. intros; ring.
  - rewrite mtrace_add, mtrace_scale. ring.
Qed.
Lemma mtrace_id d : mtrace d mid = INR d.
Proof.
  unfold mtrace. rewrite (Rsum_map_ext _ (fun _ => 1)).
  - rewrite Rsum_map_const, seq_length. ring.
  - intros i _. unfold mid. now rewrite Nat.eqb_refl.
Qed.
Lemma mtrace_tr d A : mtrace d (mtr A) = mtrace d A.
Proof. reflexivity. Qed.
(** tr (W W^T) is the sum of squares. *)
Lemma mtrace_gram d W : mtrace d (mmul d W (mtr W)) = Rsum (map (fun i => Rsum (map (fun k => W i k ^ 2) (seq 0 d))) (seq 0 d)).
Proof. unfold mtrace, mmul, mtr. apply Rsum_map_ext. intros i _. apply Rsum_map_ext. intros k _. ring. Qed.

Lemma dot_comm d x y : dot d x y = dot d y x.
Proof. unfold dot. apply Rsum_map_ext. intros; ring. Qed.
Lemma dot_mvec d A x y : dot d x (mvec d A y) = dot d (mvec d (mtr A) x) y.
Proof.
  unfold dot, mvec.
  transitivity (Rsum (map (fun i => Rsum (map (fun k => x i * A i k * y k) (seq 0 d))) (seq 0 d))).
  - apply Rsum_map_ext. intros i _. rewrite <- Rsum_map_mult_l. apply Rsum_map_ext. intros; ring.
  - rewrite Rsum_exchange. apply Rsum_map_ext. intros k _. rewrite <- Rsum_map_mult_r. apply Rsum_map_ext. intros; unfold mtr; ring.
Qed.
Lemma dot_self d x : dot d x x = Rsum (map (fun i => x i ^ 2) (seq 0 d)).
Proof. unfold dot. apply Rsum_map_ext. intros; ring. Qed.
Lemma dot_self_nonneg d x : 0 <= dot d x x.
Proof.
  rewrite dot_self. apply Rsum_nonneg, Forall_forall. intros y Hy. apply in_map_iff in Hy. destruct Hy as (i & <- & _). apply pow2_ge_0.
Qed.
Lemma Rsum_zero_nonneg {A} (f : A -> R) l : (forall a, In a l -> 0 <= f a) -> Rsum (map f l) = 0 -> forall a, In a l -> f a = 0.
Proof.
  intros H Hs a Ha.
  assert (L : f a <= Rsum (map f l)).
  { apply Rsum_In_le; [|now apply in_map]. apply Forall_forall. intros y Hy. apply in_map_iff in Hy. destruct Hy as (b & <- & Hb). now apply H. }
  specialize (H a Ha). lra.
Qed.
Lemma dot_self_zero d x : dot d x x = 0 -> veq d x (fun _ => 0).
Proof.
  rewrite dot_self. intros H i Hi.
  assert (E : x i ^ 2 = 0).
  { apply (Rsum_zero_nonneg (fun i => x i ^ 2) (seq 0 d)); [intros; apply pow2_ge_0|exact H|apply in_seq; lia]. }
  cbn in E. nra.
Qed.
Lemma veq_dec d (x : vec) : veq d x (fun _ => 0) \/ ~ veq d x (fun _ => 0).
Proof.
  destruct (Req_dec (dot d x x) 0) as [E|E].
  - left. now apply dot_self_zero.
  - right. intros H. apply E. rewrite H. unfold dot. rewrite (Rsum_map_ext _ (fun _ => 0)) by (intros; ring). rewrite Rsum_map_const. ring.
Qed.
Lemma posdef_psd d M : posdef d M -> psd d M.
Proof.
  intros H x. destruct (veq_dec d x) as [E|E]; [|left; now apply H].
  right. symmetry. unfold quad. rewrite (Rsum_map_ext _ (fun _ => 0)); [rewrite Rsum_map_const; ring|].
  intros i Hi. apply in_seq in Hi. rewrite E by lia. ring.
Qed.
Lemma quad_dot d M x : quad d M x = dot d x (mvec d M x).
Proof. reflexivity. Qed.
Lemma quad_gram d W x : quad d (mmul d W (mtr W)) x = dot d (mvec d (mtr W) x) (mvec d (mtr W) x).
Proof.
  rewrite quad_dot. transitivity (dot d x (mvec d W (mvec d (mtr W) x))).
  - apply dot_proper; [reflexivity|]. symmetry. apply mvec_mul.
  - apply dot_mvec.
Qed.

(** *** Triangular systems *)
Definition lower (d : nat) (L : mat) : Prop := forall i j, (i < d)%nat -> (j < d)%nat -> (i < j)%nat -> L i j = 0.
Definition diag_pos (d : nat) (L : mat) : Prop := forall i, (i < d)%nat -> 0 < L i i.

Lemma Rsum_lower (f : nat -> R) d i : (i < d)%nat -> (forall k, (i < k)%nat -> (k < d)%nat -> f k = 0) ->
  Rsum (map f (seq 0 d)) = Rsum (map f (seq 0 i)) + f i.
Proof.
  intros Hi H. replace d with (i + (1 + (d - i - 1)))%nat by lia. rewrite seq_app, map_app, Rsum_app.
  f_equal. rewrite seq_app, map_app, Rsum_app. cbn [seq map Rsum]. rewrite Nat.add_0_l.
  rewrite (Rsum_map_ext f (fun _ => 0)); [rewrite Rsum_map_const; ring|].
  intros k Hk. apply in_seq in Hk. apply H; lia.
Qed.

(** Forward substitution: the first [n] entries of the solution of L z = b. *)
Fixpoint fsub (L : mat) (b : vec) (n : nat) : list R :=
  match n with
  | 0%nat => []
  | S m => let z := fsub L b m in
           z ++ [(b m - Rsum (map (fun k => L m k * nth k z 0) (seq 0 m))) / L m m]
  end.
Lemma fsub_length L b n : length (fsub L b n) = n.
Proof. induction n as [|n IH]; cbn [fsub]; [reflexivity|]. rewrite app_length, IH. cbn. lia. Qed.
Lemma fsub_stable L b n i : (i < n)%nat -> nth i (fsub L b n) 0 = nth i (fsub L b (S i)) 0.
Proof.
  induction n as [|n IH]; [lia|]. intros Hi. destruct (Nat.eq_dec i n) as [->|Hn]; [reflexivity|].
  cbn [fsub]. rewrite app_nth1 by (rewrite fsub_length; lia). apply IH. lia.
Qed.
Definition fsolve (L : mat) (b : vec) : vec := fun i => nth i (fsub L b (S i)) 0.
Lemma fsolve_eq L b i : fsolve L b i = (b i - Rsum (map (fun k => L i k * fsolve L b k) (seq 0 i))) / L i i.
Proof.
  unfold fsolve at 1. cbn [fsub]. rewrite app_nth2 by (rewrite fsub_length; lia). rewrite fsub_length, Nat.sub_diag. cbn [nth].
  do 2 f_equal. apply Rsum_map_ext. intros k Hk. apply in_seq in Hk. f_equal. apply fsub_stable. lia.
Qed.
Lemma fsolve_correct d L b : lower d L -> diag_pos d L -> veq d (mvec d L (fsolve L b)) b.
Proof.
  intros HL HP i Hi. unfold mvec. rewrite (Rsum_lower _ d i Hi).
  - rewrite (fsolve_eq L b i). pose proof (HP i Hi). field. lra.
  - intros k H1 H2. rewrite HL by lia. ring.
Qed.
Lemma lower_injective d L z : lower d L -> diag_pos d L -> veq d (mvec d L z) (fun _ => 0) -> veq d z (fun _ => 0).
Proof.
  intros HL HP H i. induction i as [i IH] using (well_founded_induction lt_wf). intros Hi.
  specialize (H i Hi). unfold mvec in H. rewrite (Rsum_lower _ d i Hi) in H.
  2: { intros k H1 H2. rewrite HL by lia. ring. }
  rewrite (Rsum_map_ext _ (fun _ => 0)) in H.
  2: { intros k Hk. apply in_seq in Hk. rewrite IH by lia. ring. }
  rewrite Rsum_map_const in H. pose proof (HP i Hi). nra.
Qed.

Definition tri_inv (L : mat) : mat := fun i j => fsolve L (fun k => mid k j) i.
Lemma tri_inv_right d L : lower d L -> diag_pos d L -> meq d (mmul d L (tri_inv L)) mid.
Proof. intros HL HP i j Hi Hj. exact (fsolve_correct d L (fun k => mid k j) HL HP i Hi). Qed.
Lemma tri_inv_left d L : lower d L -> diag_pos d L -> meq d (mmul d (tri_inv L) L) mid.
Proof.
  intros HL HP i j Hi Hj.
  assert (Z : veq d (fun i => mmul d (tri_inv L) L i j - mid i j) (fun _ => 0)).
  { apply (lower_injective d L); [assumption..|]. intros k Hk. unfold mvec.
    transitivity (mmul d L (msub (mmul d (tri_inv L) L) mid) k j); [reflexivity|]. rewrite mmul_sub_r.
    rewrite (mmul_assoc d L (tri_inv L) L k j Hk Hj).
    rewrite (mmul_proper d _ _ (tri_inv_right d L HL HP) L L (reflexivity _) k j Hk Hj).
    rewrite (mmul_1_l d L k j Hk Hj), (mmul_1_r d L k j Hk Hj). ring. }
  specialize (Z i Hi). cbv beta in Z. lra.
Qed.
Lemma fsolve_zero L b i n : (i < n)%nat -> (forall k, (k < n)%nat -> b k = 0) -> fsolve L b i = 0.
Proof.
  intros Hi Hb. revert Hi. induction i as [i IH] using (well_founded_induction lt_wf). intros Hi. rewrite fsolve_eq, Hb by lia.
  rewrite (Rsum_map_ext _ (fun _ => 0)); [rewrite Rsum_map_const; unfold Rdiv; ring|].
  intros k Hk. apply in_seq in Hk. rewrite IH by lia. ring.
Qed.
Lemma tri_inv_lower d L : lower d (tri_inv L).
Proof.
  intros i j _ _ H. unfold tri_inv. apply (fsolve_zero L _ i j H). intros k Hk. unfold mid. destruct (Nat.eqb_spec k j); [lia|reflexivity].
Qed.
Lemma tri_inv_diag d L i : diag_pos d L -> (i < d)%nat -> tri_inv L i i = / L i i.
Proof.
  intros HP Hi. unfold tri_inv. rewrite fsolve_eq. rewrite (Rsum_map_ext _ (fun _ => 0)).
  - rewrite Rsum_map_const. unfold mid. rewrite Nat.eqb_refl. pose proof (HP i Hi). field. lra.
  - intros k Hk. apply in_seq in Hk. rewrite (fsolve_zero L _ k i); [ring|lia|]. intros m Hm. unfold mid. destruct (Nat.eqb_spec m i); [lia|reflexivity].
Qed.
Lemma lower_mul d A B : lower d A -> lower d B -> lower d (mmul d A B).
Proof.
  intros HA HB i j Hi Hj H. unfold mmul. rewrite (Rsum_map_ext _ (fun _ => 0)); [rewrite Rsum_map_const; ring|].
  intros k Hk. apply in_seq in Hk. destruct (Nat.lt_ge_cases i k) as [C|C]; [rewrite (HA i k) by lia|rewrite (HB k j) by lia]; ring.
Qed.
Lemma lower_mul_diag d A B i : lower d A -> lower d B -> (i < d)%nat -> mmul d A B i i = A i i * B i i.
Proof.
  intros HA HB Hi. unfold mmul. rewrite (Rsum_lower _ d i Hi).
  - rewrite (Rsum_map_ext _ (fun _ => 0)); [rewrite Rsum_map_const; ring|]. intros k Hk. apply in_seq in Hk. rewrite (HB k i) by lia. ring.
  - intros k H1 H2. rewrite (HA i k) by lia. ring.
Qed.

(** *** Finite laws with given mean and covariance *)
Definition has_mean (d : nat) (law : dist vec) (m : vec) : Prop := forall i, (i < d)%nat -> E law (fun x => x i) = m i.
Definition has_cov (d : nat) (law : dist vec) (m : vec) (C : mat) : Prop :=
  forall i j, (i < d)%nat -> (j < d)%nat -> E law (fun x => (x i - m i) * (x j - m j)) = C i j.

(** Expectation of a product of two linear forms of a pair of centred vectors. *)
Lemma E_bilinear {A} d (law : dist A) (X Y : A -> vec) (K : mat) (a b : vec) :
  (forall i j, (i < d)%nat -> (j < d)%nat -> E law (fun w => X w i * Y w j) = K i j) ->
  E law (fun w => dot d a (X w) * dot d b (Y w)) = dot d a (mvec d K b).
Proof.
  intros H.
  transitivity (E law (fun w => Rsum (map (fun i => Rsum (map (fun j => a i * b j * (X w i * Y w j)) (seq 0 d))) (seq 0 d)))).
  - apply E_ext'. intros w. unfold dot. rewrite <- Rsum_map_mult_r. apply Rsum_map_ext. intros i _.
    rewrite <- Rsum_map_mult_l. apply Rsum_map_ext. intros; ring.
  - rewrite E_Rsum. unfold dot. apply Rsum_map_ext. intros i Hi. apply in_seq in Hi. rewrite E_Rsum. unfold mvec.
    rewrite <- Rsum_map_mult_l. apply Rsum_map_ext. intros j Hj. apply in_seq in Hj. rewrite E_mult_l, H by lia. ring.
Qed.

(** E |B X|^2 = tr (B C B^T). *)
Lemma E_sq_norm {A} d (law : dist A) (X : A -> vec) (C B : mat) :
  (forall i j, (i < d)%nat -> (j < d)%nat -> E law (fun w => X w i * X w j) = C i j) ->
  E law (fun w => dot d (mvec d B (X w)) (mvec d B (X w))) = mtrace d (mmul d B (mmul d C (mtr B))).
Proof.
  intros H. unfold dot at 1. rewrite E_Rsum. unfold mtrace. apply Rsum_map_ext. intros i Hi. apply in_seq in Hi.
  exact (E_bilinear d law X X C (fun k => B i k) (fun k => B i k) H).
Qed.

(** A law with mean m and covariance S S^T: m +- sqrt(d) S e_k, each with weight 1/(2d). *)
Definition two_point (d : nat) (m : vec) (S : mat) : dist vec :=
  dbind (dunif d) (fun k => [(/ 2, fun i => m i + sqrt (INR d) * S i k); (/ 2, fun i => m i - sqrt (INR d) * S i k)]).
Lemma E_two_point d m S f : E (two_point d m S) f = / INR d * Rsum (map (fun k =>
   (f (fun i => m i + sqrt (INR d) * S i k) + f (fun i => m i - sqrt (INR d) * S i k)) / 2) (seq 0 d)).
Proof.
  unfold two_point. rewrite E_dbind, E_dunif. f_equal. apply Rsum_map_ext. intros k _. rewrite !E_cons. unfold E. cbn. field.
Qed.
Lemma two_point_prob d m S : (0 < d)%nat -> is_prob (two_point d m S).
Proof.
  intros Hd. apply is_prob_dbind; [now apply is_prob_dunif|]. intros k _. split.
  - repeat constructor; cbn; lra.
  - unfold E. cbn. lra.
Qed.
Lemma two_point_mean d m S : (0 < d)%nat -> has_mean d (two_point d m S) m.
Proof.
  intros Hd i Hi. rewrite E_two_point. rewrite (Rsum_map_ext _ (fun _ => m i)) by (intros; field).
  rewrite Rsum_map_const, seq_length. assert (INR d <> 0) by (apply not_0_INR; lia). field. assumption.
Qed.
Lemma two_point_cov d m S : (0 < d)%nat -> has_cov d (two_point d m S) m (mmul d S (mtr S)).
Proof.
  intros Hd i j Hi Hj. rewrite E_two_point.
  assert (Hs : sqrt (INR d) * sqrt (INR d) = INR d) by (apply sqrt_sqrt, pos_INR).
  rewrite (Rsum_map_ext _ (fun k => INR d * (S i k * S j k))).
  - rewrite Rsum_map_mult_l. assert (INR d <> 0) by (apply not_0_INR; lia). unfold mmul, mtr. field. assumption.
  - intros k _. transitivity (sqrt (INR d) * sqrt (INR d) * (S i k * S j k)); [field|now rewrite Hs].
Qed.
