(** The drift of make_gaussian_bw_sb (fbs/sdes/linear.py 397-457) among all controls with the same end points: least energy. *)
From Coquelicot Require Import Coquelicot.
From Coq Require Import Reals List Lia Lra Morphisms Setoid.
From Verif Require Import Base Dist Mat MatMore Cholesky GaussDiv Bures GaussSB GaussSBMore Spectral CholFun SbTotal.
From Verif Require ToyCond.
Import ListNotations.
Open Scope R_scope.

(** ** Specification: controlled processes through their joint laws of state and control
    [J t] is the law at time [t] of the state and of the control acting on it. The state follows dX = u dt + sig dW, of which
    the moment equations are kept; it starts with moments (m0, c0) and ends with (m1, c1). *)
Definition st_mean (J : R -> dist (vec * vec)) (t : R) : vec := fun i => E (J t) (fun xu => fst xu i).
Definition ct_mean (J : R -> dist (vec * vec)) (t : R) : vec := fun i => E (J t) (fun xu => snd xu i).
Definition st_cov (J : R -> dist (vec * vec)) (t : R) : mat := fun i j => E (J t) (fun xu => (fst xu i - st_mean J t i) * (fst xu j - st_mean J t j)).
Definition ct_cross (J : R -> dist (vec * vec)) (t : R) : mat := fun i j => E (J t) (fun xu => (snd xu i - ct_mean J t i) * (fst xu j - st_mean J t j)).
Definition power (d : nat) (J : R -> dist (vec * vec)) (t : R) : R := E (J t) (fun xu => dot d (snd xu) (snd xu)).
Record controlled (d : nat) (sig : R) (m0 : vec) (c0 : mat) (m1 : vec) (c1 : mat) (J : R -> dist (vec * vec)) : Prop := {
  co_prob : forall t, 0 <= t <= 1 -> is_prob (J t);
  co_mean : forall t i, 0 <= t <= 1 -> (i < d)%nat -> is_derive (fun s => st_mean J s i) t (ct_mean J t i);
  co_cov : forall t i j, 0 <= t <= 1 -> (i < d)%nat -> (j < d)%nat -> is_derive (fun s => st_cov J s i j) t (ct_cross J t i j + ct_cross J t j i + sig ^ 2 * mid i j);
  co_start : veq d (st_mean J 0) m0 /\ meq d (st_cov J 0) c0;
  co_stop : veq d (st_mean J 1) m1 /\ meq d (st_cov J 1) c1;
  co_cont : forall t, 0 <= t <= 1 -> continuous (power d J) t /\ (forall i, (i < d)%nat -> continuous (fun s => ct_mean J s i) t) /\
    (forall i j, (i < d)%nat -> (j < d)%nat -> continuous (fun s => ct_cross J s i j) t) }.
(** mean squared distance of the control from a feedback rule [b] *)
Definition control_gap (d : nat) (J : R -> dist (vec * vec)) (b : vec -> R -> vec) (t : R) : R :=
  E (J t) (fun xu => dot d (vsub (snd xu) (b (fst xu) t)) (vsub (snd xu) (b (fst xu) t))).

(** ** Double sums *)
Definition S2 (d : nat) (f : nat -> nat -> R) : R := Rsum (map (fun i => Rsum (map (fun j => f i j) (seq 0 d))) (seq 0 d)).
Lemma S2_ext d f g : (forall i j, (i < d)%nat -> (j < d)%nat -> f i j = g i j) -> S2 d f = S2 d g.
Proof. intros H. unfold S2. apply Rsum_map_ext. intros i Hi. apply in_seq in Hi. apply Rsum_map_ext. intros j Hj. apply in_seq in Hj. apply H; lia. Qed.
Lemma S2_plus d f g : S2 d (fun i j => f i j + g i j) = S2 d f + S2 d g.
Proof. unfold S2. rewrite <- Rsum_map_plus. apply Rsum_map_ext. intros i _. now rewrite Rsum_map_plus. Qed.
Lemma S2_scale d c f : S2 d (fun i j => c * f i j) = c * S2 d f.
Proof. unfold S2. rewrite <- Rsum_map_mult_l. apply Rsum_map_ext. intros i _. now rewrite Rsum_map_mult_l. Qed.
Lemma S2_swap d f : S2 d f = S2 d (fun i j => f j i).
Proof. unfold S2. apply Rsum_exchange. Qed.
Lemma S2_derive d (f : nat -> nat -> R -> R) f' t : (forall i j, (i < d)%nat -> (j < d)%nat -> is_derive (f i j) t (f' i j)) -> is_derive (fun u => S2 d (fun i j => f i j u)) t (S2 d f').
Proof.
  intros H. unfold S2. apply (is_derive_Rsum_map (fun i u => Rsum (map (fun j => f i j u) (seq 0 d))) (fun i => Rsum (map (fun j => f' i j) (seq 0 d)))). intros i Hi. apply in_seq in Hi.
  apply (is_derive_Rsum_map (fun j => f i j) (fun j => f' i j)). intros j Hj. apply in_seq in Hj. apply H; lia.
Qed.
Lemma sum_cont d (f : nat -> R -> R) t : (forall i, (i < d)%nat -> continuous (f i) t) -> continuous (fun u => Rsum (map (fun i => f i u) (seq 0 d))) t.
Proof.
  induction d; intros Hf; [apply continuous_const|]. apply (continuous_ext (fun u => Rsum (map (fun i => f i u) (seq 0 d)) + f d u)); [intros u; now rewrite Rsum_seq_S|].
  apply (continuous_plus (V := R_NormedModule)); [apply IHd; intros; apply Hf; lia|apply Hf; lia].
Qed.
Lemma S2_cont d (f : nat -> nat -> R -> R) t : (forall i j, (i < d)%nat -> (j < d)%nat -> continuous (f i j) t) -> continuous (fun u => S2 d (fun i j => f i j u)) t.
Proof. intros H. unfold S2. apply (sum_cont d (fun i u => Rsum (map (fun j => f i j u) (seq 0 d)))). intros i Hi. apply (sum_cont d (fun j => f i j)). intros j Hj. now apply H. Qed.
Lemma S2_quad d M x y : S2 d (fun i j => M i j * (x i * y j)) = dot d x (mvec d M y).
Proof. unfold S2, dot, mvec. apply Rsum_map_ext. intros i _. rewrite <- Rsum_map_mult_l. apply Rsum_map_ext. intros; ring. Qed.
Lemma S2_trace d M : S2 d (fun i j => M i j * mid i j) = mtrace d M.
Proof. unfold S2, mtrace. apply Rsum_map_ext. intros i Hi. apply in_seq in Hi. rewrite <- (Rsum_indicator d i (fun j => M i j)) by lia. apply Rsum_map_ext. intros j _. unfold mid. rewrite Nat.eqb_sym. destruct (Nat.eqb j i); ring. Qed.
(** tr(A A C) summed over the rows of A *)
Lemma S2_square d A C : symmetric d A -> S2 d (fun i j => mmul d A A i j * C i j) = Rsum (map (fun k => dot d (fun i => A k i) (mvec d C (fun j => A k j))) (seq 0 d)).
Proof.
  intros HA. rewrite (Rsum_map_ext (fun k => dot d _ _) (fun k => S2 d (fun i j => C i j * (A k i * A k j)))) by (intros k _; now rewrite S2_quad).
  unfold S2. symmetry. rewrite Rsum_exchange. apply Rsum_map_ext. intros i Hi. apply in_seq in Hi. rewrite Rsum_exchange. apply Rsum_map_ext. intros j Hj. apply in_seq in Hj.
  unfold mmul. rewrite <- Rsum_map_mult_r. apply Rsum_map_ext. intros k Hk. apply in_seq in Hk. pose proof (HA i k ltac:(lia) ltac:(lia)) as E. unfold mtr in E. rewrite <- E. ring.
Qed.
Lemma dot_plus d a b c : dot d a (fun i => b i + c i) = dot d a b + dot d a c.
Proof. unfold dot. rewrite <- Rsum_map_plus. apply Rsum_map_ext. intros; ring. Qed.
Lemma dot_minus d a b c : dot d a (fun i => b i - c i) = dot d a b - dot d a c.
Proof. unfold dot. assert (H : Rsum (map (fun i => a i * (b i - c i)) (seq 0 d)) + Rsum (map (fun i => a i * c i) (seq 0 d)) = Rsum (map (fun i => a i * b i) (seq 0 d))) by (rewrite <- Rsum_map_plus; apply Rsum_map_ext; intros; ring). lra. Qed.

(** ** Verification argument for a feedback rule b(x, t) = A(t) (x - m(t)) + v with A' = - A^2 and m' = v *)
Section verification.
  Context (d : nat) (sig : R) (A : R -> mat) (m : R -> vec) (v : vec).
  Hypothesis (AS : forall t, 0 <= t <= 1 -> symmetric d (A t)).
  Hypothesis (AD : forall t i j, 0 <= t <= 1 -> (i < d)%nat -> (j < d)%nat -> is_derive (fun u => A u i j) t (- mmul d (A t) (A t) i j)).
  Hypothesis (MD : forall t i, 0 <= t <= 1 -> (i < d)%nat -> is_derive (fun u => m u i) t (v i)).
  Definition rule (x : vec) (t : R) : vec := vadd (mvec d (A t) (vsub x (m t))) v.
  Section one.
    Context (m0 : vec) (c0 : mat) (m1 : vec) (c1 : mat) (J : R -> dist (vec * vec)).
    Hypothesis (HJ : controlled d sig m0 c0 m1 c1 J).
    Let dl (t : R) : vec := fun i => st_mean J t i - m t i.
    Definition value (t : R) : R := / 2 * S2 d (fun i j => A t i j * (st_cov J t i j + dl t i * dl t j)) + dot d v (st_mean J t).
    Let value' (t : R) : R := / 2 * S2 d (fun i j => - mmul d (A t) (A t) i j * (st_cov J t i j + dl t i * dl t j) +
        A t i j * (ct_cross J t i j + ct_cross J t j i + sig ^ 2 * mid i j + ((ct_mean J t i - v i) * dl t j + dl t i * (ct_mean J t j - v j)))) + dot d v (ct_mean J t).
    Lemma dl_derive t i : 0 <= t <= 1 -> (i < d)%nat -> is_derive (fun u => dl u i) t (ct_mean J t i - v i).
    Proof using HJ MD. intros Ht Hi. apply (is_derive_minus (V := R_NormedModule)); [now apply (co_mean _ _ _ _ _ _ _ HJ)|now apply MD]. Qed.
    Lemma mult_derive (f g : R -> R) t a b : is_derive f t a -> is_derive g t b -> is_derive (fun u => f u * g u) t (a * g t + f t * b).
    Proof using. intros H1 H2. exact (is_derive_mult (K := R_AbsRing) f g t a b H1 H2 Rmult_comm). Qed.
    Lemma value_derive t : 0 <= t <= 1 -> is_derive value t (value' t).
    Proof using HJ AD MD.
      intros Ht. unfold value, value'. apply (is_derive_plus (V := R_NormedModule)).
      - apply (is_derive_scal (fun u => S2 d (fun i j => A u i j * (st_cov J u i j + dl u i * dl u j)))). apply (S2_derive d (fun i j u => A u i j * (st_cov J u i j + dl u i * dl u j))). intros i j Hi Hj.
        apply (mult_derive (fun u => A u i j) (fun u => st_cov J u i j + dl u i * dl u j)); [now apply AD|]. apply (is_derive_plus (V := R_NormedModule)); [now apply (co_cov _ _ _ _ _ _ _ HJ)|].
        apply (mult_derive (fun u => dl u i) (fun u => dl u j)); now apply dl_derive.
      - unfold dot. apply (is_derive_Rsum_map (fun i u => v i * st_mean J u i) (fun i => v i * ct_mean J t i)). intros i Hi. apply in_seq in Hi. apply (is_derive_scal (fun u => st_mean J u i)). apply (co_mean _ _ _ _ _ _ _ HJ); [exact Ht|lia].
    Qed.
    Lemma value'_cont t : 0 <= t <= 1 -> continuous value' t.
    Proof using HJ AD MD.
      intros Ht. destruct (co_cont _ _ _ _ _ _ _ HJ t Ht) as (C1 & C2 & C3).
      assert (CA : forall i j, (i < d)%nat -> (j < d)%nat -> continuous (fun u => A u i j) t) by (intros i j Hi Hj; apply (ex_derive_continuous (V := R_NormedModule)); eexists; now apply AD).
      assert (CC : forall i j, (i < d)%nat -> (j < d)%nat -> continuous (fun u => st_cov J u i j) t) by (intros i j Hi Hj; apply (ex_derive_continuous (V := R_NormedModule)); eexists; now apply (co_cov _ _ _ _ _ _ _ HJ)).
      assert (CD : forall i, (i < d)%nat -> continuous (fun u => dl u i) t) by (intros i Hi; apply (ex_derive_continuous (V := R_NormedModule)); eexists; now apply dl_derive).
      assert (PL : forall f g : R -> R, continuous f t -> continuous g t -> continuous (fun u => f u + g u) t) by (intros f g Hf Hg; apply (continuous_plus (V := R_NormedModule)); assumption).
      assert (MU : forall f g : R -> R, continuous f t -> continuous g t -> continuous (fun u => f u * g u) t) by (intros f g Hf Hg; apply (continuous_mult (K := R_AbsRing)); assumption).
      assert (OP : forall f : R -> R, continuous f t -> continuous (fun u => - f u) t) by (intros f Hf; apply (continuous_opp (V := R_NormedModule)); assumption).
      assert (CO : forall c : R, continuous (fun _ : R => c) t) by (intros c; apply continuous_const).
      assert (MV : forall i, (i < d)%nat -> continuous (fun u => ct_mean J u i - v i) t) by (intros i Hi; apply (continuous_minus (V := R_NormedModule)); [now apply C2|apply CO]).
      unfold value'. apply PL.
      - apply MU; [apply CO|]. apply (S2_cont d (fun i j t => - mmul d (A t) (A t) i j * (st_cov J t i j + dl t i * dl t j) +
          A t i j * (ct_cross J t i j + ct_cross J t j i + sig ^ 2 * mid i j + ((ct_mean J t i - v i) * dl t j + dl t i * (ct_mean J t j - v j))))). intros i j Hi Hj. apply PL.
        + apply MU; [|apply PL; [now apply CC|apply MU; now apply CD]]. apply OP. unfold mmul. apply (sum_cont d (fun k u => A u i k * A u k j)). intros k Hk. apply MU; now apply CA.
        + apply MU; [now apply CA|]. apply PL; [apply PL; [apply PL; now apply C3|apply CO]|]. apply PL; [apply MU; [exact (MV i Hi)|exact (CD j Hj)]|apply MU; [exact (CD i Hi)|exact (MV j Hj)]].
      - unfold dot. apply (sum_cont d (fun i u => v i * ct_mean J u i)). intros i Hi. apply MU; [apply CO|now apply C2].
    Qed.
    Lemma gap_form t : 0 <= t <= 1 -> let w := fun i => mvec d (A t) (dl t) i + v i in
      control_gap d J rule t = power d J t - 2 * (S2 d (fun i j => A t i j * ct_cross J t i j) + dot d (ct_mean J t) w) +
        (S2 d (fun i j => mmul d (A t) (A t) i j * st_cov J t i j) + dot d w w).
    Proof using HJ AS.
      intros Ht w. pose proof (co_prob _ _ _ _ _ _ _ HJ t Ht) as HP. set (L := J t) in *. set (mu := st_mean J t). set (X := fun xu : vec * vec => vsub (fst xu) mu).
      assert (Eb : forall xu i, rule (fst xu) t i = dot d (fun j => A t i j) (X xu) + w i).
      { intros xu i. unfold rule, w, X, vadd, mvec, vsub, dl, dot. fold mu. rewrite <- Rplus_assoc, <- Rsum_map_plus. f_equal. apply Rsum_map_ext. intros; unfold vsub; (unfold vec in *; ring). }
      assert (X0 : forall j, E L (fun xu => X xu j) = 0) by (intros j; unfold X, vsub; rewrite E_minus, (E_const _ _ HP); unfold mu, st_mean; fold L; (unfold vec in *; ring)).
      unfold control_gap. fold L.
      rewrite (E_ext' _ _ (fun xu => (dot d (snd xu) (snd xu) + (-(2)) * Rsum (map (fun i => snd xu i * rule (fst xu) t i) (seq 0 d))) + Rsum (map (fun i => rule (fst xu) t i ^ 2) (seq 0 d)))).
      2:{ intros xu. unfold dot, vsub. rewrite <- Rsum_map_mult_l, <- !Rsum_map_plus. apply Rsum_map_ext. intros; (unfold vec in *; ring). }
      rewrite !E_plus, E_mult_l. unfold power. fold L.
      assert (P1 : E L (fun xu => Rsum (map (fun i => snd xu i * rule (fst xu) t i) (seq 0 d))) = S2 d (fun i j => A t i j * ct_cross J t i j) + dot d (ct_mean J t) w).
      { rewrite E_Rsum. unfold S2, dot. rewrite <- Rsum_map_plus. apply Rsum_map_ext. intros i Hi. apply in_seq in Hi.
        rewrite (E_ext' _ _ (fun xu => Rsum (map (fun j => A t i j * ((snd xu i - ct_mean J t i) * X xu j) + A t i j * (ct_mean J t i * X xu j)) (seq 0 d)) + w i * snd xu i)).
        2:{ intros xu. rewrite Eb, Rmult_plus_distr_l. apply (f_equal2 Rplus); [|apply Rmult_comm]. unfold dot. rewrite <- Rsum_map_mult_l. apply Rsum_map_ext. intros; unfold vec in *; ring. }
        rewrite E_plus, E_mult_l, E_Rsum. apply (f_equal2 Rplus); [|rewrite Rmult_comm; reflexivity]. apply Rsum_map_ext. intros j Hj. rewrite E_plus, !E_mult_l, X0. unfold ct_cross. fold L. unfold X, vsub. fold mu. (unfold vec in *; ring). }
      assert (P2 : E L (fun xu => Rsum (map (fun i => rule (fst xu) t i ^ 2) (seq 0 d))) = S2 d (fun i j => mmul d (A t) (A t) i j * st_cov J t i j) + dot d w w).
      { rewrite S2_square by (now apply AS). rewrite E_Rsum. unfold dot at 2. rewrite <- Rsum_map_plus. apply Rsum_map_ext. intros i Hi. apply in_seq in Hi.
        rewrite (E_ext' _ _ (fun xu => (dot d (fun j => A t i j) (X xu) * dot d (fun j => A t i j) (X xu) + 2 * w i * dot d (fun j => A t i j) (X xu)) + w i * w i)) by (intros xu; rewrite Eb; (unfold vec in *; ring)).
        rewrite !E_plus, E_mult_l, (E_const _ _ HP), (E_bilinear d L X X (st_cov J t)) by (intros a b _ _; reflexivity).
        assert (Z : E L (fun xu => dot d (fun j => A t i j) (X xu)) = 0) by (unfold dot; rewrite E_Rsum, (Rsum_map_ext _ (fun _ => 0)); [rewrite Rsum_map_const; (unfold vec in *; ring)|]; intros j _; rewrite E_mult_l, X0; (unfold vec in *; ring)).
        rewrite Z. (unfold vec in *; ring). }
      rewrite P1, P2. (unfold vec in *; ring).
    Qed.
    Lemma value'_is t : 0 <= t <= 1 -> 2 * value' t = power d J t - control_gap d J rule t + sig ^ 2 * mtrace d (A t) + dot d v v.
    Proof using HJ AS.
      intros Ht. rewrite (gap_form t Ht). pose proof (AS t Ht) as HA. set (a := A t) in *. set (D := dl t) in *. set (w := mvec d a D). set (u := ct_mean J t) in *.
      assert (Q1 : value' t = / 2 * (- S2 d (fun i j => mmul d a a i j * st_cov J t i j) - dot d D (mvec d (mmul d a a) D) + S2 d (fun i j => a i j * ct_cross J t i j) + S2 d (fun i j => a i j * ct_cross J t j i) + sig ^ 2 * mtrace d a +
         (dot d (fun i => u i - v i) w + dot d D (mvec d a (fun i => u i - v i)))) + dot d v u).
      { unfold value'. fold a D u. f_equal. f_equal. unfold w.
        rewrite <- (S2_trace d a), <- (S2_quad d (mmul d a a) D D), <- (S2_quad d a (fun i => u i - v i) D), <- (S2_quad d a D (fun i => u i - v i)).
        assert (N : forall f g, - S2 d f - S2 d g = S2 d (fun i j => - f i j + - g i j)) by (intros f g; rewrite (S2_plus d (fun i j => - f i j) (fun i j => - g i j)); rewrite (S2_ext d (fun i j => - f i j) (fun i j => (-(1)) * f i j)) by (intros; ring); rewrite (S2_ext d (fun i j => - g i j) (fun i j => (-(1)) * g i j)) by (intros; ring); rewrite !S2_scale; ring).
        rewrite N, <- S2_scale, <- !S2_plus. apply S2_ext. intros i j _ _. ring. }
      rewrite Q1. assert (Q2 : S2 d (fun i j => a i j * ct_cross J t j i) = S2 d (fun i j => a i j * ct_cross J t i j)).
      { rewrite S2_swap. apply S2_ext. intros i j Hi Hj. pose proof (HA i j Hi Hj) as E. unfold mtr in E. now rewrite E. }
      assert (Q3 : dot d D (mvec d (mmul d a a) D) = dot d w w) by (unfold w; rewrite <- mvec_mul, dot_mvec; unfold symmetric in HA; rewrite HA; reflexivity).
      assert (Q4 : dot d D (mvec d a (fun i => u i - v i)) = dot d (fun i => u i - v i) w) by (unfold w; rewrite dot_mvec; unfold symmetric in HA; rewrite HA; apply dot_comm).
      rewrite Q2, Q3, Q4. rewrite (dot_comm d (fun i => u i - v i) w), dot_minus.
      rewrite (dot_plus d u w v). rewrite (dot_plus d (fun i => w i + v i) w v), (dot_comm d (fun i => w i + v i) w), (dot_comm d (fun i => w i + v i) v), !dot_plus. rewrite (dot_comm d v w), (dot_comm d w u), (dot_comm d v u). field.
    Qed.
    (** the gap agrees on [0, 1] with a continuous function *)
    Lemma gap_continuous : exists G : R -> R, (forall t, 0 <= t <= 1 -> continuous G t) /\ forall t, 0 <= t <= 1 -> G t = control_gap d J rule t.
    Proof using HJ AS AD MD.
      exists (fun t => power d J t + (sig ^ 2 * mtrace d (A t) + dot d v v) - 2 * value' t). split; [|intros t Ht; rewrite (value'_is t Ht); ring].
      intros t Ht. apply (continuous_minus (V := R_NormedModule)); [apply (continuous_plus (V := R_NormedModule)); [exact (proj1 (co_cont _ _ _ _ _ _ _ HJ t Ht))|]|].
      - apply (continuous_plus (V := R_NormedModule)); [|apply continuous_const]. apply (continuous_mult (K := R_AbsRing)); [apply continuous_const|]. unfold mtrace. apply (sum_cont d (fun i u => A u i i)). intros i Hi. apply (ex_derive_continuous (V := R_NormedModule)). eexists. now apply AD.
      - apply (continuous_mult (K := R_AbsRing)); [apply continuous_const|now apply value'_cont].
    Qed.
    (** the energy of the control, up to quantities that only depend on the end points *)
    Lemma energy_balance : ex_RInt (power d J) 0 1 /\ ex_RInt (control_gap d J rule) 0 1 /\
      RInt (power d J) 0 1 = 2 * (value 1 - value 0) - RInt (fun t => sig ^ 2 * mtrace d (A t) + dot d v v) 0 1 + RInt (control_gap d J rule) 0 1.
    Proof using HJ AS AD MD.
      set (h := fun t => sig ^ 2 * mtrace d (A t) + dot d v v).
      assert (I01 : forall t, Rmin 0 1 <= t <= Rmax 0 1 -> 0 <= t <= 1) by (intros t; rewrite Rmin_left, Rmax_right by lra; auto).
      assert (CH : forall t, 0 <= t <= 1 -> continuous h t).
      { intros t Ht. unfold h. apply (continuous_plus (V := R_NormedModule)); [|apply continuous_const]. apply (continuous_mult (K := R_AbsRing)); [apply continuous_const|]. unfold mtrace. apply (sum_cont d (fun i u => A u i i)). intros i Hi. apply (ex_derive_continuous (V := R_NormedModule)). eexists. now apply AD. }
      assert (CP : forall t, 0 <= t <= 1 -> continuous (power d J) t) by (intros t Ht; exact (proj1 (co_cont _ _ _ _ _ _ _ HJ t Ht))).
      set (G := fun t => power d J t + h t - 2 * value' t).
      assert (CG : forall t, 0 <= t <= 1 -> continuous G t).
      { intros t Ht. unfold G. apply (continuous_minus (V := R_NormedModule)); [apply (continuous_plus (V := R_NormedModule)); [now apply CP|now apply CH]|]. apply (continuous_mult (K := R_AbsRing)); [apply continuous_const|now apply value'_cont]. }
      assert (EG : forall t, 0 <= t <= 1 -> G t = control_gap d J rule t) by (intros t Ht; unfold G, h; rewrite (value'_is t Ht); ring).
      assert (IP : ex_RInt (power d J) 0 1) by (apply (ex_RInt_continuous (V := R_CompleteNormedModule)); intros t Ht; apply CP, I01, Ht).
      assert (IH : ex_RInt h 0 1) by (apply (ex_RInt_continuous (V := R_CompleteNormedModule)); intros t Ht; apply CH, I01, Ht).
      assert (IG : ex_RInt G 0 1) by (apply (ex_RInt_continuous (V := R_CompleteNormedModule)); intros t Ht; apply CG, I01, Ht).
      assert (EX : forall t, Rmin 0 1 < t < Rmax 0 1 -> G t = control_gap d J rule t) by (intros t Ht; apply EG, I01; lra).
      split; [exact IP|]. split; [exact (ex_RInt_ext _ _ _ _ EX IG)|]. rewrite <- (RInt_ext _ _ _ _ EX).
      assert (D2 : is_RInt value' 0 1 (value 1 - value 0)).
      { apply (is_RInt_derive (V := R_CompleteNormedModule) value value'); intros t Ht; [apply value_derive, I01, Ht|apply value'_cont, I01, Ht]. }
      assert (IV : ex_RInt value' 0 1) by (eexists; exact D2). apply (is_RInt_unique (V := R_CompleteNormedModule)) in D2.
      assert (SUM : RInt G 0 1 = RInt (power d J) 0 1 + RInt h 0 1 - 2 * RInt value' 0 1).
      { unfold G. rewrite (RInt_minus (V := R_CompleteNormedModule) (fun t => power d J t + h t) (fun t => 2 * value' t)); [|apply (ex_RInt_plus (V := R_CompleteNormedModule)); assumption|apply (ex_RInt_scal (V := R_CompleteNormedModule) value' 0 1 2); exact IV].
        rewrite (RInt_plus (V := R_CompleteNormedModule) (power d J) h) by assumption. assert (IS : RInt (fun t => 2 * value' t) 0 1 = 2 * RInt value' 0 1) by exact (RInt_scal (V := R_CompleteNormedModule) value' 0 1 2 IV). rewrite IS. reflexivity. }
      rewrite SUM, D2. fold h. assert (X : forall p q w : R, p = 2 * w - q + (p + q - 2 * w)) by (intros; ring). apply X.
    Qed.
  End one.
  Lemma value_ends m0 c0 m1 c1 J J' : controlled d sig m0 c0 m1 c1 J -> controlled d sig m0 c0 m1 c1 J' -> value J 0 = value J' 0 /\ value J 1 = value J' 1.
  Proof using.
    intros HJ HJ'. destruct (co_start _ _ _ _ _ _ _ HJ) as [M0 C0]. destruct (co_start _ _ _ _ _ _ _ HJ') as [M0' C0']. destruct (co_stop _ _ _ _ _ _ _ HJ) as [M1 C1]. destruct (co_stop _ _ _ _ _ _ _ HJ') as [M1' C1'].
    assert (G : forall t, veq d (st_mean J t) (st_mean J' t) -> meq d (st_cov J t) (st_cov J' t) -> value J t = value J' t).
    { intros t HM HC. unfold value. f_equal; [f_equal; apply S2_ext; intros i j Hi Hj; rewrite (HM i Hi), (HM j Hj), (HC i j Hi Hj); reflexivity|]. now rewrite HM. }
    split; apply G; [rewrite M0, M0'|rewrite C0, C0'|rewrite M1, M1'|rewrite C1, C1']; reflexivity.
  Qed.
  Theorem energy_difference m0 c0 m1 c1 J J' : controlled d sig m0 c0 m1 c1 J -> controlled d sig m0 c0 m1 c1 J' ->
    RInt (power d J) 0 1 - RInt (control_gap d J rule) 0 1 = RInt (power d J') 0 1 - RInt (control_gap d J' rule) 0 1.
  Proof using AS AD MD.
    intros HJ HJ'. destruct (value_ends _ _ _ _ J J' HJ HJ') as [V0 V1]. destruct (energy_balance _ _ _ _ J HJ) as (_ & _ & ->). destruct (energy_balance _ _ _ _ J' HJ') as (_ & _ & ->). rewrite V0, V1. assert (X : forall a b c e : R, a - b + c - c = a - b + e - e) by (intros; ring). apply X.
  Qed.
End verification.

Lemma gap_nonneg d J b t : is_prob (J t) -> 0 <= control_gap d J b t.
Proof. intros HP. unfold control_gap. apply E_nonneg; [apply HP|]. intros xu _. apply dot_self_nonneg. Qed.
Lemma integral_zero (g G : R -> R) : (forall t, 0 <= t <= 1 -> continuous G t) -> (forall t, 0 <= t <= 1 -> G t = g t) -> (forall t, 0 <= t <= 1 -> 0 <= g t) ->
  RInt g 0 1 = 0 -> forall t, 0 < t < 1 -> g t = 0.
Proof.
  intros CG EG Hg HI t Ht. destruct (Rle_lt_or_eq_dec 0 (g t) (Hg t ltac:(lra))) as [Hp|He]; [exfalso|now symmetry].
  assert (EI : RInt g 0 1 = RInt G 0 1) by (apply RInt_ext; intros x Hx; rewrite Rmin_left, Rmax_right in Hx by lra; symmetry; apply EG; lra). rewrite EI in HI.
  assert (HL : locally t (fun x => g t / 2 < G x)).
  { apply (CG t ltac:(lra)). rewrite (EG t) by lra. apply (locally_interval _ (g t) (g t / 2) p_infty); [cbn; lra|exact I|]. intros y Hy _. exact Hy. }
  destruct HL as (eps & HL). set (a := Rmax 0 (t - eps / 2)). set (b := Rmin 1 (t + eps / 2)). pose proof (cond_pos eps) as Ep.
  assert (Ha : 0 <= a < t) by (unfold a; split; [apply Rmax_l|apply Rmax_lub_lt; lra]). assert (Hb : t < b <= 1) by (unfold b; split; [apply Rmin_glb_lt; lra|apply Rmin_l]).
  assert (Ha2 : t - eps / 2 <= a) by apply Rmax_r. assert (Hb2 : b <= t + eps / 2) by apply Rmin_r.
  assert (EX : forall x y, 0 <= x -> x <= y -> y <= 1 -> ex_RInt G x y) by (intros x y H1 H2 H3; apply (ex_RInt_continuous (V := R_CompleteNormedModule)); intros z; rewrite Rmin_left, Rmax_right by lra; intros Hz; apply CG; lra).
  assert (C1 : (RInt G 0 a + (RInt G a b + RInt G b 1) : R) = RInt G 0 1).
  { rewrite <- (RInt_Chasles (V := R_CompleteNormedModule) G 0 a 1) by (apply EX; lra). rewrite <- (RInt_Chasles (V := R_CompleteNormedModule) G a b 1) by (apply EX; lra). reflexivity. }
  assert (N : forall x y, 0 <= x -> x <= y -> y <= 1 -> 0 <= RInt G x y) by (intros x y H1 H2 H3; apply RInt_ge_0; [exact H2|apply EX; lra|intros z Hz; rewrite EG by lra; apply Hg; lra]).
  assert (M : (b - a) * (g t / 2) <= RInt G a b).
  { replace ((b - a) * (g t / 2)) with (RInt (fun _ : R => g t / 2) a b) by (rewrite RInt_const; reflexivity). apply RInt_le; [lra|apply ex_RInt_const|apply EX; lra|]. intros x Hx. apply Rlt_le, HL. change (Rabs (x - t) < eps). apply Rabs_def1; lra. }
  pose proof (N 0 a ltac:(lra) ltac:(lra) ltac:(lra)) as N1. pose proof (N b 1 ltac:(lra) ltac:(lra) ltac:(lra)) as N2.
  assert (0 < (b - a) * (g t / 2)) by (apply Rmult_lt_0_compat; lra). unfold zero in *. cbn in *. lra.
Qed.

(** ** The bridge *)
Lemma posdef_lower d M : symmetric d M -> posdef d M -> exists lam, 0 < lam /\ forall x, lam * dot d x x <= quad d M x.
Proof.
  intros HS HP. destruct (spectral_theorem d M HS) as (w & V & He). pose proof (eigh_pos d M w V He HP) as Hw.
  assert (Hm : exists lam, 0 < lam /\ forall i, (i < d)%nat -> lam <= w i).
  { clear - Hw. induction d as [|d IH]; [exists 1; split; [lra|intros; lia]|]. destruct IH as (l & L0 & L1); [intros; apply Hw; lia|]. exists (Rmin l (w d)). split; [apply Rmin_glb_lt; [exact L0|apply Hw; lia]|].
    intros i Hi. destruct (Nat.eq_dec i d) as [->|N]; [apply Rmin_r|]. eapply Rle_trans; [apply Rmin_l|]. apply L1. lia. }
  destruct Hm as (lam & L0 & L1). exists lam. split; [exact L0|]. intros x. destruct He as (E1 & E2 & E3). rewrite <- E1. change (mmul d (mmul d V (mdiag w)) (mtr V)) with (spectral d V w). rewrite quad_spectral.
  assert (Ex : dot d x x = Rsum (map (fun i => mvec d (mtr V) x i ^ 2) (seq 0 d))) by (rewrite <- dot_self, dot_mvec; change (mtr (mtr V)) with V; rewrite mvec_mul, E3, (mvec_id d x); reflexivity).
  rewrite Ex, <- Rsum_map_mult_l. apply sum_mono. intros i Hi. apply Rmult_le_compat_r; [apply pow2_ge_0|now apply L1].
Qed.
Lemma quad_nrm d M x : - (nrm d M * dot d x x) <= quad d M x.
Proof.
  rewrite quad_dot, <- (S2_quad d M x x). unfold nrm. rewrite <- Rsum_map_mult_r.
  apply Ropp_le_cancel. rewrite Ropp_involutive. replace (- S2 d (fun i j => M i j * (x i * x j))) with (S2 d (fun i j => (-(1)) * (M i j * (x i * x j)))) by (rewrite S2_scale; ring).
  unfold S2. apply sum_mono. intros i Hi. rewrite <- Rsum_map_mult_r. apply sum_mono. intros j Hj.
  eapply Rle_trans; [apply Rle_abs|]. rewrite !Rabs_mult, Rabs_Ropp, Rabs_R1, Rmult_1_l. apply Rmult_le_compat_l; [apply Rabs_pos|].
  assert (B : forall k, (k < d)%nat -> Rabs (x k) ^ 2 <= dot d x x) by (intros k Hk; rewrite pow2_abs, dot_self; apply (sum_member (fun i => x i ^ 2)); [intros; apply pow2_ge_0|exact Hk]).
  pose proof (B i Hi). pose proof (B j Hj). pose proof (pow2_ge_0 (Rabs (x i) - Rabs (x j))). nra.
Qed.
Section bridge.
  Context (d : nat) (m0 : vec) (c0 : mat) (m1 : vec) (c1 : mat) (sig : R).
  Hypothesis (S0 : symmetric d c0) (P0 : posdef d c0) (S1 : symmetric d c1) (P1 : posdef d c1).
  Context (S D X : mat).
  Hypothesis (HS : sqrtm_returns d c0 S) (HD : sqrtm_returns d (sb_D_arg d c1 sig S) D) (HX : meq d (mmul d (mtr S) (mtr X)) (mtr D)).
  Let C := sb_C d sig S X.
  Let P := marginal_cov c0 c1 sig C.
  Let mt := marginal_mean m0 m1.
  Let v := vsub m1 m0.
  Let b := sb_drift d m0 c0 m1 c1 sig C (cho_inv d).
  Let A (u : R) := sb_slope d c0 c1 sig C (cho_inv d) u.
  Let good (u : R) := symmetric d (P u) /\ posdef d (P u).
  Lemma good_at t : 0 <= t <= 1 -> good t.
  Proof using m0 m1 S0 P0 S1 P1 HS HD HX. apply (total_posdef d c0 c1 sig S0 P0 S1 P1 S D X HS HD HX). Qed.
  Lemma good_near t : 0 <= t <= 1 -> locally t good.
  Proof using m0 m1 S0 P0 S1 P1 HS HD HX.
    intros Ht. destruct (good_at t Ht) as [A1 A2]. destruct (posdef_lower d (P t) A1 A2) as (lam & L0 & L1).
    destruct (total_moments d m0 c0 m1 c1 sig S0 P0 S1 P1 S D X HS HD HX t Ht) as (B & _ & _ & H).
    generalize (path_nrm_small d P _ t (fun i j Hi Hj => H i j Hi Hj) lam L0). apply filter_imp. intros u Hu. split; [now apply GaussSB.marginal_cov_sym|]. intros x Hx.
    assert (Eq : quad d (P u) x = quad d (P t) x + quad d (msub (P u) (P t)) x) by (rewrite <- ToyCond.quad_add; apply quad_diff_proper; intros i j _ _; unfold madd, msub; ring).
    rewrite Eq. pose proof (L1 x) as Q1. pose proof (quad_nrm d (msub (P u) (P t)) x) as Q2.
    assert (X0 : 0 < dot d x x) by (destruct (Rle_lt_or_eq_dec _ _ (dot_self_nonneg d x)) as [G|G]; [exact G|]; exfalso; apply Hx; now apply dot_self_zero). nra.
  Qed.
  Lemma inv_near t : 0 <= t <= 1 -> locally t (inverse_at d P (cho_inv d)).
  Proof using m0 m1 S0 P0 S1 P1 HS HD HX. intros Ht. generalize (good_near t Ht). apply filter_imp. intros u [G1 G2]. now apply cho_inv_correct. Qed.
  Theorem slope_closed t : 0 <= t <= 1 -> symmetric d (A t) /\ forall i j, (i < d)%nat -> (j < d)%nat -> is_derive (fun u => A u i j) t (- mmul d (A t) (A t) i j).
  Proof using m0 m1 S0 P0 S1 P1 HS HD HX.
    intros Ht. destruct (total_roots d c0 c1 sig S0 P0 S1 P1 S D X HS HD HX) as (Si & HL). pose proof (inv_near t Ht) as HI.
    assert (HA : forall u x x', veq d (vsub (b x u) (b x' u)) (mvec d (A u) (vsub x x'))) by (intros; apply sb_drift_diff).
    assert (DI : forall i j, (i < d)%nat -> (j < d)%nat -> ex_derive (fun u => cho_inv d (P u) i j) t).
    { destruct (total_moments d m0 c0 m1 c1 sig S0 P0 S1 P1 S D X HS HD HX t Ht) as (B & _ & _ & H). intros i j Hi Hj. exact (path_inv_derive d P _ (cho_inv d) t (fun i j Hi Hj => H i j Hi Hj) HI i j Hi Hj). }
    assert (DA : forall i j, (i < d)%nat -> (j < d)%nat -> ex_derive (fun u => A u i j) t).
    { intros i j Hi Hj. unfold A, sb_slope, mmul. fold P.
      assert (Sm : forall n (f : nat -> R -> R), (forall i, (i < n)%nat -> ex_derive (f i) t) -> ex_derive (fun u => Rsum (map (fun i => f i u) (seq 0 n))) t).
      { induction n; intros f Hf; [cbn; apply (ex_derive_const (V := R_NormedModule))|]. apply (ex_derive_ext (fun u => Rsum (map (fun i => f i u) (seq 0 n)) + f n u)); [intros u; now rewrite Rsum_seq_S|].
        apply (ex_derive_plus (V := R_NormedModule)); [apply IHn; intros; apply Hf; lia|apply Hf; lia]. }
      apply (Sm d (fun k u => mtr (sb_s c0 c1 sig C u) i k * cho_inv d (P u) k j)). intros k Hk. apply ex_derive_mult; [|now apply DI].
      unfold mtr, sb_s, r, r_bar, rho, madd, msub, mscale, mtr. auto_derive. exact I. }
    split.
    - apply (sb_gradient d m0 c0 m1 c1 sig S D X Si (cho_inv d) t HL S0 S1 (locally_singleton _ _ HI)). intros x x'. apply HA.
    - intros i j Hi Hj. assert (HD' : forall i j, (i < d)%nat -> (j < d)%nat -> is_derive (fun u => A u i j) t (Derive (fun u => A u i j) t)) by (intros; apply Derive_correct; now apply DA).
      pose proof (sb_riccati d m0 c0 m1 c1 sig S D X Si (cho_inv d) t HL S0 S1 HI A (fun i j => Derive (fun u => A u i j) t) HA HD' i j Hi Hj) as E. cbv beta in E. unfold mscale in E.
      replace (- mmul d (A t) (A t) i j) with (-(1) * mmul d (A t) (A t) i j) by ring. rewrite <- E. now apply HD'.
  Qed.
  Lemma drift_rule x t : veq d (b x t) (rule d A mt v x t).
  Proof using. apply sb_drift_affine. Qed.
  (** the process driven by the returned drift, represented by laws with its mean and covariance *)
  Definition bridge_process (t : R) : dist (vec * vec) := dmap (fun x => (x, b x t)) (two_point d (mt t) (chol d (P t))).
  Hypothesis Hd : (0 < d)%nat.
  Lemma bp_prob t : is_prob (bridge_process t).
  Proof using Hd. apply is_prob_dmap. now apply two_point_prob. Qed.
  Lemma bp_mean t i : (i < d)%nat -> st_mean bridge_process t i = mt t i.
  Proof using Hd. intros Hi. unfold st_mean, bridge_process. rewrite E_dmap. cbn [fst]. now apply two_point_mean. Qed.
  Let W t := two_point d (mt t) (chol d (P t)).
  Lemma W_prob t : is_prob (W t).
  Proof using Hd. now apply two_point_prob. Qed.
  Lemma W_centre t j : (j < d)%nat -> E (W t) (fun x => x j - mt t j) = 0.
  Proof using Hd. intros Hj. rewrite E_minus, (E_const _ _ (W_prob t)). unfold W. rewrite two_point_mean by assumption. ring. Qed.
  Lemma W_cov t i j : good t -> (i < d)%nat -> (j < d)%nat -> E (W t) (fun x => (x i - mt t i) * (x j - mt t j)) = P t i j.
  Proof using Hd. intros [G1 G2] Hi Hj. unfold W. rewrite two_point_cov by assumption. now apply chol_correct. Qed.
  Lemma b_entry x t i : (i < d)%nat -> b x t i = dot d (fun j => A t i j) (vsub x (mt t)) + v i.
  Proof using. intros Hi. rewrite (drift_rule x t i Hi). reflexivity. Qed.
  Lemma W_lin t (a : vec) : E (W t) (fun x => dot d a (vsub x (mt t))) = 0.
  Proof using Hd. unfold dot. rewrite E_Rsum, (Rsum_map_ext _ (fun _ => 0)); [rewrite Rsum_map_const; ring|]. intros j Hj. apply in_seq in Hj. rewrite E_mult_l. unfold vsub. rewrite W_centre by lia. ring. Qed.
  Lemma bp_ct_mean t i : (i < d)%nat -> ct_mean bridge_process t i = v i.
  Proof using Hd. intros Hi. unfold ct_mean, bridge_process. rewrite E_dmap. cbn [snd]. rewrite (E_ext' _ _ (fun x => dot d (fun j => A t i j) (vsub x (mt t)) + v i)) by (intros x; now apply b_entry). fold (W t). rewrite E_plus, W_lin, (E_const _ _ (W_prob t)). ring. Qed.
  Lemma bp_cov t i j : good t -> (i < d)%nat -> (j < d)%nat -> st_cov bridge_process t i j = P t i j.
  Proof using Hd. intros G Hi Hj. unfold st_cov. rewrite !bp_mean by assumption. unfold bridge_process. rewrite E_dmap. cbn [fst]. now apply W_cov. Qed.
  Lemma bp_cross t i j : good t -> (i < d)%nat -> (j < d)%nat -> ct_cross bridge_process t i j = mmul d (A t) (P t) i j.
  Proof using Hd.
    intros G Hi Hj. unfold ct_cross. rewrite bp_ct_mean, bp_mean by assumption. unfold bridge_process. rewrite E_dmap. cbn [fst snd]. fold (W t).
    rewrite (E_ext' _ _ (fun x => Rsum (map (fun k => A t i k * ((x k - mt t k) * (x j - mt t j))) (seq 0 d)))).
    - rewrite E_Rsum. unfold mmul. apply Rsum_map_ext. intros k Hk. apply in_seq in Hk. rewrite E_mult_l, W_cov by (assumption || lia). reflexivity.
    - intros x. rewrite (b_entry x t i Hi). unfold dot, vsub. replace (Rsum (map (fun k => A t i k * (x k - mt t k)) (seq 0 d)) + v i - v i) with (Rsum (map (fun k => A t i k * (x k - mt t k)) (seq 0 d))) by ring. rewrite <- Rsum_map_mult_r. apply Rsum_map_ext. intros; unfold vec in *; ring.
  Qed.
  Lemma bp_power t : good t -> power d bridge_process t = Rsum (map (fun i => dot d (fun j => A t i j) (mvec d (P t) (fun j => A t i j)) + v i * v i) (seq 0 d)).
  Proof using Hd.
    intros G. unfold power, bridge_process. rewrite E_dmap. cbn [snd]. fold (W t). unfold dot at 1. rewrite E_Rsum. apply Rsum_map_ext. intros i Hi. apply in_seq in Hi.
    rewrite (E_ext' _ _ (fun x => (dot d (fun j => A t i j) (vsub x (mt t)) * dot d (fun j => A t i j) (vsub x (mt t)) + 2 * v i * dot d (fun j => A t i j) (vsub x (mt t))) + v i * v i)) by (intros x; rewrite (b_entry x t i) by lia; ring).
    rewrite !E_plus, E_mult_l, W_lin, (E_const _ _ (W_prob t)).
    rewrite (E_bilinear d (W t) (fun x => vsub x (mt t)) (fun x => vsub x (mt t)) (P t)) by (intros a c Ha Hc; exact (W_cov t a c G Ha Hc)). ring.
  Qed.
  Lemma A_cont t i j : 0 <= t <= 1 -> (i < d)%nat -> (j < d)%nat -> continuous (fun u => A u i j) t.
  Proof using m0 m1 S0 P0 S1 P1 HS HD HX. intros Ht Hi Hj. apply (ex_derive_continuous (V := R_NormedModule)). eexists. now apply (slope_closed t Ht). Qed.
  Lemma P_cont t i j : continuous (fun u => P u i j) t.
  Proof using. apply (ex_derive_continuous (V := R_NormedModule)). unfold P, marginal_cov, madd, mscale, r, r_bar, kappa, rho. auto_derive. exact I. Qed.
  Theorem bp_controlled : controlled d sig m0 c0 m1 c1 bridge_process.
  Proof using m0 m1 S0 P0 S1 P1 HS HD HX Hd.
    split.
    - intros t _. apply bp_prob.
    - intros t i Ht Hi. rewrite bp_ct_mean by exact Hi. apply (is_derive_ext (fun s => mt s i)); [intros s; now rewrite bp_mean|]. apply marginal_mean_derive.
    - intros t i j Ht Hi Hj. pose proof (good_at t Ht) as G. rewrite !bp_cross by assumption.
      apply (is_derive_ext_loc (fun s => P s i j)); [generalize (good_near t Ht); apply filter_imp; intros s Gs; now rewrite bp_cov|].
      destruct G as [G1 G2]. pose proof (sb_cov_moment d c0 c1 sig C (cho_inv d) t S0 S1 (proj1 (cho_inv_correct d _ G1 G2)) i j Hi Hj) as H. fold P in H. fold (A t) in H.
      replace (mmul d (A t) (P t) j i) with (mmul d (P t) (mtr (A t)) i j); [exact H|]. unfold mmul. apply Rsum_map_ext. intros k Hk. apply in_seq in Hk. unfold mtr. pose proof (G1 i k Hi ltac:(lia)) as E. unfold mtr in E. rewrite <- E. ring.
    - destruct (sb_end_points d m0 c0 m1 c1 sig C) as (E1 & _ & E3 & _). pose proof (good_at 0 ltac:(lra)) as G. split; [intros i Hi; rewrite bp_mean by exact Hi; now apply E1|intros i j Hi Hj; rewrite bp_cov by assumption; now apply E3].
    - destruct (sb_end_points d m0 c0 m1 c1 sig C) as (_ & E2 & _ & E4). pose proof (good_at 1 ltac:(lra)) as G. split; [intros i Hi; rewrite bp_mean by exact Hi; now apply E2|intros i j Hi Hj; rewrite bp_cov by assumption; now apply E4].
    - intros t Ht.
      assert (MU : forall f g : R -> R, continuous f t -> continuous g t -> continuous (fun u => f u * g u) t) by (intros f g Hf Hg; apply (continuous_mult (K := R_AbsRing)); assumption).
      split; [|split].
      + apply (continuous_ext_loc _ (fun s => Rsum (map (fun i => dot d (fun j => A s i j) (mvec d (P s) (fun j => A s i j)) + v i * v i) (seq 0 d)))); [generalize (good_near t Ht); apply filter_imp; intros s Gs; now rewrite bp_power|].
        apply (sum_cont d (fun i s => dot d (fun j => A s i j) (mvec d (P s) (fun j => A s i j)) + v i * v i)). intros i Hi. apply (continuous_plus (V := R_NormedModule)); [|apply continuous_const].
        unfold dot, mvec. apply (sum_cont d (fun k s => A s i k * Rsum (map (fun l => P s k l * A s i l) (seq 0 d)))). intros k Hk. apply MU; [now apply A_cont|]. apply (sum_cont d (fun l s => P s k l * A s i l)). intros l Hl. apply MU; [apply P_cont|now apply A_cont].
      + intros i Hi. apply (continuous_ext (fun _ => v i)); [intros s; now rewrite bp_ct_mean|]. apply continuous_const.
      + intros i j Hi Hj. apply (continuous_ext_loc _ (fun s => mmul d (A s) (P s) i j)); [generalize (good_near t Ht); apply filter_imp; intros s Gs; now rewrite bp_cross|].
        unfold mmul. apply (sum_cont d (fun k s => A s i k * P s k j)). intros k Hk. apply MU; [now apply A_cont|apply P_cont].
  Qed.
  Lemma gap_rule J t : control_gap d J b t = control_gap d J (rule d A mt v) t.
  Proof using. unfold control_gap. apply E_ext'. intros xu. assert (E : veq d (vsub (snd xu) (b (fst xu) t)) (vsub (snd xu) (rule d A mt v (fst xu) t))) by (intros i Hi; unfold vsub; now rewrite (drift_rule (fst xu) t i Hi)). now rewrite E. Qed.
  Lemma bp_gap t : control_gap d bridge_process b t = 0.
  Proof using. unfold control_gap, bridge_process. rewrite E_dmap. cbn [fst snd]. rewrite (E_ext' _ _ (fun _ => 0 * 0)); [rewrite E_mult_l; ring|]. intros x. unfold dot, vsub. rewrite (Rsum_map_ext _ (fun _ => 0)); [rewrite Rsum_map_const; ring|]. intros; ring. Qed.
  Lemma SD t : 0 <= t <= 1 -> symmetric d (A t).
  Proof using m0 m1 S0 P0 S1 P1 HS HD HX. intros Ht. apply (slope_closed t Ht). Qed.
  Lemma DD t i j : 0 <= t <= 1 -> (i < d)%nat -> (j < d)%nat -> is_derive (fun u => A u i j) t (- mmul d (A t) (A t) i j).
  Proof using m0 m1 S0 P0 S1 P1 HS HD HX. intros Ht. apply (slope_closed t Ht). Qed.
  Lemma MDt t i : 0 <= t <= 1 -> (i < d)%nat -> is_derive (fun u => mt u i) t (v i).
  Proof using. intros _ _. apply marginal_mean_derive. Qed.
  Theorem bridge_least_energy J : controlled d sig m0 c0 m1 c1 J ->
    RInt (power d J) 0 1 = RInt (power d bridge_process) 0 1 + RInt (control_gap d J b) 0 1 /\ 0 <= RInt (control_gap d J b) 0 1.
  Proof using m0 m1 S0 P0 S1 P1 HS HD HX Hd.
    intros HJ. pose proof (energy_difference d sig A mt v SD DD MDt m0 c0 m1 c1 J bridge_process HJ bp_controlled) as H.
    destruct (energy_balance d sig A mt v SD DD MDt m0 c0 m1 c1 J HJ) as (_ & IG & _).
    assert (EQ : forall K, RInt (control_gap d K (rule d A mt v)) 0 1 = RInt (control_gap d K b) 0 1) by (intros K; apply RInt_ext; intros t _; symmetry; apply gap_rule).
    rewrite !EQ in H. assert (Z : RInt (control_gap d bridge_process b) 0 1 = 0).
    { rewrite (RInt_ext _ (fun _ => 0)) by (intros t _; apply bp_gap). rewrite RInt_const. apply Rmult_0_r. }
    rewrite Z in H. split; [unfold zero in *; cbn in *; lra|]. rewrite <- EQ. apply RInt_ge_0; [lra|exact IG|]. intros t Ht. apply gap_nonneg. apply (co_prob _ _ _ _ _ _ _ HJ). lra.
  Qed.
  (** and it is the only one *)
  Theorem bridge_unique J : controlled d sig m0 c0 m1 c1 J -> RInt (power d J) 0 1 <= RInt (power d bridge_process) 0 1 -> forall t, 0 < t < 1 -> control_gap d J b t = 0.
  Proof using m0 m1 S0 P0 S1 P1 HS HD HX Hd.
    intros HJ HE t Ht. destruct (bridge_least_energy J HJ) as [H1 H2]. rewrite gap_rule.
    destruct (gap_continuous d sig A mt v SD DD MDt m0 c0 m1 c1 J HJ) as (G & G1 & G2). apply (integral_zero (control_gap d J (rule d A mt v)) G G1 G2); [|..|exact Ht].
    - intros s Hs. apply gap_nonneg. now apply (co_prob _ _ _ _ _ _ _ HJ).
    - rewrite (RInt_ext _ (control_gap d J b)) by (intros s _; symmetry; apply gap_rule). unfold zero in *. cbn in *. lra.
  Qed.
End bridge.

(** ** Summary *)
Theorem least_energy d m0 c0 m1 c1 sig S D X : (0 < d)%nat -> symmetric d c0 -> posdef d c0 -> symmetric d c1 -> posdef d c1 ->
  sqrtm_returns d c0 S -> sqrtm_returns d (sb_D_arg d c1 sig S) D -> meq d (mmul d (mtr S) (mtr X)) (mtr D) ->
  let b := sb_drift d m0 c0 m1 c1 sig (sb_C d sig S X) (cho_inv d) in
  exists Jb, controlled d sig m0 c0 m1 c1 Jb /\ (forall t p x u, In (p, (x, u)) (Jb t) -> u = b x t) /\
    forall J, controlled d sig m0 c0 m1 c1 J ->
      RInt (power d J) 0 1 = RInt (power d Jb) 0 1 + RInt (control_gap d J b) 0 1 /\ RInt (power d Jb) 0 1 <= RInt (power d J) 0 1 /\
      (RInt (power d J) 0 1 <= RInt (power d Jb) 0 1 -> forall t, 0 < t < 1 -> control_gap d J b t = 0).
Proof.
  intros Hd S0 P0 S1 P1 HS HD HX b. exists (bridge_process d m0 c0 m1 c1 sig S X). split; [now apply (bp_controlled d m0 c0 m1 c1 sig S0 P0 S1 P1 S D X)|]. split.
  - intros t p x u Hin. unfold bridge_process, dmap in Hin. apply in_map_iff in Hin. destruct Hin as ((q & y) & Hq & _). cbn in Hq. injection Hq as _ <- <-. reflexivity.
  - intros J HJ. destruct (bridge_least_energy d m0 c0 m1 c1 sig S0 P0 S1 P1 S D X HS HD HX Hd J HJ) as [H1 H2]. split; [exact H1|]. split; [fold b in H1, H2; unfold b in *; clear - H1 H2; lra|].
    intros HE. now apply (bridge_unique d m0 c0 m1 c1 sig S0 P0 S1 P1 S D X HS HD HX Hd).
Qed.
(** a zero gap means the control is the drift at every atom of positive mass *)
Lemma gap_zero d J b t : is_prob (J t) -> control_gap d J b t = 0 -> forall p x u, In (p, (x, u)) (J t) -> 0 < p -> veq d u (b x t).
Proof.
  intros HP HG p x u Hin Hp. unfold control_gap in HG.
  assert (Z : forall (L : dist (vec * vec)) f, (forall q y, In (q, y) L -> 0 <= q) -> (forall y, 0 <= f y) -> E L f = 0 -> forall q y, In (q, y) L -> 0 < q -> f y = 0).
  { clear. intros L f. induction L as [|[q0 y0] L IH]; [intros _ _ _ q y []|]. intros HL Hf HE q y Hin Hq.
    assert (E0 : E ((q0, y0) :: L) f = q0 * f y0 + E L f) by reflexivity. rewrite E0 in HE.
    assert (N1 : 0 <= q0 * f y0) by (apply Rmult_le_pos; [apply (HL q0 y0); now left|apply Hf]).
    assert (N2 : 0 <= E L f) by (clear - HL Hf; assert (HL' : forall q y, In (q, y) L -> 0 <= q) by (intros q y H; apply (HL q y); now right); clear HL; induction L as [|[a c] L IH]; [cbn; apply Rle_refl|]; change (E ((a, c) :: L) f) with (a * f c + E L f); apply Rplus_le_le_0_compat; [apply Rmult_le_pos; [apply (HL' a c); now left|apply Hf]|apply IH; intros q y H; apply (HL' q y); now right]).
    destruct Hin as [Hin|Hin].
    - injection Hin as -> ->. destruct (Rmult_integral q (f y)); [lra|lra|assumption].
    - apply (IH (fun q y H => HL q y (or_intror H)) Hf ltac:(lra) q y Hin Hq). }
  assert (D0 : dot d (vsub u (b x t)) (vsub u (b x t)) = 0).
  { apply (Z (J t) (fun xu => dot d (vsub (snd xu) (b (fst xu) t)) (vsub (snd xu) (b (fst xu) t)))) with (q := p) (y := (x, u)); [|intros y; apply dot_self_nonneg|exact HG|exact Hin|exact Hp].
    intros q y Hy. destruct HP as [HP _]. rewrite Forall_forall in HP. exact (HP (q, y) Hy). }
  intros i Hi. pose proof (dot_self_zero d _ D0 i Hi) as H. unfold vsub in H. lra.
Qed.

(** ** Example: from N(0, 1) to N(3, 1) with unit noise, control 3 - (x - 3 t) / 2 *)
Definition ou_process (t : R) : dist (vec * vec) := [(/ 2, (fun _ => 3 * t + 1, fun _ => 3 - / 2)); (/ 2, (fun _ => 3 * t - 1, fun _ => 3 + / 2))].
Lemma ou_moments t i j : st_mean ou_process t i = 3 * t /\ ct_mean ou_process t i = 3 /\ st_cov ou_process t i j = 1 /\ ct_cross ou_process t i j = - / 2 /\ power 1 ou_process t = 9 + / 4.
Proof.
  assert (M : forall i, st_mean ou_process t i = 3 * t) by (intros; unfold st_mean, ou_process, E; cbn; field). assert (C : forall i, ct_mean ou_process t i = 3) by (intros; unfold ct_mean, ou_process, E; cbn; field).
  repeat split; [apply M|apply C|unfold st_cov; rewrite !M|unfold ct_cross; rewrite C, M|unfold power, dot]; unfold ou_process, E; cbn; field.
Qed.
Theorem ou_controlled : controlled 1 1 (fun _ => 0) mid (fun _ => 3) mid ou_process /\ RInt (power 1 ou_process) 0 1 = 9 + / 4.
Proof.
  split; [split|].
  - intros t _. split; [repeat constructor; cbn; lra|cbn; lra].
  - intros t i _ Hi. destruct (ou_moments t i i) as (_ & -> & _). apply (is_derive_ext (fun s => 3 * s)); [intros s; symmetry; apply (ou_moments s i i)|]. auto_derive; [exact I|ring].
  - intros t i j _ Hi Hj. destruct (ou_moments t i j) as (_ & _ & _ & -> & _). destruct (ou_moments t j i) as (_ & _ & _ & -> & _). apply (is_derive_ext (fun s => 1)); [intros s; symmetry; apply (ou_moments s i j)|].
    replace i with 0%nat by lia. replace j with 0%nat by lia. unfold mid. cbn. auto_derive; [exact I|field].
  - split; [intros i Hi; destruct (ou_moments 0 i i) as (-> & _); ring|intros i j Hi Hj; destruct (ou_moments 0 i j) as (_ & _ & -> & _)]. replace i with 0%nat by lia. replace j with 0%nat by lia. reflexivity.
  - split; [intros i Hi; destruct (ou_moments 1 i i) as (-> & _); ring|intros i j Hi Hj; destruct (ou_moments 1 i j) as (_ & _ & -> & _)]. replace i with 0%nat by lia. replace j with 0%nat by lia. reflexivity.
  - intros t _. split; [apply (continuous_ext (fun _ : R => 9 + / 4)); [intros s; symmetry; apply (ou_moments s 0%nat 0%nat)|apply continuous_const]|].
    split; [intros i Hi; apply (continuous_ext (fun _ : R => 3)); [intros s; symmetry; apply (ou_moments s i i)|apply continuous_const]|].
    intros i j Hi Hj; apply (continuous_ext (fun _ : R => - / 2)); [intros s; symmetry; apply (ou_moments s i j)|apply continuous_const].
  - rewrite (RInt_ext _ (fun _ => 9 + / 4)) by (intros s _; apply (ou_moments s 0%nat 0%nat)). rewrite RInt_const. unfold scal. cbn. unfold mult. cbn. ring.
Qed.
Lemma slope_summary d m0 c0 m1 c1 sig : symmetric d c0 -> posdef d c0 -> symmetric d c1 -> posdef d c1 -> forall S D X,
  sqrtm_returns d c0 S -> sqrtm_returns d (sb_D_arg d c1 sig S) D -> meq d (mmul d (mtr S) (mtr X)) (mtr D) ->
  let A := fun u => sb_slope d c0 c1 sig (sb_C d sig S X) (cho_inv d) u in
  forall t, 0 <= t <= 1 -> (forall x x', veq d (vsub (sb_drift d m0 c0 m1 c1 sig (sb_C d sig S X) (cho_inv d) x t) (sb_drift d m0 c0 m1 c1 sig (sb_C d sig S X) (cho_inv d) x' t)) (mvec d (A t) (vsub x x'))) /\
    symmetric d (A t) /\ forall i j, (i < d)%nat -> (j < d)%nat -> is_derive (fun u => A u i j) t (- mmul d (A t) (A t) i j).
Proof. intros S0 P0 S1 P1 S D X HS HD HX A t Ht. split; [intros; apply sb_drift_diff|]. exact (slope_closed d m0 c0 m1 c1 sig S0 P0 S1 P1 S D X HS HD HX t Ht). Qed.
Lemma optimal_example : (0 < 1)%nat /\ symmetric 1 mid /\ posdef 1 mid /\ controlled 1 1 (fun _ => 0) mid (fun _ => 3) mid ou_process /\ RInt (power 1 ou_process) 0 1 = 9 + / 4.
Proof.
  split; [lia|]. split; [intros i j Hi Hj; unfold mtr, mid; now rewrite Nat.eqb_sym|]. split; [|exact ou_controlled].
  intros x Hx. unfold quad, mid. cbn. rewrite !Rplus_0_r, Rmult_1_l. assert (x 0%nat <> 0) by (intros E; apply Hx; intros i Hi; replace i with 0%nat by lia; exact E). nra.
Qed.
