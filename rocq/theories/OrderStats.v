(** The law of the normalised partial sums of n+1 exponential variables: at any non-decreasing thresholds they behave like
    the order statistics of n independent uniforms.  Used for [multinomial] (resampling.py:36-40, 62-68). *)
From Coquelicot Require Import Coquelicot.
From Coq Require Import Sorted.
From Verif Require Export Resampling ResamplingProofs.
Open Scope R_scope.

Ltac rring := cbv beta; match goal with |- @eq _ ?a ?b => change (@eq R a b) end; unfold Rdiv; ring.

(** ** Iterated integrals, with integrability at every level *)
Fixpoint is_uint (n : nat) (F : list R -> R) (v : R) : Prop :=
  match n with
  | O => F [] = v
  | S n' => exists g : R -> R, (forall u, 0 < u < 1 -> is_uint n' (fun us => F (u :: us)) (g u)) /\ is_RInt g 0 1 v
  end.

Lemma is_uint_eq n : forall F v, is_uint n F v -> uint n F = v.
Proof.
  induction n as [|n IH]; intros F v H; [exact H|]. destruct H as (g & Hg & Hv). cbn [uint].
  rewrite (RInt_ext _ g); [now apply is_RInt_unique|].
  intros u Hu. rewrite Rmin_left, Rmax_right in Hu by lra. apply IH, Hg. exact Hu.
Qed.

Lemma is_uint_ext n : forall F G v, (forall us, length us = n -> Forall (fun u => 0 < u < 1) us -> F us = G us) -> is_uint n F v -> is_uint n G v.
Proof.
  induction n as [|n IH]; intros F G v H HF.
  - cbn in *. now rewrite <- H.
  - destruct HF as (g & Hg & Hv). exists g. split; [|exact Hv]. intros u Hu. apply (IH (fun us => F (u :: us))); [|now apply Hg].
    intros us Hl Hf. apply H; [cbn; lia|now constructor].
Qed.

Lemma is_uint_plus n : forall F G a b, is_uint n F a -> is_uint n G b -> is_uint n (fun us => F us + G us) (a + b).
Proof.
  induction n as [|n IH]; intros F G a b HF HG.
  - cbn in *. now rewrite HF, HG.
  - destruct HF as (g & Hg & Ha). destruct HG as (h & Hh & Hb). exists (fun u => g u + h u). split.
    + intros u Hu. apply (IH (fun us => F (u :: us)) (fun us => G (u :: us))); auto.
    + exact (is_RInt_plus (V := R_NormedModule) g h 0 1 a b Ha Hb).
Qed.

Lemma is_uint_scal n : forall c F a, is_uint n F a -> is_uint n (fun us => c * F us) (c * a).
Proof.
  induction n as [|n IH]; intros c F a HF.
  - cbn in *. now rewrite HF.
  - destruct HF as (g & Hg & Ha). exists (fun u => c * g u). split.
    + intros u Hu. apply (IH c (fun us => F (u :: us))); auto.
    + exact (is_RInt_scal (V := R_NormedModule) g 0 1 c a Ha).
Qed.

Lemma is_uint_const n : forall c, is_uint n (fun _ => c) c.
Proof.
  induction n as [|n IH]; intros c; [reflexivity|]. exists (fun _ => c). split; [intros u _; apply IH|].
  pose proof (is_RInt_const_R 0 1 c) as H. now replace ((1 - 0) * c) with c in H by ring.
Qed.

(** ** Probability that the order statistics of n uniforms stay below thresholds *)
Fixpoint gaps (f : list R -> R) (prev : R) (pre d : list R) : R :=
  match d with [] => 0 | x :: d' => (x - prev) * f (pre ++ d') + gaps f x (pre ++ [x]) d' end.
Fixpoint ost_n (n : nat) (d : list R) : R :=
  match n with O => 1 | S n' => gaps (ost_n n') 0 [] d end.
Definition ost (d : list R) : R := ost_n (length d) d.

Lemma ost_nil : ost [] = 1. Proof. reflexivity. Qed.

Lemma gaps_len f g m : (forall d, length d = m -> f d = g d) -> forall d prev pre, S m = (length pre + length d)%nat -> gaps f prev pre d = gaps g prev pre d.
Proof.
  intros H. induction d as [|x d IH]; intros prev pre Hl; [reflexivity|]. cbn [gaps]. rewrite H, IH; [reflexivity| |].
  - rewrite app_length. cbn in *. lia.
  - rewrite app_length. cbn in *. lia.
Qed.

Lemma ost_cons x d : ost (x :: d) = gaps ost 0 [] (x :: d).
Proof.
  unfold ost at 1. cbn [length ost_n]. apply gaps_len with (m := length d); [|reflexivity]. intros d' Hd. unfold ost. now rewrite Hd.
Qed.

(** a first threshold equal to zero *)
Lemma gaps_zero f : forall d prev pre, (forall d', f (0 :: d') = 0) -> gaps f prev (0 :: pre) d = 0.
Proof. induction d as [|x d IH]; intros prev pre H; [reflexivity|]. cbn [gaps app]. rewrite H, IH by assumption. ring. Qed.

Lemma ost_zero d : ost (0 :: d) = 0.
Proof.
  remember (length d) as n eqn:Hn. revert d Hn. induction n as [n IH] using lt_wf_ind. intros d Hn. rewrite ost_cons. cbn [gaps app].
  rewrite Rminus_0_r, Rmult_0_l, Rplus_0_l.
  assert (Hg : forall d' prev pre, (length pre + length d' = n)%nat -> gaps ost prev (0 :: pre) d' = 0).
  { induction d' as [|x d' IHd]; intros prev pre Hl; [reflexivity|]. cbn [gaps app]. cbn [length] in Hl.
    rewrite (IH (length (pre ++ d'))); [|rewrite app_length; lia|reflexivity].
    rewrite IHd; [ring|]. rewrite app_length. cbn. lia. }
  apply (Hg d 0 []). cbn. lia.
Qed.

(** all thresholds one *)
Lemma gaps_ones f : forall n pre, gaps f 1 pre (repeat 1 n) = 0.
Proof. induction n as [|n IH]; intros pre; [reflexivity|]. cbn [repeat gaps]. rewrite IH. ring. Qed.

Lemma ost_ones n : ost (repeat 1 n) = 1.
Proof.
  induction n as [|n IH]; [reflexivity|]. cbn [repeat]. rewrite ost_cons. cbn [gaps app]. rewrite gaps_ones, IH. ring.
Qed.

Definition shift (x : R) (d : list R) : list R := map (fun y => y + x) d.

(** moving all the thresholds together *)
Lemma is_derive_gaps (F : list R -> R) (dF : list R -> R -> R) x : forall d prev pre,
  (forall d', S (length d') = (length pre + length d)%nat -> is_derive (fun x => F (shift x d')) x (dF d' x)) ->
  is_derive (fun x => gaps F (prev + x) (shift x pre) (shift x d)) x (gaps (fun d' => dF d' x) prev pre d).
Proof.
  induction d as [|y d IH]; intros prev pre H.
  - cbn. apply (is_derive_const (V := R_NormedModule)).
  - cbn [gaps shift map].
    apply (is_derive_plus (V := R_NormedModule) (fun x => (y + x - (prev + x)) * F (shift x pre ++ shift x d)) (fun x => gaps F (y + x) (shift x pre ++ [y + x]) (shift x d))).
    + apply (is_derive_ext (fun x => (y - prev) * F (shift x (pre ++ d)))).
      * intros t. unfold shift. rewrite map_app. f_equal. ring.
      * apply (is_derive_scal (fun x => F (shift x (pre ++ d)))). apply H. rewrite app_length. cbn. lia.
    + apply (is_derive_ext (fun x => gaps F (y + x) (shift x (pre ++ [y])) (shift x d))).
      * intros t. unfold shift. rewrite map_app. reflexivity.
      * apply IH. intros d' Hd. apply H. rewrite app_length in Hd. cbn in *. lia.
Qed.

Lemma gaps_scal c F : forall d prev pre, gaps (fun d' => c * F d') prev pre d = c * gaps F prev pre d.
Proof. induction d as [|y d IH]; intros; cbn [gaps]; [ring|]. rewrite IH. ring. Qed.

Lemma gaps_ext F G : forall d prev pre, (forall d', F d' = G d') -> gaps F prev pre d = gaps G prev pre d.
Proof. intros d prev pre H. revert prev pre. induction d as [|y d IH]; intros; cbn [gaps]; [reflexivity|]. now rewrite IH, H. Qed.

Lemma gaps_tl F : forall d prev a pre, gaps (fun d' => F (tl d')) prev (a :: pre) d = gaps F prev pre d.
Proof. induction d as [|y d IH]; intros; cbn [gaps app]; [reflexivity|]. cbn [tl]. now rewrite IH. Qed.

Lemma gaps_shift F x : forall d prev pre, gaps (fun d' => F (shift x d')) prev pre d = gaps F (prev + x) (shift x pre) (shift x d).
Proof.
  unfold shift. induction d as [|y d IH]; intros; cbn [gaps map]; [reflexivity|]. rewrite IH, !map_app. cbn [map]. f_equal. f_equal. ring.
Qed.

Lemma is_derive_ost d : forall x, is_derive (fun x => ost (shift x d)) x (INR (length d) * ost (shift x (tl d))).
Proof.
  remember (length d) as n eqn:Hn. revert d Hn. induction n as [|n IH]; intros d Hn x.
  - destruct d; [|discriminate]. cbn. rewrite Rmult_0_l. apply (is_derive_const (V := R_NormedModule)).
  - destruct d as [|y d]; [discriminate|]. cbn [length] in Hn. injection Hn as Hn. cbn [tl].
    apply (is_derive_ext (fun x => (y + x) * ost (shift x d) + gaps ost (y + x) (shift x [y]) (shift x d))).
    { intros t. unfold shift. cbn [map]. rewrite ost_cons. cbn [gaps app]. now rewrite Rminus_0_r. }
    replace (INR (S n) * ost (shift x d)) with
      ((1 * ost (shift x d) + (y + x) * (INR n * ost (shift x (tl d)))) + gaps (fun d' => INR n * ost (shift x (tl d'))) y [y] d).
    + apply (is_derive_plus (V := R_NormedModule)).
      * apply (is_derive_mult (fun x => y + x) (fun x => ost (shift x d)) x 1 (INR n * ost (shift x (tl d)))).
        -- auto_derive; [trivial|ring].
        -- now apply IH.
        -- intros; apply Rmult_comm.
      * apply is_derive_gaps with (dF := fun d' x => INR n * ost (shift x (tl d'))).
        intros d' Hd. cbn [length] in Hd. apply IH. lia.
    + rewrite (gaps_tl (fun d' => INR n * ost (shift x d')) d y y []), gaps_scal, S_INR.
      destruct d as [|y' d]; [cbn in *; subst n; cbn; ring|]. cbn [tl gaps app].
      change (shift x (y' :: d)) with ((y' + x) :: shift x d). rewrite ost_cons. cbn [gaps app].
      rewrite (gaps_shift ost x d y' [y']). cbn [shift map]. ring.
Qed.

(** ** Polynomials *)
Definition pw (l : nat) (y : R) : R := y ^ l / INR (fact l).
Fixpoint ex (k : nat) (t : R) : R := match k with O => 1 | S k' => ex k' t + pw (S k') t end.

Lemma pw_0 y : pw 0 y = 1. Proof. unfold pw. cbn. field. Qed.

Lemma is_derive_pw l y : is_derive (pw (S l)) y (pw l y).
Proof.
  assert (He : INR (fact (S l)) = INR (S l) * INR (fact l)) by (change (fact (S l)) with (S l * fact l)%nat; apply mult_INR).
  pose proof (INR_fact_neq_0 l) as H1. assert (H2 : INR (S l) <> 0) by (apply not_0_INR; lia).
  apply (is_derive_ext (fun y => / INR (fact (S l)) * y ^ S l)); [intros t; unfold pw; rring|].
  replace (pw l y) with (/ INR (fact (S l)) * (INR (S l) * 1 * y ^ Nat.pred (S l))) by (unfold pw; rewrite He; cbn [Nat.pred]; field; auto).
  apply is_derive_scal. apply (is_derive_pow (fun y => y) (S l) y 1). apply (is_derive_id (K := R_AbsRing)).
Qed.

Lemma is_derive_pw0 y : is_derive (pw 0) y 0.
Proof. apply (is_derive_ext (fun _ => 1)); [intros; now rewrite pw_0|]. apply (is_derive_const (V := R_NormedModule)). Qed.

Lemma is_derive_ex k t : is_derive (ex k) t (ex k t - pw k t).
Proof.
  induction k as [|k IH].
  - replace (ex 0 t - pw 0 t) with 0 by (rewrite pw_0; cbn; ring). apply (is_derive_const (V := R_NormedModule)).
  - cbn [ex]. replace (ex k t + pw (S k) t - pw (S k) t) with ((ex k t - pw k t) + pw k t) by ring.
    apply (is_derive_plus (V := R_NormedModule) (ex k) (pw (S k))); [exact IH|apply is_derive_pw].
Qed.

Lemma ex_0 k : ex k 0 = 1.
Proof. induction k as [|k IH]; [reflexivity|]. cbn [ex]. rewrite IH. unfold pw. rewrite pow_i by lia. field. apply INR_fact_neq_0. Qed.

Fixpoint gsum (h : nat -> R) (l : nat) (d : list R) (z : R) : R :=
  match d with
  | [] => h O * pw l (- z)
  | x :: d' => ost (x :: d') * h (S (length d')) * pw l (- z) + gsum h (S l) d' z
  end.

Definition gsum' (h : nat -> R) (l : nat) (d : list R) (z : R) : R :=
  match l with O => gsum h 0 (tl d) z | S l' => gsum h l' d z end.

Lemma is_derive_gsum (h h' : nat -> R -> R) (a : R -> R) (a' t : R) :
  (forall k, is_derive (h k) t (h' k t)) -> is_derive a t a' ->
  forall d l, (d <> [] \/ l <> 0%nat) ->
  is_derive (fun t => gsum (fun k => h k t) l d (a t)) t (gsum (fun k => h' k t) l d (a t) - a' * gsum' (fun k => h k t) l d (a t)).
Proof.
  intros Hh Ha.
  assert (Hterm : forall k l, is_derive (fun t => h k t * pw (S l) (- a t)) t (h' k t * pw (S l) (- a t) - a' * (h k t * pw l (- a t)))).
  { intros k l. replace (h' k t * pw (S l) (- a t) - a' * (h k t * pw l (- a t))) with (h' k t * pw (S l) (- a t) + h k t * ((- a') * pw l (- a t))) by ring.
    apply (is_derive_mult (h k) (fun t => pw (S l) (- a t))); [apply Hh| |intros; apply Rmult_comm].
    apply (is_derive_comp (pw (S l)) (fun t => - a t) t); [apply is_derive_pw|]. apply (is_derive_opp a). exact Ha. }
  assert (Hterm0 : forall k, is_derive (fun t => h k t * pw 0 (- a t)) t (h' k t * pw 0 (- a t))).
  { intros k. apply (is_derive_ext (h k)); [intros s; rewrite pw_0; symmetry; apply Rmult_1_r|]. rewrite pw_0, Rmult_1_r. apply Hh. }
  assert (HS : forall d l, is_derive (fun t => gsum (fun k => h k t) (S l) d (a t)) t (gsum (fun k => h' k t) (S l) d (a t) - a' * gsum (fun k => h k t) l d (a t))).
  { induction d as [|x d IH]; intros l; cbn [gsum].
    - apply Hterm.
    - replace (ost (x :: d) * h' (S (length d)) t * pw (S l) (- a t) + gsum (fun k => h' k t) (S (S l)) d (a t)
         - a' * (ost (x :: d) * h (S (length d)) t * pw l (- a t) + gsum (fun k => h k t) (S l) d (a t)))
        with (ost (x :: d) * (h' (S (length d)) t * pw (S l) (- a t) - a' * (h (S (length d)) t * pw l (- a t)))
          + (gsum (fun k => h' k t) (S (S l)) d (a t) - a' * gsum (fun k => h k t) (S l) d (a t))) by ring.
      apply (is_derive_plus (V := R_NormedModule) (fun t => ost (x :: d) * h (S (length d)) t * pw (S l) (- a t)) (fun t => gsum (fun k => h k t) (S (S l)) d (a t))); [|apply IH].
      apply (is_derive_ext (fun t => ost (x :: d) * (h (S (length d)) t * pw (S l) (- a t)))); [intros s; rring|].
      apply (is_derive_scal (fun t => h (S (length d)) t * pw (S l) (- a t))). apply Hterm. }
  intros d l Hdl. destruct l as [|l]; [|apply HS]. destruct d as [|x d]; [destruct Hdl; easy|].
  cbn [gsum gsum' tl].
  replace (ost (x :: d) * h' (S (length d)) t * pw 0 (- a t) + gsum (fun k => h' k t) 1 d (a t) - a' * gsum (fun k => h k t) 0 d (a t))
    with (ost (x :: d) * (h' (S (length d)) t * pw 0 (- a t)) + (gsum (fun k => h' k t) 1 d (a t) - a' * gsum (fun k => h k t) 0 d (a t))) by ring.
  apply (is_derive_plus (V := R_NormedModule) (fun t => ost (x :: d) * h (S (length d)) t * pw 0 (- a t)) (fun t => gsum (fun k => h k t) 1 d (a t))); [|apply HS].
  apply (is_derive_ext (fun t => ost (x :: d) * (h (S (length d)) t * pw 0 (- a t)))); [intros s; rring|].
  apply (is_derive_scal (fun t => h (S (length d)) t * pw 0 (- a t))). apply Hterm0.
Qed.

Lemma gsum_minus h g : forall d l z, gsum (fun k => h k - g k) l d z = gsum h l d z - gsum g l d z.
Proof. induction d as [|x d IH]; intros; cbn [gsum]; [ring|]. rewrite IH. ring. Qed.

Lemma gsum_zero : forall d l z, gsum (fun _ => 0) l d z = 0.
Proof. induction d as [|x d IH]; intros; cbn [gsum]; [ring|]. rewrite IH. ring. Qed.

Lemma gsum_at0 h : forall d l, gsum h (S l) d 0 = 0.
Proof.
  assert (Hp : forall l, pw (S l) (- 0) = 0) by (intros l; unfold pw; rewrite Ropp_0, pow_i by lia; unfold Rdiv; ring).
  induction d as [|x d IH]; intros l; cbn [gsum]; rewrite ?Hp, ?IH; ring.
Qed.

Lemma gsum_value h d : gsum h 0 d 0 = ost d * h (length d).
Proof. destruct d as [|x d]; cbn [gsum length]; rewrite pw_0; [rewrite ost_nil; ring|]. rewrite gsum_at0. ring. Qed.

Lemma derive_unique (f g : R -> R) (df : R -> R) : f 0 = g 0 -> (forall x, is_derive f x (df x)) -> (forall x, is_derive g x (df x)) -> forall x, f x = g x.
Proof.
  intros H0 Hf Hg x. assert (Hd : forall y, is_derive (fun y => f y - g y) y 0).
  { intros y. replace 0 with (df y - df y) by ring. apply (is_derive_minus (V := R_NormedModule) f g); auto. }
  assert (H : f x - g x = f 0 - g 0).
  { destruct (Rtotal_order x 0) as [Hx|[->|Hx]]; [|reflexivity|].
    - apply (eq_is_derive (V := R_NormedModule) (fun y => f y - g y)); [intros; apply Hd|exact Hx].
    - symmetry. apply (eq_is_derive (V := R_NormedModule) (fun y => f y - g y)); [intros; apply Hd|exact Hx]. }
  lra.
Qed.

Lemma taylor_ost d : forall x, gsum (fun k => / INR (fact k)) 0 d (- x) = ost (shift x d) / INR (fact (length d)).
Proof.
  induction d as [|y d IH]; intros x.
  - cbn [gsum length shift map]. rewrite pw_0, ost_nil. cbn. field.
  - revert x. apply derive_unique with (df := fun x => gsum (fun k => / INR (fact k)) 0 d (- x)).
    + rewrite Ropp_0, gsum_value. unfold shift. rewrite (map_ext _ (fun y => y)) by (intros; ring). rewrite map_id. reflexivity.
    + intros x.
      pose proof (is_derive_gsum (fun k _ => / INR (fact k)) (fun _ _ => 0) (fun x => - x) (- 1) x) as H.
      specialize (H (fun k => is_derive_const (V := R_NormedModule) (/ INR (fact k)) x) ltac:(auto_derive; [trivial|ring]) (y :: d) 0%nat ltac:(left; discriminate)).
      rewrite gsum_zero in H. unfold gsum' in H. cbn [tl] in H.
      match type of H with is_derive _ _ ?e => replace e with (gsum (fun k => / INR (fact k)) 0 d (- x)) in H by ring end. exact H.
    + intros x. rewrite IH.
      apply (is_derive_ext (fun x => / INR (fact (length (y :: d))) * ost (shift x (y :: d)))); [intros t; rring|].
      replace (ost (shift x d) / INR (fact (length d))) with (/ INR (fact (length (y :: d))) * (INR (length (y :: d)) * ost (shift x (tl (y :: d))))).
      * apply is_derive_scal, is_derive_ost.
      * cbn [length tl]. change (fact (S (length d))) with (S (length d) * fact (length d))%nat. rewrite mult_INR. field. split; [apply INR_fact_neq_0|apply not_0_INR; lia].
Qed.

Lemma gsum_homog t x : forall d l, gsum (fun k => pw k t) l d (x * t) = t ^ (l + length d) * gsum (fun k => / INR (fact k)) l d x.
Proof.
  assert (Hp : forall l, pw l (- (x * t)) = t ^ l * pw l (- x)).
  { intros l. unfold pw. replace (- (x * t)) with (t * - x) by ring. rewrite Rpow_mult_distr. unfold Rdiv. ring. }
  induction d as [|y d IH]; intros l; cbn [gsum length].
  - rewrite Hp, Nat.add_0_r, pw_0. cbn. field.
  - rewrite IH, Hp. replace (l + S (length d))%nat with (S l + length d)%nat by lia. unfold pw at 1.
    replace (t ^ (S l + length d)) with (t ^ l * t ^ S (length d)) by (rewrite <- pow_add; f_equal; lia). unfold Rdiv. ring.
Qed.

Lemma gsum_diagonal x d t : gsum (fun k => pw k t) 0 (x :: d) (x * t) = 0.
Proof.
  rewrite gsum_homog. pose proof (taylor_ost (x :: d) (- x)) as H. rewrite Ropp_involutive in H. rewrite H. cbn [shift map]. replace (x + - x) with 0 by ring. rewrite ost_zero. unfold Rdiv. ring.
Qed.

(** the continuation polynomial *)
Definition Qp (d : list R) (z t : R) : R := gsum (fun k => ex k t) 0 d z.

Lemma Qp_nil z t : Qp [] z t = 1. Proof. unfold Qp. cbn. rewrite pw_0. ring. Qed.

Lemma Qp_start d : Qp d 0 0 = ost d. Proof. unfold Qp. rewrite gsum_value, ex_0. ring. Qed.

Lemma is_derive_Qp_z x d z t : is_derive (fun z => Qp (x :: d) z t) z (- Qp d z t).
Proof.
  pose proof (is_derive_gsum (fun k _ => ex k t) (fun _ _ => 0) (fun z => z) 1 z) as H.
  specialize (H (fun k => is_derive_const (V := R_NormedModule) (ex k t) z) (is_derive_id (K := R_AbsRing) z) (x :: d) 0%nat ltac:(left; discriminate)).
  rewrite gsum_zero in H. unfold gsum' in H. cbn [tl] in H. unfold Qp.
  match type of H with is_derive _ _ ?e => replace e with (- gsum (fun k => ex k t) 0 d z) in H by ring end. exact H.
Qed.

(** along the line z = x t *)
Lemma is_derive_Qp_line x d t : is_derive (fun t => exp (- t) * Qp (x :: d) (x * t) t) t (- (x * (exp (- t) * Qp d (x * t) t))).
Proof.
  pose proof (is_derive_gsum ex (fun k t => ex k t - pw k t) (fun t => x * t) x t) as H.
  specialize (H (fun k => is_derive_ex k t) ltac:(auto_derive; [trivial|ring]) (x :: d) 0%nat ltac:(left; discriminate)).
  rewrite (gsum_minus (fun k => ex k t) (fun k => pw k t)), gsum_diagonal in H. unfold gsum' in H. cbn [tl] in H. fold (Qp (x :: d) (x * t) t) in H. fold (Qp d (x * t) t) in H.
  replace (- (x * (exp (- t) * Qp d (x * t) t))) with ((- exp (- t)) * Qp (x :: d) (x * t) t + exp (- t) * (Qp (x :: d) (x * t) t - 0 - x * Qp d (x * t) t)) by ring.
  apply (is_derive_mult (fun t => exp (- t)) (fun t => Qp (x :: d) (x * t) t)); [|exact H|intros; apply Rmult_comm].
  auto_derive; [trivial|ring].
Qed.

Lemma Qp_ones n : forall t, Qp (repeat 1 n) t t = 1.
Proof.
  induction n as [|n IH]; intros t; [apply Qp_nil|].
  assert (H : forall t, exp (- t) * Qp (repeat 1 (S n)) (1 * t) t = exp (- t)).
  { apply derive_unique with (df := fun t => - exp (- t)).
    - rewrite Rmult_0_r, Qp_start, ost_ones. ring.
    - intros x. pose proof (is_derive_Qp_line 1 (repeat 1 n) x) as H. rewrite !Rmult_1_l, IH, Rmult_1_r in H. exact H.
    - intros x. auto_derive; [trivial|ring]. }
  specialize (H t). rewrite Rmult_1_l in H. pose proof (exp_pos (- t)). apply (Rmult_eq_reg_l (exp (- t))); [lra|lra].
Qed.
