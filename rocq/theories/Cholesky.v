(** Every symmetric positive definite matrix has a Cholesky factor. *)
From Coquelicot Require Import Coquelicot.
From Coq Require Import Reals List Lia Lra Morphisms Setoid.
From Verif Require Import Base Dist Mat MatMore.
Import ListNotations.
Open Scope R_scope.

Lemma Rsum_seq_S (f : nat -> R) d : Rsum (map f (seq 0 (S d))) = Rsum (map f (seq 0 d)) + f d.
Proof. rewrite seq_S, map_app, Rsum_app. cbn. ring. Qed.

Lemma quad_S d M x : quad (S d) M x =
  quad d M x + x d * Rsum (map (fun k => M d k * x k + M k d * x k) (seq 0 d)) + M d d * x d ^ 2.
Proof.
  unfold quad. rewrite Rsum_seq_S. unfold mvec at 2. rewrite Rsum_seq_S.
  rewrite (Rsum_map_ext _ (fun i => x i * mvec d M x i + (M i d * x i) * x d)).
  2: { intros i _. unfold mvec. rewrite Rsum_seq_S. ring. }
  rewrite Rsum_map_plus, Rsum_map_mult_r, Rsum_map_plus. ring.
Qed.

Lemma posdef_restrict d M : posdef (S d) M -> posdef d M.
Proof.
  intros H x Hx. set (x' := fun i => if Nat.ltb i d then x i else 0).
  assert (Ex : veq d x' x) by (intros i Hi; unfold x'; destruct (Nat.ltb_spec i d); [reflexivity|lia]).
  assert (Ed : x' d = 0) by (unfold x'; destruct (Nat.ltb_spec d d); [lia|reflexivity]).
  assert (P : 0 < quad (S d) M x').
  { apply H. intros Z. apply Hx. intros i Hi. rewrite <- (Ex i Hi). apply Z. lia. }
  rewrite quad_S, Ed in P. rewrite <- Ex. lra.
Qed.

Theorem cholesky_exists d M : symmetric d M -> posdef d M ->
  exists L, lower d L /\ diag_pos d L /\ meq d (mmul d L (mtr L)) M.
Proof.
  induction d as [|d IH]; intros HS HP.
  - exists mid. repeat split; intros i; intros; lia.
  - destruct IH as (L0 & A1 & A2 & A3); [|now apply posdef_restrict|].
    { intros i j Hi Hj. apply HS; lia. }
    set (z := fsolve L0 (fun i => M i d)). set (s := M d d - dot d z z).
    pose proof (fsolve_correct d L0 (fun i => M i d) A1 A2) as Hz. fold z in Hz.
    assert (Ps : 0 < s).
    { set (y := mvec d (mtr (tri_inv L0)) (fun i => - z i)). set (x := fun i => if Nat.ltb i d then y i else 1).
      assert (Ex : veq d x y) by (intros i Hi; unfold x; destruct (Nat.ltb_spec i d); [reflexivity|lia]).
      assert (Ed : x d = 1) by (unfold x; destruct (Nat.ltb_spec d d); [lia|reflexivity]).
      assert (P : 0 < quad (S d) M x) by (apply HP; intros Z; specialize (Z d ltac:(lia)); cbv beta in Z; lra).
      rewrite quad_S, Ed in P.
      assert (Hy : veq d (mvec d (mtr L0) y) (fun i => - z i)).
      { unfold y. rewrite mvec_mul, <- mtr_mul. rewrite tri_inv_left by assumption. rewrite mtr_mid.
        intros i Hi. unfold mvec. rewrite <- (Rsum_indicator d i (fun k => - z k)) by exact Hi. apply Rsum_map_ext. intros k _.
        unfold mid. rewrite Nat.eqb_sym. reflexivity. }
      assert (Q1 : quad d M x = dot d z z).
      { rewrite Ex, <- A3, quad_gram, Hy. unfold dot. apply Rsum_map_ext. intros; ring. }
      assert (Q2 : Rsum (map (fun k => M d k * x k + M k d * x k) (seq 0 d)) = -(2) * dot d z z).
      { transitivity (2 * dot d y (mvec d L0 z)).
        - rewrite Hz. unfold dot. rewrite <- Rsum_map_mult_l. apply Rsum_map_ext. intros k Hk. apply in_seq in Hk.
          rewrite Ex by lia. pose proof (HS k d ltac:(lia) ltac:(lia)) as E. unfold mtr in E. rewrite E. ring.
        - rewrite dot_mvec, Hy. unfold dot. rewrite <- !Rsum_map_mult_l. apply Rsum_map_ext. intros; ring. }
      rewrite Q1, Q2 in P. unfold s. lra. }
    exists (fun i j => if Nat.ltb i d then (if Nat.ltb j d then L0 i j else 0) else (if Nat.ltb j d then z j else sqrt s)).
    split; [|split].
    + intros i j Hi Hj H. destruct (Nat.ltb_spec i d); [|lia]. destruct (Nat.ltb_spec j d); [apply A1; lia|reflexivity].
    + intros i Hi. destruct (Nat.ltb_spec i d); [now apply A2|now apply sqrt_lt_R0].
    + intros i j Hi Hj. unfold mmul, mtr. rewrite Rsum_seq_S.
      destruct (Nat.ltb_spec i d) as [Li|Li], (Nat.ltb_spec j d) as [Lj|Lj]; destruct (Nat.ltb_spec d d); try lia.
      * rewrite (Rsum_map_ext _ (fun k => L0 i k * L0 j k)).
        -- rewrite Rmult_0_l, Rplus_0_r. apply (A3 i j Li Lj).
        -- intros k Hk. apply in_seq in Hk. destruct (Nat.ltb_spec k d); [reflexivity|lia].
      * replace j with d by lia. rewrite (Rsum_map_ext _ (fun k => L0 i k * z k)).
        -- rewrite Rmult_0_l, Rplus_0_r. apply (Hz i Li).
        -- intros k Hk. apply in_seq in Hk. destruct (Nat.ltb_spec k d); [reflexivity|lia].
      * replace i with d by lia. rewrite (Rsum_map_ext _ (fun k => L0 j k * z k)).
        -- rewrite Rmult_0_r, Rplus_0_r. rewrite <- (HS d j) by lia. apply (Hz j Lj).
        -- intros k Hk. apply in_seq in Hk. destruct (Nat.ltb_spec k d); [ring|lia].
      * replace i with d by lia. replace j with d by lia. rewrite sqrt_sqrt by lra.
        rewrite (Rsum_map_ext _ (fun k => z k * z k)).
        -- fold (dot d z z). unfold s. ring.
        -- intros k Hk. apply in_seq in Hk. destruct (Nat.ltb_spec k d); [reflexivity|lia].
Qed.

(** Conversely a matrix with a Cholesky factor is positive definite. *)
Lemma gram_posdef d L : lower d L -> diag_pos d L -> posdef d (mmul d L (mtr L)).
Proof.
  intros HL HP x Hx. rewrite quad_gram. pose proof (dot_self_nonneg d (mvec d (mtr L) x)) as N.
  destruct (Req_dec (dot d (mvec d (mtr L) x) (mvec d (mtr L) x)) 0) as [Z|Z]; [|lra]. exfalso. apply Hx.
  apply dot_self_zero in Z.
  assert (V : veq d (mvec d (mtr (tri_inv L)) (mvec d (mtr L) x)) (fun _ => 0)) by (rewrite Z; now apply mvec_zero).
  rewrite mvec_mul, <- mtr_mul, tri_inv_right, mtr_mid in V by assumption.
  intros i Hi. rewrite <- (V i Hi). unfold mvec. rewrite <- (Rsum_indicator d i (fun k => x k)) by exact Hi. apply Rsum_map_ext. intros k _.
  unfold mid. rewrite Nat.eqb_sym. reflexivity.
Qed.
