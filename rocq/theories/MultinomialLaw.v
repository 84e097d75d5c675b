(** The law of [multinomial] (resampling.py:62-68): the indices are those of independent draws, sorted. *)
From Coquelicot Require Import Coquelicot.
From Coq Require Import Sorted Permutation.
From Verif Require Export OrderStatsInt.
Open Scope R_scope.

(** ** Sorting indices *)
Fixpoint ninsert (x : nat) (l : list nat) : list nat :=
  match l with [] => [x] | y :: l' => if Nat.leb x y then x :: y :: l' else y :: ninsert x l' end.
Fixpoint nsort (l : list nat) : list nat := match l with [] => [] | x :: l' => ninsert x (nsort l') end.

Lemma ninsert_perm x l : Permutation (ninsert x l) (x :: l).
Proof.
  induction l as [|y l IH]; cbn; [reflexivity|]. destruct (Nat.leb x y); [reflexivity|]. rewrite IH. apply perm_swap.
Qed.

Lemma nsort_perm l : Permutation (nsort l) l.
Proof. induction l as [|x l IH]; [reflexivity|]. cbn. rewrite ninsert_perm. now constructor. Qed.

Lemma nsort_length l : length (nsort l) = length l.
Proof. apply Permutation_length, nsort_perm. Qed.

Lemma ninsert_sorted x l : StronglySorted le l -> StronglySorted le (ninsert x l).
Proof.
  induction 1 as [|y l Hs IH Hf]; cbn; [repeat constructor|]. destruct (Nat.leb_spec x y).
  - constructor; [now constructor|]. constructor; [exact H|]. eapply Forall_impl; [|exact Hf]. cbn. intros; lia.
  - constructor; [exact IH|]. apply (Permutation_Forall (Permutation_sym (ninsert_perm x l))). constructor; [lia|exact Hf].
Qed.

Lemma nsort_sorted l : StronglySorted le (nsort l).
Proof. induction l as [|x l IH]; [constructor|]. now apply ninsert_sorted. Qed.

(** componentwise comparison *)
Fixpoint leb2 (a b : list nat) : bool :=
  match a, b with [], [] => true | x :: a', y :: b' => Nat.leb x y && leb2 a' b' | _, _ => false end.

Lemma leb2_spec a b : leb2 a b = true <-> Forall2 le a b.
Proof.
  revert b; induction a as [|x a IH]; intros [|y b]; cbn.
  - split; [constructor|reflexivity].
  - split; [discriminate|intros H; inversion H].
  - split; [discriminate|intros H; inversion H].
  - rewrite andb_true_iff, Nat.leb_le, IH. split; [intros [H1 H2]; now constructor|intros H; inversion H; auto].
Qed.

(** ** Sorted independent draws below thresholds *)
Fixpoint dropb (i : nat) (b : list nat) : list nat :=
  match b with [] => [] | y :: b' => if Nat.leb i y then b' else y :: dropb i b' end.
Fixpoint reach (i : nat) (b : list nat) : bool :=
  match b with [] => false | y :: b' => Nat.leb i y || reach i b' end.

Lemma insert_le i : forall l b, StronglySorted le l -> StronglySorted le b -> length b = S (length l) ->
  leb2 (ninsert i l) b = reach i b && leb2 l (dropb i b).
Proof.
  induction l as [|x l IH]; intros [|y b] Hl Hb Hlen; try discriminate.
  - destruct b; [|discriminate]. cbn. destruct (Nat.leb i y); reflexivity.
  - cbn [length] in Hlen. injection Hlen as Hlen. inversion Hl as [|? ? Hl' Hf]; subst. inversion Hb as [|? ? Hb' Hg]; subst.
    cbn [ninsert reach dropb]. destruct (Nat.leb_spec i y) as [Hiy|Hiy]; cbn [orb andb].
    + destruct (Nat.leb_spec i x) as [Hix|Hix].
      * cbn [leb2]. apply Nat.leb_le in Hiy. now rewrite Hiy.
      * cbn [leb2]. destruct b as [|y2 b]; [discriminate|]. rewrite (IH (y2 :: b)) by (assumption || (cbn in *; lia)).
        assert (Hy2 : (y <= y2)%nat) by (now inversion Hg). cbn [reach dropb].
        destruct (Nat.leb_spec i y2); [|lia]. destruct (Nat.leb_spec x y); [|lia]. destruct (Nat.leb_spec x y2); [|lia]. reflexivity.
    + destruct (Nat.leb_spec i x) as [Hix|Hix].
      * cbn [leb2]. destruct (Nat.leb_spec i y); [lia|]. destruct (Nat.leb_spec x y); [lia|]. cbn [andb]. now rewrite andb_false_r.
      * cbn [leb2]. rewrite IH by (assumption || lia). destruct (Nat.leb x y), (reach i b), (leb2 l (dropb i b)); reflexivity.
Qed.

Section draws.
Variable w : list R.
Definition C (i : nat) : R := Rsum (firstn i w).
Definition thr (b : list nat) : list R := map (fun i => C (S i)) b.

Lemma C_step i : (i < length w)%nat -> C (S i) = C i + nth i w 0.
Proof.
  unfold C. revert i. induction w as [|x l IH]; intros i Hi; [cbn in Hi; lia|]. destruct i as [|i]; [cbn; lra|].
  cbn [firstn Rsum nth]. cbn in Hi. specialize (IH i ltac:(lia)). cbn [firstn] in IH. rewrite IH. lra.
Qed.

Lemma C_range p m : (p + m <= length w)%nat -> Rsum (map (fun i => nth i w 0) (seq p m)) = C (p + m) - C p.
Proof.
  revert p. induction m as [|m IH]; intros p H; [cbn; rewrite Nat.add_0_r; lra|]. cbn [seq map Rsum].
  rewrite IH by lia. rewrite C_step by lia. replace (S p + m)%nat with (p + S m)%nat by lia. lra.
Qed.

Lemma draws_gaps (F : list R -> R) : forall b p pre, StronglySorted le b -> Forall (fun y => (p <= S y /\ y < length w)%nat) b -> (p <= length w)%nat ->
  Rsum (map (fun i => nth i w 0 * (if reach i b then F (pre ++ thr (dropb i b)) else 0)) (seq p (length w - p))) = gaps F (C p) pre (thr b).
Proof.
  induction b as [|y b IH]; intros p pre Hs Hb Hp.
  - cbn [reach thr map gaps]. rewrite (Rsum_map_ext _ (fun _ => 0)) by (intros; ring). rewrite Rsum_map_const. ring.
  - assert (Hy := Forall_inv Hb). cbv beta in Hy. inversion Hs as [|? ? Hs' Hle]; subst.
    replace (length w - p)%nat with ((S y - p) + (length w - S y))%nat by lia.
    rewrite seq_app, map_app, Rsum_app. replace (p + (S y - p))%nat with (S y) by lia.
    cbn [thr map gaps]. fold (thr b). f_equal.
    + rewrite (Rsum_map_ext _ (fun i => nth i w 0 * F (pre ++ thr b))).
      * rewrite Rsum_map_mult_r, C_range by lia. now replace (p + (S y - p))%nat with (S y) by lia.
      * intros i Hi. apply in_seq in Hi. cbn [reach dropb]. destruct (Nat.leb_spec i y); [|lia]. reflexivity.
    + rewrite <- (IH (S y) (pre ++ [C (S y)])); [|assumption| |lia].
      * apply Rsum_map_ext. intros i Hi. apply in_seq in Hi. cbn [reach dropb]. destruct (Nat.leb_spec i y); [lia|]. cbn [orb].
        destruct (reach i b); [|reflexivity]. cbn [thr map]. rewrite <- app_assoc. reflexivity.
      * apply Forall_forall. intros a Ha. rewrite Forall_forall in Hle. specialize (Hle a Ha).
        apply Forall_inv_tail in Hb. rewrite Forall_forall in Hb. specialize (Hb a Ha). lia.
Qed.

Lemma dropb_sorted i b : StronglySorted le b -> StronglySorted le (dropb i b).
Proof.
  induction 1 as [|y b Hs IH Hf]; cbn; [constructor|]. destruct (Nat.leb i y); [exact Hs|]. constructor; [exact IH|].
  clear -Hf. induction Hf as [|a b Ha Hf IH]; cbn; [constructor|]. destruct (Nat.leb i a); [exact Hf|]. now constructor.
Qed.

Lemma dropb_Forall P i b : Forall P b -> Forall P (dropb i b).
Proof. induction 1 as [|a b Ha Hf IH]; cbn; [constructor|]. destruct (Nat.leb i a); [exact Hf|]. now constructor. Qed.

Lemma dropb_length i b : reach i b = true -> S (length (dropb i b)) = length b.
Proof.
  induction b as [|y b IH]; cbn; [discriminate|]. destruct (Nat.leb i y); [reflexivity|]. cbn. intros H. now rewrite IH.
Qed.

Lemma sorted_draws n : forall b, length b = n -> StronglySorted le b -> Forall (fun y => (y < length w)%nat) b ->
  E (dseq (repeat (dcat w) n)) (fun A => if leb2 (nsort A) b then 1 else 0) = ost (thr b).
Proof.
  induction n as [|n IH]; intros b Hl Hs Hb.
  - destruct b; [|discriminate]. cbn [thr map]. rewrite ost_nil. unfold E. cbn. ring.
  - cbn [repeat]. rewrite E_dseq_cons, E_dcat.
    destruct b as [|y b]; [discriminate|].
    change (thr (y :: b)) with (C (S y) :: thr b). rewrite ost_cons. change (C (S y) :: thr b) with (thr (y :: b)).
    change (gaps ost 0 [] (thr (y :: b))) with (gaps ost (C 0) [] (thr (y :: b))).
    rewrite <- (draws_gaps ost (y :: b) 0 []); [|exact Hs| |lia].
    2:{ eapply Forall_impl; [|exact Hb]. cbn. intros; lia. }
    rewrite Nat.sub_0_r. apply Rsum_map_ext. intros i _. f_equal. cbn [app].
    rewrite (E_ext _ _ (fun A => if reach i (y :: b) && leb2 (nsort A) (dropb i (y :: b)) then 1 else 0)).
    + destruct (reach i (y :: b)) eqn:Hr; cbn [andb].
      * apply IH; [|now apply dropb_sorted|now apply dropb_Forall]. pose proof (dropb_length i _ Hr). lia.
      * rewrite (E_ext' _ _ (fun A => 0 * 1)) by (intros; ring). rewrite E_mult_l. ring.
    + intros A HA. apply dseq_length in HA. rewrite repeat_length in HA. cbn [nsort]. rewrite insert_le; [reflexivity|apply nsort_sorted|exact Hs|].
      rewrite nsort_length. lia.
Qed.
End draws.

(** ** The race decides the comparison with thresholds *)
Definition zsums (z : R) (us : list R) : list R := cumsum_from z (map (fun u => - ln u) us).

Lemma zsums_ne z us : us <> [] -> zsums z us <> [].
Proof. destruct us; [easy|discriminate]. Qed.

Lemma race_spec : forall d tau z us, length us = S (length d) ->
  let T := last (zsums z us) 0 in
  (tau <= T /\ Forall2 (fun s x => s / x <= T) (removelast (zsums z us)) d -> race d tau z us = 1) /\
  (~ (tau <= T /\ Forall2 (fun s x => s / x <= T) (removelast (zsums z us)) d) -> race d tau z us = 0).
Proof.
  induction d as [|x d IH]; intros tau z us Hl T.
  - destruct us as [|u [|]]; try discriminate. unfold T, zsums. cbn [map cumsum_from last removelast race].
    change (z + - ln u) with (z - ln u). destruct (Rle_dec tau (z - ln u)) as [H|H].
    + split; [reflexivity|]. intros Hn. exfalso. apply Hn. split; [exact H|constructor].
    + split; [|reflexivity]. intros [H1 _]. contradiction.
  - destruct us as [|u us]; [discriminate|]. cbn [length] in Hl. injection Hl as Hl.
    assert (Hne : us <> []) by (destruct us; [discriminate|easy]).
    cbn [race]. specialize (IH (Rmax tau ((z - ln u) / x)) (z - ln u) us Hl). cbv zeta in IH.
    assert (Hz : zsums z (u :: us) = (z - ln u) :: zsums (z - ln u) us) by reflexivity.
    pose proof (zsums_ne (z - ln u) us Hne) as Hzn. unfold T. rewrite Hz. clear T Hz. revert IH Hzn. generalize (zsums (z - ln u) us). intros zs IH Hzn.
    destruct zs as [|s zs]; [easy|]. cbn [removelast last] in *. set (T := last (s :: zs) 0) in *. change (match zs with [] => s | _ :: _ => last zs 0 end) with T in *.
    assert (He : (tau <= T /\ Forall2 (fun s x => s / x <= T) ((z - ln u) :: match zs with [] => [] | _ :: _ => s :: removelast zs end) (x :: d)) <->
       (Rmax tau ((z - ln u) / x) <= T /\ Forall2 (fun s x => s / x <= T) (match zs with [] => [] | _ :: _ => s :: removelast zs end) d)).
    { split.
      - intros [H1 H2]. inversion H2; subst. split; [now apply Rmax_lub|assumption].
      - intros [H1 H2]. pose proof (Rmax_l tau ((z - ln u) / x)). pose proof (Rmax_r tau ((z - ln u) / x)). split; [lra|]. constructor; [lra|exact H2]. }
    split; intros H; apply IH; now rewrite <- He || (intros H'; apply H; now apply He).
Qed.

Lemma last_In' (l : list R) : l <> [] -> In (last l 0) l.
Proof. induction l as [|a l IH]; [easy|]. intros _. destruct l as [|b l]; [now left|]. right. now apply IH. Qed.

Lemma removelast_Forall {A} (P : A -> Prop) (l : list A) : Forall P l -> Forall P (removelast l).
Proof. induction 1 as [|a l Ha H IH]; cbn; [constructor|]. destruct l; [constructor|]. now constructor. Qed.

Lemma zsums_pos : forall us z, 0 <= z -> Forall (fun u => 0 < u < 1) us -> Forall (fun s => 0 < s) (zsums z us).
Proof.
  induction us as [|u us IH]; intros z Hz H; [constructor|]. assert (H1 := Forall_inv H). assert (H2 := Forall_inv_tail H).
  pose proof (ln_neg u H1). unfold zsums in *. cbn [map cumsum_from]. constructor; [lra|]. apply IH; [lra|assumption].
Qed.

Lemma neg_ln_nonneg' us : Forall (fun u => 0 < u < 1) us -> Forall (fun x => 0 <= x) (map (fun u => - ln u) us).
Proof. intros H. apply Forall_map. eapply Forall_impl; [|exact H]. intros u Hu. cbv beta in *. pose proof (ln_neg u Hu). lra. Qed.

Section link.
Variable w : list R.
Hypothesis Hw : weights_ok w.
Notation N := (length w).

Lemma C_last : C w N = 1.
Proof. unfold C. rewrite firstn_all. apply Hw. Qed.

Lemma C_mono i j : (i <= j)%nat -> (j <= N)%nat -> C w i <= C w j.
Proof.
  intros Hij Hj. replace j with (i + (j - i))%nat by lia. pose proof (C_range w i (j - i) ltac:(lia)) as H.
  assert (0 <= Rsum (map (fun i => nth i w 0) (seq i (j - i)))); [|lra].
  apply Rsum_nonneg, Forall_map, Forall_forall. intros k Hk. apply in_seq in Hk. destruct Hw as [Hp _]. rewrite Forall_forall in Hp. apply Hp, nth_In. lia.
Qed.

Lemma index_le T s i : 0 < T -> s <= T -> (i < N)%nat -> Nat.leb (clip_index N (searchsorted (cumsum w) (s / T))) i = true <-> s / T <= C w (S i).
Proof.
  intros HT Hs Hi. destruct Hw as [Hp Hsum]. rewrite Nat.leb_le.
  assert (H1 : s / T <= 1) by (apply Rmult_le_reg_r with T; [lra|]; unfold Rdiv; rewrite Rmult_assoc, Rinv_l by lra; lra).
  pose proof (searchsorted_cumsum_lt 0 w (s / T) ltac:(destruct w; [cbn in Hi; lia|easy]) ltac:(lra)) as Hlt.
  unfold clip_index, cumsum. rewrite Nat.min_l by lia. rewrite (searchsorted_le_iff 0 w (s / T) i Hp Hi). unfold C. now rewrite Rplus_0_l.
Qed.

Lemma indices_below us b : Forall (fun u => 0 < u < 1) us -> us <> [] -> Forall (fun y => (y < N)%nat) b ->
  let T := last (zsums 0 us) 0 in
  leb2 (multinomial_of w us) b = true <-> Forall2 (fun s x => s / T <= x) (removelast (zsums 0 us)) (thr w b).
Proof.
  intros Hu Hne Hb T.
  assert (HT : 0 < T /\ Forall (fun s => s <= T) (removelast (zsums 0 us))).
  { pose proof (zsums_pos us 0 ltac:(lra) Hu) as Hz. pose proof (zsums_ne 0 us Hne) as Hzn. split.
    - unfold T. rewrite Forall_forall in Hz. apply Hz. apply last_In'. exact Hzn.
    - apply removelast_Forall. apply (cumsum_from_le_last 0 (map (fun u => - ln u) us)). now apply neg_ln_nonneg'. }
  destruct HT as [HT HF]. unfold multinomial_of, inverse_cdf_indices, sorted_uniforms_of. change (cumsum (map (fun u => - ln u) us)) with (zsums 0 us). fold T.
  revert b Hb. generalize dependent (removelast (zsums 0 us)). intros l HF. induction HF as [|s l Hs HF IH]; intros [|y b] Hb; cbn [map leb2 thr].
  - split; [constructor|reflexivity].
  - split; [discriminate|intros H; inversion H].
  - split; [discriminate|intros H; inversion H].
  - assert (Hy := Forall_inv Hb). assert (Hb' := Forall_inv_tail Hb). rewrite andb_true_iff, IH, index_le by assumption.
    split; [intros [H1 H2]; now constructor|intros H; inversion H; auto].
Qed.

Lemma below_race us b : Forall (fun u => 0 < u < 1) us -> length us = S (length b) -> Forall (fun y => (y < N)%nat) b -> Forall (fun x => 0 < x) (thr w b) ->
  (if leb2 (multinomial_of w us) b then 1 else 0) = race (thr w b) 0 0 us.
Proof.
  intros Hu Hl Hb Hx. assert (Hne : us <> []) by (destruct us; [discriminate|easy]).
  pose proof (indices_below us b Hu Hne Hb) as Hi. cbv zeta in Hi.
  assert (HT : 0 < last (zsums 0 us) 0).
  { pose proof (zsums_pos us 0 ltac:(lra) Hu) as Hz. rewrite Forall_forall in Hz. apply Hz. apply last_In'. now apply zsums_ne. }
  set (T := last (zsums 0 us) 0) in *.
  assert (He : forall l d, Forall (fun x => 0 < x) d -> Forall2 (fun s x => s / T <= x) l d <-> Forall2 (fun s x => s / x <= T) l d).
  { clear -HT. intros l d Hd. revert l. induction Hd as [|x d Hx Hd IH]; intros l; split; intros H; inversion H as [|s ? l' ? H1 H2]; subst; try constructor; try (now apply IH).
    - apply Rmult_le_reg_r with x; [lra|]. unfold Rdiv. rewrite Rmult_assoc, Rinv_l, Rmult_1_r by lra.
      apply Rmult_le_compat_r with (r := T) in H1; [|lra]. unfold Rdiv in H1. rewrite Rmult_assoc, Rinv_l, Rmult_1_r in H1 by lra. lra.
    - apply Rmult_le_reg_r with T; [lra|]. unfold Rdiv. rewrite Rmult_assoc, Rinv_l, Rmult_1_r by lra.
      apply Rmult_le_compat_r with (r := x) in H1; [|lra]. unfold Rdiv in H1. rewrite Rmult_assoc, Rinv_l, Rmult_1_r in H1 by lra. lra. }
  rewrite (He _ _ Hx) in Hi.
  destruct (race_spec (thr w b) 0 0 us) as [H1 H2]; [unfold thr; now rewrite map_length|]. fold T in H1, H2.
  destruct (leb2 (multinomial_of w us) b) eqn:Hb2.
  - symmetry. apply H1. split; [lra|]. now apply Hi.
  - symmetry. apply H2. intros [_ H3]. apply Hi in H3. discriminate.
Qed.

Lemma thr_sorted b : StronglySorted le b -> Forall (fun y => (y < N)%nat) b -> StronglySorted Rle (thr w b).
Proof.
  induction 1 as [|y b Hs IH Hf]; intros Hb; cbn [thr map]; constructor; [apply IH; now inversion Hb|].
  apply Forall_map. apply Forall_forall. intros a Ha. rewrite Forall_forall in Hf. specialize (Hf a Ha). apply Forall_inv_tail in Hb. rewrite Forall_forall in Hb.
  specialize (Hb a Ha). apply C_mono; lia.
Qed.

Theorem below_integral b : length b = N -> StronglySorted le b -> Forall (fun y => (y < N)%nat) b ->
  is_uint (N + 1) (fun us => if leb2 (multinomial_of w us) b then 1 else 0) (ost (thr w b)).
Proof.
  intros Hl Hs Hb. assert (HN := weights_ok_length_pos w Hw). rewrite Nat.add_1_r.
  assert (Hr : Forall (fun x => 0 <= x <= 1) (thr w b)).
  { apply Forall_map. eapply Forall_impl; [|exact Hb]. intros y Hy. cbv beta in *. split; [change 0 with (C w 0); apply C_mono; lia|rewrite <- C_last; apply C_mono; lia]. }
  destruct b as [|y b]; [cbn in Hl; lia|].
  destruct (Req_dec (C w (S y)) 0) as [H0|H0].
  - change (thr w (y :: b)) with (C w (S y) :: thr w b). rewrite H0, ost_zero.
    apply (is_uint_ext _ (fun _ => 0)); [|apply is_uint_const].
    intros us Hlu Hu. assert (Hne : us <> []) by (destruct us; [discriminate|easy]).
    pose proof (indices_below us (y :: b) Hu Hne Hb) as Hi. cbv zeta in Hi.
    destruct (leb2 (multinomial_of w us) (y :: b)); [|reflexivity]. exfalso.
    destruct Hi as [Hi _]. specialize (Hi eq_refl). inversion Hi as [|s x l d H1 H2 H3 H4]; subst.
    pose proof (zsums_pos us 0 ltac:(lra) Hu) as Hz. assert (Hs0 : 0 < s).
    { apply removelast_Forall in Hz. rewrite <- H3 in Hz. now apply Forall_inv in Hz. }
    assert (HT : 0 < last (zsums 0 us) 0) by (rewrite Forall_forall in Hz; apply Hz; apply last_In'; now apply zsums_ne).
    pose proof (Rinv_0_lt_compat _ HT). assert (0 < s / last (zsums 0 us) 0) by (unfold Rdiv; now apply Rmult_lt_0_compat). lra.
  - assert (Hpos : Forall (fun x => 0 < x <= 1) (thr w (y :: b))).
    { pose proof (thr_sorted _ Hs Hb) as Hts. cbn [thr map] in *. inversion Hts as [|? ? _ Hle]; subst. assert (Hy := Forall_inv Hr). cbv beta in Hy.
      constructor; [lra|]. apply Forall_forall. intros x Hx. rewrite Forall_forall in Hle. specialize (Hle x Hx).
      apply Forall_inv_tail in Hr. rewrite Forall_forall in Hr. specialize (Hr x Hx). lra. }
    apply (is_uint_ext _ (race (thr w (y :: b)) 0 0)).
    + intros us Hlu Hu. symmetry. apply below_race; [exact Hu|lia|exact Hb|]. eapply Forall_impl; [|exact Hpos]. cbn. intros; lra.
    + pose proof (race_integral (thr w (y :: b)) 0 0 Hpos (thr_sorted _ Hs Hb) ltac:(lra) ltac:(lra)) as H.
      rewrite Qp_start, Rminus_0_r, exp_0, Rmult_1_l in H. unfold thr in H at 1. rewrite map_length, Hl in H. exact H.
Qed.
End link.

(** ** From thresholds to every function of the indices *)
Definition okind (n : nat) (A : list nat) : Prop := length A = n /\ Forall (fun a => (a < n)%nat) A /\ StronglySorted le A.

(** running minimum from the right *)
Fixpoint smin (m : nat) (b : list nat) : list nat :=
  match b with [] => [] | y :: b' => Nat.min y (hd m (smin m b')) :: smin m b' end.

Lemma smin_length m b : length (smin m b) = length b.
Proof. induction b; cbn; congruence. Qed.

Lemma smin_sorted m b : StronglySorted le (smin m b) /\ Forall (fun y => (y <= m)%nat) (smin m b).
Proof.
  induction b as [|y b [IH1 IH2]]; cbn; [repeat constructor|]. destruct (smin m b) as [|a l] eqn:He.
  - cbn. repeat constructor. lia.
  - cbn [hd]. assert (Ha := Forall_inv IH2). cbv beta in Ha. inversion IH1 as [|? ? Hs Hf]; subst. split; [|constructor; [lia|exact IH2]].
    constructor; [exact IH1|]. constructor; [lia|]. eapply Forall_impl; [|exact Hf]. cbn. intros; lia.
Qed.

Lemma smin_leb2 m : forall A b, StronglySorted le A -> Forall (fun a => (a <= m)%nat) A -> leb2 A b = leb2 A (smin m b).
Proof.
  induction A as [|x A IH]; intros [|y b] Hs Hm; cbn [leb2 smin]; try reflexivity.
  inversion Hs as [|? ? Hs' Hf]; subst. assert (Hx := Forall_inv Hm). cbv beta in Hx. apply Forall_inv_tail in Hm. rewrite <- (IH b Hs' Hm).
  destruct (leb2 A b) eqn:Hb; [|now rewrite !andb_false_r]. rewrite !andb_true_r.
  assert (Hh : (x <= hd m (smin m b))%nat).
  { rewrite (IH b Hs' Hm) in Hb. destruct (smin m b) as [|a l]; [cbn; lia|]. destruct A as [|x' A]; [discriminate|]. cbn [leb2] in Hb.
    apply andb_true_iff in Hb. destruct Hb as [Hb _]. apply Nat.leb_le in Hb. apply Forall_inv in Hf. cbn. lia. }
  destruct (Nat.leb_spec x y), (Nat.leb_spec x (Nat.min y (hd m (smin m b)))); try reflexivity; lia.
Qed.

(** tests on a prefix: [(true, a)] asks for the value a, [(false, b)] for a value at most b *)
Fixpoint tst (ts : list (bool * nat)) (f : list nat -> R) (A : list nat) : R :=
  match ts, A with
  | [], A => f A
  | (true, a) :: ts', x :: A' => if Nat.eqb x a then tst ts' f A' else 0
  | (false, b) :: ts', x :: A' => if Nat.leb x b then tst ts' f A' else 0
  | _ :: _, [] => 0
  end.

Lemma tst_below b : forall A, length A = length b -> tst (map (pair false) b) (fun _ => 1) A = if leb2 A b then 1 else 0.
Proof.
  induction b as [|y b IH]; intros [|x A] H; try discriminate; cbn [map tst leb2]; [reflexivity|].
  rewrite IH by (cbn in H; lia). destruct (Nat.leb x y); reflexivity.
Qed.

Lemma tst_const : forall ts f A, length A = length ts -> tst ts f A = f [] * tst ts (fun _ => 1) A.
Proof.
  induction ts as [|[t a] ts IH]; intros f [|x A] H; try discriminate; cbn [tst]; [ring|]. cbn in H.
  rewrite IH by lia. destruct t; [destruct (Nat.eqb x a)|destruct (Nat.leb x a)]; ring.
Qed.

Lemma tst_snoc : forall ts n f A, (length ts < length A)%nat -> Forall (fun a => (a < n)%nat) A ->
  tst ts f A = Rsum (map (fun a => tst (ts ++ [(true, a)]) (fun B => f (a :: B)) A) (seq 0 n)).
Proof.
  induction ts as [|[t c] ts IH]; intros n f [|x A] Hl Hf; cbn [length] in Hl; try lia; cbn [app tst].
  - apply Forall_inv in Hf. cbv beta in Hf. rewrite (Rsum_map_ext _ (fun a => (if Nat.eqb a x then 1 else 0) * f (a :: A))).
    + now rewrite (Rsum_indicator n x (fun a => f (a :: A))) by assumption.
    + intros a _. rewrite Nat.eqb_sym. destruct (Nat.eqb a x); ring.
  - apply Forall_inv_tail in Hf.
    destruct t; [destruct (Nat.eqb x c)|destruct (Nat.leb x c)]; try (apply IH; [lia|assumption]); rewrite Rsum_map_const; ring.
Qed.

Lemma tst_split : forall pre a ts f A,
  tst (map (pair false) pre ++ (true, a) :: ts) f A = tst (map (pair false) pre ++ (false, a) :: ts) f A +
    (- 1) * match a with O => 0 | S a' => tst (map (pair false) pre ++ (false, a') :: ts) f A end.
Proof.
  induction pre as [|y pre IH]; intros a ts f [|x A]; cbn [map app tst].
  - destruct a; ring.
  - destruct a as [|a].
    + destruct x; cbn; ring.
    + destruct (Nat.eqb_spec x (S a)), (Nat.leb_spec x (S a)), (Nat.leb_spec x a); try lia; ring.
  - destruct a; ring.
  - destruct (Nat.leb x y); [apply IH|]. destruct a; ring.
Qed.

Section law.
Variable w : list R.
Hypothesis Hw : weights_ok w.
Notation N := (length w).
Definition draws : dist (list nat) := dseq (repeat (dcat w) N).
Definition Good (f : list nat -> R) : Prop := is_uint (N + 1) (fun us => f (multinomial_of w us)) (E draws (fun A => f (nsort A))).

Lemma index_ok us : length us = (N + 1)%nat -> Forall (fun u => 0 < u < 1) us -> okind N (multinomial_of w us).
Proof.
  intros Hl Hu. assert (Hne : w <> []) by (apply weights_ok_nonempty; exact Hw).
  assert (Hin : Forall in01 us) by (eapply Forall_impl; [|exact Hu]; unfold in01; cbn; intros; lra).
  pose proof (multinomial_safe w [] Hne) as H. specialize (H [[]] (multinomial_of w us)).
  destruct H as [[H1 H2] H3]; [|now split].
  cbn. exists us, []. repeat split; try assumption.
Qed.

Lemma draws_ok A : In A (map snd draws) -> okind N (nsort A).
Proof.
  intros H. unfold draws in H. assert (Hl := H). apply dseq_length in Hl. rewrite repeat_length in Hl. apply dseq_Forall2 in H.
  split; [now rewrite nsort_length|]. split; [|apply nsort_sorted]. apply (Permutation_Forall (Permutation_sym (nsort_perm A))).
  clear -H. remember (repeat (dcat w) N) as ds eqn:Hd. assert (Hds : forall d, In d ds -> d = dcat w) by (intros d Hin; subst; now apply repeat_spec in Hin). clear Hd.
  induction H as [|a d l ds Ha H IH]; constructor.
  - rewrite (Hds d) in Ha by now left. now apply dcat_support in Ha.
  - apply IH. intros d' Hd'. apply Hds. now right.
Qed.

Lemma Good_ext f g : (forall A, okind N A -> f A = g A) -> Good f -> Good g.
Proof.
  intros H Hf. unfold Good in *. rewrite <- (E_ext draws (fun A => f (nsort A)) (fun A => g (nsort A))) by (intros A HA; now apply H, draws_ok).
  apply (is_uint_ext _ (fun us => f (multinomial_of w us))); [|exact Hf]. intros us Hl Hu. now apply H, index_ok.
Qed.

Lemma Good_plus f g : Good f -> Good g -> Good (fun A => f A + g A).
Proof. intros Hf Hg. unfold Good. rewrite E_plus. exact (is_uint_plus _ _ _ _ _ Hf Hg). Qed.

Lemma Good_scal c f : Good f -> Good (fun A => c * f A).
Proof. intros Hf. unfold Good. rewrite E_mult_l. exact (is_uint_scal _ c _ _ Hf). Qed.

Lemma Good_zero : Good (fun _ => 0).
Proof.
  unfold Good. rewrite (E_ext' _ _ (fun _ => 0 * 1)) by (intros; ring). rewrite E_mult_l, Rmult_0_l. apply is_uint_const.
Qed.

Lemma Good_sum {I} (F : I -> list nat -> R) l : (forall i, Good (F i)) -> Good (fun A => Rsum (map (fun i => F i A) l)).
Proof. intros H. induction l as [|i l IH]; cbn [map Rsum]; [apply Good_zero|]. apply (Good_plus (F i)); [apply H|exact IH]. Qed.

Lemma Good_below b : length b = N -> Good (tst (map (pair false) b) (fun _ => 1)).
Proof.
  intros Hb. assert (HN := weights_ok_length_pos w Hw). destruct (smin_sorted (N - 1) b) as [Hs Hm].
  assert (Hm' : Forall (fun y => (y < N)%nat) (smin (N - 1) b)) by (eapply Forall_impl; [|exact Hm]; cbn; intros; lia).
  apply (Good_ext (fun A => if leb2 A (smin (N - 1) b) then 1 else 0)).
  - intros A (HA1 & HA2 & HA3). rewrite tst_below by lia. rewrite <- smin_leb2; [reflexivity|exact HA3|]. eapply Forall_impl; [|exact HA2]. cbn. intros; lia.
  - unfold Good. unfold draws. rewrite sorted_draws; [|now rewrite smin_length|exact Hs|exact Hm'].
    apply (below_integral w Hw); [now rewrite smin_length|exact Hs|exact Hm'].
Qed.

Lemma Good_tests : forall ts pre, (length pre + length ts = N)%nat -> Good (tst (map (pair false) pre ++ ts) (fun _ => 1)).
Proof.
  induction ts as [|[t a] ts IH]; intros pre Hl; cbn [length] in Hl.
  - rewrite app_nil_r. apply Good_below. lia.
  - assert (Hf : forall c, Good (tst (map (pair false) pre ++ (false, c) :: ts) (fun _ => 1))).
    { intros c. specialize (IH (pre ++ [c])). rewrite map_app, <- app_assoc in IH. apply IH. rewrite app_length. cbn. lia. }
    destruct t; [|apply Hf].
    apply (Good_ext (fun A => tst (map (pair false) pre ++ (false, a) :: ts) (fun _ => 1) A +
       (- 1) * match a with O => 0 | S a' => tst (map (pair false) pre ++ (false, a') :: ts) (fun _ => 1) A end)).
    + intros A _. symmetry. apply tst_split.
    + apply Good_plus; [apply Hf|]. apply Good_scal. destruct a; [apply Good_zero|apply Hf].
Qed.

Lemma Good_tst : forall k ts f, (length ts + k = N)%nat -> Good (tst ts f).
Proof.
  induction k as [|k IH]; intros ts f Hl.
  - apply (Good_ext (fun A => f [] * tst ts (fun _ => 1) A)).
    + intros A (HA & _). symmetry. apply tst_const. lia.
    + apply Good_scal. apply (Good_tests ts []). cbn. lia.
  - apply (Good_ext (fun A => Rsum (map (fun a => tst (ts ++ [(true, a)]) (fun B => f (a :: B)) A) (seq 0 N)))).
    + intros A (HA1 & HA2 & _). symmetry. apply tst_snoc; [lia|exact HA2].
    + apply (Good_sum (fun a => tst (ts ++ [(true, a)]) (fun B => f (a :: B)))). intros a. apply IH. rewrite app_length. cbn. lia.
Qed.

Theorem multinomial_law k f : law (multinomial w k) f = E (dseq (repeat (dcat w) N)) (fun A => f (nsort A)).
Proof. unfold multinomial. cbn [law]. apply is_uint_eq. exact (Good_tst N [] f eq_refl). Qed.
End law.

Lemma E_draws_sum w h n : weights_ok w -> E (dseq (repeat (dcat w) n)) (fun A => Rsum (map h A)) = INR n * E (dcat w) h.
Proof.
  intros Hw. induction n as [|n IH]; [cbn; unfold E; cbn; ring|]. cbn [repeat]. rewrite E_dseq_cons.
  rewrite (E_ext' _ _ (fun a => h a + INR n * E (dcat w) h)).
  - rewrite E_plus, E_const by (now apply is_prob_dcat). rewrite S_INR. ring.
  - intros a. rewrite <- IH. cbn [map Rsum]. rewrite E_plus, E_const; [reflexivity|]. apply is_prob_dseq, Forall_forall. intros d Hd. apply repeat_spec in Hd. subst. now apply is_prob_dcat.
Qed.

Lemma Rsum_perm l l' : Permutation l l' -> Rsum l = Rsum l'.
Proof. induction 1; cbn; lra. Qed.

Theorem multinomial_unbiased : unbiased_res multinomial.
Proof.
  intros w k h Hw. rewrite multinomial_law by assumption. rewrite <- (E_draws_sum w h (length w) Hw). apply E_ext'. intros A.
  apply Rsum_perm, Permutation_map, nsort_perm.
Qed.

Theorem multinomial_denotes w k : weights_ok w -> denotes (multinomial w k) (dmap nsort (dseq (repeat (dcat w) (length w)))).
Proof. intros Hw f. rewrite E_dmap. now apply multinomial_law. Qed.
