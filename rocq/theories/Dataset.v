(** Model of fbs/data/base.py (class [Dataset]) and its properties. *)
From Coq Require Import Permutation.
From Verif Require Import Base ImagesProofs.
Open Scope nat_scope.

(** ** Model *)

(** [jnp.array_split(l, k)]: the first [n mod k] pieces have one element more; [k = 0] raises. *)
Fixpoint split_sizes {A} (sizes : list nat) (l : list A) : list (list A) :=
  match sizes with [] => [] | s :: sizes' => firstn s l :: split_sizes sizes' (skipn s l) end.
Definition array_split {A} (l : list A) (k : nat) : option (list (list A)) :=
  match k with
  | 0 => None
  | _ => let n := length l in
         Some (split_sizes (repeat (S (n / k)) (n mod k) ++ repeat (n / k) (k - n mod k)) l)
  end.

(** base.py:39-49.  [perm] is the result of [jax.random.choice(key, jnp.arange(m), (m,), replace=False)],
    a rearrangement of 0..m-1.  [batch_size = 0] divides by zero. *)
Definition enumeration_size (n batch_size : nat) : nat := batch_size * (n / batch_size).
Definition init_enumeration (n batch_size : nat) (perm : list nat) : option (list (list nat)) :=
  if batch_size =? 0 then None else array_split perm (n / batch_size).

(** base.py:51-57 *)
Definition enumerate_subset {A} (d : A) (xs : list A) (perm_inds : list (list nat)) (i : nat) : list A :=
  gather d xs (nth i perm_inds []).

Open Scope R_scope.

(** Arrays with zero, one or two axes. *)
Inductive array := Arr0 (x : R) | Arr1 (l : list R) | Arr2 (rows : list (list R)).
Definition ndim (a : array) : nat := match a with Arr0 _ => 0 | Arr1 _ => 1 | Arr2 _ => 2 end.
Definition elements (a : array) : list R := match a with Arr0 x => [x] | Arr1 l => l | Arr2 rows => concat rows end.

(** base.py:21-28 *)
Definition reshape (a : array) : array :=
  match a with
  | Arr0 x => Arr2 [[x]]
  | Arr1 l => Arr2 (map (fun x => [x]) l)
  | Arr2 rows => Arr2 rows
  end.

(** base.py:29-33, one column: [jnp.std] divides by [n]; 0/0 is NaN ([None]). *)
Definition variance (l : list R) : R := Rmean (map (fun x => (x - Rmean l) ^ 2) l).
Definition std (l : list R) : R := sqrt (variance l).
Definition standardise (l : list R) : option (list R) :=
  if Req_EM_T (std l) 0 then None else Some (map (fun x => (x - Rmean l) / std l) l).

(** base.py:35-37 [draw_subset]; [inds] is the result of [choice(key, arange(n), (batch_size,), replace=False)] *)
Definition draw_subset (xs : list (list R)) (inds : list nat) : array := reshape (Arr2 (gather [] xs inds)).

(** ** Enumeration *)

Lemma split_sizes_concat {A} sizes (l : list A) : length l = fold_right Nat.add 0%nat sizes -> concat (split_sizes sizes l) = l.
Proof.
  revert l. induction sizes as [|s sizes IH]; intros l H; cbn in *.
  - now destruct l.
  - rewrite IH; [apply firstn_skipn|]. rewrite skipn_length. lia.
Qed.
Lemma split_sizes_lengths {A} sizes (l : list A) : length l = fold_right Nat.add 0%nat sizes -> map (@length A) (split_sizes sizes l) = sizes.
Proof.
  revert l. induction sizes as [|s sizes IH]; intros l H; cbn in *; [reflexivity|].
  rewrite firstn_length, Nat.min_l by lia. f_equal. apply IH. rewrite skipn_length. lia.
Qed.

Lemma fold_repeat c n : fold_right Nat.add 0%nat (repeat c n) = (n * c)%nat.
Proof. induction n as [|n IH]; cbn; [reflexivity|]. now rewrite IH. Qed.
Lemma fold_add_app l l' : fold_right Nat.add 0%nat (l ++ l') = (fold_right Nat.add 0%nat l + fold_right Nat.add 0%nat l')%nat.
Proof. induction l as [|x l IH]; cbn; [reflexivity|]. rewrite IH. lia. Qed.

(** Pieces of almost equal size whose concatenation is the array. *)
Lemma array_split_spec {A} (l : list A) k : (1 <= k)%nat -> exists ps, array_split l k = Some ps /\ concat ps = l /\ length ps = k /\
  Forall (fun p => length p = length l / k \/ length p = S (length l / k))%nat ps.
Proof.
  intros Hk. destruct k as [|k]; [lia|]. cbn [array_split]. cbv zeta. eexists. split; [reflexivity|].
  set (n := length l). set (K := S k) in *.
  set (sizes := repeat (S (n / K)) (n mod K) ++ repeat (n / K)%nat (K - n mod K)).
  pose proof (Nat.div_mod n K ltac:(lia)) as E. pose proof (Nat.mod_upper_bound n K ltac:(lia)) as B.
  assert (HS : length l = fold_right Nat.add 0%nat sizes).
  { fold n. unfold sizes. rewrite fold_add_app, !fold_repeat. 
    set (q := (n / K)%nat) in *. set (r := (n mod K)%nat) in *. nia. }
  split; [now apply split_sizes_concat|]. pose proof (split_sizes_lengths sizes l HS) as HL. split.
  - rewrite <- (map_length (@length A)), HL. unfold sizes. rewrite app_length, !repeat_length. lia.
  - apply Forall_forall. intros p Hp. assert (Hin : In (length p) sizes) by (rewrite <- HL; now apply in_map).
    unfold sizes in Hin. apply in_app_iff in Hin. destruct Hin as [H|H]; apply repeat_spec in H; [now right|now left].
Qed.

Lemma init_enumeration_spec n b perm : (1 <= b)%nat -> (b <= n)%nat -> Permutation perm (seq 0 (enumeration_size n b)) ->
  exists ps, init_enumeration n b perm = Some ps /\ length ps = (n / b)%nat /\ Forall (fun p => length p = b) ps /\
    Permutation (concat ps) (seq 0 (enumeration_size n b)).
Proof.
  intros Hb Hn HP. unfold init_enumeration. destruct (Nat.eqb_spec b 0); [lia|].
  assert (Hq : (1 <= n / b)%nat) by (apply Nat.div_le_lower_bound; lia).
  destruct (n / b)%nat as [|q] eqn:Eq; [lia|]. cbn [array_split]. cbv zeta.
  assert (HL : length perm = (b * S q)%nat).
  { apply Permutation_length in HP. rewrite seq_length in HP. unfold enumeration_size in HP. now rewrite Eq in HP. }
  rewrite HL, Nat.div_mul, Nat.mod_mul by lia. cbn [repeat app]. rewrite Nat.sub_0_r.
  eexists. split; [reflexivity|]. change (b :: repeat b q) with (repeat b (S q)).
  assert (HS : length perm = fold_right Nat.add 0%nat (repeat b (S q))) by (rewrite fold_repeat; lia).
  pose proof (split_sizes_lengths _ _ HS) as HLs. split; [|split].
  - rewrite <- (map_length (@length nat)), HLs. apply repeat_length.
  - apply Forall_forall. intros p Hp. apply (in_map (@length nat)) in Hp. rewrite HLs in Hp. now apply repeat_spec in Hp.
  - rewrite split_sizes_concat by exact HS. exact HP.
Qed.

(** The data behind one epoch: every used datum once. *)
Lemma epoch_data {A} (d : A) xs n b perm : length xs = n -> (1 <= b)%nat -> (b <= n)%nat ->
  Permutation perm (seq 0 (enumeration_size n b)) ->
  exists ps, init_enumeration n b perm = Some ps /\
    Permutation (concat (map (enumerate_subset d xs ps) (seq 0 (n / b)))) (firstn (enumeration_size n b) xs).
Proof.
  intros Hl Hb Hn HP. destruct (init_enumeration_spec n b perm Hb Hn HP) as (ps & E & HL & _ & HP').
  exists ps. split; [exact E|].
  assert (E1 : map (enumerate_subset d xs ps) (seq 0 (n / b)) = map (gather d xs) ps).
  { rewrite <- HL. unfold enumerate_subset. clear. induction ps as [|p ps IH]; [reflexivity|].
    cbn [length seq map nth]. f_equal. rewrite <- seq_shift, map_map. exact IH. }
  assert (E2 : concat (map (gather d xs) ps) = gather d xs (concat ps)).
  { unfold gather. now rewrite concat_map. }
  rewrite E1, E2.
  assert (E3 : gather d xs (seq 0 (enumeration_size n b)) = firstn (enumeration_size n b) xs).
  { assert (Hm : (enumeration_size n b <= length xs)%nat) by (unfold enumeration_size; rewrite Hl; apply Nat.mul_div_le; lia).
    revert Hm. generalize (enumeration_size n b) as m. intros m Hm. unfold gather. clear - Hm.
    revert xs Hm. induction m as [|m IH]; intros xs Hm; [reflexivity|]. destruct xs as [|x xs]; [cbn in Hm; lia|].
    cbn [seq map nth firstn]. f_equal. rewrite <- seq_shift, map_map. apply IH. cbn in Hm. lia. }
  rewrite <- E3. unfold gather. now apply Permutation_map.
Qed.

(** The last [n mod b] data are never used, whatever is drawn; and fewer data than a batch is an error. *)
Lemma tail_never_used n b perm ps p i : (1 <= b)%nat -> Permutation perm (seq 0 (enumeration_size n b)) ->
  init_enumeration n b perm = Some ps -> In p ps -> In i p -> (i < n - n mod b)%nat.
Proof.
  intros Hb HP E Hp Hi. destruct (Nat.le_gt_cases b n) as [Hn|Hn].
  - destruct (init_enumeration_spec n b perm Hb Hn HP) as (ps' & E' & _ & _ & HP'). rewrite E in E'. injection E' as <-.
    assert (Hin : In i (concat ps)) by (apply in_concat; now exists p).
    apply (Permutation_in _ HP') in Hin. apply in_seq in Hin. unfold enumeration_size in Hin.
    pose proof (Nat.div_mod n b ltac:(lia)). lia.
  - unfold init_enumeration in E. destruct (Nat.eqb_spec b 0); [lia|]. rewrite Nat.div_small in E by lia. discriminate.
Qed.
Lemma small_data_error n b perm : (n < b)%nat -> init_enumeration n b perm = None.
Proof.
  intros H. unfold init_enumeration. destruct (Nat.eqb_spec b 0); [reflexivity|]. now rewrite Nat.div_small by lia.
Qed.

(** ** Standardisation *)

Lemma variance_nonneg l : 0 <= variance l.
Proof.
  unfold variance, Rmean. destruct l as [|a l]; [cbn; unfold Rdiv; lra|].
  apply Rmult_le_pos.
  - apply Rsum_nonneg. apply Forall_forall. intros y Hy. apply in_map_iff in Hy. destruct Hy as (x & <- & _). apply pow2_ge_0.
  - left. apply Rinv_0_lt_compat. rewrite map_length. cbn [length]. apply lt_0_INR. lia.
Qed.

Lemma std_zero l : std l = 0 <-> forall x y, In x l -> In y l -> x = y.
Proof.
  destruct l as [|a l]; [split; [easy|]|].
  { intros _. unfold std, variance, Rmean. cbn. unfold Rdiv. rewrite Rmult_0_l. apply sqrt_0. }
  set (L := a :: l). assert (HN : 0 < INR (length L)) by (apply lt_0_INR; cbn; lia). split.
  - intros H.
    assert (V0 : variance L = 0) by (pose proof (sqrt_sqrt _ (variance_nonneg L)) as Hs; unfold std in H; rewrite H in Hs; lra).
    assert (S0 : Rsum (map (fun x => (x - Rmean L) ^ 2) L) = 0).
    { unfold variance, Rmean at 1 in V0. rewrite map_length in V0. unfold Rdiv in V0.
      apply Rmult_integral in V0. destruct V0 as [V0|V0]; [exact V0|]. pose proof (Rinv_0_lt_compat _ HN). lra. }
    assert (A : forall x, In x L -> x = Rmean L).
    { intros x Hx. assert (Hle : (x - Rmean L) ^ 2 <= 0).
      { rewrite <- S0. apply Rsum_In_le.
        - apply Forall_forall. intros y Hy. apply in_map_iff in Hy. destruct Hy as (z & <- & _). apply pow2_ge_0.
        - now apply (in_map (fun x => (x - Rmean L) ^ 2)). }
      pose proof (pow2_ge_0 (x - Rmean L)). assert (E : (x - Rmean L) ^ 2 = 0) by lra.
      cbn in E. rewrite Rmult_1_r in E. apply Rmult_integral in E. destruct E; lra. }
    intros x y Hx Hy. rewrite (A x Hx), (A y Hy). reflexivity.
  - intros H. assert (A : forall x, In x L -> x = a) by (intros x Hx; apply H; [exact Hx|now left]).
    assert (M : Rmean L = a).
    { unfold Rmean. rewrite <- (map_id L), (Rsum_map_ext (fun x => x) (fun _ => a) L A), Rsum_map_const, map_id. field. lra. }
    unfold std, variance. rewrite M. unfold Rmean.
    rewrite (Rsum_map_ext (fun x => (x - a) ^ 2) (fun _ => 0) L).
    + rewrite Rsum_map_const, Rmult_0_r. unfold Rdiv. rewrite Rmult_0_l. apply sqrt_0.
    + intros x Hx. rewrite (A x Hx). ring.
Qed.

Lemma Rsum_centred l : l <> [] -> Rsum (map (fun x => x - Rmean l) l) = 0.
Proof.
  intros Hl. assert (HN : 0 < INR (length l)) by (apply lt_0_INR; destruct l; [easy|cbn; lia]).
  rewrite (Rsum_map_ext (fun x => x - Rmean l) (fun x => x + - Rmean l)) by (intros; ring).
  rewrite Rsum_map_plus, map_id, Rsum_map_const. unfold Rmean. field. lra.
Qed.

Lemma standardise_spec l x y : In x l -> In y l -> x <> y ->
  exists l', standardise l = Some l' /\ length l' = length l /\ Rmean l' = 0 /\ variance l' = 1.
Proof.
  intros Hx Hy Hne. assert (Hl : l <> []) by (intros ->; easy).
  assert (HN : 0 < INR (length l)) by (apply lt_0_INR; destruct l; [easy|cbn; lia]).
  unfold standardise. destruct (Req_EM_T (std l) 0) as [E|E].
  { exfalso. apply Hne. now apply (proj1 (std_zero l) E). }
  eexists. split; [reflexivity|]. split; [apply map_length|].
  assert (M : Rmean (map (fun x => (x - Rmean l) / std l) l) = 0).
  { unfold Rmean at 1. rewrite (Rsum_map_ext _ (fun x => / std l * (x - Rmean l))) by (intros; field; exact E).
    rewrite Rsum_map_mult_l, Rsum_centred by exact Hl. rewrite map_length. field. lra. }
  split; [exact M|]. unfold variance at 1. rewrite M, map_map. unfold Rmean at 1. rewrite map_length.
  rewrite (Rsum_map_ext _ (fun x => / variance l * (x - Rmean l) ^ 2)).
  - rewrite Rsum_map_mult_l.
    assert (V : Rsum (map (fun x => (x - Rmean l) ^ 2) l) = INR (length l) * variance l).
    { unfold variance, Rmean at 2. rewrite map_length. field. lra. }
    assert (V0 : variance l <> 0) by (intros V0; apply E; unfold std; rewrite V0; apply sqrt_0).
    rewrite V. field. split; lra.
  - intros z _. assert (V : variance l = std l * std l) by (unfold std; symmetry; apply sqrt_sqrt, variance_nonneg).
    rewrite V. field. exact E.
Qed.

Lemma standardise_constant l : (forall x y, In x l -> In y l -> x = y) -> standardise l = None.
Proof. intros H. unfold standardise. destruct (Req_EM_T (std l) 0) as [|E]; [reflexivity|]. exfalso. apply E. now apply std_zero. Qed.

Lemma reshape_spec a : ndim (reshape a) = 2%nat /\ elements (reshape a) = elements a /\ reshape (reshape a) = reshape a.
Proof.
  destruct a as [x|l|rows]; cbn; repeat split.
  induction l as [|x l IH]; cbn; [reflexivity|]. now rewrite IH.
Qed.

Lemma draw_subset_rows xs inds : (forall i, In i inds -> (i < length xs)%nat) ->
  exists rows, draw_subset xs inds = Arr2 rows /\ length rows = length inds /\ Forall (fun r => In r xs) rows.
Proof.
  intros H. unfold draw_subset. cbn. eexists. split; [reflexivity|]. split; [apply map_length|].
  apply Forall_forall. intros r Hr. unfold gather in Hr. apply in_map_iff in Hr. destruct Hr as (i & <- & Hi). apply nth_In. now apply H.
Qed.
