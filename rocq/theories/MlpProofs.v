(** The small networks treat rows separately, are Lipschitz in space, and when they are in time. *)
From Coquelicot Require Import Coquelicot.
From Coq Require Import Reals List Lia Lra Bool PeanoNat Psatz.
From Verif Require Import Base Nets UNet UNetVal UNetShape UNetSep UNetGrow UNetLip UNetLipNet UNetLipMain Mlp.
Import ListNotations.
Open Scope R_scope.

(** ** Activations *)
Definition glob_lip (phi : R -> R) : Prop := exists k, 0 <= k /\ forall a b, Rabs (phi a - phi b) <= k * Rabs (a - b).
Lemma deriv_glob (f f1 : R -> R) k : 0 <= k -> (forall t, is_derive f t (f1 t)) -> (forall t, Rabs (f1 t) <= k) -> glob_lip f.
Proof.
  intros Hk Hd Hb. exists k. split; [assumption|]. intros a b. destruct (MVT_gen f b a f1) as (c & _ & Hc).
  - intros x _. apply Hd.
  - intros x _. apply continuity_pt_filterlim. apply (ex_derive_continuous f). now exists (f1 x).
  - rewrite Hc, Rabs_mult. apply Rmult_le_compat_r; [apply Rabs_pos|apply Hb].
Qed.
Lemma relu_glob : glob_lip relu.
Proof.
  exists 1. split; [lra|]. intros a b. unfold relu, Rmax. destruct (Rle_dec 0 a), (Rle_dec 0 b); unfold Rabs; repeat destruct Rcase_abs; lra.
Qed.
Lemma cosh_sq_ge z : Rabs z <= cosh z ^ 2 /\ 1 <= cosh z ^ 2 /\ 0 < cosh z.
Proof.
  assert (C : (1 + Rabs z) / 2 <= cosh z).
  { unfold cosh. pose proof (exp_pos z). pose proof (exp_pos (- z)). unfold Rabs. destruct (Rcase_abs z); [pose proof (exp_ineq1_le (- z))|pose proof (exp_ineq1_le z)]; lra. }
  assert (C1 : 1 <= cosh z).
  { unfold cosh. pose proof (exp_pos z) as Hp. rewrite exp_Ropp. set (e := exp z) in *. assert (0 <= (e - 1) ^ 2 / (2 * e)) by (apply Rmult_le_pos; [apply pow2_ge_0|left; apply Rinv_0_lt_compat; lra]).
    replace ((e - 1) ^ 2 / (2 * e)) with ((e + / e) / 2 - 1) in H by (field; lra). lra. }
  pose proof (Rabs_pos z). split; [|split; [nra|lra]]. apply Rle_trans with (((1 + Rabs z) / 2) ^ 2); [|nra]. pose proof (pow2_ge_0 (1 - Rabs z)). nra.
Qed.
Lemma tanh_bounds z : -1 <= tanh z <= 1.
Proof.
  unfold tanh. destruct (cosh_sq_ge z) as (_ & _ & H). pose proof (exp_pos z). pose proof (exp_pos (- z)). split; apply (Rmult_le_reg_r (cosh z)); try assumption; (replace (sinh z / cosh z * cosh z) with (sinh z) by (field; lra)); unfold sinh, cosh in *; lra.
Qed.
Lemma tanh_derive z : is_derive tanh z (/ cosh z ^ 2).
Proof.
  destruct (cosh_sq_ge z) as (_ & _ & H). unfold tanh, sinh, cosh in *. auto_derive; [lra|]. pose proof (exp_pos z) as Hz. rewrite exp_Ropp in *. field. split; nra || lra.
Qed.
Lemma gelu_glob : glob_lip gelu.
Proof.
  set (c := sqrt (2 / PI)). set (kk := 44715 / 10 ^ 6).
  assert (Hc : 0 < c) by (apply sqrt_lt_R0, Rdiv_lt_0_compat; [lra|apply PI_RGT_0]). assert (Hkk : 0 < kk) by (unfold kk; lra).
  apply (deriv_glob _ (fun a => / 2 * (1 + tanh (c * (a + kk * a ^ 3))) + a / 2 * (/ cosh (c * (a + kk * a ^ 3)) ^ 2 * (c * (1 + 3 * kk * a ^ 2)))) (5 / 2)); [lra| |].
  - intros a. unfold gelu. fold c kk. set (z := fun a => c * (a + kk * a ^ 3)).
    assert (Dz : is_derive z a (c * (1 + 3 * kk * a ^ 2))) by (unfold z; auto_derive; [trivial|ring]).
    pose proof (is_derive_comp tanh z a _ _ (tanh_derive (z a)) Dz) as Dt. change (is_derive (fun a => tanh (z a)) a (c * (1 + 3 * kk * a ^ 2) * / cosh (z a) ^ 2)) in Dt.
    assert (D1 : is_derive (fun a => 1 + tanh (z a)) a (c * (1 + 3 * kk * a ^ 2) * / cosh (z a) ^ 2)).
    { evar_last; [apply @is_derive_plus; [apply @is_derive_const|exact Dt]|]. unfold plus, zero; cbn. ring. }
    assert (Dh : is_derive (fun a => a / 2) a (/ 2)) by (auto_derive; [trivial|lra]).
    evar_last; [exact (is_derive_mult (fun a => a / 2) (fun a => 1 + tanh (z a)) a _ _ Dh D1 Rmult_comm)|]. change (/ 2 * (1 + tanh (z a)) + a / 2 * (c * (1 + 3 * kk * a ^ 2) * / cosh (z a) ^ 2) = / 2 * (1 + tanh (z a)) + a / 2 * (/ cosh (z a) ^ 2 * (c * (1 + 3 * kk * a ^ 2)))). ring.
  - intros a. set (z := c * (a + kk * a ^ 3)). destruct (cosh_sq_ge z) as (H1 & H2 & H3). pose proof (tanh_bounds z) as Ht. eapply Rle_trans; [apply Rabs_triang|].
    assert (A : Rabs (/ 2 * (1 + tanh z)) <= 1) by (apply Rabs_le; lra).
    assert (Hz : Rabs (a * (c * (1 + 3 * kk * a ^ 2))) <= 3 * Rabs z).
    { unfold z. replace (a * (c * (1 + 3 * kk * a ^ 2))) with (a * (c * (1 + 3 * kk * a ^ 2))) by ring. replace (c * (a + kk * a ^ 3)) with (a * (c * (1 + kk * a ^ 2))) by ring. rewrite !Rabs_mult, (Rabs_pos_eq c) by lra.
      pose proof (pow2_ge_0 a). assert (0 <= kk * a ^ 2) by (apply Rmult_le_pos; lra). rewrite (Rabs_pos_eq (1 + 3 * kk * a ^ 2)), (Rabs_pos_eq (1 + kk * a ^ 2)) by lra.
      pose proof (Rabs_pos a). replace (3 * (Rabs a * (c * (1 + kk * a ^ 2)))) with (Rabs a * (c * (3 * (1 + kk * a ^ 2)))) by ring. apply Rmult_le_compat_l; [assumption|]. apply Rmult_le_compat_l; lra. }
    assert (B : Rabs (a / 2 * (/ cosh z ^ 2 * (c * (1 + 3 * kk * a ^ 2)))) <= 3 / 2).
    { replace (a / 2 * (/ cosh z ^ 2 * (c * (1 + 3 * kk * a ^ 2)))) with (/ 2 * / cosh z ^ 2 * (a * (c * (1 + 3 * kk * a ^ 2)))) by (field; nra).
      assert (Hi : 0 < / cosh z ^ 2) by (apply Rinv_0_lt_compat; lra). rewrite Rabs_mult, (Rabs_pos_eq (/ 2 * / cosh z ^ 2)) by lra. apply Rle_trans with (/ 2 * / cosh z ^ 2 * (3 * cosh z ^ 2)); [apply Rmult_le_compat_l; lra|]. right. field. lra. }
    lra.
Qed.

Section lips.
  Context {W : Type}.
  Variables (ok : W -> Prop) (del : W -> R).
  Hypothesis del_pos : forall w, ok w -> 0 <= del w.
  Notation lip := (lip ok del). Notation good := (good ok del).
  Lemma lip_glob phi bd (f f' : W -> R) : glob_lip phi -> lip bd f f' -> lip bd (fun w => phi (f w)) (fun w => phi (f' w)).
  Proof using del_pos.
    intros (L & HL & Hphi) H. destruct bd; cbn [UNetLip.lip] in *.
    - apply (good_comp ok del phi); [|exact H]. intros M. exists L. split; [assumption|]. intros; apply Hphi.
    - destruct H as (k & Hk & H). exists (L * k). split; [now apply Rmult_le_pos|]. intros w Hw. eapply Rle_trans; [apply Hphi|]. rewrite Rmult_assoc. apply Rmult_le_compat_l; [assumption|now apply H].
  Qed.
  (** a product with a bounded factor, which does not vary when the other factor is unbounded *)
  Lemma lip_mult bd (f f' g g' : W -> R) : lip bd f f' -> good g g' -> (bd = false -> forall w, ok w -> g w = g' w) -> lip bd (fun w => f w * g w) (fun w => f' w * g' w).
  Proof using del_pos.
    intros H G E. destruct bd; cbn [UNetLip.lip] in *; [now apply (good_mult ok del del_pos)|]. destruct H as (k & Hk & H). destruct G as (M & l & HM & _ & G). exists (k * M). split; [now apply Rmult_le_pos|].
    intros w Hw. rewrite <- (E eq_refl w Hw). specialize (H w Hw). destruct (G w Hw) as (G1 & _ & _). rewrite <- Rmult_minus_distr_r, Rabs_mult. pose proof (del_pos w Hw). replace (k * M * del w) with (k * del w * M) by ring.
    apply Rmult_le_compat; auto using Rabs_pos.
  Qed.
  Lemma lip_dense bd K bias n (x x' : nat -> W -> R) o : (forall i, (i < n)%nat -> lip bd (x i) (x' i)) ->
    lip bd (fun w => dense_val K bias n (fun i => x i w) o) (fun w => dense_val K bias n (fun i => x' i w) o).
  Proof using del_pos.
    intros H. unfold dense_val. apply lip_plus; [|now apply lip_const]. apply (lip_sum ok del del_pos bd (seq 0 n) (fun i w => x i w * K i o) (fun i w => x' i w * K i o)). intros i Hi. apply in_seq in Hi.
    eapply lip_ext; [|apply (lip_scale ok del del_pos bd (K i o) (x i) (x' i)); apply H; lia]. intros w _. cbv beta. split; ring.
  Qed.
  Variables (t t' : W -> R).
  Hypothesis times : forall w, ok w -> Rabs (t w - t' w) <= del w.
  Lemma emb_good dt dim i : good (fun w => nth i (emb dt dim (t w)) 0) (fun w => nth i (emb dt dim (t' w)) 0).
  Proof using del_pos times.
    set (m := (dim / 2)%nat). set (fr := fun i => freq (10 ^ 4) m i).
    assert (G : forall f : R -> R, (forall a, -1 <= f a <= 1) -> (forall a c, Rabs (f a - f c) <= Rabs (a - c)) -> forall k, good (fun w => f (t w / dt * fr k)) (fun w => f (t' w / dt * fr k))).
    { intros f Hf Hl k. exists 1, (Rabs (/ dt * fr k)). split; [lra|]. split; [apply Rabs_pos|]. intros w Hw. split; [apply Rabs_le, Hf|]. split; [apply Rabs_le, Hf|]. eapply Rle_trans; [apply Hl|].
      replace (t w / dt * fr k - t' w / dt * fr k) with (/ dt * fr k * (t w - t' w)) by (unfold Rdiv; ring).
      rewrite Rabs_mult. apply Rmult_le_compat_l; [apply Rabs_pos|]. now apply times. }
    assert (E : forall t, nth i (emb dt dim t) 0 = if Nat.ltb i m then sin (t / dt * fr i) else if Nat.ltb i (m + m) then cos (t / dt * fr (i - m)%nat) else 0).
    { intros s. unfold emb. fold m. destruct (Nat.ltb_spec i m) as [Hi|Hi].
      - rewrite app_nth1 by (rewrite map_length, seq_length; lia). rewrite (nth_indep _ 0 (sin (s / dt * fr 0%nat))) by (rewrite map_length, seq_length; lia). rewrite (map_nth (fun i => sin (s / dt * fr i))). rewrite seq_nth by lia. reflexivity.
      - rewrite app_nth2 by (rewrite map_length, seq_length; lia). rewrite map_length, seq_length. destruct (Nat.ltb_spec i (m + m)) as [Hj|Hj].
        + rewrite (nth_indep _ 0 (cos (s / dt * fr 0%nat))) by (rewrite map_length, seq_length; lia). rewrite (map_nth (fun i => cos (s / dt * fr i))). rewrite seq_nth by lia. reflexivity.
        + apply nth_overflow. rewrite map_length, seq_length. lia. }
    eapply good_ext; [intros w _; split; apply E|]. destruct (i <? m)%nat; [apply (G sin SIN_bound sin_lip)|]. destruct (i <? m + m)%nat; [apply (G cos COS_bound cos_lip)|]. now apply good_const.
  Qed.
End lips.

(** ** What happens to one row *)
Section row.
  Variable P : params.
  Notation D path n v := (dense_val (dkernel P path) (dbias P path) n v).
  Definition tb_row (path : list nat) (nf : nat) (e : nat -> R) : nat -> R := D (path ++ [1])%nat nf (fun i => gelu (D (path ++ [0])%nat 32 e i)).
  Definition crescent_step (ind h d : nat) (e x : nat -> R) : nat -> R :=
    fun o => gelu (D [0; ind; 0]%nat d x o * tb_row [0; ind; 1]%nat h e o + tb_row [0; ind; 2]%nat h e o).
  Fixpoint crescent_row (ind : nat) (hs : list nat) (d : nat) (e x : nat -> R) : nat -> R :=
    match hs with [] => x | h :: hs' => crescent_row (S ind) hs' h e (crescent_step ind h d e x) end.
  Definition crescent_out (hs : list nat) (d : nat) (e x : nat -> R) : nat -> R := D [1]%nat (last hs d) (crescent_row 0 hs d e x).
  Definition gmsb_row (d : nat) (e x : nat -> R) : nat -> R :=
    let te o := gelu (D [0]%nat 32 e o) in
    let x o := gelu (D [1]%nat d x o) in
    let x o := gelu (D [2]%nat 16 x o) in
    let h i := if Nat.ltb i 32 then x i else te (i - 32)%nat in
    let h o := gelu (D [3]%nat 64 h o) in
    let h o := gelu (D [4]%nat 64 h o) in
    D [5]%nat 16 h.
  Fixpoint tail_row (i : nat) (zs : list nat) (d : nat) (z : nat -> R) : nat -> R :=
    match zs with [] => z | f :: zs' => tail_row (S i) zs' f (fun o => relu (D [4; i]%nat d z o)) end.
  Definition vec_row (embed_dim w1 w2 u1 u2 : nat) (zs : list nat) (d : nat) (e x : nat -> R) : nat -> R :=
    let x o := D [1]%nat w1 (fun i => relu (D [0]%nat d x i)) o in
    let t o := D [3]%nat u1 (fun i => relu (D [2]%nat embed_dim e i)) o in
    let z i := if Nat.ltb i w2 then x i else t (i - w2)%nat in
    D [5]%nat (last zs (w2 + u2)%nat) (tail_row 0 zs (w2 + u2) z).
End row.

Lemma last_step {A} (h : A) : forall hs d, last (h :: hs) d = last hs h.
Proof.
  intros hs. revert h. induction hs as [|k hs IH]; intros h d; [reflexivity|]. change (last (h :: k :: hs) d) with (last (k :: hs) d). now rewrite !IH.
Qed.
Lemma bcast_again m k n : bcast m k = Some n -> bcast n k = Some n.
Proof.
  unfold bcast. destruct (Nat.eqb_spec m k) as [ ->|H1]; [intros [= <-]; now rewrite Nat.eqb_refl|]. destruct (Nat.eqb_spec m 1) as [ ->|H2]; [intros [= <-]; now rewrite Nat.eqb_refl|].
  destruct (Nat.eqb_spec k 1) as [ ->|H3]; [intros [= <-]|discriminate]. destruct (Nat.eqb_spec m 1); [contradiction|reflexivity].
Qed.
Lemma pick_lt n b : (b < n)%nat -> pick n b = b.
Proof. intros H. unfold pick. destruct (Nat.eqb_spec n 1); lia. Qed.

Lemma crescent_blocks_rows P te : rd te = 32%nat -> forall hs ind x, bcast (rn x) (rn te) = Some (rn x) ->
  exists y, crescent_blocks P ind hs te x = Some y /\ rn y = rn x /\ rd y = last hs (rd x) /\
    forall b, (b < rn x)%nat -> rv y b = crescent_row P ind hs (rd x) (rv te (pick (rn te) b)) (rv x b).
Proof.
  intros Ht. induction hs as [|h hs IH]; intros ind x Hb; [exists x; cbn; auto|]. cbn [crescent_blocks]. unfold rbin, time_block. cbn [rn rd rv rdense rmap]. rewrite Nat.eqb_refl. cbn [check]. rewrite Hb. cbn [rn rd rv]. rewrite Nat.eqb_refl. cbn [check]. rewrite Hb.
  match goal with |- exists y, crescent_blocks _ _ _ _ ?x' = _ /\ _ => set (z := x') end.
  destruct (IH (S ind) z) as (y & Y1 & Y2 & Y3 & Y4); [exact Hb|]. exists y. split; [exact Y1|]. split; [exact Y2|]. split; [rewrite Y3; symmetry; apply last_step|].
  intros b Hlt. rewrite (Y4 b Hlt). cbn [crescent_row]. unfold z. cbn [rmap rv rd rn]. unfold crescent_step, tb_row. rewrite !(pick_lt (rn x) b Hlt), Ht. reflexivity.
Qed.
Lemma crescent_rows P te h hs x : rd te = 32%nat ->
  match bcast (rn x) (rn te) with
  | Some n => exists y, crescent_blocks P 0 (h :: hs) te x = Some y /\ rn y = n /\ rd y = last (h :: hs) (rd x) /\
      forall b, (b < n)%nat -> rv y b = crescent_row P 0 (h :: hs) (rd x) (rv te (pick (rn te) b)) (rv x (pick (rn x) b))
  | None => crescent_blocks P 0 (h :: hs) te x = None
  end.
Proof.
  intros Ht. cbn [crescent_blocks].
  assert (R : rbin Rmult (rdense P [0; 0; 0]%nat h x) (time_block P [0; 0; 1]%nat h te) = match bcast (rn x) (rn te) with
    | Some n => Some (Rows n h (fun b i => rv (rdense P [0; 0; 0]%nat h x) (pick (rn x) b) i * rv (time_block P [0; 0; 1]%nat h te) (pick (rn te) b) i)) | None => None end).
  { unfold rbin, time_block. cbn [rn rd rdense rmap]. rewrite Nat.eqb_refl. reflexivity. }
  rewrite R. destruct (bcast (rn x) (rn te)) as [n|] eqn:Hb; [|reflexivity].
  pose proof (bcast_again _ _ _ Hb) as Hb'. unfold rbin, time_block. cbn [rn rd rv rdense rmap]. rewrite Nat.eqb_refl. cbn [check]. rewrite Hb'.
  match goal with |- exists y, crescent_blocks _ _ _ _ ?x' = _ /\ _ => set (z := x') end.
  destruct (crescent_blocks_rows P te Ht hs 1 z) as (y & Y1 & Y2 & Y3 & Y4); [exact Hb'|]. exists y. split; [exact Y1|]. split; [exact Y2|]. split; [rewrite Y3; symmetry; apply last_step|].
  intros b Hlt. rewrite (Y4 b Hlt). cbn [crescent_row]. unfold z. cbn [rmap rv rd rn]. unfold crescent_step, tb_row. rewrite !(pick_lt n b Hlt), Ht. reflexivity.
Qed.
Definition time_count (t : time_arg) : nat := match t with At _ => 1%nat | Each ts => length ts end.
Definition time_at (t : time_arg) (b : nat) : R := match t with At t => t | Each ts => nth (pick (length ts) b) ts 0 end.
Lemma time_rows_value dt dim t : (dim mod 2 = 0)%nat -> dim <> 2%nat -> exists te, time_rows dt dim t = Some te /\ rn te = time_count t /\ rd te = dim /\
  forall b, (pick (rn te) b < rn te)%nat -> rv te (pick (rn te) b) = fun i => nth i (emb dt dim (time_at t b)) 0.
Proof.
  intros He H2. destruct t as [t|ts]; cbn [time_rows].
  - rewrite embed_value by assumption. eexists. split; [reflexivity|]. cbn. auto.
  - destruct (embed_all_nth dt dim ts (fun t => ex_intro _ _ (embed_value dt dim t He H2))) as (es & E1 & E2). rewrite E1. eexists. split; [reflexivity|]. cbn [rn rd rv time_count time_at]. split; [reflexivity|]. split; [reflexivity|].
    intros b Hb. specialize (E2 (pick (length ts) b) Hb). rewrite embed_value in E2 by assumption. apply Some_eq in E2. now rewrite E2.
Qed.
Lemma pick_ok m k n b : bcast m k = Some n -> (b < n)%nat -> (pick m b < m)%nat /\ (pick k b < k)%nat.
Proof.
  unfold bcast, pick. destruct (Nat.eqb_spec m k) as [ ->|H1]; [intros [= ->]; destruct (Nat.eqb_spec n 1); lia|]. destruct (Nat.eqb_spec m 1) as [ ->|H2]; [intros [= ->]; destruct (Nat.eqb_spec n 1); lia|].
  destruct (Nat.eqb_spec k 1) as [ ->|H3]; [intros [= ->]; lia|discriminate].
Qed.

(** ** Shapes and values of the whole networks *)
Definition row_count (x : arr) : nat := match x with Scal _ => 0 | Vect _ _ => 1 | Table x => rn x end.
Definition width (x : arr) : nat := match x with Scal _ => 0 | Vect d _ => d | Table x => rd x end.
Definition row (x : arr) (b : nat) : nat -> R := match x with Scal a => fun _ => a | Vect _ v => v | Table x => rv x (pick (rn x) b) end.
Definition is_scalar (x : arr) : bool := match x with Scal _ => true | _ => false end.
Lemma squeeze_dims x : dims (rsqueeze x) = filter (fun m => negb (m =? 1)%nat) [rn x; rd x].
Proof. unfold rsqueeze. cbn [filter]. destruct (Nat.eqb_spec (rn x) 1), (Nat.eqb_spec (rd x) 1); reflexivity. Qed.
Lemma squeeze_get x b i : (b < rn x)%nat -> (i < rd x)%nat -> get (rsqueeze x) (b * rd x + i) = rv x b i.
Proof.
  intros Hb Hi. unfold rsqueeze. destruct (Nat.eqb_spec (rn x) 1) as [Hn|Hn], (Nat.eqb_spec (rd x) 1) as [Hd|Hd]; cbn [get].
  - f_equal; lia.
  - replace b with 0%nat by lia. reflexivity.
  - rewrite Hd. f_equal; lia.
  - rewrite Nat.div_add_l, Nat.div_small, Nat.add_0_r by lia. rewrite Nat.add_comm, Nat.mod_add, Nat.mod_small by lia. reflexivity.
Qed.
Lemma table_get x b i : (i < rd x)%nat -> get (Table x) (b * rd x + i) = rv x b i.
Proof. intros Hi. cbn [get]. rewrite Nat.div_add_l, Nat.div_small, Nat.add_0_r by lia. rewrite Nat.add_comm, Nat.mod_add, Nat.mod_small by lia. reflexivity. Qed.

Theorem crescent_total P dt dim h hs x t :
  match (if is_scalar x then None else bcast (row_count x) (time_count t)) with
  | Some n => exists o, crescent_val P dt dim (h :: hs) x t = Some o /\ dims o = filter (fun m => negb (m =? 1)%nat) [n; dim] /\
      forall b i, (b < n)%nat -> (i < dim)%nat -> get o (b * dim + i) = crescent_out P (h :: hs) (width x) (fun i => nth i (emb dt 32 (time_at t b)) 0) (row x b) i
  | None => crescent_val P dt dim (h :: hs) x t = None
  end.
Proof.
  unfold crescent_val. destruct (time_rows_value dt 32 t eq_refl ltac:(discriminate)) as (te & -> & T2 & T3 & T4).
  assert (K : forall x0, match bcast (rn x0) (time_count t) with
    | Some n => exists o, (do y <- crescent_blocks P 0 (h :: hs) te x0; Some (rsqueeze (rdense P [1]%nat dim y))) = Some o /\ dims o = filter (fun m => negb (m =? 1)%nat) [n; dim] /\
        forall b i, (b < n)%nat -> (i < dim)%nat -> get o (b * dim + i) = crescent_out P (h :: hs) (rd x0) (fun i => nth i (emb dt 32 (time_at t b)) 0) (rv x0 (pick (rn x0) b)) i
    | None => (do y <- crescent_blocks P 0 (h :: hs) te x0; Some (rsqueeze (rdense P [1]%nat dim y))) = None
    end).
  { intros x0. pose proof (crescent_rows P te h hs x0 T3) as C. rewrite T2 in C. destruct (bcast (rn x0) (time_count t)) as [n|] eqn:Hb; [|now rewrite C]. destruct C as (y & -> & Y2 & Y3 & Y4).
    eexists. split; [reflexivity|]. split; [rewrite squeeze_dims; cbn [rdense rn rd]; now rewrite Y2|]. intros b i Hlt Hi. rewrite (squeeze_get (rdense P [1]%nat dim y)) by (cbn; lia). cbn [rdense rv]. rewrite (Y4 b Hlt), Y3. unfold crescent_out.
    destruct (pick_ok _ _ _ _ Hb Hlt) as [_ Hp]. rewrite <- T2. rewrite <- T2 in Hp. now rewrite T4. }
  destruct x as [a|d v|x]; cbn [is_scalar row_count width row]; [reflexivity| |]; [apply (K (Rows 1 d (fun _ => v)))|apply (K x)].
Qed.
Theorem gmsb_total P dt dim x t :
  match x with
  | Table x0 => if ((time_count t =? 1) || (time_count t =? rn x0))%nat then exists o, gmsb_val P dt dim x t = Some o /\ dims o = [rn x0; dim] /\
      forall b i, (b < rn x0)%nat -> (i < dim)%nat -> get o (b * dim + i) = gmsb_row P (rd x0) (fun i => nth i (emb dt 32 (time_at t b)) 0) (rv x0 b) i
      else gmsb_val P dt dim x t = None
  | _ => gmsb_val P dt dim x t = None
  end.
Proof.
  unfold gmsb_val. destruct (time_rows_value dt 32 t eq_refl ltac:(discriminate)) as (te & -> & T2 & T3 & T4). destruct x as [a|d v|x]; [reflexivity|reflexivity|].
  unfold gmsb_rows. cbn [rn rd rv rmap rdense]. rewrite T2. destruct ((time_count t =? 1) || (time_count t =? rn x))%nat eqn:Hc; cbn [check]; [|reflexivity]. unfold rconcat. cbn [rn rd rv]. rewrite Nat.eqb_refl. cbn [check].
  eexists. split; [reflexivity|]. split; [reflexivity|]. intros b i Hb Hi.
  match goal with |- get (Table ?y) _ = _ => refine (eq_trans (table_get y b i Hi) _) end. cbn [rdense rv rd rmap]. unfold gmsb_row. rewrite T3.
  assert (Hp : (pick (rn te) b < rn te)%nat). { rewrite T2. unfold pick. destruct (Nat.eqb_spec (time_count t) 1) as [E|E]; [lia|]. cbn [orb] in Hc. apply Nat.eqb_eq in Hc. lia. }
  rewrite <- T2. rewrite (T4 b Hp). reflexivity.
Qed.
Lemma tail_rows P zs : forall i z, rn z = 1%nat -> let y := fst (fold_left (fun '(z, i) f => (rmap relu (rdense P [4; i]%nat f z), S i)) zs (z, i)) in
  rn y = 1%nat /\ rd y = last zs (rd z) /\ rv y 0%nat = tail_row P i zs (rd z) (rv z 0%nat).
Proof.
  induction zs as [|f zs IH]; intros i z Hz; cbn [fold_left]; [cbn; auto|]. destruct (IH (S i) (rmap relu (rdense P [4; i]%nat f z)) Hz) as (I1 & I2 & I3). cbv zeta. split; [exact I1|]. split; [rewrite I2; symmetry; apply last_step|exact I3].
Qed.
Theorem vec_total P ed out w1 w2 u1 u2 zs d x t : (ed mod 2 = 0)%nat -> ed <> 2%nat -> exists o, vec_net P ed out w1 w2 u1 u2 zs d x t = Some o /\ dims o = filter (fun m => negb (m =? 1)%nat) [out] /\
  forall i, (i < out)%nat -> get o i = vec_row P ed w1 w2 u1 u2 zs d (fun i => nth i (emb 1 ed t) 0) x i.
Proof.
  intros He H2. unfold vec_net. rewrite embed_value by assumption. unfold rconcat. cbn [rn rd rv rdense rmap check Nat.eqb].
  match goal with |- exists o, Some (rsqueeze (rdense P _ _ (fst (fold_left _ _ (?z, _))))) = _ /\ _ => set (z0 := z) end. destruct (tail_rows P zs 0 z0 eq_refl) as (I1 & I2 & I3).
  eexists. split; [reflexivity|]. split; [rewrite squeeze_dims; cbn [rdense rn rd]; rewrite I1; reflexivity|]. intros i Hi.
  match goal with |- get (rsqueeze ?y) _ = _ => pose proof (squeeze_get y 0 i) as G end. cbn [rdense rn rd rv Nat.mul Nat.add] in G. rewrite G by (rewrite ?I1; lia). rewrite I3, I2. reflexivity.
Qed.

(** ** Lipschitz bounds for a row *)
Section rowlip.
  Context {W : Type}.
  Variables (ok : W -> Prop) (del : W -> R).
  Hypothesis del_pos : forall w, ok w -> 0 <= del w.
  Variable P : params.
  Notation lip := (lip ok del). Notation good := (good ok del).
  Variables (e e' : nat -> W -> R).
  Hypothesis He : forall i, good (e i) (e' i).
  Lemma tb_good path nf o : good (fun w => tb_row P path nf (fun i => e i w) o) (fun w => tb_row P path nf (fun i => e' i w) o).
  Proof using He del_pos.
    unfold tb_row. apply (lip_dense ok del del_pos true _ _ nf (fun i w => gelu (dense_val _ _ 32 (fun i => e i w) i)) (fun i w => gelu (dense_val _ _ 32 (fun i => e' i w) i))). intros i _. cbn [UNetLip.lip].
    apply (lip_glob ok del del_pos gelu true); [apply gelu_glob|]. apply (lip_dense ok del del_pos true). intros j _. apply He.
  Qed.
  Lemma crescent_row_lip bd : (bd = false -> forall i w, ok w -> e i w = e' i w) -> forall hs ind d (x x' : nat -> W -> R), (forall i, (i < d)%nat -> lip bd (x i) (x' i)) ->
    forall o, (o < last hs d)%nat -> lip bd (fun w => crescent_row P ind hs d (fun i => e i w) (fun i => x i w) o) (fun w => crescent_row P ind hs d (fun i => e' i w) (fun i => x' i w) o).
  Proof using He del_pos.
    intros Hs. induction hs as [|h hs IH]; intros ind d x x' Hx o Ho; cbn [crescent_row]; [now apply Hx|].
    apply (IH (S ind) h (fun o w => crescent_step P ind h d (fun i => e i w) (fun i => x i w) o) (fun o w => crescent_step P ind h d (fun i => e' i w) (fun i => x' i w) o)); [|now rewrite last_step in Ho].
    intros j _. unfold crescent_step. apply (lip_glob ok del del_pos gelu bd (fun w => _) (fun w => _) gelu_glob). apply lip_plus; [|apply good_lip, tb_good]. apply lip_mult; [assumption|now apply lip_dense|apply tb_good|].
    intros Hb w Hw. unfold tb_row, dense_val. f_equal. apply Rsum_map_ext. intros i _. do 2 f_equal. f_equal. apply Rsum_map_ext. intros q _. now rewrite (Hs Hb q w Hw).
  Qed.
  Lemma crescent_out_lip bd hs d (x x' : nat -> W -> R) o : (bd = false -> forall i w, ok w -> e i w = e' i w) -> (forall i, (i < d)%nat -> lip bd (x i) (x' i)) ->
    lip bd (fun w => crescent_out P hs d (fun i => e i w) (fun i => x i w) o) (fun w => crescent_out P hs d (fun i => e' i w) (fun i => x' i w) o).
  Proof using He del_pos.
    intros Hs Hx. unfold crescent_out. apply (lip_dense ok del del_pos bd _ _ _ (fun j w => crescent_row P 0 hs d (fun i => e i w) (fun i => x i w) j) (fun j w => crescent_row P 0 hs d (fun i => e' i w) (fun i => x' i w) j)).
    intros j Hj. now apply crescent_row_lip.
  Qed.
  Lemma gmsb_lip bd d (x x' : nat -> W -> R) o : (forall i, (i < d)%nat -> lip bd (x i) (x' i)) -> lip bd (fun w => gmsb_row P d (fun i => e i w) (fun i => x i w) o) (fun w => gmsb_row P d (fun i => e' i w) (fun i => x' i w) o).
  Proof using He del_pos.
    intros Hx. unfold gmsb_row. cbv zeta.
    assert (L : forall path n (y y' : nat -> W -> R), (forall i, (i < n)%nat -> lip bd (y i) (y' i)) -> forall o, lip bd (fun w => gelu (dense_val (dkernel P path) (dbias P path) n (fun i => y i w) o)) (fun w => gelu (dense_val (dkernel P path) (dbias P path) n (fun i => y' i w) o))).
    { intros path n y y' Hy q. apply (lip_glob ok del del_pos gelu bd (fun w => _) (fun w => _) gelu_glob). now apply lip_dense. }
    apply (lip_dense ok del del_pos bd _ _ 16 (fun i w => _) (fun i w => _)). intros i1 _. apply (L _ 64%nat (fun i w => _) (fun i w => _)). intros i2 _. apply (L _ 64%nat (fun i w => _) (fun i w => _)). intros i3 _.
    destruct (Nat.ltb i3 32).
    - apply (L _ 16%nat (fun i w => _) (fun i w => _)). intros i4 _. now apply (L _ d x x').
    - apply (L _ 32%nat e e'). intros q _. now apply good_lip.
  Qed.
  Lemma tail_lip bd zs : forall i d (z z' : nat -> W -> R), (forall j, (j < d)%nat -> lip bd (z j) (z' j)) -> forall o, (o < last zs d)%nat ->
    lip bd (fun w => tail_row P i zs d (fun j => z j w) o) (fun w => tail_row P i zs d (fun j => z' j w) o).
  Proof using del_pos.
    induction zs as [|f zs IH]; intros i d z z' Hz o Ho; cbn [tail_row]; [now apply Hz|]. apply (IH (S i) f (fun o w => relu (dense_val _ _ d (fun j => z j w) o)) (fun o w => relu (dense_val _ _ d (fun j => z' j w) o))); [|now rewrite last_step in Ho].
    intros j _. apply (lip_glob ok del del_pos relu bd (fun w => _) (fun w => _) relu_glob). now apply lip_dense.
  Qed.
  Lemma vec_lip bd ed w1 w2 u1 u2 zs d (x x' : nat -> W -> R) o : (forall i, (i < d)%nat -> lip bd (x i) (x' i)) ->
    lip bd (fun w => vec_row P ed w1 w2 u1 u2 zs d (fun i => e i w) (fun i => x i w) o) (fun w => vec_row P ed w1 w2 u1 u2 zs d (fun i => e' i w) (fun i => x' i w) o).
  Proof using He del_pos.
    intros Hx. unfold vec_row. cbv zeta.
    assert (L : forall p1 p2 n m (y y' : nat -> W -> R), (forall i, (i < n)%nat -> lip bd (y i) (y' i)) -> forall o,
      lip bd (fun w => dense_val (dkernel P p2) (dbias P p2) m (fun i => relu (dense_val (dkernel P p1) (dbias P p1) n (fun i => y i w) i)) o) (fun w => dense_val (dkernel P p2) (dbias P p2) m (fun i => relu (dense_val (dkernel P p1) (dbias P p1) n (fun i => y' i w) i)) o)).
    { intros p1 p2 n m y y' Hy q. apply (lip_dense ok del del_pos bd _ _ m (fun i w => _) (fun i w => _)). intros i _. apply (lip_glob ok del del_pos relu bd (fun w => _) (fun w => _) relu_glob). now apply lip_dense. }
    apply (lip_dense ok del del_pos bd _ _ _ (fun i w => _) (fun i w => _)). intros i Hi. apply (tail_lip bd zs 0 (w2 + u2) (fun i w => _) (fun i w => _)); [|exact Hi]. intros j _. destruct (Nat.ltb j w2).
    - now apply (L _ _ d w1 x x').
    - apply (L _ _ ed u1 e e'). intros q _. now apply good_lip.
  Qed.
End rowlip.
