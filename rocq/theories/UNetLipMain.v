(** The whole U-Net is Lipschitz in the image and the time. *)
From Coq Require Import Reals List Lia Lra Bool PeanoNat Psatz.
From Verif Require Import Base Nets UNet UNetVal UNetShape UNetSep UNetGrow UNetLip UNetLipNet.
Import ListNotations.
Open Scope R_scope.

(** ** The time embedding *)
Definition emb (dt : R) (dim : nat) (t : R) : list R :=
  map (fun i => sin (t / dt * freq (10 ^ 4) (dim / 2) i)) (seq 0 (dim / 2)) ++ map (fun i => cos (t / dt * freq (10 ^ 4) (dim / 2) i)) (seq 0 (dim / 2)).
Lemma no_nan_some l : no_nan (map Some l) = Some l.
Proof. induction l as [|a l IH]; cbn [map no_nan]; [reflexivity|]. now rewrite IH. Qed.
Lemma embed_value dt dim t : (dim mod 2 = 0)%nat -> dim <> 2%nat -> embed dt dim t = Some (emb dt dim t).
Proof.
  intros He H2. pose proof (Nat.div_mod dim 2 ltac:(lia)) as D. rewrite He, Nat.add_0_r in D. unfold embed, emb. destruct (Nat.eq_dec dim 0) as [ ->|H0]; [reflexivity|].
  rewrite D at 1. rewrite sinusoidal_value by lia. apply no_nan_some.
Qed.
Lemma time_embedding_value P dt dim B b t : (dim mod 2 = 0)%nat -> dim <> 2%nat -> (b < B)%nat -> time_fits B t ->
  exists te, time_embedding P dt dim B t = Some te /\ tbat te = B /\ tlen te = (dim * 4)%nat /\ tval te b = time_mlp P dim (emb dt dim (time_of t b)).
Proof.
  intros He H2 Hb Hf. unfold time_embedding. rewrite He. cbn [Nat.eqb check]. destruct t as [t|ts]; cbn [time_of].
  - rewrite embed_value by assumption. eexists. split; [reflexivity|]. cbn. auto.
  - destruct (embed_all_nth dt dim ts (fun t => ex_intro _ _ (embed_value dt dim t He H2))) as (es & E1 & E2). rewrite E1. eexists. split; [reflexivity|]. cbn [tbat tlen tval]. split; [exact Hf|]. split; [reflexivity|].
    cbn in Hf. specialize (E2 b ltac:(lia)). rewrite embed_value in E2 by assumption. apply Some_eq in E2. now rewrite E2.
Qed.
Lemma time_embedding_none P dt dim B b t : (dim mod 2 <> 0)%nat \/ dim = 2%nat -> (b < B)%nat -> time_fits B t -> time_embedding P dt dim B t = None.
Proof.
  intros [Ho| ->] Hb Hf; unfold time_embedding; [rewrite (proj2 (Nat.eqb_neq _ _) Ho); reflexivity|]. change (2 mod 2 =? 0)%nat with true. cbn [check].
  assert (N : forall t, embed dt 2 t = None) by reflexivity. destruct t as [t|ts]; [now rewrite N|]. destruct ts as [|t ts]; cbn in Hf; [lia|]. cbn [embed_all]. now rewrite N.
Qed.

(** ** Two calls *)
Record calls := Calls { x1 : imgs; x2 : imgs; t1 : time_arg; t2 : time_arg; n1 : nat; n2 : nat; dist : R }.
Definition near_pictures (d : R) (x x' : imgs) (b b' : nat) : Prop :=
  size x = size x' /\ let '(h, w, c) := size x in forall i j k, (i < h)%nat -> (j < w)%nat -> (k < c)%nat -> Rabs (picture x b i j k - picture x' b' i j k) <= d.
Definition allowed (s : nat * nat * nat) (w : calls) : Prop :=
  size (x1 w) = s /\ size (x2 w) = s /\ (n1 w < batch (x1 w))%nat /\ (n2 w < batch (x2 w))%nat /\ time_fits (batch (x1 w)) (t1 w) /\ time_fits (batch (x2 w)) (t2 w) /\
  0 <= dist w /\ near_pictures (dist w) (x1 w) (x2 w) (n1 w) (n2 w) /\ Rabs (time_of (t1 w) (n1 w) - time_of (t2 w) (n2 w)) <= dist w.
Lemma allowed_pos s w : allowed s w -> 0 <= dist w.
Proof. intros H. apply H. Qed.

Lemma time_entry_good s dt dim i : good (allowed s) dist (fun w => nth i (emb dt dim (time_of (t1 w) (n1 w))) 0) (fun w => nth i (emb dt dim (time_of (t2 w) (n2 w))) 0).
Proof.
  set (m := (dim / 2)%nat). set (fr := fun i => freq (10 ^ 4) m i).
  assert (G : forall f : R -> R, (forall a, -1 <= f a <= 1) -> (forall a c, Rabs (f a - f c) <= Rabs (a - c)) -> forall k, good (allowed s) dist (fun w => f (time_of (t1 w) (n1 w) / dt * fr k)) (fun w => f (time_of (t2 w) (n2 w) / dt * fr k))).
  { intros f Hf Hl k. exists 1, (Rabs (/ dt * fr k)). split; [lra|]. split; [apply Rabs_pos|]. intros w Hw. split; [apply Rabs_le, Hf|]. split; [apply Rabs_le, Hf|]. eapply Rle_trans; [apply Hl|].
    replace (time_of (t1 w) (n1 w) / dt * fr k - time_of (t2 w) (n2 w) / dt * fr k) with (/ dt * fr k * (time_of (t1 w) (n1 w) - time_of (t2 w) (n2 w))) by (unfold Rdiv; ring).
    rewrite Rabs_mult. apply Rmult_le_compat_l; [apply Rabs_pos|]. apply Hw. }
  assert (E : forall t, nth i (emb dt dim t) 0 = if Nat.ltb i m then sin (t / dt * fr i) else if Nat.ltb i (m + m) then cos (t / dt * fr (i - m)%nat) else 0).
  { intros t. unfold emb. fold m. destruct (Nat.ltb_spec i m) as [Hi|Hi].
    - rewrite app_nth1 by (rewrite map_length, seq_length; lia). rewrite (nth_indep _ 0 (sin (t / dt * fr 0%nat))) by (rewrite map_length, seq_length; lia). rewrite (map_nth (fun i => sin (t / dt * fr i))). rewrite seq_nth by lia. reflexivity.
    - rewrite app_nth2 by (rewrite map_length, seq_length; lia). rewrite map_length, seq_length. destruct (Nat.ltb_spec i (m + m)) as [Hj|Hj].
      + rewrite (nth_indep _ 0 (cos (t / dt * fr 0%nat))) by (rewrite map_length, seq_length; lia). rewrite (map_nth (fun i => cos (t / dt * fr i))). rewrite seq_nth by lia. reflexivity.
      + apply nth_overflow. rewrite map_length, seq_length. lia. }
  eapply good_ext; [intros w _; split; apply E|]. destruct (i <? m)%nat; [apply (G sin SIN_bound sin_lip)|]. destruct (i <? m + m)%nat; [apply (G cos COS_bound cos_lip)|]. apply good_const, allowed_pos.
Qed.
Lemma time_mlp_good s P dt dim i : good (allowed s) dist (fun w => time_mlp P dim (emb dt dim (time_of (t1 w) (n1 w))) i) (fun w => time_mlp P dim (emb dt dim (time_of (t2 w) (n2 w))) i).
Proof.
  pose proof (allowed_pos s) as Hp. unfold time_mlp. cbv zeta. unfold dense_val at 1 3. apply good_plus; [|now apply good_const].
  apply (good_sum (allowed s) dist Hp (seq 0 (dim * 4)) (fun a w => gelu (dense_val (dkernel P [5; 0]%nat) (dbias P [5; 0]%nat) dim (fun i => nth i (emb dt dim (time_of (t1 w) (n1 w))) 0) a) * dkernel P [5; 1]%nat a i)
    (fun a w => gelu (dense_val (dkernel P [5; 0]%nat) (dbias P [5; 0]%nat) dim (fun i => nth i (emb dt dim (time_of (t2 w) (n2 w))) 0) a) * dkernel P [5; 1]%nat a i)).
  intros a _. apply good_mult; [assumption| |now apply good_const]. apply good_gelu; [assumption|]. unfold dense_val. apply good_plus; [|now apply good_const].
  apply (good_sum (allowed s) dist Hp (seq 0 dim) (fun i w => nth i (emb dt dim (time_of (t1 w) (n1 w))) 0 * dkernel P [5; 0]%nat i a) (fun i w => nth i (emb dt dim (time_of (t2 w) (n2 w))) 0 * dkernel P [5; 0]%nat i a)).
  intros j _. apply good_mult; [assumption|apply time_entry_good|now apply good_const].
Qed.

Definition as_batch (x : imgs) : tensor := match x with Img x => Arr4 1 (sh x) (sw x) (sc x) (fun _ => dat x 0%nat) | Imgs x => x end.
Lemma as_batch_spec x b : (b < batch x)%nat -> sb (as_batch x) = batch x /\ (sh (as_batch x), sw (as_batch x), sc (as_batch x)) = size x /\ dat (as_batch x) b = picture x b.
Proof. destruct x as [x|x]; cbn; auto. Qed.

Lemma unet_lipschitz P dt dim init_dim out_dim groups mults mth s : exists k, 0 <= k /\ forall x x' t t' b b' d,
  size x = s -> size x' = s -> (b < batch x)%nat -> (b' < batch x')%nat -> time_fits (batch x) t -> time_fits (batch x') t' ->
  0 <= d -> near_pictures d x x' b b' -> Rabs (time_of t b - time_of t' b') <= d ->
  match unet_val P dt dim init_dim out_dim groups mults mth x t, unet_val P dt dim init_dim out_dim groups mults mth x' t' with
  | Some o, Some o' => near_pictures (k * d) o o' b b'
  | None, None => True
  | _, _ => False
  end.
Proof.
  destruct (Nat.eq_dec (dim mod 2) 0) as [He|Ho]; [destruct (Nat.eq_dec dim 2) as [H2|H2]|].
  1,3: exists 0; split; [lra|]; intros x x' t t' b b' d Hs Hs' Hb Hb' Hf Hf' _ _ _; unfold unet_val;
    rewrite (time_embedding_none P dt dim _ b t) by (solve [auto|destruct x; assumption]); rewrite (time_embedding_none P dt dim _ b' t') by (solve [auto|destruct x'; assumption]); exact I.
  destruct (rev mults) as [|k0 rk] eqn:Er.
  { exists 0. split; [lra|]. intros x x' t t' b b' d _ _ _ _ _ _ _ _ _. unfold unet_val. rewrite Er. destruct time_embedding, time_embedding; exact I. }
  pose proof (allowed_pos s) as Hp. set (none := Temb 0 0 (fun _ _ => 0)).
  set (T1 := fun w => match time_embedding P dt dim (batch (x1 w)) (t1 w) with Some te => te | None => none end).
  set (T2 := fun w => match time_embedding P dt dim (batch (x2 w)) (t2 w) with Some te => te | None => none end).
  assert (HT : gte (allowed s) dist (fun w => batch (x1 w)) (fun w => batch (x2 w)) n1 n2 T1 T2 /\ forall w, allowed s w -> time_embedding P dt dim (batch (x1 w)) (t1 w) = Some (T1 w) /\ time_embedding P dt dim (batch (x2 w)) (t2 w) = Some (T2 w)).
  { assert (E : forall w, allowed s w -> (time_embedding P dt dim (batch (x1 w)) (t1 w) = Some (T1 w) /\ tbat (T1 w) = batch (x1 w) /\ tlen (T1 w) = (dim * 4)%nat /\ tval (T1 w) (n1 w) = time_mlp P dim (emb dt dim (time_of (t1 w) (n1 w)))) /\
      (time_embedding P dt dim (batch (x2 w)) (t2 w) = Some (T2 w) /\ tbat (T2 w) = batch (x2 w) /\ tlen (T2 w) = (dim * 4)%nat /\ tval (T2 w) (n2 w) = time_mlp P dim (emb dt dim (time_of (t2 w) (n2 w))))).
    { intros w (_ & _ & B1 & B2 & F1 & F2 & _). destruct (time_embedding_value P dt dim _ _ _ He H2 B1 F1) as (te & E1 & E2). destruct (time_embedding_value P dt dim _ _ _ He H2 B2 F2) as (te' & E1' & E2').
      unfold T1, T2. rewrite E1, E1'. auto. }
    split; [|intros w Hw; destruct (E w Hw) as [(E1 & _) (E2 & _)]; auto]. exists (dim * 4)%nat. split; [intros w Hw; destruct (E w Hw) as [(_ & E1 & E2 & _) (_ & E3 & E4 & _)]; auto|].
    intros i _. eapply good_ext; [|exact (time_mlp_good s P dt dim i)]. intros w Hw. destruct (E w Hw) as [(_ & _ & _ & E1) (_ & _ & _ & E2)]. rewrite E1, E2. split; reflexivity. }
  destruct HT as [HT ET].
  assert (HX : gt (allowed s) dist (fun w => batch (x1 w)) (fun w => batch (x2 w)) n1 n2 false (fun w => as_batch (x1 w)) (fun w => as_batch (x2 w))).
  { destruct s as [[h wd] c]. exists h, wd, c. split.
    - intros w (S1 & S2 & B1 & B2 & _). destruct (as_batch_spec _ _ B1) as (A1 & A2 & _). destruct (as_batch_spec _ _ B2) as (C1 & C2 & _). rewrite S1 in A2. rewrite S2 in C2. injection A2 as A2 A3 A4. injection C2 as C2 C3 C4. auto 10.
    - intros i j k Hi Hj Hk. exists 1. split; [lra|]. intros w (S1 & S2 & B1 & B2 & _ & _ & D0 & N & _).
      destruct (as_batch_spec _ _ B1) as (_ & _ & A3). destruct (as_batch_spec _ _ B2) as (_ & _ & C3). rewrite A3, C3. destruct N as [_ N]. rewrite S1 in N. rewrite Rmult_1_l. now apply N. }
  pose proof (run_lip (allowed s) dist (fun w => batch (x1 w)) (fun w => batch (x2 w)) n1 n2 T1 T2 _ HT (lip_unet (allowed s) dist Hp (fun w => batch (x1 w)) (fun w => batch (x2 w)) n1 n2 P dim init_dim out_dim groups mults mth (dim * k0)) _ _ [] HX I) as R.
  assert (V : forall x t, unet_val P dt dim init_dim out_dim groups mults mth x t = match time_embedding P dt dim (batch x) t with
     | Some te => match run te (unet_steps P dim init_dim out_dim groups mults mth (dim * k0)) (as_batch x, []) with Some st => Some (if (batch x =? 1)%nat then Img (fst st) else Imgs (fst st)) | None => None end | None => None end).
  { intros x t. unfold unet_val. rewrite Er. destruct x; reflexivity. }
  assert (Fin : forall Bx b (h : tensor), (b < Bx)%nat -> picture (if (Bx =? 1)%nat then Img h else Imgs h) b = dat h b /\ size (if (Bx =? 1)%nat then Img h else Imgs h) = (sh h, sw h, sc h)).
  { intros Bx b h Hb. destruct (Nat.eqb_spec Bx 1) as [ ->|]; [|split; reflexivity]. assert (b = 0%nat) as -> by lia. split; reflexivity. }
  destruct R as [R|(Y & Y' & l & (h & wd & c & HS & HE) & _ & R)].
  { exists 0. split; [lra|]. intros x x' t t' b b' d Hs Hs' Hb Hb' Hf Hf' Hd N Nt. rewrite !V. set (w := Calls x x' t t' b b' d). assert (Hw : allowed s w) by (repeat (split; [assumption|]); assumption).
    destruct (ET w Hw) as [E1 E2]. destruct (R w Hw) as [R1 R2]. cbn [at1 at2 map] in R1, R2. change (x1 w) with x in *. change (x2 w) with x' in *. change (t1 w) with t in *. change (t2 w) with t' in *. rewrite E1, E2, R1, R2. exact I. }
  set (idx := list_prod (list_prod (seq 0 h) (seq 0 wd)) (seq 0 c)).
  destruct (lip_uniform (allowed s) dist Hp idx (fun a w => let '(i, j, k) := a in dat (Y w) (n1 w) i j k) (fun a w => let '(i, j, k) := a in dat (Y' w) (n2 w) i j k)) as (k & Hk & U).
  { intros [[i j] k] Hin. unfold idx in Hin. rewrite !in_prod_iff, !in_seq in Hin. apply HE; lia. }
  exists k. split; [assumption|]. intros x x' t t' b b' d Hs Hs' Hb Hb' Hf Hf' Hd N Nt. rewrite !V. set (w := Calls x x' t t' b b' d). assert (Hw : allowed s w) by (repeat (split; [assumption|]); assumption).
  destruct (ET w Hw) as [E1 E2]. destruct (R w Hw) as [R1 R2]. destruct (HS w Hw) as ((A1 & A2 & A3 & A4) & (C1 & C2 & C3 & C4)). pose proof (fun a Ha => U a w Ha Hw) as Uw. clear U R ET HS HE.
  cbn [at1 at2 map] in R1, R2. change (x1 w) with x in *. change (x2 w) with x' in *. change (t1 w) with t in *. change (t2 w) with t' in *. change (n1 w) with b in *. change (n2 w) with b' in *. change (dist w) with d in *.
  rewrite E1, E2, R1, R2. cbn [fst]. destruct (Fin (batch x) b (Y w) Hb) as [P1 P2]. destruct (Fin (batch x') b' (Y' w) Hb') as [Q1 Q2]. unfold near_pictures. rewrite P1, P2, Q1, Q2. split; [congruence|].
  intros i j m Hi Hj Hm. apply (Uw (i, j, m)). unfold idx. rewrite !in_prod_iff, !in_seq. lia.
Qed.
