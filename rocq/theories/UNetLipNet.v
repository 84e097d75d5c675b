(** The layers of the U-Net, and the whole, are Lipschitz. *)
From Coq Require Import Reals List Lia Lra Bool PeanoNat Psatz.
From Verif Require Import Base Nets UNet UNetVal UNetShape UNetSep UNetGrow UNetLip.
Import ListNotations.
Open Scope R_scope.

Section Net.
Context {W : Type} (ok : W -> Prop) (del : W -> R) (del_pos : forall w, ok w -> 0 <= del w) (B B' b b' : W -> nat).
Notation gd := (good ok del).
Notation gl := (lip ok del).
(** two families of tensors of one shape; the elements [b] and [b'] of their batches are compared.
    [bd]: the values are bounded, too. *)
Definition shaped (h wd c : nat) (X X' : W -> tensor) : Prop := forall w, ok w ->
  (sb (X w) = B w /\ sh (X w) = h /\ sw (X w) = wd /\ sc (X w) = c) /\ (sb (X' w) = B' w /\ sh (X' w) = h /\ sw (X' w) = wd /\ sc (X' w) = c).
Definition entries (bd : bool) (h wd c : nat) (X X' : W -> tensor) : Prop := forall i j k, (i < h)%nat -> (j < wd)%nat -> (k < c)%nat -> gl bd (fun w => dat (X w) (b w) i j k) (fun w => dat (X' w) (b' w) i j k).
Definition gt (bd : bool) (X X' : W -> tensor) : Prop := exists h wd c, shaped h wd c X X' /\ entries bd h wd c X X'.
Definition ogt (bd : bool) (o o' : W -> option tensor) : Prop :=
  (forall w, ok w -> o w = None /\ o' w = None) \/ exists Y Y', gt bd Y Y' /\ forall w, ok w -> o w = Some (Y w) /\ o' w = Some (Y' w).
Definition gte (T T' : W -> temb) : Prop := exists n, (forall w, ok w -> (tbat (T w) = B w /\ tlen (T w) = n) /\ (tbat (T' w) = B' w /\ tlen (T' w) = n)) /\
  forall i, (i < n)%nat -> gd (fun w => tval (T w) (b w) i) (fun w => tval (T' w) (b' w) i).
Definition lip_layer (L : temb -> tensor -> option tensor) : Prop := forall T T' X X', gte T T' -> gt false X X' -> ogt false (fun w => L (T w) (X w)) (fun w => L (T' w) (X' w)).

Lemma ogt_some bd (Y Y' : W -> tensor) : gt bd Y Y' -> ogt bd (fun w => Some (Y w)) (fun w => Some (Y' w)).
Proof using Type. intros H. right. exists Y, Y'. split; [assumption|]. auto. Qed.
Lemma ogt_bind bd bd' (o o' : W -> option tensor) (f f' : W -> tensor -> option tensor) : ogt bd o o' -> (forall Y Y', gt bd Y Y' -> ogt bd' (fun w => f w (Y w)) (fun w => f' w (Y' w))) ->
  ogt bd' (fun w => match o w with Some y => f w y | None => None end) (fun w => match o' w with Some y => f' w y | None => None end).
Proof using Type.
  intros [H|(Y & Y' & G & H)] F; [left; intros w Hw; destruct (H w Hw) as [-> ->]; split; reflexivity|]. destruct (F Y Y' G) as [K|(Z & Z' & GZ & K)].
  - left. intros w Hw. destruct (H w Hw) as [-> ->]. now apply K.
  - right. exists Z, Z'. split; [assumption|]. intros w Hw. destruct (H w Hw) as [-> ->]. now apply K.
Qed.
(** a check whose outcome is the same for all *)
Lemma ogt_check bd v (c c' : W -> bool) (o o' : W -> option tensor) : (forall w, ok w -> c w = v /\ c' w = v) -> ogt bd o o' -> ogt bd (fun w => check (c w) (o w)) (fun w => check (c' w) (o' w)).
Proof using Type.
  intros E H. destruct v.
  - destruct H as [H|(Y & Y' & G & H)]; [left|right; exists Y, Y'; split; [assumption|]]; intros w Hw; destruct (E w Hw) as [-> ->]; now apply H.
  - left. intros w Hw. destruct (E w Hw) as [-> ->]. split; reflexivity.
Qed.
Lemma ogt_ext bd (o o' q q' : W -> option tensor) : (forall w, ok w -> q w = o w /\ q' w = o' w) -> ogt bd o o' -> ogt bd q q'.
Proof using Type.
  intros E [H|(Y & Y' & G & H)]; [left|right; exists Y, Y'; split; [assumption|]]; intros w Hw; destruct (E w Hw) as [-> ->]; now apply H.
Qed.

Ltac shp_solve HS := intros ?w ?Hw; destruct (HS _ Hw) as ((?E1 & ?E2 & ?E3 & ?E4) & (?F1 & ?F2 & ?F3 & ?F4)).

Lemma pad_good bd p X X' h wd c i j k : shaped h wd c X X' -> entries bd h wd c X X' -> (k < c)%nat -> gl bd (fun w => pad p (X w) (b w) i j k) (fun w => pad p (X' w) (b' w) i j k).
Proof using del_pos.
  intros HS HE Hk. set (cond := ((p <=? i) && (i - p <? h) && (p <=? j) && (j - p <? wd))%nat).
  apply lip_ext with (fun w => if cond then dat (X w) (b w) (i - p) (j - p) k else 0) (fun w => if cond then dat (X' w) (b' w) (i - p) (j - p) k else 0).
  - shp_solve HS. unfold pad. rewrite E2, E3, F2, F3. split; reflexivity.
  - destruct cond eqn:G; [|now apply lip_const]. unfold cond in G. apply andb_prop in G as [G G4]. apply andb_prop in G as [G G3]. apply andb_prop in G as [G1 G2]. apply Nat.ltb_lt in G2, G4. now apply HE.
Qed.
Lemma conv_good bd K bias f k s p X X' : gt bd X X' -> gt bd (fun w => conv_val K bias f k s p (X w)) (fun w => conv_val K bias f k s p (X' w)).
Proof using del_pos.
  intros (h & wd & c & HS & HE). exists (conv_len h k s p), (conv_len wd k s p), f. split.
  - shp_solve HS. unfold conv_val. cbn [sb sh sw sc]. rewrite E1, E2, E3, F1, F2, F3. auto.
  - intros i j o _ _ _. cbn [conv_val dat].
    apply lip_ext with (fun w => Rsum (map (fun a => (let '(di, dj, ch) := a in fun w => K di dj ch o * pad p (X w) (b w) (i * s + di) (j * s + dj) ch) w) (taps k c)) + bias o)
      (fun w => Rsum (map (fun a => (let '(di, dj, ch) := a in fun w => K di dj ch o * pad p (X' w) (b' w) (i * s + di) (j * s + dj) ch) w) (taps k c)) + bias o).
    { shp_solve HS. rewrite E4, F4. split; f_equal; apply Rsum_map_ext; intros [[? ?] ?] _; reflexivity. }
    apply lip_plus; [|now apply lip_const]. apply lip_sum; [assumption|]. intros [[di dj] ch] Hin. apply in_taps in Hin. apply lip_scale; [assumption|]. apply pad_good with h wd c; auto. lia.
Qed.
Lemma ws_good bd K bias f k s p X X' : gt bd X X' -> gt bd (fun w => ws_conv K bias f k s p (X w)) (fun w => ws_conv K bias f k s p (X' w)).
Proof using del_pos.
  intros H. pose proof H as (h & wd & c & HS & HE). destruct (conv_good bd (standardized k c K) bias f k s p X X' H) as (h1 & w1 & c1 & HS1 & HE1). exists h1, w1, c1. split.
  - intros w Hw. pose proof (HS w Hw) as ((_ & _ & _ & E4) & (_ & _ & _ & F4)). unfold ws_conv. rewrite E4, F4. now apply HS1.
  - intros i j o Hi Hj Ho. eapply lip_ext; [|exact (HE1 i j o Hi Hj Ho)]. intros w Hw. pose proof (HS w Hw) as ((_ & _ & _ & E4) & (_ & _ & _ & F4)). unfold ws_conv. rewrite E4, F4. split; reflexivity.
Qed.
Lemma gt_weaken bd X X' : gt bd X X' -> gt false X X'.
Proof using Type. intros (h & wd & c & HS & HE). exists h, wd, c. split; [exact HS|]. intros i j k Hi Hj Hk. apply lip_weaken with bd. now apply HE. Qed.
Lemma ogt_weaken bd o o' : ogt bd o o' -> ogt false o o'.
Proof using Type. intros [H|(Y & Y' & G & H)]; [left; exact H|]. right. exists Y, Y'. split; [now apply gt_weaken with bd|exact H]. Qed.
Lemma group_norm_good scale bias groups X X' : gt false X X' -> ogt true (fun w => group_norm_val scale bias groups (X w)) (fun w => group_norm_val scale bias groups (X' w)).
Proof using del_pos.
  intros (h & wd & c & HS & HE). unfold group_norm_val. set (cd := ((1 <=? groups) && (c mod groups =? 0))%nat).
  apply ogt_ext with (fun w => check cd (Some (Arr4 (B w) h wd c (fun b0 i j k => normed (/ 10 ^ 6) (group_values (X w) b0 (k / (c / groups)) (c / groups)) (dat (X w) b0 i j k) * scale k + bias k))))
    (fun w => check cd (Some (Arr4 (B' w) h wd c (fun b0 i j k => normed (/ 10 ^ 6) (group_values (X' w) b0 (k / (c / groups)) (c / groups)) (dat (X' w) b0 i j k) * scale k + bias k)))).
  { shp_solve HS. rewrite E1, E2, E3, E4, F1, F2, F3, F4. split; reflexivity. }
  destruct cd eqn:G; cbn [check]; [|left; auto]. apply ogt_some. exists h, wd, c. split; [intros w Hw; cbn; auto 10|]. intros i j k Hi Hj Hk. cbn [dat].
  unfold cd in G. apply andb_prop in G as [G1 G2]. apply Nat.leb_le in G1. apply Nat.eqb_eq in G2. apply Nat.mod_divide in G2 as [q Hq]; [|lia].
  assert (Hgs : (c / groups = q)%nat) by (rewrite Hq; apply Nat.div_mul; lia). rewrite Hgs. assert (Hq0 : (q <> 0)%nat) by (intros ->; lia).
  assert (Hkq : (k / q < groups)%nat) by (apply Nat.div_lt_upper_bound; lia).
  apply good_plus; [|now apply good_const]. apply good_mult; [assumption| |now apply good_const].
  set (l := list_prod (list_prod (seq 0 h) (seq 0 wd)) (seq 0 q)). assert (Hkm : (k mod q < q)%nat) by (now apply Nat.mod_upper_bound).
  set (F := fun (X : W -> tensor) (b : W -> nat) (a : nat * nat * nat) w => let '(i, j, ch) := a in dat (X w) (b w) i j (k / q * q + ch)%nat).
  apply good_ext with (fun w => normed (/ 10 ^ 6) (map (fun a => F X b a w) l) (F X b (i, j, k mod q)%nat w)) (fun w => normed (/ 10 ^ 6) (map (fun a => F X' b' a w) l) (F X' b' (i, j, k mod q)%nat w)).
  { shp_solve HS. unfold group_values. rewrite E2, E3, F2, F3. fold l. unfold F at 2 4. rewrite (Nat.mul_comm (k / q)), <- (Nat.div_mod k q Hq0), (Nat.mul_comm q). split; f_equal; apply map_ext; intros [[? ?] ?]; reflexivity. }
  apply good_normed; [assumption|apply Rinv_0_lt_compat; lra| |].
  - unfold l. rewrite !in_prod_iff, !in_seq. lia.
  - intros [[i1 j1] c1] Hin. unfold l in Hin. rewrite !in_prod_iff, !in_seq in Hin. apply HE; try lia. nia.
Qed.
Lemma layer_norm_good scale X X' : gt false X X' -> gt true (fun w => layer_norm_val scale (X w)) (fun w => layer_norm_val scale (X' w)).
Proof using del_pos.
  intros (h & wd & c & HS & HE). exists h, wd, c. split; [exact HS|]. intros i j k Hi Hj Hk. cbn [dat layer_norm_val]. apply good_mult; [assumption| |now apply good_const].
  apply good_ext with (fun w => normed (/ 10 ^ 5) (map (fun a => dat (X w) (b w) i j a) (seq 0 c)) (dat (X w) (b w) i j k)) (fun w => normed (/ 10 ^ 5) (map (fun a => dat (X' w) (b' w) i j a) (seq 0 c)) (dat (X' w) (b' w) i j k)).
  { shp_solve HS. rewrite E4, F4. split; reflexivity. }
  apply (good_normed ok del del_pos (/ 10 ^ 5) (seq 0 c) (fun a w => dat (X w) (b w) i j a) (fun a w => dat (X' w) (b' w) i j a)); [apply Rinv_0_lt_compat; lra|apply in_seq; lia|]. intros a Ha. apply in_seq in Ha. apply HE; lia.
Qed.
Lemma swish_good X X' : gt true X X' -> gt true (fun w => tmap swish (X w)) (fun w => tmap swish (X' w)).
Proof using del_pos. intros (h & wd & c & HS & HE). exists h, wd, c. split; [exact HS|]. intros i j k Hi Hj Hk. cbn [dat tmap]. apply good_swish; [assumption|]. now apply HE. Qed.
Lemma tadd_good bd X X' Y Y' : gt bd X X' -> gt bd Y Y' -> ogt bd (fun w => tadd (X w) (Y w)) (fun w => tadd (X' w) (Y' w)).
Proof using Type.
  intros (h & wd & c & HS & HE) (h1 & w1 & c1 & KS & KE). unfold tadd. set (v := ((h =? h1) && (wd =? w1) && (c =? c1))%nat).
  apply ogt_ext with (fun w => check v (Some (Arr4 (B w) h wd c (fun b i j k => dat (X w) b i j k + dat (Y w) b i j k)))) (fun w => check v (Some (Arr4 (B' w) h wd c (fun b i j k => dat (X' w) b i j k + dat (Y' w) b i j k)))).
  { intros w Hw. destruct (HS w Hw) as ((E1 & E2 & E3 & E4) & (F1 & F2 & F3 & F4)). destruct (KS w Hw) as ((A1 & A2 & A3 & A4) & (C1 & C2 & C3 & C4)). unfold shape_eqb, shp. cbn [bat hei wid cha].
    rewrite E1, E2, E3, E4, F1, F2, F3, F4, A1, A2, A3, A4, C1, C2, C3, C4, !Nat.eqb_refl. split; reflexivity. }
  destruct v eqn:V; cbn [check]; [|left; auto]. unfold v in V. apply andb_prop in V as [V V3]. apply andb_prop in V as [V1 V2]. apply Nat.eqb_eq in V1, V2, V3. subst h1 w1 c1.
  apply ogt_some. exists h, wd, c. split; [intros w Hw; cbn; auto 10|]. intros i j k Hi Hj Hk. cbn [dat]. apply lip_plus; [now apply HE|now apply KE].
Qed.
Lemma tconcat_good bd X X' Y Y' : gt bd X X' -> gt bd Y Y' -> ogt bd (fun w => tconcat (X w) (Y w)) (fun w => tconcat (X' w) (Y' w)).
Proof using Type.
  intros (h & wd & c & HS & HE) (h1 & w1 & c1 & KS & KE). unfold tconcat. set (v := ((h =? h1) && (wd =? w1))%nat).
  apply ogt_ext with (fun w => check v (Some (Arr4 (B w) h wd (c + c1) (fun b i j k => if Nat.ltb k c then dat (X w) b i j k else dat (Y w) b i j (k - c)%nat))))
    (fun w => check v (Some (Arr4 (B' w) h wd (c + c1) (fun b i j k => if Nat.ltb k c then dat (X' w) b i j k else dat (Y' w) b i j (k - c)%nat)))).
  { intros w Hw. destruct (HS w Hw) as ((E1 & E2 & E3 & E4) & (F1 & F2 & F3 & F4)). destruct (KS w Hw) as ((A1 & A2 & A3 & A4) & (C1 & C2 & C3 & C4)).
    rewrite E1, E2, E3, E4, F1, F2, F3, F4, A1, A2, A3, A4, C1, C2, C3, C4, !Nat.eqb_refl. split; reflexivity. }
  destruct v eqn:V; cbn [check]; [|left; auto]. unfold v in V. apply andb_prop in V as [V1 V2]. apply Nat.eqb_eq in V1, V2. subst h1 w1.
  apply ogt_some. exists h, wd, (c + c1)%nat. split; [intros w Hw; cbn; auto 10|]. intros i j k Hi Hj Hk. cbn [dat]. destruct (Nat.ltb_spec k c); [now apply HE|apply KE; lia].
Qed.
Lemma resize_good bd X X' : gt bd X X' -> gt bd (fun w => resize2 (X w)) (fun w => resize2 (X' w)).
Proof using del_pos.
  intros (h & wd & c & HS & HE). exists (h * 2)%nat, (wd * 2)%nat, c. split.
  - shp_solve HS. unfold resize2. cbn [sb sh sw sc]. rewrite E1, E2, E3, E4, F1, F2, F3, F4. auto.
  - intros i j k Hi Hj Hk. cbn [resize2 dat].
    apply lip_ext with (fun w => Rsum (map (fun m => resize_weight h i m * Rsum (map (fun l => resize_weight wd j l * dat (X w) (b w) m l k) (seq 0 wd))) (seq 0 h)))
      (fun w => Rsum (map (fun m => resize_weight h i m * Rsum (map (fun l => resize_weight wd j l * dat (X' w) (b' w) m l k) (seq 0 wd))) (seq 0 h))).
    { shp_solve HS. rewrite E2, E3, F2, F3. split; reflexivity. }
    apply (lip_sum ok del del_pos bd (seq 0 h) (fun m w => resize_weight h i m * Rsum (map (fun l => resize_weight wd j l * dat (X w) (b w) m l k) (seq 0 wd)))
      (fun m w => resize_weight h i m * Rsum (map (fun l => resize_weight wd j l * dat (X' w) (b' w) m l k) (seq 0 wd)))). intros m Hm. apply in_seq in Hm. apply lip_scale; [assumption|].
    apply (lip_sum ok del del_pos bd (seq 0 wd) (fun l w => resize_weight wd j l * dat (X w) (b w) m l k) (fun l w => resize_weight wd j l * dat (X' w) (b' w) m l k)). intros l Hl. apply in_seq in Hl. apply lip_scale; [assumption|]. apply HE; lia.
Qed.
Lemma shuffle_good bd X X' : gt bd X X' -> ogt bd (fun w => pixel_shuffle 2 (X w)) (fun w => pixel_shuffle 2 (X' w)).
Proof using Type.
  intros (h & wd & c & HS & HE). unfold pixel_shuffle. set (v := ((1 <=? 2) && (c mod (2 * 2) =? 0))%nat). set (q := (c / (2 * 2))%nat).
  apply ogt_ext with (fun w => if v then Some (Arr4 (B w) (h * 2) (wd * 2) q (fun b i j k => dat (X w) b (i / 2) (j / 2) ((i mod 2 * 2 + j mod 2) * q + k)%nat)) else None)
    (fun w => if v then Some (Arr4 (B' w) (h * 2) (wd * 2) q (fun b i j k => dat (X' w) b (i / 2) (j / 2) ((i mod 2 * 2 + j mod 2) * q + k)%nat)) else None).
  { shp_solve HS. rewrite E1, E2, E3, E4, F1, F2, F3, F4. split; reflexivity. }
  destruct v eqn:V; [|left; auto]. unfold v in V. apply andb_prop in V as [_ V]. apply Nat.eqb_eq in V. apply Nat.mod_divide in V as [r Hr]; [|lia].
  assert (Hd : q = r) by (unfold q; rewrite Hr; apply Nat.div_mul; lia). clearbody q. subst q. apply ogt_some. exists (h * 2)%nat, (wd * 2)%nat, r. split; [intros w Hw; cbn [sb sh sw sc]; auto 10|]. intros i j k Hi Hj Hk. 
  apply HE.
  - apply Nat.div_lt_upper_bound; lia.
  - apply Nat.div_lt_upper_bound; lia.
  - assert (i mod 2 < 2)%nat by (apply Nat.mod_upper_bound; lia). assert (j mod 2 < 2)%nat by (apply Nat.mod_upper_bound; lia). nia.
Qed.
Lemma conv_lip P path f k s p : lip_layer (fun _ x => Some (conv_layer P path f k s p x)).
Proof using del_pos. intros T T' X X' _ H. now apply ogt_some, conv_good. Qed.
(** the shape at the end of Downsample and Upsample is compared with a shape that depends on that of the input *)
Lemma ogt_shape bd (e : tensor -> shape) (X X' Y Y' : W -> tensor) : gt bd X X' -> gt bd Y Y' -> (exists h wd c, forall x, e x = Shape (sb x) (h (sh x)) (wd (sw x)) c) ->
  ogt bd (fun w => check (shape_eqb (shp (Y w)) (e (X w))) (Some (Y w))) (fun w => check (shape_eqb (shp (Y' w)) (e (X' w))) (Some (Y' w))).
Proof using Type.
  intros (h & wd & c & HS & HE) HY (hf & wf & cf & He). pose proof HY as (h1 & w1 & c1 & KS & KE). apply ogt_check with (v := ((h1 =? hf h) && (w1 =? wf wd) && (c1 =? cf))%nat); [|now apply ogt_some].
  intros w Hw. destruct (HS w Hw) as ((E1 & E2 & E3 & E4) & (F1 & F2 & F3 & F4)). destruct (KS w Hw) as ((A1 & A2 & A3 & A4) & (C1 & C2 & C3 & C4)). rewrite !He. unfold shape_eqb, shp. cbn [bat hei wid cha].
  rewrite E1, E2, E3, F1, F2, F3, A1, A2, A3, A4, C1, C2, C3, C4, !Nat.eqb_refl. split; reflexivity.
Qed.
Lemma downsample_lip P path dim : lip_layer (fun _ => downsample_val P path dim).
Proof using del_pos.
  intros T T' X X' _ H. unfold downsample_val. cbv zeta. apply (ogt_shape false (fun x => Shape (sb x) (sh x / 2) (sw x / 2) dim)); [assumption|now apply conv_good|]. exists (fun h => h / 2)%nat, (fun h => h / 2)%nat, dim. reflexivity.
Qed.
Lemma upsample_lip P path m dim : lip_layer (fun _ => upsample_val P path m dim).
Proof using del_pos.
  intros T T' X X' _ H. unfold upsample_val.
  apply (ogt_bind false false _ _ (fun w y => check (shape_eqb (shp y) (Shape (sb (X w)) (sh (X w) * 2) (sw (X w) * 2) dim)) (Some y)) (fun w y => check (shape_eqb (shp y) (Shape (sb (X' w)) (sh (X' w) * 2) (sw (X' w) * 2) dim)) (Some y))).
  - destruct m; [apply ogt_some, conv_good, resize_good, H| |left; auto]. apply (ogt_bind false false _ _ (fun _ z => Some (conv_layer P (path ++ [1%nat]) dim 3 1 1 z)) (fun _ z => Some (conv_layer P (path ++ [1%nat]) dim 3 1 1 z))).
    + pose proof H as (h & wd & c & HS & HE). apply ogt_ext with (fun w => pixel_shuffle 2 (conv_layer P (path ++ [0%nat]) (c * 4) 3 1 1 (X w))) (fun w => pixel_shuffle 2 (conv_layer P (path ++ [0%nat]) (c * 4) 3 1 1 (X' w))).
      * shp_solve HS. rewrite E4, F4. split; reflexivity.
      * now apply shuffle_good, conv_good.
    + intros Y Y' HY. now apply ogt_some, conv_good.
  - intros Y Y' HY. apply (ogt_shape false (fun x => Shape (sb x) (sh x * 2) (sw x * 2) dim)); [assumption|assumption|]. exists (fun h => h * 2)%nat, (fun h => h * 2)%nat, dim. reflexivity.
Qed.
Lemma time_shift_good P path dim T T' X X' : gte T T' -> gt true X X' -> gt true (fun w => time_shift P path dim (T w) (X w)) (fun w => time_shift P path dim (T' w) (X' w)).
Proof using del_pos.
  intros (n & HT & HG) (h & wd & c & HS & HE). exists h, wd, c. split; [exact HS|]. intros i j k Hi Hj Hk. unfold time_shift. cbv zeta. cbn [dat].
  assert (D : forall o, gd (fun w => dense_val (dkernel P path) (dbias P path) (tlen (T w)) (fun i => swish (tval (T w) (b w) i)) o) (fun w => dense_val (dkernel P path) (dbias P path) (tlen (T' w)) (fun i => swish (tval (T' w) (b' w) i)) o)).
  { intros o. unfold dense_val. apply good_plus; [|now apply good_const].
    apply good_ext with (fun w => Rsum (map (fun a => swish (tval (T w) (b w) a) * dkernel P path a o) (seq 0 n))) (fun w => Rsum (map (fun a => swish (tval (T' w) (b' w) a) * dkernel P path a o) (seq 0 n))).
    - intros w Hw. destruct (HT w Hw) as ((_ & ->) & (_ & ->)). split; reflexivity.
    - apply (good_sum ok del del_pos (seq 0 n) (fun a w => swish (tval (T w) (b w) a) * dkernel P path a o) (fun a w => swish (tval (T' w) (b' w) a) * dkernel P path a o)). intros a Ha. apply in_seq in Ha.
      apply good_mult; [assumption| |now apply good_const]. apply good_swish; [assumption|]. apply HG. lia. }
  apply good_plus; [|apply D]. apply good_mult; [assumption|now apply HE|]. apply good_plus; [now apply good_const|apply D].
Qed.
Lemma resnet_good P path dim groups T T' X X' : gte T T' -> gt false X X' -> ogt false (fun w => resnet_val P path dim groups (T w) (X w)) (fun w => resnet_val P path dim groups (T' w) (X' w)).
Proof using del_pos.
  intros HT H. pose proof H as (h & wd & c & HS & HE). unfold resnet_val. apply ogt_check with (v := true).
  { intros w Hw. destruct (HS w Hw) as ((E1 & _) & (F1 & _)). destruct HT as (n & HT & _). destruct (HT w Hw) as ((A1 & _) & (C1 & _)). rewrite A1, C1, E1, F1, !Nat.eqb_refl. split; reflexivity. }
  cbv zeta.
  apply (ogt_bind true false _ _
    (fun w h0 => match group_norm_val (nscale P (path ++ [4%nat])) (nbias P (path ++ [4%nat])) groups (ws_conv (kernel P (path ++ [3%nat])) (cbias P (path ++ [3%nat])) dim 3 1 1 (tmap swish (time_shift P (path ++ [2%nat]) dim (T w) h0))) with
      | Some h1 => tadd (if (sc (X w) =? dim)%nat then X w else conv_layer P (path ++ [5%nat]) dim 1 1 0 (X w)) (tmap swish h1) | None => None end)
    (fun w h0 => match group_norm_val (nscale P (path ++ [4%nat])) (nbias P (path ++ [4%nat])) groups (ws_conv (kernel P (path ++ [3%nat])) (cbias P (path ++ [3%nat])) dim 3 1 1 (tmap swish (time_shift P (path ++ [2%nat]) dim (T' w) h0))) with
      | Some h1 => tadd (if (sc (X' w) =? dim)%nat then X' w else conv_layer P (path ++ [5%nat]) dim 1 1 0 (X' w)) (tmap swish h1) | None => None end)).
  - now apply group_norm_good, ws_good.
  - intros Y Y' HY.
    apply (ogt_bind true false _ _ (fun w h1 => tadd (if (sc (X w) =? dim)%nat then X w else conv_layer P (path ++ [5%nat]) dim 1 1 0 (X w)) (tmap swish h1)) (fun w h1 => tadd (if (sc (X' w) =? dim)%nat then X' w else conv_layer P (path ++ [5%nat]) dim 1 1 0 (X' w)) (tmap swish h1))).
    + apply group_norm_good, (gt_weaken true), ws_good, swish_good. now apply time_shift_good.
    + intros Z Z' HZ.
      apply ogt_ext with (fun w => tadd (if (c =? dim)%nat then X w else conv_layer P (path ++ [5%nat]) dim 1 1 0 (X w)) (tmap swish (Z w))) (fun w => tadd (if (c =? dim)%nat then X' w else conv_layer P (path ++ [5%nat]) dim 1 1 0 (X' w)) (tmap swish (Z' w))).
      * shp_solve HS. rewrite E4, F4. split; reflexivity.
      * destruct (c =? dim)%nat; (apply tadd_good; [|now apply (gt_weaken true), swish_good]); [assumption|now apply conv_good].
Qed.
Lemma resnet_lip P path dim groups : lip_layer (fun te x => resnet_val P path dim groups te x).
Proof using del_pos. intros T T' X X' HT H. now apply resnet_good. Qed.
Lemma resnet_same_lip P path groups : lip_layer (fun te x => resnet_val P path (sc x) groups te x).
Proof using del_pos.
  intros T T' X X' HT H. pose proof H as (h & wd & c & HS & HE). apply ogt_ext with (fun w => resnet_val P path c groups (T w) (X w)) (fun w => resnet_val P path c groups (T' w) (X' w)); [|now apply resnet_good].
  shp_solve HS. rewrite E4, F4. split; reflexivity.
Qed.
Lemma assert_lip n : lip_layer (fun _ x => check (sc x =? n)%nat (Some x)).
Proof using Type. intros T T' X X' _ H. pose proof H as (h & wd & c & HS & HE). apply ogt_check with (v := (c =? n)%nat); [|now apply ogt_some]. shp_solve HS. rewrite E4, F4. split; reflexivity. Qed.

(** ** Attention *)
Lemma l2norm_good npos (q q' : W -> nat -> nat -> nat -> R) n h d : (n < npos)%nat -> (forall m, (m < npos)%nat -> gd (fun w => q w m h d) (fun w => q' w m h d)) ->
  gd (fun w => l2norm (/ 10 ^ 12) npos (q w) n h d) (fun w => l2norm (/ 10 ^ 12) npos (q' w) n h d).
Proof using del_pos.
  intros Hn H. set (e := / 10 ^ 12). assert (He : 0 < e) by (apply Rinv_0_lt_compat; lra). unfold l2norm. apply good_mult; [assumption|now apply H|].
  assert (E : forall s, 0 <= s -> Rmax (sqrt s) e = sqrt (Rmax (e * e) s)).
  { intros s Hs. unfold Rmax at 2. destruct (Rle_dec (e * e) s) as [L|L].
    - apply Rmax_left. rewrite <- (sqrt_square e) by lra. now apply sqrt_le_1_alt.
    - rewrite sqrt_square by lra. apply Rmax_right. rewrite <- (sqrt_square e) by lra. apply sqrt_le_1_alt. lra. }
  apply good_ext with (fun w => / sqrt (Rmax (e * e) (Rsum (map (fun m => q w m h d * q w m h d) (seq 0 npos))))) (fun w => / sqrt (Rmax (e * e) (Rsum (map (fun m => q' w m h d * q' w m h d) (seq 0 npos))))).
  { intros w _. assert (G : forall p : nat -> nat -> nat -> R, Rsum (map (fun m => p m h d ^ 2) (seq 0 npos)) = Rsum (map (fun m => p m h d * p m h d) (seq 0 npos))) by (intros p; apply Rsum_map_ext; intros; ring).
    rewrite !G, !E; [split; reflexivity| |]; apply total_nonneg; intros; apply Rle_0_sqr. }
  assert (L : forall s, e * e <= Rmax (e * e) s) by (intros; apply Rmax_l). assert (He2 : 0 < e * e) by nra.
  apply good_inv with e; [assumption|assumption|intros; split; rewrite <- (sqrt_square e) at 1 by lra; apply sqrt_le_1_alt, L|].
  apply good_sqrt with (e * e); [assumption|assumption|intros; split; apply L|]. apply (good_comp ok del (Rmax (e * e))); [apply rmax_lip|].
  apply (good_sum ok del del_pos (seq 0 npos) (fun m w => q w m h d * q w m h d) (fun m w => q' w m h d * q' w m h d)). intros m Hm. apply in_seq in Hm. apply good_mult; [assumption| |]; apply H; lia.
Qed.
Lemma attention_core_good npos dh (q k v q' k' v' : W -> nat -> nat -> nat -> R) h i d : (i < npos)%nat -> (d < dh)%nat ->
  (forall m e, (m < npos)%nat -> (e < dh)%nat -> gd (fun w => q w m h e) (fun w => q' w m h e) /\ gd (fun w => k w m h e) (fun w => k' w m h e) /\ gd (fun w => v w m h e) (fun w => v' w m h e)) ->
  gd (fun w => attention_core (/ 10 ^ 12) 10 npos dh (q w) (k w) (v w) h i d) (fun w => attention_core (/ 10 ^ 12) 10 npos dh (q' w) (k' w) (v' w) h i d).
Proof using del_pos.
  intros Hi Hd H. unfold attention_core. cbv zeta.
  set (f := fun (q k : W -> nat -> nat -> nat -> R) j w => Rsum (map (fun e => l2norm (/ 10 ^ 12) npos (q w) i h e * l2norm (/ 10 ^ 12) npos (k w) j h e) (seq 0 dh)) * 10).
  apply (good_sum ok del del_pos (seq 0 npos) (fun j w => nth j (softmax (map (fun j => f q k j w) (seq 0 npos))) 0 * v w j h d) (fun j w => nth j (softmax (map (fun j => f q' k' j w) (seq 0 npos))) 0 * v' w j h d)).
  intros j Hj. apply in_seq in Hj. apply good_mult; [assumption| |apply H; lia]. apply good_softmax; [assumption|]. intros a Ha. apply in_seq in Ha. unfold f. apply good_mult; [assumption| |now apply good_const].
  apply (good_sum ok del del_pos (seq 0 dh) (fun e w => l2norm (/ 10 ^ 12) npos (q w) i h e * l2norm (/ 10 ^ 12) npos (k w) a h e) (fun e w => l2norm (/ 10 ^ 12) npos (q' w) i h e * l2norm (/ 10 ^ 12) npos (k' w) a h e)).
  intros e He. apply in_seq in He. apply good_mult; [assumption| |]; (apply l2norm_good; [lia|intros m Hm; apply H; lia]).
Qed.
Lemma linear_core_good npos dh (q k v q' k' v' : W -> nat -> nat -> nat -> R) h n e : (n < npos)%nat -> (e < dh)%nat ->
  (forall m e, (m < npos)%nat -> (e < dh)%nat -> gd (fun w => q w m h e) (fun w => q' w m h e) /\ gd (fun w => k w m h e) (fun w => k' w m h e) /\ gd (fun w => v w m h e) (fun w => v' w m h e)) ->
  gd (fun w => linear_attention_core npos dh (q w) (k w) (v w) h n e) (fun w => linear_attention_core npos dh (q' w) (k' w) (v' w) h n e).
Proof using del_pos.
  intros Hn He H. unfold linear_attention_core. cbv zeta.
  apply (good_sum ok del del_pos (seq 0 dh)
    (fun d w => Rsum (map (fun n => nth n (softmax (map (fun m => k w m h d) (seq 0 npos))) 0 * (v w n h e / INR npos)) (seq 0 npos)) * (nth d (softmax (map (fun e => q w n h e) (seq 0 dh))) 0 / sqrt (INR dh)))
    (fun d w => Rsum (map (fun n => nth n (softmax (map (fun m => k' w m h d) (seq 0 npos))) 0 * (v' w n h e / INR npos)) (seq 0 npos)) * (nth d (softmax (map (fun e => q' w n h e) (seq 0 dh))) 0 / sqrt (INR dh)))).
  intros d Hd. apply in_seq in Hd. apply good_mult; [assumption| |].
  - apply (good_sum ok del del_pos (seq 0 npos) (fun n w => nth n (softmax (map (fun m => k w m h d) (seq 0 npos))) 0 * (v w n h e / INR npos)) (fun n w => nth n (softmax (map (fun m => k' w m h d) (seq 0 npos))) 0 * (v' w n h e / INR npos))).
    intros m Hm. apply in_seq in Hm. apply good_mult; [assumption| |apply good_mult; [assumption|apply H; lia|now apply good_const]].
    apply (good_softmax ok del del_pos (seq 0 npos) (fun m w => k w m h d) (fun m w => k' w m h d)). intros a Ha. apply in_seq in Ha. apply H; lia.
  - apply good_mult; [assumption| |now apply good_const]. apply (good_softmax ok del del_pos (seq 0 dh) (fun e w => q w n h e) (fun e w => q' w n h e)). intros a Ha. apply in_seq in Ha. apply H; lia.
Qed.
Lemma attention_good (lin : bool) H Wd heads dh (Q Q' : W -> nat -> nat -> nat -> R) x y c : (x < H)%nat -> (y < Wd)%nat -> (c < dh * heads)%nat ->
  (forall i j c, (i < H)%nat -> (j < Wd)%nat -> (c < dh * heads * 3)%nat -> gd (fun w => Q w i j c) (fun w => Q' w i j c)) ->
  gd (fun w => (if lin then linear_attention H Wd heads dh (Q w) else attention (/ 10 ^ 12) 10 H Wd heads dh (Q w)) x y c)
     (fun w => (if lin then linear_attention H Wd heads dh (Q' w) else attention (/ 10 ^ 12) 10 H Wd heads dh (Q' w)) x y c).
Proof using del_pos.
  intros Hx Hy Hc E. assert (Hdh : (dh <> 0)%nat) by (intros ->; lia). assert (Hh : (c / dh < heads)%nat) by (apply Nat.div_lt_upper_bound; lia). assert (Hm : (c mod dh < dh)%nat) by (now apply Nat.mod_upper_bound).
  assert (Hn : (x * Wd + y < H * Wd)%nat) by nia.
  assert (G : forall p, (p < 3)%nat -> forall m e, (m < H * Wd)%nat -> (e < dh)%nat -> gd (fun w => heads_of Wd heads dh p (Q w) m (c / dh)%nat e) (fun w => heads_of Wd heads dh p (Q' w) m (c / dh)%nat e)).
  { intros p Hp m e Hm1 He. unfold heads_of. apply E.
    - apply Nat.div_lt_upper_bound; [intros ->; lia|lia].
    - apply Nat.mod_upper_bound. intros ->. lia.
    - assert (c / dh * dh + e < heads * dh)%nat by nia. nia. }
  destruct lin; unfold linear_attention, attention, merge_heads;
  [apply (linear_core_good (H * Wd) dh (fun w => heads_of Wd heads dh 0 (Q w)) (fun w => heads_of Wd heads dh 1 (Q w)) (fun w => heads_of Wd heads dh 2 (Q w)) (fun w => heads_of Wd heads dh 0 (Q' w)) (fun w => heads_of Wd heads dh 1 (Q' w)) (fun w => heads_of Wd heads dh 2 (Q' w)))
  |apply (attention_core_good (H * Wd) dh (fun w => heads_of Wd heads dh 0 (Q w)) (fun w => heads_of Wd heads dh 1 (Q w)) (fun w => heads_of Wd heads dh 2 (Q w)) (fun w => heads_of Wd heads dh 0 (Q' w)) (fun w => heads_of Wd heads dh 1 (Q' w)) (fun w => heads_of Wd heads dh 2 (Q' w)))]; try assumption; intros m e Hm1 He; (split; [|split]); apply G; auto with arith.
Qed.
Lemma attn_good P path lin X X' : gt true X X' -> ogt true (fun w => attn_val P path lin (X w)) (fun w => attn_val P path lin (X' w)).
Proof using del_pos.
  intros H. pose proof H as (h & wd & c & HS & HE). unfold attn_val. cbv zeta.
  set (q := fun w => conv_val (kernel P (path ++ [0%nat])) (fun _ => 0) (32 * 4 * 3) 1 1 0 (X w)). set (q' := fun w => conv_val (kernel P (path ++ [0%nat])) (fun _ => 0) (32 * 4 * 3) 1 1 0 (X' w)).
  set (o := fun (B : W -> nat) (q : W -> tensor) w => Arr4 (B w) h wd (32 * 4) (fun b => if lin then linear_attention h wd 4 32 (dat (q w) b) else attention (/ 10 ^ 12) 10 h wd 4 32 (dat (q w) b))).
  set (r := fun x => conv_layer P (path ++ [1%nat]) c 1 1 0 x).
  apply ogt_ext with (fun w => check (1 <=? h * wd)%nat (Some (if lin then layer_norm_val (nscale P (path ++ [2%nat])) (r (o B q w)) else r (o B q w)))) (fun w => check (1 <=? h * wd)%nat (Some (if lin then layer_norm_val (nscale P (path ++ [2%nat])) (r (o B' q' w)) else r (o B' q' w)))).
  { shp_solve HS. rewrite E1, E2, E3, E4, F1, F2, F3, F4. split; reflexivity. }
  apply (ogt_check true (1 <=? h * wd)%nat (fun _ => (1 <=? h * wd)%nat) (fun _ => (1 <=? h * wd)%nat)); [auto|].
  assert (K : gt true (o B q) (o B' q')).
  { exists h, wd, (32 * 4)%nat. split; [intros w Hw; unfold o; cbn [sb sh sw sc]; auto 10|]. intros i j k Hi Hj Hk. unfold o. cbn [dat].
    apply (attention_good lin h wd 4 32 (fun w => dat (q w) (b w)) (fun w => dat (q' w) (b' w))); auto. intros i1 j1 c1 H1 H2 H3.
    pose proof (conv_good true (kernel P (path ++ [0%nat])) (fun _ => 0) (32 * 4 * 3) 1 1 0 X X' H) as (h1 & w1 & c2 & KS & KE). fold q q' in KS, KE.
    apply good_ext with (fun w => if (if Nat.ltb i1 h1 then (if Nat.ltb j1 w1 then Nat.ltb c1 c2 else false) else false) then dat (q w) (b w) i1 j1 c1 else 0) (fun w => if (if Nat.ltb i1 h1 then (if Nat.ltb j1 w1 then Nat.ltb c1 c2 else false) else false) then dat (q' w) (b' w) i1 j1 c1 else 0).
    - intros w Hw. destruct (KS w Hw) as ((_ & A2 & A3 & A4) & _). destruct (HS w Hw) as ((_ & E2 & E3 & _) & _).
      pose proof (conv1_s3 (kernel P (path ++ [0%nat])) (fun _ => 0) (32 * 4 * 3) (X w)) as S3. fold (q w) in S3. apply s3_inv in S3 as (S1 & S2 & S3).
      rewrite (proj2 (Nat.ltb_lt i1 h1)) by lia. rewrite (proj2 (Nat.ltb_lt j1 w1)) by lia. rewrite (proj2 (Nat.ltb_lt c1 c2)) by lia. split; reflexivity.
    - destruct (Nat.ltb_spec i1 h1); [|now apply good_const]. destruct (Nat.ltb_spec j1 w1); [|now apply good_const]. destruct (Nat.ltb_spec c1 c2); [|now apply good_const]. now apply KE. }
  destruct lin; apply ogt_some; [apply layer_norm_good, (gt_weaken true)|]; now apply conv_good.
Qed.
Lemma attn_lip P path lin : lip_layer (fun _ x => attn_block_val P path lin x).
Proof using del_pos.
  intros T T' X X' _ H. unfold attn_block_val. apply (ogt_bind true false _ _ (fun w o => tadd o (X w)) (fun w o => tadd o (X' w))); [now apply attn_good, layer_norm_good|]. intros Y Y' HY. apply tadd_good; [now apply (gt_weaken true)|assumption].
Qed.

(** ** The whole network *)
Definition lip_step (s : step) : Prop := match s with Layer L => lip_layer L | _ => True end.
Lemma lip_down P dim groups mults : forall ind, Forall lip_step (down_steps P dim groups ind mults).
Proof using del_pos.
  induction mults as [|m rest IH]; intros ind; cbn [down_steps]; [constructor|]. apply Forall_app. split.
  - repeat (apply Forall_cons; [first [apply resnet_same_lip|apply attn_lip|exact I]|]). constructor.
  - destruct rest as [|m' rest]; [constructor|]. constructor; [apply downsample_lip|apply IH].
Qed.
Lemma lip_up P dim init_dim groups mth rm : Forall lip_step (up_steps P dim init_dim groups mth rm).
Proof using del_pos.
  induction rm as [|m rest IH]; cbn [up_steps]; [constructor|]. apply Forall_app. split.
  - repeat (apply Forall_cons; [first [apply assert_lip|apply resnet_lip|apply attn_lip|exact I]|]). constructor.
  - destruct rest as [|m' rest]; [constructor|]. constructor; [apply upsample_lip|apply IH].
Qed.
Lemma lip_unet P dim init_dim out_dim groups mults mth mid : Forall lip_step (unet_steps P dim init_dim out_dim groups mults mth mid).
Proof using del_pos.
  unfold unet_steps. repeat (apply Forall_app; split); try apply lip_down; try apply lip_up;
  repeat (apply Forall_cons; [first [apply conv_lip|apply assert_lip|apply resnet_lip|apply attn_lip|exact I]|]); constructor.
Qed.
(** a state: the tensor and a stack of a fixed length *)
Fixpoint gstack (l : list ((W -> tensor) * (W -> tensor))) : Prop := match l with [] => True | (Y, Y') :: l' => gt false Y Y' /\ gstack l' end.
Definition at1 (w : W) (l : list ((W -> tensor) * (W -> tensor))) : list tensor := map (fun p => fst p w) l.
Definition at2 (w : W) (l : list ((W -> tensor) * (W -> tensor))) : list tensor := map (fun p => snd p w) l.
Definition gst (o o' : W -> option state) : Prop := (forall w, ok w -> o w = None /\ o' w = None) \/
  exists X X' l, gt false X X' /\ gstack l /\ forall w, ok w -> o w = Some (X w, at1 w l) /\ o' w = Some (X' w, at2 w l).
Lemma run1_lip s T T' X X' l : lip_step s -> gte T T' -> gt false X X' -> gstack l -> gst (fun w => run1 (T w) s (X w, at1 w l)) (fun w => run1 (T' w) s (X' w, at2 w l)).
Proof using Type.
  intros Hs HT HX Hl. destruct s as [L| |]; cbn [run1 fst snd].
  - destruct (Hs T T' X X' HT HX) as [H|(Y & Y' & G & H)]; [left|right; exists Y, Y', l; split; [assumption|split; [assumption|]]]; intros w Hw; destruct (H w Hw) as [-> ->]; split; reflexivity.
  - right. exists X, X', ((X, X') :: l). split; [assumption|]. split; [split; assumption|]. intros w Hw. split; reflexivity.
  - destruct l as [|[Y Y'] l]; [left; intros; split; reflexivity|]. destruct Hl as [HY Hl]. cbn [at1 at2 map fst snd pop].
    destruct (tconcat_good false X X' Y Y' HX HY) as [H|(Z & Z' & G & H)]; [left|right; exists Z, Z', l; split; [assumption|split; [assumption|]]]; intros w Hw; destruct (H w Hw) as [-> ->]; split; reflexivity.
Qed.
Lemma run_lip T T' ss : gte T T' -> Forall lip_step ss -> forall X X' l, gt false X X' -> gstack l -> gst (fun w => run (T w) ss (X w, at1 w l)) (fun w => run (T' w) ss (X' w, at2 w l)).
Proof using Type.
  intros HT F. induction F as [|s ss Hs _ IH]; intros X X' l HX Hl; cbn [run]; [right; exists X, X', l; auto|].
  destruct (run1_lip s T T' X X' l Hs HT HX Hl) as [H|(Y & Y' & l' & GY & Gl & H)]; [left; intros w Hw; destruct (H w Hw) as [-> ->]; split; reflexivity|].
  destruct (IH Y Y' l' GY Gl) as [K|(Z & Z' & l2 & GZ & Gl2 & K)]; [left|right; exists Z, Z', l2; split; [assumption|split; [assumption|]]]; intros w Hw; destruct (H w Hw) as [-> ->]; now apply K.
Qed.
End Net.
