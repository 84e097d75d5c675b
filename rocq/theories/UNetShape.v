(** The values of UNetVal.v have the shapes of UNet.v, and raise when UNet.v says so. *)
From Coq Require Import Reals List Lia Lra Bool PeanoNat Psatz.
From Verif Require Import Base Nets UNet UNetVal.
Import ListNotations.
Open Scope nat_scope.

Definition sshape (st : state) : shape * list shape := (shp (fst st), map shp (snd st)).
Definition imgs_shape (x : imgs) : images := match x with Img x => One (sh x) (sw x) (sc x) | Imgs x => Batch (sb x) (sh x) (sw x) (sc x) end.
Definition times_shape (t : time_arg) : times := match t with At _ => Scalar_time | Each ts => Time_vector (length ts) end.

Lemma bind_map {A C A' C'} (g : A -> A') (f : C -> C') o o' (k : A -> option C) k' : option_map g o = o' -> (forall x, o = Some x -> option_map f (k x) = k' (g x)) ->
  option_map f (match o with Some x => k x | None => None end) = match o' with Some x => k' x | None => None end.
Proof. intros <- H. destruct o; cbn; auto. Qed.
Lemma check_map {A C} (f : A -> C) c c' o o' : c = c' -> option_map f o = o' -> option_map f (check c o) = check c' o'.
Proof. intros -> <-. now destruct c'. Qed.

Lemma conv_shp K bias f k s p x : shp (conv_val K bias f k s p x) = conv f k s p (shp x).
Proof. reflexivity. Qed.
Lemma conv1_shp K bias f x : shp (conv_val K bias f 1 1 0 x) = conv1 f (shp x).
Proof. unfold conv_val, shp, conv1, conv_len. cbn [sb sh sw sc bat hei wid cha]. rewrite !Nat.div_1_r. f_equal; destruct (Nat.ltb_spec (sh x + 2 * 0) 1), (Nat.ltb_spec (sw x + 2 * 0) 1); lia. Qed.
Lemma group_norm_shp sc0 bi groups x : option_map shp (group_norm_val sc0 bi groups x) = group_norm groups (shp x).
Proof. unfold group_norm_val, group_norm. apply check_map; reflexivity. Qed.
Lemma tadd_shp x y : option_map shp (tadd x y) = check (shape_eqb (shp x) (shp y)) (Some (shp x)).
Proof. unfold tadd. apply check_map; reflexivity. Qed.
Lemma tconcat_shp x y : option_map shp (tconcat x y) = concat_channels (shp x) (shp y).
Proof. unfold tconcat, concat_channels. apply check_map; reflexivity. Qed.
Lemma downsample_shp P path dim x : option_map shp (downsample_val P path dim x) = downsample dim (shp x).
Proof. unfold downsample_val, downsample. apply check_map; reflexivity. Qed.
Lemma shuffle_shp x : option_map shp (pixel_shuffle 2 x) = shuffle2 (shp x).
Proof. unfold pixel_shuffle, shuffle2. cbn [Nat.leb andb shp cha]. change (2 * 2) with 4. now destruct (sc x mod 4 =? 0). Qed.
Lemma upsample_shp P path m dim x : option_map shp (upsample_val P path m dim x) = upsample m dim (shp x).
Proof.
  unfold upsample_val, upsample. apply bind_map with (g := shp).
  - destruct m; [reflexivity| |reflexivity]. apply bind_map with (g := shp); [apply shuffle_shp|]. reflexivity.
  - intros y _. apply check_map; reflexivity.
Qed.
Lemma resnet_shp P path dim groups te x : option_map shp (resnet_val P path dim groups te x) = resnet dim groups (tbat te) (shp x).
Proof.
  unfold resnet_val, resnet. apply check_map; [reflexivity|]. cbv zeta. apply bind_map with (g := shp); [apply group_norm_shp|]. intros h _. apply bind_map with (g := shp).
  - rewrite group_norm_shp. reflexivity.
  - intros g _. rewrite tadd_shp. change (cha (shp x)) with (sc x). destruct (sc x =? dim).
    + cbn [shp tmap sb sh sw sc]. fold (shp x). change (shp (tmap swish g)) with (shp g). destruct (shape_eqb (shp x) (shp g)) eqn:E; [|reflexivity]. apply shape_eqb_true in E. now rewrite E.
    + change (shp (tmap swish g)) with (shp g). unfold conv_layer. rewrite conv1_shp. destruct (shape_eqb _ (shp g)) eqn:E; [|reflexivity]. apply shape_eqb_true in E. now rewrite E.
Qed.
Lemma attn_shp P path lin x : option_map shp (attn_block_val P path lin x) = attn_block (shp x).
Proof.
  unfold attn_block_val, attn_block, attn_val, attention_shape, layer_norm_val. cbn [sh sw sc sb shp hei wid cha bat conv1]. change (32 * 4 * 3 / 3) with (32 * 4). cbn [Nat.modulo Nat.eqb].
  destruct (Nat.leb_spec 1 (sh x * sw x)) as [Hn|Hn]; [|reflexivity]. change (32 * 4 / 4) with 32. change (32 * 4) with 128. change (4 * 32) with 128. change (128 mod 4) with 0. cbn [Nat.eqb andb check]. rewrite (Nat.mul_comm (sh x)), Nat.div_mul by lia. unfold shape_eqb at 1. cbn [bat hei wid cha]. rewrite !Nat.eqb_refl. cbn [andb check].
  set (o := if lin then _ else _). assert (Ho : shp o = shp x).
  { unfold o, conv_layer. destruct lin; unfold layer_norm_val, shp; cbn [sb sh sw sc]; unfold conv_val, conv_len; cbn [sb sh sw sc]; rewrite !Nat.div_1_r;
    f_equal; destruct (Nat.ltb_spec (sh x + 2 * 0) 1), (Nat.ltb_spec (sw x + 2 * 0) 1); lia. }
  rewrite tadd_shp, Ho. unfold shape_eqb, conv1. cbn [bat hei wid cha shp]. now rewrite !Nat.eqb_refl.
Qed.

Lemma run_app te l l' st : run te (l ++ l') st = match run te l st with Some st' => run te l' st' | None => None end.
Proof. revert st. induction l as [|s l IH]; intros st; cbn [app run]; [reflexivity|]. destruct (run1 te s st); [apply IH|reflexivity]. Qed.
Lemma resnet_cha P path dim groups te x y : resnet_val P path dim groups te x = Some y -> sc y = dim.
Proof.
  intros H. pose proof (resnet_shp P path dim groups te x) as E. rewrite H in E. cbn in E. symmetry in E. apply resnet_iff in E. destruct E as (_ & _ & E). assert (cha (shp y) = dim) as <- by (rewrite E; reflexivity). reflexivity.
Qed.
(** one layer: run it and rewrite its shape *)
Ltac layer_shape lem H :=
  let S := fresh "S" in pose proof lem as S;
  match type of S with option_map shp ?v = ?w => cbn [fst snd]; destruct v as [H|] eqn:?E; cbn [option_map fst snd] in S |- *; rewrite <- S; clear S; [|reflexivity] end.

Lemma down_shp P dim groups te mults : forall ind h hs,
  option_map sshape (run te (down_steps P dim groups ind mults) (h, hs)) = down_loop dim groups (tbat te) mults (shp h) (map shp hs).
Proof.
  induction mults as [|m rest IH]; intros ind h hs; [reflexivity|]. cbn [down_steps down_loop app run run1 s_resnet_same s_attn fst snd].
  change (cha (shp h)) with (sc h). layer_shape (resnet_shp P [1; ind; 0] (sc h) groups te h) h1. assert (C := resnet_cha _ _ _ _ _ _ _ E). cbn [fst snd]. rewrite <- C.
  layer_shape (resnet_shp P [1; ind; 1] (sc h1) groups te h1) h2.
  layer_shape (attn_shp P [1; ind; 2] true h2) h3. cbn [fst snd].
  destruct rest as [|m' rest]; [reflexivity|]. cbn [run run1 fst snd].
  layer_shape (downsample_shp P [1; ind; 3] (dim * m) h3) h4. apply (IH (S ind) h4 (h3 :: h1 :: hs)).
Qed.
Lemma up_shp P dim init_dim groups mth te rm : forall h hs,
  option_map sshape (run te (up_steps P dim init_dim groups mth rm) (h, hs)) = up_loop dim init_dim groups (tbat te) mth rm (shp h) (map shp hs).
Proof.
  induction rm as [|k rest IH]; intros h hs; [reflexivity|]. cbn [up_steps up_loop app run run1 s_resnet s_attn s_assert fst snd].
  change (cha (shp h)) with (sc h). destruct (sc h =? dim * k); cbn [check fst snd]; [|reflexivity].
  destruct hs as [|y hs]; cbn [pop map fst snd]; [reflexivity|].
  layer_shape (tconcat_shp h y) h1. cbn [fst snd]. change (cha (shp h1)) with (sc h1).
  set (do1 := match rest with [] => init_dim | k' :: _ => dim * k' end). destruct (sc h1 =? dim * k + do1); cbn [check fst snd]; [|reflexivity].
  layer_shape (resnet_shp P [3; length rest; 0] (dim * k) groups te h1) h2. cbn [fst snd].
  destruct hs as [|z hs]; cbn [pop map fst snd]; [reflexivity|].
  layer_shape (tconcat_shp h2 z) h3. cbn [fst snd]. change (cha (shp h3)) with (sc h3). destruct (sc h3 =? dim * k + do1); cbn [check fst snd]; [|reflexivity].
  layer_shape (resnet_shp P [3; length rest; 1] (dim * k) groups te h3) h4. cbn [fst snd].
  layer_shape (attn_shp P [3; length rest; 2] true h4) h5. cbn [fst snd]. change (cha (shp h5)) with (sc h5). destruct (sc h5 =? dim * k); cbn [check fst snd]; [|reflexivity].
  destruct rest as [|k' rest]; [reflexivity|]. cbn [run run1 fst snd].
  layer_shape (upsample_shp P [3; length (k' :: rest); 3] mth do1 h5) h6. apply IH.
Qed.

Lemma embed_some dt dim t : dim mod 2 = 0 -> dim <> 2 -> exists e, embed dt dim t = Some e.
Proof.
  intros He H2. unfold embed, sinusoidal_embedding. cbv zeta. rewrite He. cbn [Nat.eqb].
  assert (F : forall f l, exists r, no_nan (map (option_map f) (map (fun i => option_map (fun g => (t / dt * g)%R) (frequency (10 ^ 4)%R (dim / 2) i)) l)) = Some r).
  { intros f l. assert (Hh : (dim / 2 =? 1) = false) by (apply Nat.eqb_neq; intros E; pose proof (Nat.div_mod dim 2); lia).
    induction l as [|a l [r IH]]; cbn [map no_nan]; [now exists []|]. unfold frequency at 1. rewrite Hh. cbn [option_map]. rewrite IH. eauto. }
  assert (G : forall l l' r r', no_nan l = Some r -> no_nan l' = Some r' -> exists q, no_nan (l ++ l') = Some q).
  { clear. induction l as [|[a|] l IH]; intros l' r r' H H'; cbn [app no_nan] in *; [eauto| |discriminate]. destruct (no_nan l) as [q|]; [|discriminate]. destruct (IH l' q r' eq_refl H') as [q' ->]. eauto. }
  destruct (F sin (seq 0 (dim / 2))) as [r1 H1]. destruct (F cos (seq 0 (dim / 2))) as [r2 H3]. exact (G _ _ _ _ H1 H3).
Qed.
Lemma embed_all_some dt dim ts : dim mod 2 = 0 -> dim <> 2 -> exists es, embed_all dt dim ts = Some es.
Proof. intros He H2. induction ts as [|t ts [es IH]]; cbn [embed_all]; [eauto|]. destruct (embed_some dt dim t He H2) as [e ->]. rewrite IH. eauto. Qed.
Lemma time_embedding_shp P dt dim B t : dim <> 2 ->
  option_map tbat (time_embedding P dt dim B t) = check (dim mod 2 =? 0) (Some match t with At _ => B | Each ts => length ts end).
Proof.
  intros H2. unfold time_embedding. destruct (Nat.eqb_spec (dim mod 2) 0) as [He|]; cbn [check]; [|reflexivity].
  destruct t as [t|ts]; [destruct (embed_some dt dim t He H2) as [e ->]|destruct (embed_all_some dt dim ts He H2) as [e ->]]; reflexivity.
Qed.

Theorem unet_shp P dt dim init_dim out_dim groups mults mth x t : dim <> 2 ->
  option_map imgs_shape (unet_val P dt dim init_dim out_dim groups mults mth x t) = unet dim init_dim out_dim groups mults mth (imgs_shape x) (times_shape t).
Proof.
  intros H2. unfold unet_val, unet. set (x1 := match x with Img x => _ | Imgs x => x end).
  assert (Hx : match imgs_shape x with One h w c => Shape 1 h w c | Batch b h w c => Shape b h w c end = shp x1) by (destruct x; reflexivity). rewrite Hx. clear Hx. clearbody x1. cbv zeta.
  pose proof (time_embedding_shp P dt dim (sb x1) t H2) as Ht. destruct (time_embedding P dt dim (sb x1) t) as [te|]; cbn [option_map] in Ht.
  2:{ destruct (dim mod 2 =? 0); [discriminate|reflexivity]. }
  destruct (dim mod 2 =? 0); [|discriminate]. cbn [check] in Ht |- *. injection Ht as Ht.
  replace (match times_shape t with Scalar_time => bat (shp x1) | Time_vector n => n end) with (tbat te) by (rewrite Ht; destruct t; reflexivity).
  destruct (rev mults) as [|k rk] eqn:Er.
  { destruct mults as [|m ms]; [|apply (f_equal (@length nat)) in Er; rewrite rev_length in Er; discriminate]. reflexivity. }
  rewrite <- Er. set (mid := dim * k). unfold unet_steps. rewrite run_app. cbn [run run1 s_conv fst snd]. rewrite run_app.
  pose proof (down_shp P dim groups te mults 0 (conv_layer P [0; 0] init_dim 7 1 3 x1) [conv_layer P [0; 0] init_dim 7 1 3 x1]) as D.
  change (shp (conv_layer P [0; 0] init_dim 7 1 3 x1)) with (conv init_dim 7 1 3 (shp x1)) in D. cbn [map] in D. change (shp (conv_layer P [0; 0] init_dim 7 1 3 x1)) with (conv init_dim 7 1 3 (shp x1)) in D.
  destruct (run te (down_steps P dim groups 0 mults) _) as [[h hs]|]; cbn [option_map] in D; rewrite <- D; [|reflexivity]. unfold sshape at 1 2. cbn [fst snd].
  rewrite run_app. cbn [run run1 s_conv s_resnet s_attn fst snd]. fold mid.
  change (conv mid 3 1 1 (shp h)) with (shp (conv_layer P [2; 0] mid 3 1 1 h)).
  layer_shape (resnet_shp P [2; 1] mid groups te (conv_layer P [2; 0] mid 3 1 1 h)) h1.
  layer_shape (attn_shp P [2; 2] false h1) h2.
  layer_shape (resnet_shp P [2; 3] mid groups te h2) h3. rewrite run_app.
  pose proof (up_shp P dim init_dim groups mth te (rev mults) h3 hs) as U.
  destruct (run te (up_steps P dim init_dim groups mth (rev mults)) (h3, hs)) as [[g gs]|]; cbn [option_map] in U; rewrite <- U; [|reflexivity]. unfold sshape. cbn [fst snd].
  cbn [run run1 s_conv s_resnet s_assert fst snd]. destruct gs as [|y gs]; cbn [pop map fst snd]; [reflexivity|].
  change (conv init_dim 3 1 1 (shp g)) with (shp (conv_layer P [4; 0] init_dim 3 1 1 g)).
  layer_shape (tconcat_shp (conv_layer P [4; 0] init_dim 3 1 1 g) y) h4. change (cha (shp h4)) with (sc h4).
  destruct (sc h4 =? init_dim * 2); cbn [check fst snd]; [|reflexivity].
  layer_shape (resnet_shp P [4; 1] dim groups te h4) h5. cbn [option_map imgs_shape].
  rewrite <- (conv1_shp (kernel P [4; 2]) (cbias P [4; 2]) out_dim h5). change (bat (shp x1)) with (sb x1). now destruct (sb x1 =? 1).
Qed.
