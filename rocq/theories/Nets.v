(** Model of the parts of fbs/nn whose meaning does not depend on trained
    parameters: pixel shuffle, time embedding, moving average, attention. *)
From Coq Require Import Reals List Lia Lra Bool.
From Verif Require Import Base.
Import ListNotations.
Open Scope R_scope.

(** ** PixelShuffle, fbs/nn/utils.py 53-57 *)

(** A four dimensional array: its shape and its entries (only those at indices in
    the shape matter). *)
Record arr4 (A : Type) := Arr4 { sb : nat; sh : nat; sw : nat; sc : nat; dat : nat -> nat -> nat -> nat -> A }.
Arguments Arr4 {A}. Arguments sb {A}. Arguments sh {A}. Arguments sw {A}. Arguments sc {A}. Arguments dat {A}.

(** einops.rearrange(x, 'b h w (h2 w2 c) -> b (h h2) (w w2) c', h2=scale, w2=scale).
    [None]: einops raises because the channels cannot be factored. *)
Definition pixel_shuffle {A} (scale : nat) (x : arr4 A) : option (arr4 A) :=
  if ((1 <=? scale) && (sc x mod (scale * scale) =? 0))%nat then
    let c := (sc x / (scale * scale))%nat in
    Some (Arr4 (sb x) (sh x * scale) (sw x * scale) c
      (fun b i j k => dat x b (i / scale) (j / scale) (((i mod scale) * scale + j mod scale) * c + k)))%nat
  else None.

(** ** sinusoidal_embedding, fbs/nn/base.py 44-77 *)

(** jnp.exp(-math.log(max_period) * jnp.arange(half) / (half - 1)); [None]: 0/0 = NaN. *)
Definition frequency (max_period : R) (half i : nat) : option R :=
  if (half =? 1)%nat then None else Some (exp (- ln max_period * INR i / (INR half - 1))).

(** An entry is [None] when it is NaN; the whole result is [None] for the exception. *)
Definition sinusoidal_embedding (t : R) (out_dim : nat) (max_period : R) : option (list (option R)) :=
  let half := (out_dim / 2)%nat in
  let embs := map (fun i => option_map (fun f => t * f) (frequency max_period half i)) (seq 0 half) in
  let out := map (option_map sin) embs ++ map (option_map cos) embs in
  if (out_dim mod 2 =? 1)%nat then None else Some out.

(** ** ema_kernel in make_optax_kernel, fbs/nn/utils.py 67-83, on one coordinate of
    the parameters.  [None]: ZeroDivisionError. *)
Definition ema_update (param ema_param decay : R) : R := decay * ema_param + (1 - decay) * param.

Definition ema_kernel (ema_param param : R) (cnt count_start count_every : nat) (decay : R) : option R :=
  if (cnt <? count_start)%nat then Some param
  else if (count_every =? 0)%nat then None
  else if (cnt mod count_every =? 0)%nat then Some (ema_update param ema_param decay) else Some ema_param.

(** The kernel called with counts [0, ..., n-1] and parameters [p 0, ..., p (n-1)]. *)
Fixpoint ema_run (start every : nat) (decay e0 : R) (p : nat -> R) (n : nat) : option R :=
  match n with
  | 0%nat => Some e0
  | S m => match ema_run start every decay e0 p m with
           | Some e => ema_kernel e (p m) m start every decay
           | None => None
           end
  end.

(** experiments/imgs/train.py 112-119: the count handed over is the index in the epoch.
    [p i j] are the parameters after step [j] of epoch [i]. *)
Fixpoint ema_train (start every : nat) (decay e0 : R) (p : nat -> nat -> R) (nsteps epochs : nat) : option R :=
  match epochs with
  | 0%nat => Some e0
  | S i => match ema_train start every decay e0 p nsteps i with
           | Some e => ema_run start every decay e (p i) nsteps
           | None => None
           end
  end.

(** ** Attention, fbs/nn/unet.py 25-39, 175-206.  One element of the batch. *)

(** l2norm with its default axis=1: on arrays (b, n, h, d) the norm is over the [npos] positions. *)
Definition l2norm (eps : R) (npos : nat) (t : nat -> nat -> nat -> R) : nat -> nat -> nat -> R :=
  fun n h d => t n h d / Rmax (sqrt (Rsum (map (fun m => (t m h d) ^ 2) (seq 0 npos)))) eps.

(** jax.nn.softmax: subtracts the maximum first. *)
Definition softmax (l : list R) : list R :=
  let e := map (fun x => exp (x - Rmax_list l)) l in map (fun x => x / Rsum e) e.

(** jnp.split(qkv, 3, axis=-1)[part] and rearrange 'b x y (h d) -> b (x y) h d'. *)
Definition heads_of (W heads dim_head part : nat) (qkv : nat -> nat -> nat -> R) : nat -> nat -> nat -> R :=
  fun n h d => qkv (n / W)%nat (n mod W)%nat (part * (dim_head * heads) + h * dim_head + d)%nat.

(** rearrange(out, 'b h (x y) d -> b x y (h d)', x=H) *)
Definition merge_heads (W dim_head : nat) (out : nat -> nat -> nat -> R) : nat -> nat -> nat -> R :=
  fun x y c => out (c / dim_head)%nat (x * W + y)%nat (c mod dim_head)%nat.

(** Attention.__call__ between the two convolutions; [out h i d]. *)
Definition attention_core (eps scale : R) (npos dim_head : nat) (q k v : nat -> nat -> nat -> R) : nat -> nat -> nat -> R :=
  let q := l2norm eps npos q in
  let k := l2norm eps npos k in
  fun h i d =>
    let sim := map (fun j => Rsum (map (fun e => q i h e * k j h e) (seq 0 dim_head)) * scale) (seq 0 npos) in
    let attn := softmax sim in
    Rsum (map (fun j => nth j attn 0 * v j h d) (seq 0 npos)).

Definition attention (eps scale : R) (H W heads dim_head : nat) (qkv : nat -> nat -> nat -> R) : nat -> nat -> nat -> R :=
  let part := fun p => heads_of W heads dim_head p qkv in
  merge_heads W dim_head (attention_core eps scale (H * W) dim_head (part 0%nat) (part 1%nat) (part 2%nat)).

(** LinearAttention.__call__, fbs/nn/unet.py 209-245, up to the last convolution and norm. *)
Definition linear_attention_core (npos dim_head : nat) (q k v : nat -> nat -> nat -> R) : nat -> nat -> nat -> R :=
  let qs := fun n h d => nth d (softmax (map (fun e => q n h e) (seq 0 dim_head))) 0 / sqrt (INR dim_head) in
  let ks := fun n h d => nth n (softmax (map (fun m => k m h d) (seq 0 npos))) 0 in
  let vs := fun n h e => v n h e / INR npos in
  let context := fun h d e => Rsum (map (fun n => ks n h d * vs n h e) (seq 0 npos)) in
  fun h n e => Rsum (map (fun d => context h d e * qs n h d) (seq 0 dim_head)).

Definition linear_attention (H W heads dim_head : nat) (qkv : nat -> nat -> nat -> R) : nat -> nat -> nat -> R :=
  let part := fun p => heads_of W heads dim_head p qkv in
  merge_heads W dim_head (linear_attention_core (H * W) dim_head (part 0%nat) (part 1%nat) (part 2%nat)).

(** * Proofs *)

(** ** Pixel shuffle *)
Definition in_shape {A} (x : arr4 A) (q : nat * nat * nat * nat) : Prop :=
  match q with (b, i, j, c) => (b < sb x /\ i < sh x /\ j < sw x /\ c < sc x)%nat end.
Definition entry {A} (x : arr4 A) (q : nat * nat * nat * nat) : A :=
  match q with (b, i, j, c) => dat x b i j c end.

(** Where an output entry comes from. *)
Definition shuffle_source (s c : nat) (q : nat * nat * nat * nat) : nat * nat * nat * nat :=
  match q with (b, i, j, k) => (b, (i / s), (j / s), (((i mod s) * s + j mod s) * c + k))%nat end.
(** And where an input entry goes. *)
Definition shuffle_target (s c : nat) (q : nat * nat * nat * nat) : nat * nat * nat * nat :=
  match q with (b, i, j, k) => (b, (i * s + k / c / s), (j * s + (k / c) mod s), (k mod c))%nat end.

Lemma div_mod_of a b q r : (r < b -> a = q * b + r -> a / b = q /\ a mod b = r)%nat.
Proof.
  intros Hr ->. split.
  - rewrite Nat.div_add_l by lia. rewrite Nat.div_small by lia. lia.
  - rewrite Nat.add_comm, Nat.mod_add by lia. apply Nat.mod_small. lia.
Qed.

Lemma source_target s c q : (1 <= s)%nat -> (match q with (_, _, _, k) => k < s * s * c end)%nat ->
  shuffle_source s c (shuffle_target s c q) = q.
Proof.
  destruct q as [[[b i] j] k]. intros Hs Hk. unfold shuffle_source, shuffle_target.
  assert (Hc : (c <> 0)%nat) by (intros ->; lia).
  assert (Hlt : (k / c < s * s)%nat) by (apply Nat.div_lt_upper_bound; lia).
  assert (Hlt2 : (k / c / s < s)%nat) by (apply Nat.div_lt_upper_bound; lia).
  assert (Hm := Nat.mod_upper_bound (k / c) s ltac:(lia)).
  destruct (div_mod_of (i * s + k / c / s) s i (k / c / s) Hlt2 eq_refl) as [-> ->].
  destruct (div_mod_of (j * s + (k / c) mod s) s j ((k / c) mod s) Hm eq_refl) as [-> ->].
  repeat f_equal.
  pose proof (Nat.div_mod (k / c) s ltac:(lia)). pose proof (Nat.div_mod k c Hc).
  replace (k / c / s * s + (k / c) mod s)%nat with (k / c)%nat by lia. lia.
Qed.

Lemma target_source s c q : (1 <= s)%nat -> (match q with (_, _, _, k) => k < c end)%nat ->
  shuffle_target s c (shuffle_source s c q) = q.
Proof.
  destruct q as [[[b i] j] k]. intros Hs Hk. unfold shuffle_source, shuffle_target.
  assert (Hi := Nat.mod_upper_bound i s ltac:(lia)). assert (Hj := Nat.mod_upper_bound j s ltac:(lia)).
  destruct (div_mod_of (((i mod s) * s + j mod s) * c + k) c _ k Hk eq_refl) as [-> ->].
  destruct (div_mod_of ((i mod s) * s + j mod s) s (i mod s) (j mod s) Hj eq_refl) as [-> ->].
  pose proof (Nat.div_mod i s ltac:(lia)). pose proof (Nat.div_mod j s ltac:(lia)).
  repeat f_equal; lia.
Qed.

Lemma pixel_shuffle_spec {A} s c (x : arr4 A) : (1 <= s -> sc x = s * s * c ->
  exists y, pixel_shuffle s x = Some y /\ sb y = sb x /\ sh y = sh x * s /\ sw y = sw x * s /\ sc y = c /\
    (forall q, in_shape y q -> in_shape x (shuffle_source s c q) /\ entry y q = entry x (shuffle_source s c q)) /\
    (forall q, in_shape x q -> in_shape y (shuffle_target s c q) /\ entry x q = entry y (shuffle_target s c q)) /\
    (forall q, in_shape y q -> shuffle_target s c (shuffle_source s c q) = q) /\
    (forall q, in_shape x q -> shuffle_source s c (shuffle_target s c q) = q))%nat.
Proof.
  intros Hs Hc. unfold pixel_shuffle. rewrite Hc.
  replace (s * s * c / (s * s))%nat with c by (rewrite (Nat.mul_comm (s * s)), Nat.div_mul; lia).
  replace (s * s * c mod (s * s))%nat with 0%nat by (rewrite (Nat.mul_comm (s * s)), Nat.mod_mul; lia).
  replace ((1 <=? s)%nat) with true by (symmetry; apply Nat.leb_le; lia). cbn [andb Nat.eqb].
  eexists. split; [reflexivity|]. cbn [sb sh sw sc].
  assert (Hsrc : forall b i j k, (b < sb x -> i < sh x * s -> j < sw x * s -> k < c ->
    in_shape x (shuffle_source s c (b, i, j, k)))%nat).
  { intros b i j k Hb Hi Hj Hk. cbn. rewrite Hc.
    assert (i / s < sh x)%nat by (apply Nat.div_lt_upper_bound; lia).
    assert (j / s < sw x)%nat by (apply Nat.div_lt_upper_bound; lia).
    assert (Hi' := Nat.mod_upper_bound i s ltac:(lia)). assert (Hj' := Nat.mod_upper_bound j s ltac:(lia)).
    repeat split; try assumption. set (u := (i mod s)%nat) in *. set (v := (j mod s)%nat) in *.
    assert (u * s + v + 1 <= s * s)%nat by nia.
    assert ((u * s + v + 1) * c <= s * s * c)%nat by (apply Nat.mul_le_mono_r; assumption). lia. }
  assert (Htgt : forall b i j k, (b < sb x -> i < sh x -> j < sw x -> k < s * s * c ->
    b < sb x /\ i * s + k / c / s < sh x * s /\ j * s + (k / c) mod s < sw x * s /\ k mod c < c)%nat).
  { intros b i j k Hb Hi Hj Hk. assert (Hc0 : (c <> 0)%nat) by (intros ->; lia).
    assert (Hlt : (k / c < s * s)%nat) by (apply Nat.div_lt_upper_bound; lia).
    assert (Hlt2 : (k / c / s < s)%nat) by (apply Nat.div_lt_upper_bound; lia).
    assert (Hm := Nat.mod_upper_bound (k / c) s ltac:(lia)).
    assert (Hm' := Nat.mod_upper_bound k c ltac:(lia)).
    repeat split; try assumption; nia. }
  do 4 (split; [reflexivity|]). split; [|split; [|split]].
  - intros [[[b i] j] k] (Hb & Hi & Hj & Hk). cbn [sb sh sw sc] in *. split; [now apply Hsrc|]. reflexivity.
  - intros [[[b i] j] k] Hq. pose proof Hq as (Hb & Hi & Hj & Hk). rewrite Hc in Hk. split.
    + cbn. now apply Htgt.
    + transitivity (entry x (shuffle_source s c (shuffle_target s c (b, i, j, k)))); [|reflexivity].
      now rewrite source_target.
  - intros [[[b i] j] k] (Hb & Hi & Hj & Hk). cbn [sc] in Hk. now apply target_source.
  - intros [[[b i] j] k] (Hb & Hi & Hj & Hk). rewrite Hc in Hk. now apply source_target.
Qed.

(** Two inputs with the same shuffle are equal: the operation can be undone. *)
Lemma pixel_shuffle_injective {A} s c (x x' y y' : arr4 A) : (1 <= s -> sc x = s * s * c ->
  sb x = sb x' -> sh x = sh x' -> sw x = sw x' -> sc x = sc x' ->
  pixel_shuffle s x = Some y -> pixel_shuffle s x' = Some y' ->
  (forall q, in_shape y q -> entry y q = entry y' q) -> forall q, in_shape x q -> entry x q = entry x' q)%nat.
Proof.
  intros Hs Hc Hb Hh Hw Hc' Hy Hy' Heq q Hq.
  destruct (pixel_shuffle_spec s c x Hs Hc) as (z & Hz & _ & _ & _ & _ & _ & T & _).
  destruct (pixel_shuffle_spec s c x' Hs ltac:(lia)) as (z' & Hz' & _ & _ & _ & _ & _ & T' & _).
  rewrite Hy in Hz. injection Hz as <-. rewrite Hy' in Hz'. injection Hz' as <-.
  assert (Hq' : in_shape x' q) by (destruct q as [[[b i] j] k]; cbn in *; lia).
  destruct (T q Hq) as [Hin E1]. destruct (T' q Hq') as [_ E2]. rewrite E1, E2. now apply Heq.
Qed.

Lemma pixel_shuffle_error {A} s (x : arr4 A) : (sc x mod (s * s) <> 0)%nat -> pixel_shuffle s x = None.
Proof.
  intros H. unfold pixel_shuffle. replace (sc x mod (s * s) =? 0)%nat with false by (symmetry; now apply Nat.eqb_neq).
  now rewrite andb_false_r.
Qed.

(** torch.nn.PixelShuffle with channels last: out[b, h s + i, w s + j, c] = in[b, h, w, c s^2 + i s + j]. *)
Definition torch_entry {A} (s : nat) (x : arr4 A) (q : nat * nat * nat * nat) : A :=
  match q with (b, i, j, k) => dat x b (i / s) (j / s) (k * (s * s) + (i mod s) * s + j mod s) end%nat.

Lemma torch_one_channel {A} s (x y : arr4 A) q : (1 <= s -> sc x = s * s ->
  pixel_shuffle s x = Some y -> in_shape y q -> entry y q = torch_entry s x q)%nat.
Proof.
  intros Hs Hc Hy Hq. destruct (pixel_shuffle_spec s 1 x Hs ltac:(lia)) as (z & Hz & _ & _ & _ & Hc' & S & _).
  rewrite Hy in Hz. injection Hz as <-. destruct (S q Hq) as [_ ->]. destruct q as [[[b i] j] k].
  destruct Hq as (_ & _ & _ & Hk). rewrite Hc' in Hk. cbn. f_equal. lia.
Qed.

Lemma torch_more_channels s c : (2 <= s -> 2 <= c ->
  exists (x : arr4 nat) y q, sc x = s * s * c /\ pixel_shuffle s x = Some y /\ in_shape y q /\ entry y q <> torch_entry s x q)%nat.
Proof.
  intros Hs Hc. set (x := Arr4 1 1 1 (s * s * c) (fun _ _ _ k => k)).
  destruct (pixel_shuffle_spec s c x ltac:(lia) eq_refl) as (y & Hy & Eb & Eh & Ew & Ec & S & _).
  exists x, y, (0, 0, 1, 0)%nat. cbn in Eb, Eh, Ew.
  assert (Hin : in_shape y (0, 0, 1, 0)%nat) by (cbn; lia).
  split; [reflexivity|]. split; [exact Hy|]. split; [exact Hin|]. destruct (S _ Hin) as [_ ->].
  cbn [entry shuffle_source torch_entry dat x]. rewrite (Nat.mod_small 0 s), (Nat.mod_small 1 s) by lia. lia.
Qed.

(** ** Time embedding *)
Definition freq (P : R) (half i : nat) : R := exp (- ln P * INR i / (INR half - 1)).

Lemma sinusoidal_value t n P : (2 <= n)%nat ->
  sinusoidal_embedding t (2 * n) P =
  Some (map Some (map (fun i => sin (t * freq P n i)) (seq 0 n) ++ map (fun i => cos (t * freq P n i)) (seq 0 n))).
Proof.
  intros Hn. unfold sinusoidal_embedding. rewrite (Nat.mul_comm 2 n), Nat.div_mul, Nat.mod_mul by lia.
  cbn [Nat.eqb]. f_equal. rewrite map_app, !map_map. unfold frequency.
  replace (n =? 1)%nat with false by (symmetry; apply Nat.eqb_neq; lia). reflexivity.
Qed.

Lemma freq_first P n : freq P n 0 = 1.
Proof. unfold freq. cbn [INR]. replace (- ln P * 0 / (INR n - 1)) with 0 by (unfold Rdiv; ring). apply exp_0. Qed.
Lemma freq_last P n : 0 < P -> (2 <= n)%nat -> freq P n (n - 1) = / P.
Proof.
  intros HP Hn. unfold freq. rewrite minus_INR by lia. change (INR 1) with 1.
  assert (2 <= INR n) by (apply (le_INR 2); lia).
  replace (- ln P * (INR n - 1) / (INR n - 1)) with (- ln P) by (field; lra).
  rewrite exp_Ropp, exp_ln; [reflexivity|exact HP].
Qed.
Lemma freq_geometric P n i : freq P n (S (S i)) * freq P n i = freq P n (S i) * freq P n (S i).
Proof. unfold freq. rewrite <- !exp_plus. f_equal. rewrite !S_INR. unfold Rdiv. ring. Qed.

Lemma angle_unique a b : sin a = sin b -> cos a = cos b -> Rabs (a - b) < 2 * PI -> a = b.
Proof.
  intros Hs Hc H.
  assert (C : cos (a - b) = 1).
  { rewrite cos_minus, Hs, Hc. pose proof (sin2_cos2 b) as E. unfold Rsqr in E. lra. }
  set (x := (a - b) / 2). assert (Ex : a - b = 2 * x) by (unfold x; lra). rewrite Ex in *.
  rewrite cos_2a_sin in C. assert (Hsx : sin x = 0) by nra.
  pose proof PI_RGT_0. rewrite Rabs_mult, (Rabs_pos_eq 2) in H by lra. apply Rabs_def2 in H || idtac.
  assert (Hx : - PI < x < PI).
  { assert (Rabs x < PI) by lra. apply Rabs_def2 in H1. lra. }
  destruct (Rtotal_order x 0) as [Hlt|[He|Hgt]].
  - pose proof (sin_gt_0 (- x) ltac:(lra) ltac:(lra)) as P. rewrite sin_neg in P. lra.
  - lra.
  - pose proof (sin_gt_0 x ltac:(lra) ltac:(lra)). lra.
Qed.

Lemma sinusoidal_spec t n P : (2 <= n)%nat -> 0 < P ->
  exists l, sinusoidal_embedding t (2 * n) P = Some (map Some l) /\ length l = (2 * n)%nat /\
    Forall (fun v => -1 <= v <= 1) l /\
    (forall i, (i < n)%nat -> (nth i l 0) ^ 2 + (nth (n + i) l 0) ^ 2 = 1) /\
    nth 0 l 0 = sin t /\ nth n l 0 = cos t /\ nth (n - 1) l 0 = sin (t / P) /\ nth (n + (n - 1)) l 0 = cos (t / P) /\
    exists f, (forall i, (i < n)%nat -> nth i l 0 = sin (t * f i) /\ nth (n + i) l 0 = cos (t * f i)) /\
      f 0%nat = 1 /\ f (n - 1)%nat = / P /\ forall i, f (S (S i)) * f i = f (S i) * f (S i).
Proof.
  intros Hn HP. eexists. split; [apply sinusoidal_value, Hn|].
  set (l1 := map (fun i => sin (t * freq P n i)) (seq 0 n)). set (l2 := map (fun i => cos (t * freq P n i)) (seq 0 n)).
  assert (L1 : length l1 = n) by (unfold l1; now rewrite map_length, seq_length).
  assert (L2 : length l2 = n) by (unfold l2; now rewrite map_length, seq_length).
  assert (N1 : forall i, (i < n)%nat -> nth i (l1 ++ l2) 0 = sin (t * freq P n i)).
  { intros i Hi. rewrite app_nth1 by lia. unfold l1. now rewrite nth_map_seq. }
  assert (N2 : forall i, (i < n)%nat -> nth (n + i) (l1 ++ l2) 0 = cos (t * freq P n i)).
  { intros i Hi. rewrite app_nth2 by lia. rewrite L1. replace (n + i - n)%nat with i by lia. unfold l2. now rewrite nth_map_seq. }
  split; [rewrite app_length; lia|]. split; [|split].
  - apply Forall_app. split; apply Forall_forall; intros v Hv; apply in_map_iff in Hv; destruct Hv as (i & <- & _).
    + apply SIN_bound.
    + apply COS_bound.
  - intros i Hi. rewrite N1, N2 by exact Hi. pose proof (sin2_cos2 (t * freq P n i)) as E. unfold Rsqr in E. lra.
  - split; [rewrite N1, freq_first by lia; f_equal; lra|].
    split; [replace n with (n + 0)%nat at 1 by lia; rewrite N2, freq_first by lia; f_equal; lra|].
    split; [rewrite N1, freq_last by (lia || exact HP); reflexivity|].
    split; [rewrite N2, freq_last by (lia || exact HP); reflexivity|].
    exists (freq P n). split; [intros i Hi; split; [now apply N1|now apply N2]|].
    split; [apply freq_first|]. split; [now apply freq_last|]. apply freq_geometric.
Qed.

(** Times less than [2 pi max_period] apart are told apart. *)
Lemma sinusoidal_injective t t' n P : (2 <= n)%nat -> 0 < P -> Rabs (t - t') < 2 * PI * P ->
  sinusoidal_embedding t (2 * n) P = sinusoidal_embedding t' (2 * n) P -> t = t'.
Proof.
  intros Hn HP H E.
  destruct (sinusoidal_spec t n P Hn HP) as (l & El & _ & _ & _ & _ & _ & S1 & C1 & _).
  destruct (sinusoidal_spec t' n P Hn HP) as (l' & El' & _ & _ & _ & _ & _ & S2 & C2 & _).
  rewrite El, El' in E.
  assert (l = l').
  { assert (F : map Some l = map Some l') by congruence.
    transitivity (map (fun o => match o with Some v => v | None => 0 end) (map Some l)).
    - rewrite map_map, map_id. reflexivity.
    - rewrite F, map_map, map_id. reflexivity. }
  subst l'. assert (A : t / P = t' / P).
  { apply angle_unique; [congruence|congruence|].
    replace (t / P - t' / P) with ((t - t') * / P) by (field; lra).
    rewrite Rabs_mult, (Rabs_pos_eq (/ P)) by (left; now apply Rinv_0_lt_compat).
    apply (Rmult_lt_reg_r P); [exact HP|]. rewrite Rmult_assoc, Rinv_l by lra. lra. }
  apply (Rmult_eq_reg_r (/ P)); [exact A|]. apply Rinv_neq_0_compat. lra.
Qed.

Lemma sinusoidal_odd t n P : (n mod 2 = 1)%nat -> sinusoidal_embedding t n P = None.
Proof. intros H. unfold sinusoidal_embedding. now rewrite H. Qed.
Lemma sinusoidal_two t P : sinusoidal_embedding t 2 P = Some [None; None].
Proof. reflexivity. Qed.

(** ** Moving average *)
Definition averaged (start every n : nat) : list nat :=
  filter (fun c => (start <=? c) && (c mod every =? 0))%nat (seq 0 n).

Lemma ema_before start every decay e0 p n : (n < start)%nat -> ema_run start every decay e0 p (S n) = Some (p n).
Proof.
  intros H. assert (D : exists e, ema_run start every decay e0 p n = Some e).
  { induction n as [|n IH]; [now exists e0|]. cbn. destruct (IH ltac:(lia)) as [e ->]. unfold ema_kernel.
    replace (n <? start)%nat with true by (symmetry; apply Nat.ltb_lt; lia). now eexists. }
  cbn [ema_run]. destruct D as [e ->]. unfold ema_kernel.
  replace (n <? start)%nat with true by (symmetry; apply Nat.ltb_lt; lia). reflexivity.
Qed.

Lemma ema_step start every decay e0 p n e : (1 <= every)%nat -> (start <= n)%nat -> ema_run start every decay e0 p n = Some e ->
  ema_run start every decay e0 p (S n) = Some (if (n mod every =? 0)%nat then decay * e + (1 - decay) * p n else e).
Proof.
  intros He Hn E. cbn [ema_run]. rewrite E. unfold ema_kernel, ema_update.
  replace (n <? start)%nat with false by (symmetry; apply Nat.ltb_ge; lia).
  replace (every =? 0)%nat with false by (symmetry; apply Nat.eqb_neq; lia).
  now destruct (n mod every =? 0)%nat.
Qed.

Lemma averaged_S start every n : averaged start every (S n) =
  averaged start every n ++ (if (start <=? n) && (n mod every =? 0) then [n] else [])%nat.
Proof. unfold averaged. rewrite seq_S, filter_app. cbn [filter Nat.add]. destruct ((start <=? n) && (n mod every =? 0))%nat; reflexivity. Qed.

Lemma averaged_none start every n : (n <= start)%nat -> averaged start every n = [].
Proof.
  induction n as [|n IH]; intros H; [reflexivity|]. rewrite averaged_S, IH by lia.
  replace (start <=? n)%nat with false by (symmetry; apply Nat.leb_gt; lia). reflexivity.
Qed.

(** Geometric weights, oldest first. *)
Definition geometric_average (decay base : R) (l : list R) : R :=
  decay ^ length l * base + (1 - decay) * Rsum (map (fun i => decay ^ (length l - 1 - i) * nth i l 0) (seq 0 (length l))).

Lemma geometric_average_snoc decay base l x :
  geometric_average decay base (l ++ [x]) = decay * geometric_average decay base l + (1 - decay) * x.
Proof.
  unfold geometric_average. rewrite app_length. cbn [length]. rewrite Nat.add_1_r, seq_S, map_app, Rsum_app.
  cbn [Nat.add map Rsum]. rewrite app_nth2, Nat.sub_diag by lia. cbn [nth].
  replace (S (length l) - 1 - length l)%nat with 0%nat by lia.
  assert (Hs : Rsum (map (fun i => decay ^ (S (length l) - 1 - i) * nth i (l ++ [x]) 0) (seq 0 (length l))) =
               decay * Rsum (map (fun i => decay ^ (length l - 1 - i) * nth i l 0) (seq 0 (length l)))).
  { rewrite <- Rsum_map_mult_l. apply Rsum_map_ext. intros i Hi. apply in_seq in Hi. rewrite app_nth1 by lia.
    replace (S (length l) - 1 - i)%nat with (S (length l - 1 - i)) by lia. cbn [pow]. ring. }
  rewrite Hs. cbn [pow]. ring.
Qed.

Lemma ema_closed start every decay e0 p n : (1 <= every)%nat ->
  ema_run start every decay e0 p n =
  Some (geometric_average decay (if (Nat.min n start =? 0)%nat then e0 else p (Nat.min n start - 1)%nat) (map p (averaged start every n))).
Proof.
  intros He. induction n as [|n IH].
  - cbn. unfold geometric_average. cbn. f_equal. ring.
  - destruct (Nat.lt_ge_cases n start) as [Hlt|Hge].
    + rewrite ema_before by exact Hlt. rewrite averaged_none by lia.
      replace (Nat.min (S n) start) with (S n) by lia. cbn [Nat.eqb map]. unfold geometric_average. cbn. rewrite Nat.sub_0_r. f_equal. ring.
    + rewrite (ema_step start every decay e0 p n _ He Hge IH). rewrite averaged_S.
      replace (start <=? n)%nat with true by (symmetry; apply Nat.leb_le; lia). cbn [andb].
      replace (Nat.min (S n) start) with (Nat.min n start) by lia.
      destruct (n mod every =? 0)%nat.
      * rewrite map_app. cbn [map]. now rewrite geometric_average_snoc.
      * now rewrite app_nil_r.
Qed.

Lemma ema_range start every decay e0 p n lo hi : (1 <= every)%nat -> 0 <= decay <= 1 ->
  ((start = 0 \/ n = 0)%nat -> lo <= e0 <= hi) -> (forall i, (i < n)%nat -> lo <= p i <= hi) ->
  exists e, ema_run start every decay e0 p n = Some e /\ lo <= e <= hi.
Proof.
  intros He Hd. revert start. induction n as [|n IH]; intros start H0 Hp.
  - exists e0. split; [reflexivity|]. apply H0. now right.
  - destruct (Nat.lt_ge_cases n start) as [Hlt|Hge].
    + exists (p n). split; [now apply ema_before|]. apply Hp. lia.
    + destruct (IH start) as (e & E & B).
      * intros [->| ->]; apply H0; left; lia.
      * intros i Hi. apply Hp. lia.
      * rewrite (ema_step start every decay e0 p n e He Hge E). eexists. split; [reflexivity|].
        destruct (n mod every =? 0)%nat; [|exact B]. pose proof (Hp n ltac:(lia)). split; nra.
Qed.

Lemma ema_zero_every start decay e0 p n : (start < n)%nat -> ema_run start 0 decay e0 p n = None.
Proof.
  intros H. destruct n as [|n]; [lia|]. revert H. induction n as [|n IH]; intros H.
  - assert (start = 0%nat) by lia. subst. reflexivity.
  - destruct (Nat.eq_dec start (S n)) as [->|Hne].
    + change (ema_run (S n) 0 decay e0 p (S (S n))) with
        (match ema_run (S n) 0 decay e0 p (S n) with Some e => ema_kernel e (p (S n)) (S n) (S n) 0 decay | None => None end).
      rewrite ema_before by lia. unfold ema_kernel.
      replace (S n <? S n)%nat with false by (symmetry; apply Nat.ltb_irrefl). reflexivity.
    + change (ema_run start 0 decay e0 p (S (S n))) with
        (match ema_run start 0 decay e0 p (S n) with Some e => ema_kernel e (p (S n)) (S n) start 0 decay | None => None end).
      now rewrite IH by lia.
Qed.

(** In the training script the average restarts with every epoch. *)
Lemma ema_run_forgets start every decay e0 e1 p n : (1 <= start)%nat -> (1 <= n)%nat ->
  ema_run start every decay e0 p n = ema_run start every decay e1 p n.
Proof.
  intros Hs Hn. destruct n as [|n]; [lia|]. clear Hn. induction n as [|n IH].
  - now rewrite !ema_before by lia.
  - change (ema_run start every decay ?e p (S (S n))) with
        (match ema_run start every decay e p (S n) with Some e => ema_kernel e (p (S n)) (S n) start every decay | None => None end).
    now rewrite IH.
Qed.

Lemma ema_train_last_epoch start every decay e0 p nsteps i : (1 <= start)%nat -> (1 <= nsteps)%nat -> (1 <= every)%nat ->
  ema_train start every decay e0 p nsteps (S i) = ema_run start every decay e0 (p i) nsteps.
Proof.
  intros Hs Hn He. cbn [ema_train].
  assert (D : exists e, ema_train start every decay e0 p nsteps i = Some e).
  { induction i as [|i [e IH]]; [now exists e0|]. cbn. rewrite IH. rewrite ema_closed by exact He. now eexists. }
  destruct D as [e ->]. now apply ema_run_forgets.
Qed.

Lemma ema_train_short_epochs every decay e0 p nsteps i : (1 <= nsteps <= 300)%nat -> (1 <= every)%nat ->
  ema_train 300 every decay e0 p nsteps (S i) = Some (p i (nsteps - 1)%nat).
Proof.
  intros Hn He. rewrite ema_train_last_epoch by lia. destruct nsteps as [|n]; [lia|].
  rewrite ema_before by lia. now rewrite Nat.sub_succ, Nat.sub_0_r.
Qed.

(** ** Attention *)
Lemma softmax_length l : length (softmax l) = length l.
Proof. unfold softmax. now rewrite !map_length. Qed.
Lemma softmax_weights l : l <> [] -> weights_ok (softmax l) /\ Forall (fun x => 0 < x) (softmax l).
Proof.
  intros Hl. unfold softmax. set (e := map (fun x => exp (x - Rmax_list l)) l).
  assert (Fe : Forall (fun x => 0 < x) e).
  { apply Forall_forall. intros x Hx. apply in_map_iff in Hx. destruct Hx as (y & <- & _). apply exp_pos. }
  assert (Hs : 0 < Rsum e) by (apply Rsum_pos; [now destruct l|exact Fe]).
  assert (Fp : Forall (fun x => 0 < x) (map (fun x => x / Rsum e) e)).
  { apply Forall_map. eapply Forall_impl; [|exact Fe]. cbn. intros x Hx. now apply Rdiv_lt_0_compat. }
  split; [|exact Fp]. split.
  - eapply Forall_impl; [|exact Fp]. cbn. intros; lra.
  - unfold Rdiv. rewrite Rsum_map_mult_r, map_id. apply Rinv_r. lra.
Qed.
(** Softmax is the exponential family weight, with or without the shift. *)
Lemma softmax_nth l i : l <> [] -> (i < length l)%nat -> nth i (softmax l) 0 = exp (nth i l 0) / Rsum (map exp l).
Proof.
  intros Hl Hi. unfold softmax. rewrite map_map.
  rewrite (nth_indep _ 0 ((fun x => exp (x - Rmax_list l) / Rsum (map (fun x0 => exp (x0 - Rmax_list l)) l)) 0)) by (now rewrite map_length).
  rewrite (map_nth (fun x => exp (x - Rmax_list l) / Rsum (map (fun x0 => exp (x0 - Rmax_list l)) l))).
  set (M := Rmax_list l).
  assert (Es : Rsum (map (fun x => exp (x - M)) l) = Rsum (map exp l) * exp (- M)).
  { rewrite <- Rsum_map_mult_r. apply Rsum_map_ext. intros x _. rewrite <- exp_plus. reflexivity. }
  rewrite Es. replace (nth i l 0 - M) with (nth i l 0 + - M) by ring. rewrite exp_plus.
  assert (0 < Rsum (map exp l)).
  { apply Rsum_pos; [now destruct l|]. apply Forall_map, Forall_forall. intros; apply exp_pos. }
  pose proof (exp_pos (- M)). field. lra.
Qed.

(** [out] is a convex combination of the value vectors [v j] of the head. *)
Definition convex_of (npos dim_head : nat) (v : nat -> nat -> R) (out : nat -> R) : Prop :=
  exists w, weights_ok w /\ length w = npos /\
    forall d, (d < dim_head)%nat -> out d = Rsum (map (fun j => nth j w 0 * v j d) (seq 0 npos)).

Lemma attention_core_convex eps scale npos dim_head q k v h i : (1 <= npos)%nat ->
  convex_of npos dim_head (fun j d => v j h d) (fun d => attention_core eps scale npos dim_head q k v h i d).
Proof.
  intros Hn. unfold attention_core. cbv zeta.
  set (sim := map _ (seq 0 npos)). exists (softmax sim).
  assert (Ls : length sim = npos) by (unfold sim; now rewrite map_length, seq_length).
  split; [|split].
  - apply softmax_weights. intros E. rewrite E in Ls. cbn in Ls. lia.
  - now rewrite softmax_length.
  - intros d Hd. reflexivity.
Qed.

Lemma attention_convex eps scale H W heads dim_head qkv x y h :
  (x < H)%nat -> (y < W)%nat -> (h < heads)%nat -> (1 <= dim_head)%nat ->
  convex_of (H * W) dim_head
    (fun j d => qkv (j / W)%nat (j mod W)%nat (2 * (dim_head * heads) + h * dim_head + d)%nat)
    (fun d => attention eps scale H W heads dim_head qkv x y (h * dim_head + d)%nat).
Proof.
  intros Hx Hy Hh Hd.
  destruct (attention_core_convex eps scale (H * W) dim_head (heads_of W heads dim_head 0 qkv) (heads_of W heads dim_head 1 qkv)
    (heads_of W heads dim_head 2 qkv) h (x * W + y) ltac:(nia)) as (w & Hw & Hl & E).
  exists w. split; [exact Hw|]. split; [exact Hl|]. intros d Hdd. etransitivity; [|exact (E d Hdd)].
  unfold attention, merge_heads. destruct (div_mod_of (h * dim_head + d) dim_head h d Hdd eq_refl) as [-> ->]. reflexivity.
Qed.

(** A convex combination lies between the extremes. *)
Lemma convex_between npos dim_head v out lo hi d : convex_of npos dim_head v out -> (d < dim_head)%nat ->
  (forall j, (j < npos)%nat -> lo <= v j d <= hi) -> lo <= out d <= hi.
Proof.
  intros (w & [Hw Hs] & Hl & E) Hd Hv. rewrite (E d Hd).
  assert (Hsum : forall c, c = Rsum (map (fun j => nth j w 0 * c) (seq 0 npos))).
  { intros c. rewrite Rsum_map_mult_r. rewrite <- Hl, map_nth_seq, Hs. ring. }
  assert (Hnn : forall j, In j (seq 0 npos) -> 0 <= nth j w 0).
  { intros j Hj. apply in_seq in Hj. apply (Forall_nth_lt (fun x => 0 <= x) w 0 j Hw). lia. }
  split.
  - rewrite (Hsum lo). apply Rsum_map_le. intros j Hj. specialize (Hnn j Hj). apply in_seq in Hj. pose proof (Hv j ltac:(lia)). nra.
  - rewrite (Hsum hi). apply Rsum_map_le. intros j Hj. specialize (Hnn j Hj). apply in_seq in Hj. pose proof (Hv j ltac:(lia)). nra.
Qed.

(** What [l2norm] does normalise: every feature, over all positions. *)
Lemma l2norm_over_positions eps npos t h d : 0 < eps ->
  eps <= sqrt (Rsum (map (fun m => (t m h d) ^ 2) (seq 0 npos))) ->
  Rsum (map (fun n => (l2norm eps npos t n h d) ^ 2) (seq 0 npos)) = 1.
Proof.
  intros He Hle. unfold l2norm. set (S2 := Rsum (map (fun m => (t m h d) ^ 2) (seq 0 npos))) in *.
  rewrite Rmax_left by exact Hle. assert (Hp : 0 < S2) by (apply sqrt_lt_0_alt; rewrite sqrt_0; lra).
  transitivity (Rsum (map (fun n => (t n h d) ^ 2 * / S2) (seq 0 npos))).
  - apply Rsum_map_ext. intros n _. unfold Rdiv. rewrite Rpow_mult_distr. f_equal.
    rewrite pow_inv. f_equal. rewrite pow2_sqrt; lra.
  - rewrite Rsum_map_mult_r. fold S2. apply Rinv_r. lra.
Qed.

(** Hence the squared norms of all queries together are the number of features, so
    they are not unit vectors unless there are as many positions as features. *)
Lemma l2norm_total eps npos dim_head t h : 0 < eps ->
  (forall d, (d < dim_head)%nat -> eps <= sqrt (Rsum (map (fun m => (t m h d) ^ 2) (seq 0 npos)))) ->
  Rsum (map (fun n => Rsum (map (fun d => (l2norm eps npos t n h d) ^ 2) (seq 0 dim_head))) (seq 0 npos)) = INR dim_head.
Proof.
  intros He Hd. rewrite Rsum_exchange.
  transitivity (Rsum (map (fun _ : nat => 1) (seq 0 dim_head))).
  - apply Rsum_map_ext. intros d Hin. apply in_seq in Hin. apply l2norm_over_positions; [exact He|]. apply Hd. lia.
  - rewrite Rsum_map_const, seq_length. ring.
Qed.

Lemma l2norm_not_unit eps npos dim_head t h : 0 < eps -> npos <> dim_head ->
  (forall d, (d < dim_head)%nat -> eps <= sqrt (Rsum (map (fun m => (t m h d) ^ 2) (seq 0 npos)))) ->
  ~ (forall n, (n < npos)%nat -> Rsum (map (fun d => (l2norm eps npos t n h d) ^ 2) (seq 0 dim_head)) = 1).
Proof.
  intros He Hne Hd Hall. pose proof (l2norm_total eps npos dim_head t h He Hd) as T.
  assert (E : Rsum (map (fun n => Rsum (map (fun d => (l2norm eps npos t n h d) ^ 2) (seq 0 dim_head))) (seq 0 npos)) = INR npos).
  { transitivity (Rsum (map (fun _ : nat => 1) (seq 0 npos))).
    - apply Rsum_map_ext. intros n Hn. apply in_seq in Hn. apply Hall. lia.
    - rewrite Rsum_map_const, seq_length. ring. }
  rewrite E in T. apply INR_eq in T. contradiction.
Qed.

(** Linear attention: convex combinations of the values, divided by sqrt(dim_head) H W. *)
Lemma linear_attention_core_convex npos dim_head q k v h n : (1 <= npos)%nat -> (1 <= dim_head)%nat ->
  convex_of npos dim_head (fun j d => v j h d)
    (fun d => sqrt (INR dim_head) * INR npos * linear_attention_core npos dim_head q k v h n d).
Proof.
  intros Hn Hd.
  set (qw := softmax (map (fun e => q n h e) (seq 0 dim_head))).
  set (kw := fun d => softmax (map (fun m => k m h d) (seq 0 npos))).
  assert (Lq : length qw = dim_head) by (unfold qw; now rewrite softmax_length, map_length, seq_length).
  assert (Lk : forall d, length (kw d) = npos) by (intros; unfold kw; now rewrite softmax_length, map_length, seq_length).
  assert (Wq : weights_ok qw).
  { apply softmax_weights. intros E. unfold qw in Lq. rewrite E in Lq. cbn in Lq. lia. }
  assert (Wk : forall d, weights_ok (kw d)).
  { intros d. apply softmax_weights. intros E. specialize (Lk d). unfold kw in Lk. rewrite E in Lk. cbn in Lk. lia. }
  set (w := map (fun m => Rsum (map (fun d => nth d qw 0 * nth m (kw d) 0) (seq 0 dim_head))) (seq 0 npos)).
  assert (Nq : forall d, (d < dim_head)%nat -> 0 <= nth d qw 0).
  { intros d Hdd. apply (Forall_nth_lt (fun x => 0 <= x) qw 0 d (proj1 Wq)). lia. }
  assert (Nk : forall m d, (m < npos)%nat -> 0 <= nth m (kw d) 0).
  { intros m d Hm. apply (Forall_nth_lt (fun x => 0 <= x) (kw d) 0 m (proj1 (Wk d))). rewrite Lk. lia. }
  assert (Pd : 0 < sqrt (INR dim_head)) by (apply sqrt_lt_R0, lt_0_INR; lia).
  assert (Pn : 0 < INR npos) by (apply lt_0_INR; lia).
  exists w. split; [|split].
  - split.
    + apply Forall_forall. intros x Hx. apply in_map_iff in Hx. destruct Hx as (m & <- & Hm). apply in_seq in Hm.
      apply Rsum_nonneg, Forall_forall. intros z Hz. apply in_map_iff in Hz. destruct Hz as (d & <- & Hdd). apply in_seq in Hdd.
      apply Rmult_le_pos; [apply Nq; lia|apply Nk; lia].
    + unfold w. rewrite Rsum_exchange. transitivity (Rsum (map (fun d => nth d qw 0) (seq 0 dim_head))).
      * apply Rsum_map_ext. intros d _. rewrite Rsum_map_mult_l. rewrite <- (Lk d), map_nth_seq, (proj2 (Wk d)). ring.
      * rewrite <- Lq, map_nth_seq. apply Wq.
  - unfold w. now rewrite map_length, seq_length.
  - intros e He. unfold linear_attention_core. cbv zeta. fold qw.
    transitivity (Rsum (map (fun d => Rsum (map (fun m => nth d qw 0 * nth m (kw d) 0 * v m h e) (seq 0 npos))) (seq 0 dim_head))).
    + rewrite <- Rsum_map_mult_l. apply Rsum_map_ext. intros d _. fold (kw d).
      rewrite <- Rsum_map_mult_r, <- Rsum_map_mult_l. apply Rsum_map_ext. intros m _. field. lra.
    + rewrite Rsum_exchange. apply Rsum_map_ext. intros m Hm. apply in_seq in Hm. unfold w. rewrite nth_map_seq by lia.
      now rewrite <- Rsum_map_mult_r.
Qed.

Lemma linear_attention_convex H W heads dim_head qkv x y h :
  (x < H)%nat -> (y < W)%nat -> (h < heads)%nat -> (1 <= dim_head)%nat ->
  convex_of (H * W) dim_head
    (fun j d => qkv (j / W)%nat (j mod W)%nat (2 * (dim_head * heads) + h * dim_head + d)%nat)
    (fun d => sqrt (INR dim_head) * INR (H * W) * linear_attention H W heads dim_head qkv x y (h * dim_head + d)%nat).
Proof.
  intros Hx Hy Hh Hd.
  destruct (linear_attention_core_convex (H * W) dim_head (heads_of W heads dim_head 0 qkv) (heads_of W heads dim_head 1 qkv)
    (heads_of W heads dim_head 2 qkv) h (x * W + y) ltac:(nia) Hd) as (w & Hw & Hl & E).
  exists w. split; [exact Hw|]. split; [exact Hl|]. intros d Hdd. etransitivity; [|exact (E d Hdd)].
  unfold linear_attention, merge_heads. destruct (div_mod_of (h * dim_head + d) dim_head h d Hdd eq_refl) as [-> ->]. reflexivity.
Qed.

(** ** Vectors of times *)

(** [t * fs] for a vector [t], by numpy broadcasting; [None] when the shapes do not match. *)
Definition broadcast_mul (t : list R) (fs : list (option R)) : option (list (option R)) :=
  if (length t =? length fs)%nat then Some (map (fun p => option_map (fun f => fst p * f) (snd p)) (combine t fs))
  else match t, fs with
       | [a], _ => Some (map (option_map (fun f => a * f)) fs)
       | _, [f] => Some (map (fun a => option_map (fun f => a * f) f) t)
       | _, _ => None
       end.

(** sinusoidal_embedding for [t] of type JArray with one axis. *)
Definition sinusoidal_embedding_vec (t : list R) (out_dim : nat) (max_period : R) : option (list (option R)) :=
  let half := (out_dim / 2)%nat in
  match broadcast_mul t (map (frequency max_period half) (seq 0 half)) with
  | Some embs => if (out_dim mod 2 =? 1)%nat then None else Some (map (option_map sin) embs ++ map (option_map cos) embs)
  | None => None
  end.

Lemma sinusoidal_vec_error t n P : (2 <= n)%nat -> length t <> 1%nat -> length t <> n -> sinusoidal_embedding_vec t (2 * n) P = None.
Proof.
  intros Hn H1 H2. unfold sinusoidal_embedding_vec. rewrite (Nat.mul_comm 2 n), Nat.div_mul by lia. unfold broadcast_mul.
  rewrite map_length, seq_length. replace (length t =? n)%nat with false by (symmetry; now apply Nat.eqb_neq).
  destruct t as [|a [|b t]]; cbn in H1; [|lia|]; destruct n as [|[|n]]; try lia; reflexivity.
Qed.

(** With as many times as frequencies every time meets one frequency only. *)
Lemma sinusoidal_vec_mixes t n P : (2 <= n)%nat -> length t = n ->
  sinusoidal_embedding_vec t (2 * n) P =
  Some (map Some (map (fun i => sin (nth i t 0 * freq P n i)) (seq 0 n) ++ map (fun i => cos (nth i t 0 * freq P n i)) (seq 0 n))).
Proof.
  intros Hn Hl. unfold sinusoidal_embedding_vec. rewrite (Nat.mul_comm 2 n), Nat.div_mul, Nat.mod_mul by lia. unfold broadcast_mul.
  rewrite map_length, seq_length, Hl, Nat.eqb_refl. cbn [Nat.eqb]. f_equal.
  assert (E : combine t (map (frequency P n) (seq 0 n)) = map (fun i => (nth i t 0, Some (freq P n i))) (seq 0 n)).
  { rewrite <- (map_nth_seq 0 t) at 1. rewrite Hl. generalize (seq 0 n). intros l. induction l as [|i l IH]; [reflexivity|].
    cbn [map combine]. rewrite IH. unfold frequency at 1. replace (n =? 1)%nat with false by (symmetry; apply Nat.eqb_neq; lia). reflexivity. }
  rewrite E, map_app, !map_map. reflexivity.
Qed.
