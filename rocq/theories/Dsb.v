(** Model of fbs/dsb/base.py.  A batch of states is the flat list of its entries. *)
From Verif Require Export SdeLoss.
Open Scope R_scope.

Section ipf.
(** [parametric_drift(x, t, param)], [simulator_drift(x, t, simulator_param)] on whole batches *)
Variable parametric simulator : list R -> R -> list R.
Variable dispersion : R -> R.

(** base.py:93 [fn] *)
Definition ipf_fn (x : list R) (t dt : R) : list R := vadd x (vscale dt (simulator x t)).
(** base.py:99-100, 128-129: one Euler-Maruyama step *)
Definition ipf_next (x : list R) (t t_next : R) (rnd : list R) : list R :=
  let dt := Rabs (t_next - t) in vadd (vadd x (vscale dt (simulator x t))) (vscale (sqrt dt * dispersion t) rnd).
(** base.py:101-102, 138-141: the error array before squaring *)
Definition ipf_err (x x_next : list R) (t t_next : R) : list R :=
  let dt := Rabs (t_next - t) in
  vmap2 Rminus (vscale dt (parametric x_next t_next)) (vmap2 Rminus (ipf_fn x t dt) (ipf_fn x_next t dt)).
(** [** 2] *)
Definition sq (x : list R) : list R := map (fun a => a * a) x.

(** base.py:95-103, the scan over (ts[:-1], ts[1:], rnds) with carry (x, err) *)
Fixpoint cont_scan (x : list R) (err : R) (ts : list R) (rnds : list (list R)) : list R * R :=
  match ts, rnds with
  | t :: ((t_next :: _) as ts'), rnd :: rnds' =>
      let x_next := ipf_next x t t_next rnd in
      cont_scan x_next (err + Rmean (sq (ipf_err x x_next t t_next))) ts' rnds'
  | _, _ => (x, err)
  end.
(** base.py:35-108 [ipf_loss_cont] as a function of its noise; the final [jnp.mean] is over a scalar *)
Definition ipf_loss_cont (init : list R) (ts : list R) (rnds : list (list R)) : R :=
  snd (cont_scan init 0 ts rnds) / INR (length ts - 1).

(** base.py:124-135: the trajectory, then all errors at once *)
Fixpoint traj_scan (x : list R) (ts : list R) (rnds : list (list R)) : list (list R) :=
  match ts, rnds with
  | t :: ((t_next :: _) as ts'), rnd :: rnds' => let x' := ipf_next x t t_next rnd in x' :: traj_scan x' ts' rnds'
  | _, _ => []
  end.
(** base.py:111-142 [ipf_loss_cont_v] *)
Definition ipf_loss_cont_v (init : list R) (ts : list R) (rnds : list (list R)) : R :=
  let trajs := init :: traj_scan init ts rnds in
  Rmean (concat (map (fun k => sq (ipf_err (nth k trajs []) (nth (S k) trajs []) (nth k ts 0) (nth (S k) ts 0))) (seq 0 (length ts - 1)))).
End ipf.

(** base.py:7-32 [ipf_loss_disc]; [ks] are the step numbers, [gammas] the step variances. *)
Section disc.
Variable parametric simulator : list R -> R -> list R.
(** base.py:25-26 *)
Definition disc_err (x x_next : list R) (k k_next : R) : list R :=
  vmap2 Rminus (parametric x_next k_next) (vmap2 Rminus (vadd x_next (simulator x k)) (simulator x_next k)).
(** base.py:20-27 *)
Fixpoint disc_scan (x : list R) (err : R) (ks gammas : list R) (rnds : list (list R)) : list R * R :=
  match ks, gammas, rnds with
  | k :: ((k_next :: _) as ks'), gamma :: gammas', rnd :: rnds' =>
      let x_next := vadd (simulator x k) (vscale (sqrt gamma) rnd) in
      disc_scan x_next (err + Rmean (sq (disc_err x x_next k k_next))) ks' gammas' rnds'
  | _, _, _ => (x, err)
  end.
Definition ipf_loss_disc (x0s : list R) (ks gammas : list R) (rnds : list (list R)) : R := snd (disc_scan x0s 0 ks gammas rnds).
End disc.

(** ** Proofs *)
Lemma sq_nonneg x : Forall (fun a => 0 <= a) (sq x).
Proof. unfold sq. apply Forall_map, Forall_forall. intros. apply Rle_0_sqr. Qed.
Lemma length_sq x : length (sq x) = length x.
Proof. apply map_length. Qed.
Lemma sq_zero x : Forall (fun a => a = 0) (sq x) <-> Forall (fun a => a = 0) x.
Proof.
  unfold sq. rewrite Forall_map. rewrite !Forall_forall. split; intros H a Ha; specialize (H a Ha).
  - apply Rmult_integral in H. tauto.
  - rewrite H. ring.
Qed.

Section ipf_facts.
Variable parametric simulator : list R -> R -> list R.
Variable dispersion : R -> R.
Variable N : nat.
Hypothesis HN : (0 < N)%nat.
Hypothesis Hpar : forall x t, length x = N -> length (parametric x t) = N.
Hypothesis Hsim : forall x t, length x = N -> length (simulator x t) = N.
Notation next := (ipf_next simulator dispersion).
Notation err := (ipf_err parametric simulator).

Lemma length_fn x t dt : length x = N -> length (ipf_fn simulator x t dt) = N.
Proof. intros H. unfold ipf_fn, vadd. rewrite length_vmap2; rewrite ?length_vscale, ?Hsim; congruence. Qed.
Lemma length_next x t t' r : length x = N -> length r = N -> length (next x t t' r) = N.
Proof. intros H Hr. unfold ipf_next, vadd. rewrite length_vmap2; rewrite length_vmap2; rewrite ?length_vscale, ?Hsim; congruence. Qed.
Lemma length_err x x' t t' : length x = N -> length x' = N -> length (err x x' t t') = N.
Proof.
  intros H Hr. unfold ipf_err. rewrite length_vmap2; rewrite ?length_vscale; rewrite ?Hpar by assumption; [reflexivity|].
  rewrite length_vmap2; rewrite !length_fn by assumption; reflexivity.
Qed.

(** squared errors along the path *)
Fixpoint errs (x : list R) (ts : list R) (rnds : list (list R)) : list (list R) :=
  match ts, rnds with
  | t :: ((t_next :: _) as ts'), rnd :: rnds' => let x' := next x t t_next rnd in sq (err x x' t t_next) :: errs x' ts' rnds'
  | _, _ => []
  end.

Lemma cont_scan_cons x e t t' ts r rnds : cont_scan parametric simulator dispersion x e (t :: t' :: ts) (r :: rnds) =
  cont_scan parametric simulator dispersion (next x t t' r) (e + Rmean (sq (err x (next x t t' r) t t'))) (t' :: ts) rnds.
Proof. reflexivity. Qed.
Lemma errs_cons x t t' ts r rnds : errs x (t :: t' :: ts) (r :: rnds) = sq (err x (next x t t' r) t t') :: errs (next x t t' r) (t' :: ts) rnds.
Proof. reflexivity. Qed.

Lemma cont_scan_errs ts : forall x e rnds, snd (cont_scan parametric simulator dispersion x e ts rnds) = e + Rsum (map Rmean (errs x ts rnds)).
Proof.
  induction ts as [|t ts IH]; intros x e rnds; [simpl; ring|]. destruct ts as [|t' ts], rnds as [|r rnds]; try (cbn [cont_scan errs map Rsum snd]; ring).
  rewrite cont_scan_cons, errs_cons, IH. cbn [map Rsum]. ring.
Qed.

Lemma errs_length ts : forall x rnds, length rnds = (length ts - 1)%nat -> length (errs x ts rnds) = (length ts - 1)%nat.
Proof.
  induction ts as [|t ts IH]; intros x rnds H; [reflexivity|]. destruct ts as [|t' ts]; [reflexivity|].
  destruct rnds as [|r rnds]; [simpl in H; lia|]. rewrite errs_cons. cbn [length] in *. rewrite IH; cbn [length]; lia.
Qed.
Lemma errs_shape ts : forall x rnds, length x = N -> Forall (fun r => length r = N) rnds -> Forall (fun l => length l = N) (errs x ts rnds).
Proof.
  induction ts as [|t ts IH]; intros x rnds Hx HF; [constructor|]. destruct ts as [|t' ts]; [constructor|].
  destruct rnds as [|r rnds]; [constructor|]. apply Forall_cons_iff in HF as [Hr HF]. rewrite errs_cons.
  assert (length (next x t t' r) = N) by (now apply length_next). constructor.
  - rewrite length_sq. now apply length_err.
  - now apply IH.
Qed.

Lemma errs_traj ts : forall x rnds, length rnds = (length ts - 1)%nat ->
  errs x ts rnds = map (fun k => sq (err (nth k (x :: traj_scan simulator dispersion x ts rnds) []) (nth (S k) (x :: traj_scan simulator dispersion x ts rnds) [])
    (nth k ts 0) (nth (S k) ts 0))) (seq 0 (length ts - 1)).
Proof.
  induction ts as [|t ts IH]; intros x rnds H; [reflexivity|]. destruct ts as [|t' ts]; [reflexivity|].
  destruct rnds as [|r rnds]; [simpl in H; lia|]. rewrite errs_cons, IH by (cbn [length] in *; lia). cbn [length] in *. replace (S (S (length ts)) - 1)%nat with (S (length ts)) by lia.
  cbn [seq map]. f_equal. replace (S (length ts) - 1)%nat with (length ts) by lia.
  rewrite <- seq_shift, map_map. apply map_ext. intros k. reflexivity.
Qed.

Lemma Rmean_concat ls : (0 < length ls)%nat -> Forall (fun l => length l = N) ls -> Rmean (concat ls) = Rsum (map Rmean ls) / INR (length ls).
Proof.
  intros Hl HF.
  assert (Hlen : length (concat ls) = (length ls * N)%nat).
  { clear Hl. induction HF as [|l ls H HF IH]; [reflexivity|]. cbn [concat length]. rewrite app_length, IH, H. lia. }
  assert (Hsum : Rsum (map Rmean ls) = Rsum (concat ls) / INR N).
  { clear Hl Hlen. assert (INR N <> 0) by (apply not_0_INR; lia). induction HF as [|l ls Hll HF IH]; [cbn; field; assumption|].
    cbn [map Rsum concat]. rewrite IH, Rsum_app. unfold Rmean. rewrite Hll. field. assumption. }
  unfold Rmean at 1. rewrite Hlen, Hsum, mult_INR. assert (INR N <> 0) by (apply not_0_INR; lia). assert (INR (length ls) <> 0) by (apply not_0_INR; lia).
  field. split; assumption.
Qed.

Variable init : list R.
Variable ts : list R.
Variable rnds : list (list R).
Hypothesis Hinit : length init = N.
Hypothesis Hts : (2 <= length ts)%nat.
Hypothesis Hrnds : length rnds = (length ts - 1)%nat.
Hypothesis Hrows : Forall (fun r => length r = N) rnds.

Theorem ipf_losses_agree : ipf_loss_cont parametric simulator dispersion init ts rnds = ipf_loss_cont_v parametric simulator dispersion init ts rnds.
Proof.
  unfold ipf_loss_cont, ipf_loss_cont_v. rewrite cont_scan_errs, Rplus_0_l. cbv zeta. rewrite <- (errs_traj ts init rnds Hrnds).
  rewrite Rmean_concat; rewrite ?errs_length by assumption; [reflexivity|lia|now apply errs_shape].
Qed.

Definition trajectory (k : nat) : list R := nth k (init :: traj_scan simulator dispersion init ts rnds) [].

Theorem ipf_loss_zero :
  0 <= ipf_loss_cont parametric simulator dispersion init ts rnds /\
  (ipf_loss_cont parametric simulator dispersion init ts rnds = 0 <->
   forall k, (S k < length ts)%nat -> Forall (fun a => a = 0) (err (trajectory k) (trajectory (S k)) (nth k ts 0) (nth (S k) ts 0))).
Proof.
  rewrite ipf_losses_agree. unfold ipf_loss_cont_v. cbv zeta. rewrite <- (errs_traj ts init rnds Hrnds).
  assert (Hnn : Forall (fun x => 0 <= x) (concat (errs init ts rnds))).
  { apply Forall_concat. rewrite (errs_traj ts init rnds Hrnds). apply Forall_map, Forall_forall. intros k _. apply sq_nonneg. }
  split; [now apply Rmean_nonneg|]. rewrite Rmean_zero_iff; [|intros Hc|assumption].
  - rewrite Forall_concat, (errs_traj ts init rnds Hrnds), Forall_map, Forall_forall. cbv zeta. split.
    + intros H k Hk. apply sq_zero. apply (H k). apply in_seq. lia.
    + intros H k Hk. apply in_seq in Hk. apply sq_zero. apply (H k). lia.
  - pose proof (errs_shape ts init rnds Hinit Hrows) as HF. pose proof (errs_length ts init rnds Hrnds) as Hl.
    destruct (errs init ts rnds) as [|l ls]; [cbn [length] in Hl; lia|]. apply Forall_inv in HF. cbn [concat] in Hc. apply app_eq_nil in Hc as [-> _].
    cbn [length] in HF. lia.
Qed.
End ipf_facts.

(** ** the discrete loss *)
Section disc_facts.
Variable parametric simulator : list R -> R -> list R.
Fixpoint disc_errs (x : list R) (ks gammas : list R) (rnds : list (list R)) : list (list R) :=
  match ks, gammas, rnds with
  | k :: ((k_next :: _) as ks'), gamma :: gammas', rnd :: rnds' =>
      let x' := vadd (simulator x k) (vscale (sqrt gamma) rnd) in disc_err parametric simulator x x' k k_next :: disc_errs x' ks' gammas' rnds'
  | _, _, _ => []
  end.
Lemma disc_scan_cons x e k k' ks g gs r rnds : disc_scan parametric simulator x e (k :: k' :: ks) (g :: gs) (r :: rnds) =
  disc_scan parametric simulator (vadd (simulator x k) (vscale (sqrt g) r))
    (e + Rmean (sq (disc_err parametric simulator x (vadd (simulator x k) (vscale (sqrt g) r)) k k'))) (k' :: ks) gs rnds.
Proof. reflexivity. Qed.
Lemma disc_errs_cons x k k' ks g gs r rnds : disc_errs x (k :: k' :: ks) (g :: gs) (r :: rnds) =
  disc_err parametric simulator x (vadd (simulator x k) (vscale (sqrt g) r)) k k' :: disc_errs (vadd (simulator x k) (vscale (sqrt g) r)) (k' :: ks) gs rnds.
Proof. reflexivity. Qed.
Lemma disc_scan_errs ks : forall x e gs rnds, snd (disc_scan parametric simulator x e ks gs rnds) = e + Rsum (map (fun l => Rmean (sq l)) (disc_errs x ks gs rnds)).
Proof.
  induction ks as [|k ks IH]; intros x e gs rnds; [simpl; ring|]. destruct ks as [|k' ks], gs as [|g gs], rnds as [|r rnds]; try (cbn [disc_scan disc_errs map Rsum snd]; ring).
  rewrite disc_scan_cons, disc_errs_cons, IH. cbn [map Rsum]. ring.
Qed.
Theorem ipf_disc_nonneg x0s ks gs rnds : 0 <= ipf_loss_disc parametric simulator x0s ks gs rnds.
Proof.
  unfold ipf_loss_disc. rewrite disc_scan_errs, Rplus_0_l. apply Rsum_nonneg, Forall_map, Forall_forall. intros l _. apply Rmean_nonneg, sq_nonneg.
Qed.
End disc_facts.

(** ** relation between the two discretisations: with simulator x + f dt, gamma = dt g^2 and network x + h dt the
    discrete loss is the sum of the continuous ones *)
Lemma disc_cont_scan (par sim : list R -> R -> list R) N dt g : 0 < dt -> 0 <= g ->
  (forall x t, length x = N -> length (par x t) = N) -> (forall x t, length x = N -> length (sim x t) = N) ->
  forall ts x e rnds, length x = N -> Forall (fun r => length r = N) rnds -> length rnds = (length ts - 1)%nat ->
  (forall k, (S k < length ts)%nat -> nth (S k) ts 0 - nth k ts 0 = dt) ->
  snd (disc_scan (fun x t => vadd x (vscale dt (par x t))) (fun x t => vadd x (vscale dt (sim x t))) x e ts (repeat (dt * g * g) (length ts - 1)) rnds) =
  snd (cont_scan par sim (fun _ => g) x e ts rnds).
Proof.
  intros Hdt Hg Hp Hs. induction ts as [|t ts IH]; intros x e rnds Hx HF Hl Hd; [reflexivity|].
  destruct ts as [|t' ts]; [reflexivity|]. destruct rnds as [|r rnds]; [simpl in Hl; lia|].
  cbn [length] in *. replace (S (S (length ts)) - 1)%nat with (S (length ts)) in * by lia. cbn [repeat]. rewrite disc_scan_cons, cont_scan_cons.
  pose proof (Hd 0%nat ltac:(lia)) as Hd0. cbn [nth] in Hd0.
  apply Forall_cons_iff in HF as [Hr HF].
  assert (Hnext : ipf_next sim (fun _ => g) x t t' r = vadd (vadd x (vscale dt (sim x t))) (vscale (sqrt (dt * g * g)) r)).
  { unfold ipf_next. rewrite Hd0, Rabs_pos_eq by lra. f_equal. f_equal. rewrite Rmult_assoc, sqrt_mult by nra. now rewrite sqrt_square. }
  rewrite Hnext. set (x' := vadd (vadd x (vscale dt (sim x t))) (vscale (sqrt (dt * g * g)) r)).
  assert (Hx' : length x' = N).
  { unfold x', vadd. rewrite length_vmap2; rewrite length_vmap2; rewrite ?length_vscale, ?Hs; congruence. }
  assert (Herr : disc_err (fun x t => vadd x (vscale dt (par x t))) (fun x t => vadd x (vscale dt (sim x t))) x x' t t' = ipf_err par sim x x' t t').
  { unfold disc_err, ipf_err, ipf_fn. rewrite Hd0, Rabs_pos_eq by lra.
    assert (L1 : length (vscale dt (par x' t')) = N) by (rewrite length_vscale; auto).
    assert (L2 : length (vscale dt (sim x t)) = N) by (rewrite length_vscale; auto).
    assert (L3 : length (vscale dt (sim x' t)) = N) by (rewrite length_vscale; auto).
    revert L1 L2 L3. generalize (vscale dt (par x' t')) (vscale dt (sim x t)) (vscale dt (sim x' t)). intros p q s L1 L2 L3.
    apply (nth_ext _ _ 0 0).
    - unfold vadd. repeat rewrite length_vmap2; congruence.
    - intros i Hi. unfold vadd in *. repeat rewrite length_vmap2 in Hi by (repeat rewrite length_vmap2; congruence).
      repeat (rewrite nth_vmap2; [|repeat rewrite length_vmap2; lia|repeat rewrite length_vmap2; congruence]). ring. }
  rewrite Herr. replace (length ts) with (length (t' :: ts) - 1)%nat by (cbn [length]; lia).
  apply IH; try assumption; cbn [length]; [lia|]. intros k Hk. apply (Hd (S k)). lia.
Qed.

(** ** mean matching in terms of the arrays *)
Lemma vminus_zero x y : length x = length y -> (Forall (fun a => a = 0) (vmap2 Rminus x y) <-> x = y).
Proof.
  intros Hl. split.
  - intros H. apply (nth_ext _ _ 0 0 Hl). intros i Hi. rewrite Forall_forall in H. specialize (H (nth i (vmap2 Rminus x y) 0)).
    rewrite nth_vmap2 in H by assumption. cut (nth i x 0 - nth i y 0 = 0); [lra|]. apply H. rewrite <- (nth_vmap2 Rminus) by assumption.
    apply nth_In. now rewrite length_vmap2.
  - intros ->. unfold vmap2. apply Forall_map, Forall_forall. intros [a b] Hi. cbn [fst snd].
    assert (H : a = b); [|lra]. clear Hl. induction y as [|c y IH]; [contradiction|]. destruct Hi as [Hi|Hi]; [congruence|auto].
Qed.

Theorem ipf_mean_matching parametric simulator disp N init ts rnds :
  (0 < N)%nat -> (forall x t, length x = N -> length (parametric x t) = N) -> (forall x t, length x = N -> length (simulator x t) = N) ->
  length init = N -> (2 <= length ts)%nat -> length rnds = (length ts - 1)%nat -> Forall (fun r => length r = N) rnds ->
  let X := trajectory simulator disp init ts rnds in let t k := nth k ts 0 in let dt k := Rabs (t (S k) - t k) in
  0 <= ipf_loss_cont parametric simulator disp init ts rnds /\
  (ipf_loss_cont parametric simulator disp init ts rnds = 0 <->
   forall k i, (S k < length ts)%nat -> (i < N)%nat ->
     dt k * nth i (parametric (X (S k)) (t (S k))) 0 =
     (nth i (X k) 0 + dt k * nth i (simulator (X k) (t k)) 0) - (nth i (X (S k)) 0 + dt k * nth i (simulator (X (S k)) (t k)) 0)).
Proof.
  intros HN Hp Hs Hi Ht Hr HF X t dt.
  destruct (ipf_loss_zero parametric simulator disp N HN Hp Hs init ts rnds Hi Ht Hr HF) as [H0 Hz]. split; [exact H0|]. rewrite Hz.
  assert (HX : forall k, (k < length ts)%nat -> length (X k) = N).
  { assert (HG : forall ts x rnds, length x = N -> length rnds = (length ts - 1)%nat -> Forall (fun r => length r = N) rnds ->
      forall k, (k < length ts)%nat -> length (nth k (x :: traj_scan simulator disp x ts rnds) []) = N).
    { clear -Hs. induction ts as [|t ts IH]; intros x rnds Hx Hl HF k Hk; [simpl in Hk; lia|]. destruct k as [|k]; [exact Hx|].
      destruct ts as [|t' ts]; [simpl in Hk; lia|]. destruct rnds as [|r rnds]; [simpl in Hl; lia|].
      apply Forall_cons_iff in HF as [Hr HF].
      change (nth (S k) (x :: traj_scan simulator disp x (t :: t' :: ts) (r :: rnds)) []) with
        (nth k (ipf_next simulator disp x t t' r :: traj_scan simulator disp (ipf_next simulator disp x t t' r) (t' :: ts) rnds) []).
      apply IH; [|cbn [length] in *; lia|assumption|cbn [length] in *; lia].
      unfold ipf_next, vadd. rewrite length_vmap2; rewrite length_vmap2; rewrite ?length_vscale, ?Hs; congruence. }
    intros k Hk. now apply HG. }
  assert (Hpt : forall k i, (S k < length ts)%nat -> (i < N)%nat ->
    nth i (ipf_err parametric simulator (X k) (X (S k)) (t k) (t (S k))) 0 = dt k * nth i (parametric (X (S k)) (t (S k))) 0 -
      ((nth i (X k) 0 + dt k * nth i (simulator (X k) (t k)) 0) - (nth i (X (S k)) 0 + dt k * nth i (simulator (X (S k)) (t k)) 0))).
  { intros k i Hk Hil. pose proof (HX k ltac:(lia)) as L1. pose proof (HX (S k) ltac:(lia)) as L2. unfold ipf_err, ipf_fn, vadd.
    repeat (rewrite nth_vmap2; [|repeat rewrite length_vmap2; rewrite ?length_vscale; rewrite ?Hp, ?Hs by assumption; lia
      |repeat rewrite length_vmap2; rewrite ?length_vscale; rewrite ?Hp, ?Hs by assumption; congruence]).
    rewrite !nth_vscale. reflexivity. }
  split; intros H k.
  - intros i Hk Hil. specialize (H k Hk). fold X in H. fold (t k) (t (S k)) in H.
    assert (Hin : nth i (ipf_err parametric simulator (X k) (X (S k)) (t k) (t (S k))) 0 = 0).
    { rewrite Forall_forall in H. apply H, nth_In. rewrite (length_err parametric simulator N Hp Hs) by (apply HX; lia). assumption. }
    rewrite Hpt in Hin by assumption. lra.
  - intros Hk. apply Forall_forall. intros a Ha. apply (In_nth _ _ 0) in Ha as (i & Hil & <-). fold X in Hil |- *. fold (t k) (t (S k)) in Hil |- *.
    rewrite (length_err parametric simulator N Hp Hs) in Hil by (apply HX; lia). rewrite Hpt by assumption. rewrite (H k i Hk Hil). ring.
Qed.
