(** Model of the image restoration scripts experiments/imgs/{inpainting,supr}.py, their _csgm and _twisted
    variants, experiments/sb_imgs/supr.py, and of the train/test split of fbs/data/images.py. *)
From Coq Require Import Permutation.
From Coq Require String.
From Coquelicot Require Import Coquelicot.
From Verif Require Import Base Dist Prog Sde Smc Resampling CondResamplingProofs SmcProofs Images ImagesProofs ImagesMore DataKeys Hygiene Twisted.
Open Scope R_scope.

(** A pixel is the list of its channels. *)
Definition pixel := list R.

(** elementwise operations on pixel arrays: [x + r * dt] and [x + r * dt + s * z] *)
Definition euler_mean_px (dt : R) (x r : pixel) : pixel := vadd x (map (fun a => a * dt) r).
Definition map2 {A B C} (f : A -> B -> C) (l : list A) (l' : list B) : list C := map (fun p => f (fst p) (snd p)) (combine l l').
(** [jnp.sum(norm.logpdf(x, m, scale))] over an array of pixels *)
Definition sum_logpdf (scale : R) (x m : list pixel) : R :=
  Rsum (map2 (fun a b => Rsum (map2 (fun p q => norm_logpdf p q scale) a b)) x m).

Section Scripts.
  (** the image size, the time step, the reverse dispersion and [reverse_drift] (inpainting.py:102-103,
      sb_imgs/supr.py:84-85: the network is not modelled, only that it maps images to images) *)
  Variables (w h : nat) (dt : R) (disp : R -> R) (reverse_drift : list (list pixel) -> R -> list (list pixel)).

  (** inpainting.py:106-115, supr.py:107-116, sb_imgs/supr.py:88-97 *)
  Definition reverse_drift_u (u v : list pixel) (t : R) (m : mask) : list pixel :=
    fst (unpack [] (reverse_drift (concat_parts [] w h u v m) t) m).
  Definition reverse_drift_v (v u : list pixel) (t : R) (m : mask) : list pixel :=
    snd (unpack [] (reverse_drift (concat_parts [] w h u v m) t) m).

  (** inpainting.py:122-128 for one particle; [z] is the normal draw *)
  Definition transition_point (u v : list pixel) (t : R) (m : mask) (z : list pixel) : list pixel :=
    map2 (fun p q => vadd p (vscale (sqrt dt * disp t) q)) (map2 (euler_mean_px dt) u (reverse_drift_u u v t m)) z.

  (** inpainting.py:131-147 for one particle *)
  Definition img_transition_logpdf (u u_prev v_prev : list pixel) (t_prev : R) (m : mask) : R :=
    sum_logpdf (sqrt dt * disp t_prev) u (map2 (euler_mean_px dt) u_prev (reverse_drift_u u_prev v_prev t_prev m)).
  Definition img_likelihood_logpdf (v u_prev v_prev : list pixel) (t_prev : R) (m : mask) : R :=
    sum_logpdf (sqrt dt * disp t_prev) v (map2 (euler_mean_px dt) v_prev (reverse_drift_v v_prev u_prev t_prev m)).

  (** Specification: one Euler step of the reverse process of the whole image, and its log density; the value at pixel
      (i, j) of an image is [px img i j]. *)
  Definition px (img : list (list pixel)) (i j : nat) : pixel := nth j (nth i img []) [].
  Definition image_step_logpdf (img' img : list (list pixel)) (t : R) : R :=
    Rsum (map (fun i => Rsum (map (fun j =>
      let a := px img' i j in let b := euler_mean_px dt (px img i j) (px (reverse_drift img t) i j) in
      Rsum (map (fun c => norm_logpdf (nth c a 0) (nth c b 0) (sqrt dt * disp t)) (seq 0 (Nat.min (length a) (length b))))) (seq 0 h))) (seq 0 w)).
  Definition image_step (img : list (list pixel)) (t : R) (z : list (list pixel)) (img' : list (list pixel)) : Prop :=
    image_shape w h img' /\
    forall i j, (i < w)%nat -> (j < h)%nat ->
      px img' i j = vadd (euler_mean_px dt (px img i j) (px (reverse_drift img t) i j)) (vscale (sqrt dt * disp t) (px z i j)).
End Scripts.

(** *** auxiliary facts *)
Lemma nth_map2 {A B C} (f : A -> B -> C) l l' i da db dc : (i < length l)%nat -> (i < length l')%nat ->
  nth i (map2 f l l') dc = f (nth i l da) (nth i l' db).
Proof.
  revert l' i. induction l as [|a l IH]; intros [|b l'] i H H'; cbn in *; try lia.
  destruct i as [|i]; [reflexivity|]. apply IH; lia.
Qed.
Lemma length_map2 {A B C} (f : A -> B -> C) l l' : length (map2 f l l') = Nat.min (length l) (length l').
Proof. unfold map2. now rewrite map_length, combine_length. Qed.

Lemma map2_gather {A B C} (f : A -> B -> C) da db l l' inds :
  map2 f (gather da l inds) (gather db l' inds) = map (fun i => f (nth i l da) (nth i l' db)) inds.
Proof. unfold map2, gather. induction inds as [|i inds IH]; cbn; [reflexivity|]. now rewrite IH. Qed.

Lemma ravel_px w h (img : list (list pixel)) i j : image_shape w h img -> (i < w)%nat -> (j < h)%nat ->
  nth (i * h + j) (ravel_image img) [] = px img i j.
Proof.
  intros [Hl HF] Hi Hj. unfold px, ravel_image. subst w. revert i Hi.
  induction img as [|r img IH]; intros i Hi; cbn in *; [lia|]. inversion HF as [|? ? Hr HF']; subst.
  destruct i as [|i]; cbn.
  - now rewrite app_nth1 by lia.
  - rewrite app_nth2 by lia. replace (length r + i * length r + j - length r)%nat with (i * length r + j)%nat by lia. apply IH; [assumption|lia].
Qed.

Lemma map_add_seq a h : forall c, map (Nat.add a) (seq c h) = seq (a + c) h.
Proof. induction h as [|h IH]; intros c; cbn; [reflexivity|]. rewrite IH. f_equal. now rewrite Nat.add_succ_r. Qed.
Lemma Rsum_grid (f : nat -> R) w h : Rsum (map f (seq 0 (w * h))) = Rsum (map (fun i => Rsum (map (fun j => f (i * h + j)%nat) (seq 0 h))) (seq 0 w)).
Proof.
  induction w as [|w IH]; [reflexivity|]. cbn [Nat.mul]. rewrite Nat.add_comm, seq_app, map_app, Rsum_app, IH, seq_S, map_app, Rsum_app. f_equal.
  cbn [map Rsum Nat.add]. rewrite Rplus_0_r. f_equal. rewrite <- (map_map (Nat.add (w * h)) f). f_equal. symmetry. etransitivity; [apply map_add_seq|].
  f_equal. lia.
Qed.

Lemma sum_channels (f : R -> R -> R) a b :
  Rsum (map2 f a b) = Rsum (map (fun c => f (nth c a 0) (nth c b 0)) (seq 0 (Nat.min (length a) (length b)))).
Proof.
  revert b. induction a as [|x a IH]; intros [|y b]; cbn; try reflexivity.
  f_equal. unfold map2 in IH. rewrite IH. f_equal. rewrite <- seq_shift, map_map. reflexivity.
Qed.

Section Density.
  Variables (w h : nat) (dt : R) (disp : R -> R) (rd : list (list pixel) -> R -> list (list pixel)).
  Hypothesis Hrd : forall img t, image_shape w h img -> image_shape w h (rd img t).
  Variable m : mask.
  Hypothesis Hm : splits_image (w * h) m.

  Lemma unpack_ravel (img : list (list pixel)) : unpack [] img m = (gather [] (ravel_image img) (unobs_inds m), gather [] (ravel_image img) (obs_inds m)).
  Proof. reflexivity. Qed.

  Lemma img_joint_logpdf u' v' u v t :
    length u = length (unobs_inds m) -> length v = length (obs_inds m) -> length u' = length (unobs_inds m) -> length v' = length (obs_inds m) ->
    img_transition_logpdf w h dt disp rd u' u v t m + img_likelihood_logpdf w h dt disp rd v' u v t m =
    image_step_logpdf w h dt disp rd (concat_parts [] w h u' v' m) (concat_parts [] w h u v m) t.
  Proof.
    intros Hu Hv Hu' Hv'.
    destruct (unpack_concat [] w h m Hm u v Hu Hv) as [E S]. destruct (unpack_concat [] w h m Hm u' v' Hu' Hv') as [E' S'].
    unfold img_transition_logpdf, img_likelihood_logpdf, reverse_drift_u, reverse_drift_v.
    remember (concat_parts [] w h u v m) as img eqn:Q. clear Q. remember (concat_parts [] w h u' v' m) as img' eqn:Q. clear Q.
    rewrite !unpack_ravel in *. cbn [fst snd].
    set (r := ravel_image (rd img t)). set (l := ravel_image img) in *. set (l' := ravel_image img') in *.
    injection E as <- <-. injection E' as <- <-.
    rewrite !map2_gather. unfold sum_logpdf.
    set (f := fun i => Rsum (map2 (fun p q => norm_logpdf p q (sqrt dt * disp t)) (nth i l' []) (euler_mean_px dt (nth i l []) (nth i r [])))).
    assert (HS : forall inds, Rsum (map2 (fun a b => Rsum (map2 (fun p q => norm_logpdf p q (sqrt dt * disp t)) a b)) (gather [] l' inds)
        (map (fun i => euler_mean_px dt (nth i l []) (nth i r [])) inds)) = Rsum (map f inds)).
    { intros inds. f_equal. unfold map2, gather. induction inds as [|i inds IH]; cbn; [reflexivity|]. now rewrite IH. }
    rewrite !HS, <- Rsum_app, <- map_app, (Rsum_perm _ (map f (seq 0 (w * h)))) by (apply Permutation_map, Hm).
    rewrite Rsum_grid. unfold image_step_logpdf. f_equal. apply map_ext_in. intros i Hi. apply in_seq in Hi. f_equal. apply map_ext_in.
    intros j Hj. apply in_seq in Hj. unfold f. rewrite sum_channels. unfold l, l', r. rewrite !(ravel_px w h) by (auto; lia). reflexivity.
  Qed.

  Lemma img_transition_draw u v t z z' img' : length u = length (unobs_inds m) -> length v = length (obs_inds m) ->
    length z = length (unobs_inds m) -> length z' = length (obs_inds m) ->
    image_step w h dt disp rd (concat_parts [] w h u v m) t (concat_parts [] w h z z' m) img' ->
    transition_point w h dt disp rd u v t m z = fst (unpack [] img' m).
  Proof.
    intros Hu Hv Hz Hz' [Si Hi].
    destruct (unpack_concat [] w h m Hm u v Hu Hv) as [E S]. destruct (unpack_concat [] w h m Hm z z' Hz Hz') as [E' S'].
    unfold transition_point, reverse_drift_u.
    remember (concat_parts [] w h u v m) as img eqn:Q. clear Q. remember (concat_parts [] w h z z' m) as zi eqn:Q. clear Q.
    rewrite !unpack_ravel in *. cbn [fst snd]. injection E as <- _. injection E' as <- _. rewrite map2_gather.
    unfold map2, gather. assert (Hlt : forall i, In i (unobs_inds m) -> (i < w * h)%nat).
    { intros i Hin. apply (split_lt w h m Hm). apply in_app_iff. now left. }
    clear Hu Hz. induction (unobs_inds m) as [|i inds IH]; cbn; [reflexivity|]. f_equal; [|apply IH; intros; apply Hlt; now right].
    specialize (Hlt i (or_introl eq_refl)).
    assert (Hh : (h <> 0)%nat) by (intros ->; lia).
    pose proof (Nat.div_mod i h Hh) as D. pose proof (Nat.mod_upper_bound i h Hh) as B.
    assert (Hw : (i / h < w)%nat) by (apply Nat.div_lt_upper_bound; lia).
    replace i with (i / h * h + i mod h)%nat by lia. rewrite !(ravel_px w h) by auto. symmetry. now apply Hi.
  Qed.
End Density.

(** ** The restored images *)
Section Restored.
  Variables (w h : nat) (zero : pixel).
  (** The state of the sampler between two draws, one draw, and the unobserved part it yields: [filter] and the
      score-based sampler carry nothing, [gibbs] carries (x0, us_star, bs_star), [pmcmc] carries (x0, log_ell, ys). *)
  Context {S : Type} (step : key -> S -> list pixel -> mask -> prog S) (x0 : S -> list pixel).

  (** inpainting.py:222-263, inpainting_csgm.py:151-158, sb_imgs/supr.py:216-251 (and the supr.py twins): draw, then
      [restored = dataset.concat(x0, test_y0, mask)] *)
  Fixpoint restored (n : nat) (k : key) (s : S) (y0 : list pixel) (m : mask) : prog (list (list (list pixel))) :=
    match n with
    | 0%nat => Ret []
    | Datatypes.S n =>
        s' <- step (split_key k 1) s y0 m ;;
        rest <- restored n (split_key k 0) s' y0 m ;;
        Ret (concat_parts zero w h (x0 s') y0 m :: rest)
    end.

  (** inpainting.py:205-263 for one test image; [init] is the start state *)
  Definition restoration (init : key -> list pixel -> mask -> prog S) (xs : list (list (list pixel))) (n : nat) (task : String.string) (random : bool)
      (nsamples : nat) (data_key k : key) : prog (option (list (list pixel) * mask * list (list (list pixel)))) :=
    ' (test_img, ym) <- restore_sampler zero xs n task w h random data_key ;;
    match ym with
    | None => Ret None
    | Some (test_y0, m) =>
        s <- init (split_key k 1) test_y0 m ;;
        imgs <- restored nsamples (split_key k 0) s test_y0 m ;;
        Ret (Some (test_img, m, imgs))
    end.
End Restored.

(** inpainting_twisted.py:147-154, 184-190: the drawn image is kept as it is *)
Definition twisted_restored {Y} translp twistlp (prop : key -> list (list (list pixel)) -> R -> Y -> prog (list (list (list pixel)))) proplp
    (res : list R -> key -> prog (list nat)) (init : key -> nat -> prog (list (list (list pixel)))) (k : key) (y : Y) (ts : list R) (n : nat) : prog (list (list pixel)) :=
  ' (uvs, log_ws) <- twisted_smc [] translp twistlp prop proplp res (split_key k 0) y ts init n ;;
  i <- choice (split_key k 1) (map exp log_ws) ;;
  Ret (nth i uvs []).

Lemma restored_observed {S} w h zero (step : key -> S -> list pixel -> mask -> prog S) x0 m img :
  splits_image (w * h) m -> image_shape w h img ->
  (forall k s, safe (step k s (snd (unpack zero img m)) m) (fun s' => length (x0 s') = length (unobs_inds m))) ->
  forall n k s, safe (restored w h zero step x0 n k s (snd (unpack zero img m)) m) (fun imgs => length imgs = n /\
    Forall (fun r => image_shape w h r /\ snd (unpack zero r m) = snd (unpack zero img m)) imgs).
Proof.
  intros Hm Hs Hst. induction n as [|n IH]; intros k s; cbn [restored]; [now apply safe_ret|].
  eapply safe_bind; [apply Hst|]. intros s' Hl. eapply safe_bind; [apply IH|]. intros rest [Hn HF]. apply safe_ret. cbn [length].
  split; [now rewrite Hn|]. constructor; [|exact HF].
  destruct (unpack_concat zero w h m Hm (x0 s') (snd (unpack zero img m)) Hl) as [E Hsh]; [apply length_gather|].
  split; [exact Hsh|]. now rewrite E.
Qed.

(** equality of the observed parts, pixel by pixel *)
Lemma same_observed w h zero m (a b : list (list pixel)) : splits_image (w * h) m -> image_shape w h a -> image_shape w h b ->
  snd (unpack zero a m) = snd (unpack zero b m) ->
  forall i j, (i < w)%nat -> (j < h)%nat -> In (i * h + j)%nat (obs_inds m) -> px a i j = px b i j.
Proof.
  intros Hm Ha Hb E i j Hi Hj Hin. rewrite <- (ravel_px w h a i j), <- (ravel_px w h b i j) by assumption.
  cbn [snd unpack] in E. unfold gather in E.
  assert (L : (i * h + j < w * h)%nat) by (apply (split_lt w h m Hm), in_app_iff; now right).
  rewrite (nth_indep _ [] zero), (nth_indep (ravel_image b) [] zero) by (rewrite (ravel_length w h); assumption).
  revert Hin. generalize (i * h + j)%nat. intros p Hin. clear -E Hin.
  induction (obs_inds m) as [|q l IH]; [easy|]. cbn in E. injection E as E0 E1. destruct Hin as [->|Hin]; auto.
Qed.

Lemma restoration_spec {S} w h zero (step : key -> S -> list pixel -> mask -> prog S) x0 init xs n task s random nsamples data_key k :
  length xs = n -> (1 <= n)%nat -> (1 <= w)%nat -> (1 <= h)%nat -> (1 <= s)%nat ->
  inpaint_task task s \/ (supr_task task s /\ w mod s = 0 /\ h mod s = 0)%nat -> Forall (image_shape w h) xs ->
  (forall k s y m, safe (step k s y m) (fun s' => length (x0 s') = length (unobs_inds m))) ->
  safe (restoration w h zero step x0 init xs n task random nsamples data_key k) (fun r => exists img m imgs, r = Some (img, m, imgs) /\
    In img xs /\ splits_image (w * h) m /\ length imgs = nsamples /\
    forall r, In r imgs -> image_shape w h r /\
      forall i j, (i < w)%nat -> (j < h)%nat -> In (i * h + j)%nat (obs_inds m) -> px r i j = px img i j).
Proof.
  intros Hl Hn Hw Hh Hs Ht HF Hst. unfold restoration. eapply safe_bind; [apply (restore_sample_spec zero xs n task w h s random data_key); assumption|].
  intros [img ym] (Hin & y & m & E & Hm & Hy & _). cbn [fst snd] in *. subst ym y.
  assert (Hi : image_shape w h img) by (rewrite Forall_forall in HF; now apply HF).
  apply (safe_bind _ _ (fun _ => True)); [intros ? ? ?; exact I|]. intros st _.
  eapply safe_bind; [apply restored_observed; auto|]. intros imgs [Hli HFi]. apply safe_ret. exists img, m, imgs.
  repeat (split; [reflexivity || assumption|]). intros r Hr. rewrite Forall_forall in HFi. destruct (HFi r Hr) as [H1 H2].
  split; [exact H1|]. eapply same_observed; eauto.
Qed.

(** *** the image kept by the twisted sampler: any property of all proposed images holds of the result *)
Section TwistedKept.
  Context {Y : Type} (translp : list (list (list pixel)) -> list (list (list pixel)) -> R -> list R) (twistlp : Y -> list (list (list pixel)) -> R -> list R)
    (prop : key -> list (list (list pixel)) -> R -> Y -> prog (list (list (list pixel)))) (proplp : list (list (list pixel)) -> list (list (list pixel)) -> R -> Y -> list R)
    (res : list R -> key -> prog (list nat)) (init : key -> nat -> prog (list (list (list pixel)))) (P : list (list pixel) -> Prop) (n : nat).
  Hypothesis Hn : (0 < n)%nat.
  Hypothesis Htrans : forall a b t, length a = n -> length b = n -> length (translp a b t) = n.
  Hypothesis Htwist : forall y a t, length a = n -> length (twistlp y a t) = n.
  Hypothesis Hproplp : forall a b t y, length a = n -> length b = n -> length (proplp a b t y) = n.
  Hypothesis Hprop : forall k us t y, length us = n -> safe (prop k us t y) (fun us' => length us' = n /\ Forall P us').
  Hypothesis Hinit : forall k, safe (init k n) (fun us => length us = n /\ Forall P us).
  Hypothesis Hres : forall w k, length w = n -> safe (res w k) (fun inds => length inds = n).

  Let ok (c : list (list (list pixel)) * list R * list R) : Prop := let '(us, lps, lws) := c in
    (length us = n /\ Forall P us) /\ length lps = n /\ length lws = n /\ Rsum (map exp lws) = 1.

  Lemma normalised_len l : length l = n -> length (map (fun x => x - logsumexp l) l) = n /\ Rsum (map exp (map (fun x => x - logsumexp l) l)) = 1.
  Proof. intros H. split; [now rewrite map_length|]. apply (normalise_log_sum l). intros ->. cbn in H. lia. Qed.

  Lemma tw_scan_ok y k ts : forall i c, ok c -> safe (tw_scan [] translp twistlp prop proplp res y k i ts c) ok.
  Proof.
    induction ts as [|t ts IH]; intros i c Hc; cbn [tw_scan]; [now apply safe_ret|].
    eapply safe_bind; [|intros c' Hc'; apply IH; exact Hc']. destruct c as [[us lps] lws]. destruct Hc as ([Hl HF] & Hlp & Hlw & _).
    unfold tw_body. eapply safe_bind; [apply Hres; now rewrite map_length|]. intros inds Hi.
    eapply safe_bind; [apply Hprop; now rewrite length_gather|]. intros us' [Hl' HF']. apply safe_ret.
    assert (HZ : length (zip4 (fun a b c d => a + b - c - d) (translp us' (gather [] us inds) t) (twistlp y us' t) (proplp us' (gather [] us inds) t y) (gather 0 lps inds)) = n).
    { unfold zip4. rewrite map_length, !combine_length, Htrans, Htwist, Hproplp, length_gather, Hi by (try assumption; now rewrite length_gather). lia. }
    destruct (normalised_len _ HZ) as [H1 H2]. unfold ok. repeat split; auto.
  Qed.

  Lemma twisted_kept k y ts : safe (twisted_restored translp twistlp prop proplp res init k y ts n) P.
  Proof.
    unfold twisted_restored, twisted_smc. apply (safe_bind _ _ (fun r => (length (fst r) = n /\ Forall P (fst r)) /\ length (snd r) = n /\ Rsum (map exp (snd r)) = 1)).
    - eapply safe_bind; [apply Hinit|]. intros us [Hl HF].
      apply (safe_bind _ _ ok).
      + apply tw_scan_ok. destruct (normalised_len (twistlp y us (nth 0 ts 0))) as [H1 H2]; [now apply Htwist|]. unfold ok. repeat split; auto.
      + intros [[us' lps] lws] ([H1 H2] & H3 & H4 & H5). apply safe_ret. cbn. auto.
    - intros [us lws] ([Hl HF] & Hlw & Hs). cbn [fst snd] in *. apply (safe_bind _ _ (fun i => (i < n)%nat)).
      + unfold choice. apply safe_unif. intros xs Hxl HFx. apply safe_ret. destruct xs as [|x [|? ?]]; try discriminate Hxl. apply Forall_inv in HFx. cbn [nth].
        rewrite <- Hlw, <- (map_length exp). apply choice_index_lt; [now apply weights_ok_exp|exact HFx].
      + intros i Hi. apply safe_ret. rewrite Forall_forall in HF. apply HF, nth_In. lia.
  Qed.
End TwistedKept.

(** ** Train and test images: images.py:189-210 [CelebAHQ], 387-409 [CelebAHQRestore] *)
Definition n_held_out : nat := 1000.
(** [perm] is the rearrangement drawn by [jax.random.permutation(key, data, axis=0)]; the result is (self.n, self.xs) *)
Definition celeba_split {A} (d : A) (perm : list nat) (data : list A) (test : bool) : nat * list A :=
  let data := gather d data perm in
  if test then (n_held_out, firstn n_held_out data) else (29 * n_held_out, skipn n_held_out data)%nat.

(** imgs/train.py:44-59 and inpainting.py:54-70: the key given to the dataset, from the seed *)
Definition dataset_key (seed : nat) : key := let key := split_key [seed] 0 in split_key key 1.

Section Split.
  Context {A : Type} (d : A).

  Lemma gather_perm data perm : Permutation perm (seq 0 (length data)) -> Permutation (gather d data perm) data.
  Proof.
    intros H. transitivity (gather d data (seq 0 (length data))); [now apply Permutation_map|].
    unfold gather. rewrite (map_nth_seq d data). reflexivity.
  Qed.

  Lemma split_same data perm : Permutation perm (seq 0 (length data)) ->
    Permutation (snd (celeba_split d perm data true) ++ snd (celeba_split d perm data false)) data.
  Proof. intros H. unfold celeba_split. cbn [snd]. rewrite firstn_skipn. now apply gather_perm. Qed.

  Lemma split_lengths data perm test : length data = (30 * n_held_out)%nat -> Permutation perm (seq 0 (length data)) ->
    length (snd (celeba_split d perm data test)) = fst (celeba_split d perm data test).
  Proof.
    intros Hl H. apply Permutation_length in H. rewrite seq_length, Hl in H. unfold celeba_split.
    revert H. generalize n_held_out. intros c Hc. destruct test; cbn [fst snd].
    - rewrite firstn_length, length_gather. lia.
    - rewrite skipn_length, length_gather. lia.
  Qed.

  Lemma in_firstn_perm (l : list nat) c : NoDup l -> (forall x, In x l <-> In x (firstn c l) \/ In x (skipn c l)) /\
    (forall x, In x (firstn c l) -> ~ In x (skipn c l)) /\ NoDup (firstn c l).
  Proof.
    intros H. pose proof H as H'. rewrite <- (firstn_skipn c l) in H'. destruct (NoDup_app_inv _ _ H') as [H1 _]. split; [|split; [|exact H1]].
    - intros x. rewrite <- (firstn_skipn c l) at 1. apply in_app_iff.
    - intros x Hx Hy. clear H H1. revert Hx Hy. induction (firstn c l) as [|a f IH]; cbn in *; [easy|]. inversion H' as [|? ? Ha Hn]; subst.
      intros [->|Hx] Hy; [apply Ha, in_app_iff; now right|now apply IH].
  Qed.

  Lemma nth_inj data i j : NoDup data -> (i < length data)%nat -> (j < length data)%nat -> nth i data d = nth j data d -> i = j.
  Proof. intros H. apply (proj1 (NoDup_nth data d) H). Qed.

  Lemma split_leak data perm1 perm2 : NoDup data -> Permutation perm1 (seq 0 (length data)) -> Permutation perm2 (seq 0 (length data)) ->
    (forall x, In x (snd (celeba_split d perm2 data true)) -> ~ In x (snd (celeba_split d perm1 data false))) <->
    Permutation (firstn n_held_out perm2) (firstn n_held_out perm1).
  Proof.
    intros Hnd H1 H2. unfold celeba_split. cbn [snd]. generalize n_held_out. intros c. unfold gather.
    rewrite firstn_map, skipn_map.
    assert (N1 : NoDup perm1) by (apply (Permutation_NoDup (Permutation_sym H1)), seq_NoDup).
    assert (N2 : NoDup perm2) by (apply (Permutation_NoDup (Permutation_sym H2)), seq_NoDup).
    destruct (in_firstn_perm perm1 c N1) as (I1 & D1 & F1). destruct (in_firstn_perm perm2 c N2) as (I2 & D2 & F2).
    assert (R1 : forall i, In i perm1 <-> (i < length data)%nat).
    { intros i. split; intros Hi; [apply (Permutation_in _ H1) in Hi; apply in_seq in Hi; lia|apply (Permutation_in _ (Permutation_sym H1)), in_seq; lia]. }
    assert (R2 : forall i, In i perm2 <-> (i < length data)%nat).
    { intros i. split; intros Hi; [apply (Permutation_in _ H2) in Hi; apply in_seq in Hi; lia|apply (Permutation_in _ (Permutation_sym H2)), in_seq; lia]. }
    split.
    - intros H. apply NoDup_Permutation_bis; [exact F2| |].
      + rewrite !firstn_length. apply Permutation_length in H1, H2. lia.
      + intros i Hi. assert (Hp : In i perm1) by (apply R1, R2, I2; now left). apply I1 in Hp. destruct Hp as [Hp|Hp]; [exact Hp|].
        exfalso. apply (H (nth i data d)); apply in_map_iff; exists i; auto.
    - intros HP x Hx Hy. apply in_map_iff in Hx, Hy. destruct Hx as (i & Ei & Hi), Hy as (j & Ej & Hj).
      assert (i = j); [|subst j; apply (Permutation_in _ HP) in Hi; now apply (D1 i)].
      apply (nth_inj data); [exact Hnd| | |congruence]; [apply R2, I2; now left|apply R1, I1; now right].
  Qed.

  (** a rotation by [n_held_out] puts only training images into the test set *)
  Definition rotated (n : nat) : list nat := skipn n_held_out (seq 0 n) ++ firstn n_held_out (seq 0 n).
  Lemma rotated_perm n : Permutation (rotated n) (seq 0 n).
  Proof. unfold rotated. rewrite Permutation_app_comm. now rewrite firstn_skipn. Qed.

  Lemma rotated_leaks data : (2 * n_held_out <= length data)%nat ->
    forall x, In x (snd (celeba_split d (rotated (length data)) data true)) -> In x (snd (celeba_split d (seq 0 (length data)) data false)).
  Proof.
    unfold celeba_split, rotated. cbn [snd]. generalize n_held_out. intros c Hc x. unfold gather. rewrite firstn_map, skipn_map, !in_map_iff.
    intros (i & E & Hi). exists i. split; [exact E|]. rewrite firstn_app in Hi. apply in_app_iff in Hi.
    rewrite skipn_length, seq_length in Hi. replace (c - (length data - c))%nat with 0%nat in Hi by lia. destruct Hi as [Hi|[]].
    rewrite <- (firstn_skipn c (skipn c (seq 0 (length data)))). apply in_app_iff. now left.
  Qed.

  Definition bad_draw (n : nat) (k : key) : list nat := if list_eq_dec Nat.eq_dec k (dataset_key 666) then seq 0 n else rotated n.

  Lemma scripts_leak data : (2 * n_held_out <= length data)%nat -> exists draw : key -> list nat,
    (forall k, Permutation (draw k) (seq 0 (length data))) /\
    forall x, In x (snd (celeba_split d (draw (dataset_key 996)) data true)) -> In x (snd (celeba_split d (draw (dataset_key 666)) data false)).
  Proof.
    intros H. exists (bad_draw (length data)). split.
    - intros k. unfold bad_draw. destruct (list_eq_dec _ _ _); [reflexivity|apply rotated_perm].
    - unfold bad_draw. destruct (list_eq_dec Nat.eq_dec (dataset_key 996) (dataset_key 666)) as [E|_]; [discriminate E|].
      destruct (list_eq_dec Nat.eq_dec (dataset_key 666) (dataset_key 666)) as [_|E]; [|now contradict E]. now apply rotated_leaks.
  Qed.

  Lemma same_seed_disjoint data (draw : key -> list nat) seed : NoDup data -> (forall k, Permutation (draw k) (seq 0 (length data))) ->
    forall x, In x (snd (celeba_split d (draw (dataset_key seed)) data true)) -> ~ In x (snd (celeba_split d (draw (dataset_key seed)) data false)).
  Proof. intros Hnd H. apply split_leak; auto. Qed.
End Split.

(** Expected number of test images that were training images, when the two rearrangements are drawn independently *)
Definition n_leaked (perm1 perm2 : list nat) : R :=
  Rsum (map (fun j => if in_dec Nat.eq_dec (nth j perm2 0%nat) (skipn n_held_out perm1) then 1 else 0) (seq 0 n_held_out)).

Lemma expected_leak n perm1 (D : dist (list nat)) : (n_held_out <= n)%nat -> Permutation perm1 (seq 0 n) ->
  (forall j i, (j < n)%nat -> (i < n)%nat -> E D (fun p => if Nat.eq_dec (nth j p 0%nat) i then 1 else 0) = / INR n) ->
  E D (n_leaked perm1) = INR n_held_out * INR (n - n_held_out) / INR n.
Proof.
  unfold n_leaked. generalize n_held_out. intros c Hc H1 HD.
  assert (N1 : NoDup perm1) by (apply (Permutation_NoDup (Permutation_sym H1)), seq_NoDup).
  assert (HS : NoDup (skipn c perm1)) by (rewrite <- (firstn_skipn c perm1) in N1; now apply NoDup_app_inv in N1).
  assert (HL : length (skipn c perm1) = (n - c)%nat) by (rewrite skipn_length; apply Permutation_length in H1; rewrite seq_length in H1; now rewrite H1).
  assert (HB : forall i, In i (skipn c perm1) -> (i < n)%nat).
  { intros i Hi. assert (In i perm1) by (rewrite <- (firstn_skipn c perm1); apply in_app_iff; now right).
    apply (Permutation_in _ H1), in_seq in H. lia. }
  rewrite E_Rsum. rewrite (Rsum_map_ext _ (fun _ => INR (n - c) * / INR n)).
  - rewrite Rsum_map_const, seq_length. unfold Rdiv. ring.
  - intros j Hj. apply in_seq in Hj. rewrite <- HL. clear HL N1 H1. induction (skipn c perm1) as [|i l IH].
    + cbn [length INR]. rewrite Rmult_0_l. rewrite (E_ext' D _ (fun _ => 0)) by reflexivity. apply E_zero.
    + inversion HS as [|? ? Hi Hn]; subst. cbn [length]. rewrite S_INR, Rmult_plus_distr_r, Rmult_1_l.
      rewrite <- IH, <- (HD j i) by (auto; try lia; try (apply HB; now left); intros; apply HB; now right). rewrite <- E_plus. apply E_ext'. intros p.
      destruct (in_dec Nat.eq_dec (nth j p 0%nat) (i :: l)) as [Y|Y], (in_dec Nat.eq_dec (nth j p 0%nat) l) as [Y'|Y'], (Nat.eq_dec (nth j p 0%nat) i) as [Z|Z];
        cbn in Y; try lra; exfalso; clear IH HS HB HD; subst; intuition congruence.
Qed.

(** ** Keys of the test loop: inpainting.py:54-86, 205-263 (identical bookkeeping in supr.py, *_csgm.py, *_twisted.py) *)
(** keys after the set-up: (key, data_key); on the way one key goes to the dataset and one to the network *)
Definition setup_keys (seed : nat) : key * key * list key :=
  let key := [seed] in
  let data_key := split_key key 1 in let key := split_key key 0 in
  let ds := split_key key 1 in let key := split_key key 0 in
  let nn := split_key key 1 in let key := split_key key 0 in
  (key, data_key, [ds; nn]).

(** [n] times [key, subkey = jax.random.split(key)]: the remaining key and the subkeys *)
Fixpoint draw_keys (n : nat) (k : key) : key * list key :=
  match n with
  | 0%nat => (k, [])
  | S n => let '(k', ks) := draw_keys n (split_key k 0) in (k', split_key k 1 :: ks)
  end.

(** images [k], ..., [k + n - 1] of the loop; a processed image uses one data key and [ndraws] sampler keys ([nsamples] of them for
    filter, csgm and twisted, [nsamples + 1] for gibbs and pmcmc).  Result: (image number, data key, sampler keys) of each processed image *)
Fixpoint test_loop (ndraws start_from : nat) (k n : nat) (key data_key : key) : list (nat * Prog.key * list Prog.key) :=
  match n with
  | 0%nat => []
  | S n => let subkey := split_key data_key 1 in
           let data_key := split_key data_key 0 in
           if (k <? start_from)%nat then test_loop ndraws start_from (S k) n key data_key
           else let '(key', ks) := draw_keys ndraws key in (k, subkey, ks) :: test_loop ndraws start_from (S k) n key' data_key
  end.
Definition test_script (seed ndraws ny0s start_from : nat) : list (nat * key * list key) :=
  let '(key, data_key, _) := setup_keys seed in test_loop ndraws start_from 0 ny0s key data_key.
(** every key consumed by the script *)
Definition test_script_keys (seed ndraws ny0s start_from : nat) : list key :=
  snd (setup_keys seed) ++ concat (map (fun r => snd (fst r) :: snd r) (test_script seed ndraws ny0s start_from)).

(** *** proofs *)
Lemma draw_keys_app n k : fst (draw_keys n k) = k ++ repeat 0%nat n.
Proof.
  revert k. induction n as [|n IH]; intros k; cbn; [now rewrite app_nil_r|]. specialize (IH (split_key k 0)).
  destruct (draw_keys n (split_key k 0)) as [k' ks]. cbn in *. rewrite IH. unfold split_key. now rewrite <- app_assoc.
Qed.
Lemma repeat_snoc {A} (a : A) n : repeat a n ++ [a] = repeat a (S n).
Proof. induction n as [|n IH]; cbn; [reflexivity|]. now rewrite IH. Qed.
Lemma draw_keys_list n k : snd (draw_keys n k) = map (fun i => k ++ repeat 0%nat i ++ [1%nat]) (seq 0 n).
Proof.
  revert k. induction n as [|n IH]; intros k; cbn; [reflexivity|]. specialize (IH (split_key k 0)).
  destruct (draw_keys n (split_key k 0)) as [k' ks]. cbn in *. rewrite IH. f_equal. rewrite <- seq_shift, map_map. apply map_ext. intros i.
  unfold split_key. now rewrite <- app_assoc.
Qed.

(** closed form: image [i] uses data key 0^i 1 and, counted from the first processed image, the next [ndraws] sampler keys *)
Lemma test_loop_spec nd sf n : forall k key data_key, test_loop nd sf k n key data_key =
  map (fun i => (i, data_key ++ repeat 0%nat (i - k) ++ [1%nat],
                 map (fun q => key ++ repeat 0%nat ((i - Nat.max k sf) * nd + q) ++ [1%nat]) (seq 0 nd))) (seq (Nat.max k sf) (k + n - Nat.max k sf)).
Proof.
  induction n as [|n IH]; intros k key data_key; cbn [test_loop].
  - replace (k + 0 - Nat.max k sf)%nat with 0%nat by lia. reflexivity.
  - destruct (Nat.ltb_spec k sf) as [H|H].
    + rewrite IH. replace (Nat.max (S k) sf) with sf by lia. replace (Nat.max k sf) with sf by lia.
      replace (S k + n - sf)%nat with (k + S n - sf)%nat by lia. apply map_ext_in. intros i Hi. apply in_seq in Hi. f_equal. f_equal.
      unfold split_key. rewrite <- app_assoc. f_equal. replace (i - k)%nat with (S (i - S k)) by lia. reflexivity.
    + pose proof (draw_keys_app nd key) as E1. pose proof (draw_keys_list nd key) as E2. destruct (draw_keys nd key) as [key' ks]. cbn in E1, E2. subst.
      rewrite IH. replace (Nat.max (S k) sf) with (S k) by lia. replace (Nat.max k sf) with k by lia.
      replace (k + S n - k)%nat with (S n) by lia. replace (S k + n - S k)%nat with n by lia. cbn [seq map]. f_equal.
      * f_equal; [now rewrite Nat.sub_diag|]. rewrite Nat.sub_diag. reflexivity.
      * apply map_ext_in. intros i Hi. apply in_seq in Hi. f_equal; [f_equal|].
        -- unfold split_key. rewrite <- app_assoc. f_equal. replace (i - k)%nat with (S (i - S k)) by lia. reflexivity.
        -- apply map_ext. intros q. rewrite <- app_assoc. f_equal. rewrite app_assoc, <- repeat_app. f_equal. f_equal.
           replace (i - k)%nat with (S (i - S k)) by lia. lia.
Qed.

Lemma test_script_row seed nd ny sf i dk ks : In (i, dk, ks) (test_script seed nd ny sf) ->
  (sf <= i < ny)%nat /\ dk = [seed; 1%nat] ++ repeat 0%nat i ++ [1%nat] /\
  ks = map (fun q => [seed; 0%nat; 0%nat; 0%nat] ++ repeat 0%nat ((i - sf) * nd + q) ++ [1%nat]) (seq 0 nd).
Proof.
  unfold test_script, setup_keys. cbn [split_key app]. rewrite test_loop_spec. intros H. apply in_map_iff in H. destruct H as (i' & E & Hi). apply in_seq in Hi.
  injection E as <- <- <-. cbn [Nat.max] in *. rewrite Nat.sub_0_r. split; [lia|]. split; reflexivity.
Qed.
Lemma test_script_rows seed nd ny sf i : (sf <= i < ny)%nat ->
  In (i, [seed; 1%nat] ++ repeat 0%nat i ++ [1%nat], map (fun q => [seed; 0%nat; 0%nat; 0%nat] ++ repeat 0%nat ((i - sf) * nd + q) ++ [1%nat]) (seq 0 nd)) (test_script seed nd ny sf).
Proof.
  intros H. unfold test_script, setup_keys. cbn [split_key app]. rewrite test_loop_spec. apply in_map_iff. exists i.
  split; [now rewrite Nat.sub_0_r|]. apply in_seq. cbn. lia.
Qed.

(** the k-th test image does not depend on the method, the number of samples or the start *)
Lemma same_test_images seed nd nd' ny ny' sf sf' i dk dk' ks ks' :
  In (i, dk, ks) (test_script seed nd ny sf) -> In (i, dk', ks') (test_script seed nd' ny' sf') -> dk = dk'.
Proof. intros H H'. apply test_script_row in H, H'. destruct H as (_ & -> & _), H' as (_ & -> & _). reflexivity. Qed.

(** restarted at image [sf], the script uses for image [sf + i] the sampler keys that the full run used for image [i] *)
Lemma resume_keys seed nd ny sf i dk ks : In (i + sf, dk, ks)%nat (test_script seed nd ny sf) ->
  exists dk', In (i, dk', ks) (test_script seed nd ny 0).
Proof.
  intros H. apply test_script_row in H. destruct H as (H & _ & ->). eexists.
  replace (i + sf - sf)%nat with (i - 0)%nat by lia. apply test_script_rows. lia.
Qed.
Lemma resume_differs seed nd ny sf i dk ks dk' ks' : (0 < sf)%nat -> (0 < nd)%nat ->
  In (i, dk, ks) (test_script seed nd ny sf) -> In (i, dk', ks') (test_script seed nd ny 0) -> dk = dk' /\ ks <> ks'.
Proof.
  intros Hs Hn H H'. split; [eapply same_test_images; eassumption|]. apply test_script_row in H, H'. destruct H as (H & _ & ->), H' as (_ & _ & ->).
  destruct nd as [|nd]; [lia|]. cbn [seq map]. intros E. injection E as E _. apply (f_equal (@length nat)) in E. rewrite !app_length, !repeat_length in E. cbn [length] in E. nia.
Qed.

(** no key is used twice in one run *)
Lemma zeros_one_incomp a i j : i <> j -> incomp (a ++ repeat 0%nat i ++ [1%nat]) (a ++ repeat 0%nat j ++ [1%nat]).
Proof.
  assert (G : forall i j s, i <> j -> repeat 0%nat i ++ [1%nat] <> (repeat 0%nat j ++ [1%nat]) ++ s).
  { clear. induction i as [|i IH]; intros [|j] s H; cbn; try congruence; try lia; try discriminate. intros E. injection E as E. now apply (IH j s) in E; [|lia]. }
  intros H. split; intros [s E]; rewrite <- app_assoc in E; apply app_inv_head in E; eapply G in E; auto.
Qed.
Lemma other_branch_incomp s b b' (x y : list nat) : b <> b' -> incomp ([s; b] ++ x) ([s; b'] ++ y).
Proof. intros H. split; intros [r E]; cbn in E; congruence. Qed.

Lemma FOP_concat {A} (P : A -> A -> Prop) (f : nat -> list A) n : forall a,
  (forall i, (a <= i < a + n)%nat -> ForallOrdPairs P (f i)) ->
  (forall i j x y, (a <= i)%nat -> (i < j)%nat -> (j < a + n)%nat -> In x (f i) -> In y (f j) -> P x y) -> ForallOrdPairs P (concat (map f (seq a n))).
Proof.
  induction n as [|n IH]; intros a H1 H2; cbn; [constructor|]. apply ForallOrdPairs_app; [apply H1; lia|apply IH|].
  - intros i Hi. apply H1. lia.
  - intros i j x y Hi Hij Hj. apply H2; lia.
  - intros x y Hx Hy. apply in_concat in Hy. destruct Hy as (l & Hl & Hy). apply in_map_iff in Hl. destruct Hl as (j & <- & Hj). apply in_seq in Hj.
    apply (H2 a j); auto; lia.
Qed.
Lemma FOP_map_seq {A} (P : A -> A -> Prop) (f : nat -> A) n : (forall i j, (i < j)%nat -> P (f i) (f j)) -> forall a, ForallOrdPairs P (map f (seq a n)).
Proof.
  intros H. induction n as [|n IH]; intros a; cbn; constructor; [|apply IH].
  apply Forall_forall. intros x Hx. apply in_map_iff in Hx. destruct Hx as (j & <- & Hj). apply in_seq in Hj. apply H. lia.
Qed.

Lemma test_script_hygienic seed nd ny sf : ForallOrdPairs incomp (test_script_keys seed nd ny sf).
Proof.
  unfold test_script_keys, test_script, setup_keys. cbn [split_key app snd fst]. rewrite test_loop_spec, map_map. cbn [fst snd Nat.max].
  set (sk := fun q => [seed; 0%nat; 0%nat; 0%nat] ++ repeat 0%nat q ++ [1%nat]).
  assert (HS : forall q, sk q = [seed; 0%nat] ++ repeat 0%nat (2 + q) ++ [1%nat]) by reflexivity.
  match goal with |- ForallOrdPairs incomp (?a :: ?b :: ?l) => change (ForallOrdPairs incomp ([a; b] ++ l)) end.
  apply ForallOrdPairs_app.
  - constructor; [constructor; [apply (zeros_one_incomp [seed; 0%nat] 0 1); lia|constructor]|constructor; constructor].
  - apply FOP_concat.
    + intros i Hi. constructor.
      * apply Forall_forall. intros x Hx. apply in_map_iff in Hx. destruct Hx as (q & <- & Hq). apply (other_branch_incomp seed 1 0). lia.
      * apply FOP_map_seq. intros a b Hab. apply zeros_one_incomp. lia.
    + intros i j x y Hi Hij Hj Hx Hy.
      assert (Hform : forall i, (sf <= i)%nat -> forall x, In x (([seed; 1%nat] ++ repeat 0%nat (i - 0) ++ [1%nat]) :: map (fun q => [seed; 0%nat; 0%nat; 0%nat] ++ repeat 0%nat ((i - sf) * nd + q) ++ [1%nat]) (seq 0 nd)) ->
        x = [seed; 1%nat] ++ repeat 0%nat i ++ [1%nat] \/ exists q, (q < nd)%nat /\ x = sk ((i - sf) * nd + q)%nat).
      { clear. intros i Hi x [<-|Hx]; [left; now rewrite Nat.sub_0_r|]. right. apply in_map_iff in Hx. destruct Hx as (q & <- & Hq). apply in_seq in Hq. exists q. split; [lia|reflexivity]. }
      apply Hform in Hx; [|lia]. apply Hform in Hy; [|lia].
      destruct Hx as [->|(q & Hq & ->)], Hy as [->|(q' & Hq' & ->)].
      * apply zeros_one_incomp. lia.
      * rewrite HS. apply other_branch_incomp. lia.
      * rewrite HS. apply other_branch_incomp. lia.
      * apply zeros_one_incomp. assert ((i - sf + 1) * nd <= (j - sf) * nd)%nat by (apply Nat.mul_le_mono_r; lia). lia.
  - intros a b Ha Hb. apply in_concat in Hb. destruct Hb as (l & Hl & Hb). apply in_map_iff in Hl. destruct Hl as (i & <- & Hi). apply in_seq in Hi.
    cbn [fst snd] in Hb. assert (Ha' : exists e, (e < 2)%nat /\ a = [seed; 0%nat] ++ repeat 0%nat e ++ [1%nat]).
    { destruct Ha as [<-|[<-|[]]]; [exists 0%nat|exists 1%nat]; split; auto. }
    destruct Ha' as (e & He & ->). destruct Hb as [<-|Hb]; [apply other_branch_incomp; lia|].
    apply in_map_iff in Hb. destruct Hb as (q & <- & Hq). change ([seed; 0%nat; 0%nat; 0%nat] ++ repeat 0%nat ((i - sf) * nd + q) ++ [1%nat]) with (sk ((i - sf) * nd + q)%nat).
    rewrite HS. apply (zeros_one_incomp [seed; 0%nat] e (2 + ((i - sf) * nd + q))). generalize ((i - sf) * nd + q)%nat. intros x. lia.
Qed.

(** *** rotations: a law of rearrangements with uniform marginals *)
Definition rotation (n r : nat) : list nat := skipn r (seq 0 n) ++ firstn r (seq 0 n).
Definition rotations (n : nat) : dist (list nat) := dmap (rotation n) (dunif n).
Lemma nth_rotation n r j : (r < n)%nat -> (j < n)%nat -> nth j (rotation n r) 0%nat = if (j + r <? n)%nat then (j + r)%nat else (j + r - n)%nat.
Proof.
  intros Hr Hj. unfold rotation. replace n with (r + (n - r))%nat at 1 2 by lia. rewrite seq_app.
  rewrite skipn_app, firstn_app, skipn_all2, firstn_all2 by (rewrite seq_length; lia). rewrite seq_length, Nat.sub_diag. cbn [skipn firstn app]. rewrite app_nil_r.
  destruct (Nat.ltb_spec (j + r) n).
  - rewrite app_nth1 by (rewrite seq_length; lia). rewrite seq_nth by lia. lia.
  - rewrite app_nth2 by (rewrite seq_length; lia). rewrite seq_length, seq_nth by lia. lia.
Qed.
Lemma rotation_perm n r : Permutation (rotation n r) (seq 0 n).
Proof. unfold rotation. rewrite Permutation_app_comm. now rewrite firstn_skipn. Qed.
Lemma rotations_uniform n j i : (j < n)%nat -> (i < n)%nat -> E (rotations n) (fun p => if Nat.eq_dec (nth j p 0%nat) i then 1 else 0) = / INR n.
Proof.
  intros Hj Hi. unfold rotations. rewrite E_dmap, E_dunif. rewrite <- (Rmult_1_r (/ INR n)) at 2. f_equal.
  set (r0 := if (j <=? i)%nat then (i - j)%nat else (n + i - j)%nat).
  assert (H0 : (r0 < n)%nat) by (unfold r0; destruct (Nat.leb_spec j i); lia).
  etransitivity; [|exact (Rsum_indicator n r0 (fun _ => 1) H0)]. apply f_equal, map_ext_in. intros r Hr. apply in_seq in Hr.
  rewrite nth_rotation by lia. unfold r0. destruct (Nat.ltb_spec (j + r) n), (Nat.leb_spec j i);
    match goal with |- context [Nat.eq_dec ?a i] => destruct (Nat.eq_dec a i) end; match goal with |- context [Nat.eqb r ?b] => destruct (Nat.eqb_spec r b) end; try lia; ring.
Qed.
