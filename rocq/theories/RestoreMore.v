(** Keys of the restoration loop, and one step of the score-based sampler read pixel by pixel. *)
From Coquelicot Require Import Coquelicot.
From Verif Require Import Base Dist Prog Sde SdeProofs SdePaths Images ImagesProofs Hygiene CorruptProofs Restore Csgm.
Open Scope R_scope.

(** ** Keys *)
Lemma draw_keys_S n k : draw_keys (S n) k = (fst (draw_keys n (split_key k 0)), split_key k 1 :: snd (draw_keys n (split_key k 0))).
Proof. cbn [draw_keys]. destruct (draw_keys n (split_key k 0)) as [k' ks]. reflexivity. Qed.

Lemma draw_keys_below n : forall k x, In x (snd (draw_keys n k)) -> prefix k x.
Proof.
  intros k x H. rewrite draw_keys_list in H. apply in_map_iff in H. destruct H as (i & <- & _). now exists (repeat 0%nat i ++ [1%nat]).
Qed.

Section Keys.
  Variables (w h : nat) (zero : pixel).
  Context {S : Type} (step : key -> S -> list pixel -> mask -> prog S) (x0 : S -> list pixel) (init : key -> list pixel -> mask -> prog S).
  Hypothesis Hstep : forall k s y m, good [k] (step k s y m).
  Hypothesis Hinit : forall k y m, good [k] (init k y m).

  Lemma restored_good y m : forall n k s, good (snd (draw_keys n k)) (restored w h zero step x0 n k s y m).
  Proof.
    induction n as [|n IH]; intros k s; [apply good_ret|]. rewrite draw_keys_S. cbn [restored snd].
    apply (good_bind [split_key k 1] (snd (draw_keys n (split_key k 0)))); [|apply Hstep|intros s'; apply good_bind_ret, IH].
    intros a b [<-|[]] Hb. apply draw_keys_below in Hb. apply (incomp_descend (split_key k 1) (split_key k 0)); [apply incomp_children; lia|apply prefix_refl|exact Hb].
  Qed.

  Lemma restoration_good xs n task random nsamples data_key k : incomp data_key k ->
    good (data_key :: snd (draw_keys (Datatypes.S nsamples) k)) (restoration w h zero step x0 init xs n task random nsamples data_key k).
  Proof.
    intros Hd. unfold restoration.
    apply (good_bind [data_key] (snd (draw_keys (Datatypes.S nsamples) k))); [|apply good_restore_sampler|].
    - intros a b [<-|[]] Hb. apply draw_keys_below in Hb. apply (incomp_descend data_key k); [exact Hd|apply prefix_refl|exact Hb].
    - intros [img [[y m]|]]; [|apply good_ret]. rewrite draw_keys_S. cbn [snd].
      apply (good_bind [split_key k 1] (snd (draw_keys nsamples (split_key k 0)))); [|apply Hinit|intros s; apply good_bind_ret, restored_good].
      intros a b [<-|[]] Hb. apply draw_keys_below in Hb. apply (incomp_descend (split_key k 1) (split_key k 0)); [apply incomp_children; lia|apply prefix_refl|exact Hb].
  Qed.
End Keys.

(** the key given to the data set is the first key of the test script and unrelated to all others *)
Lemma dataset_key_fresh seed nd ny sf : exists rest, test_script_keys seed nd ny sf = dataset_key seed :: rest /\ Forall (incomp (dataset_key seed)) rest.
Proof.
  pose proof (test_script_hygienic seed nd ny sf) as H. unfold test_script_keys in *. cbn [setup_keys snd app] in *.
  eexists. split; [reflexivity|]. inversion H; subst. assumption.
Qed.

(** ** One step of the score-based sampler *)
Section Step.
  Variables (w h : nat) (sde : linear_sde) (T dt : R) (score : list (list pixel) -> R -> list (list pixel)) (normal_y : key -> prog (list pixel)).
  Variables (m : mask) (d : nat) (y0 : list pixel) (u rnd : list pixel) (t : R).
  Hypothesis Hm : splits_image (w * h) m.
  Hypothesis Hu : length u = length (unobs_inds m).
  Hypothesis Hr : length rnd = length (unobs_inds m).
  Hypothesis Hud : Forall (fun p => length p = d) u.
  Hypothesis Hrd : Forall (fun p => length p = d) rnd.
  Hypothesis Hs : forall img s, image_shape w h img -> image_shape w h (score img s) /\ forall i j, (i < w)%nat -> (j < h)%nat -> length (px (score img s) i j) = d.
  Hypothesis Hy : length y0 = length (obs_inds m).

  Lemma nth_vmap2 f (a b : list R) c : (c < length a)%nat -> (c < length b)%nat -> nth c (vmap2 f a b) 0 = f (nth c a 0) (nth c b 0).
  Proof. intros Ha Hb. exact (nth_map2 f a b c 0 0 0 Ha Hb). Qed.
  Lemma length_vmap2 f (a b : list R) : length (vmap2 f a b) = Nat.min (length a) (length b).
  Proof. unfold vmap2. now rewrite map_length, combine_length. Qed.
  Lemma nth_vscale k (a : list R) c : nth c (vscale k a) 0 = k * nth c a 0.
  Proof. unfold vscale. rewrite <- (Rmult_0_r k) at 1. exact (map_nth (fun x => k * x) a 0 c). Qed.

  Lemma csgm_step_pixels k i rest : exists u' : list pixel -> list pixel,
    csgm_scan w h sde T dt score normal_y m y0 k i ((t, rnd) :: rest) u =
      bind (normal_y (split_key k i)) (fun z => csgm_scan w h sde T dt score normal_y m y0 k (S i) rest (u' z)) /\
    forall z, length z = length y0 -> length (u' z) = length u /\
      forall q r c p, (q < w)%nat -> (r < h)%nat -> (c < d)%nat -> (p < length u)%nat -> nth p (unobs_inds m) 0%nat = (q * h + r)%nat ->
        nth c (nth p (u' z) []) 0 =
        nth c (nth p u []) 0
        + (- (drift_coef sde (T - t) * nth c (nth p u []) 0)
           + dispersion sde (T - t) ^ 2 * nth c (px (score (concat_parts [] w h u (v_hat sde T t y0 z) m) (T - t)) q r) 0) * dt
        + dispersion sde (T - t) * sqrt dt * nth c (nth p rnd []) 0.
  Proof.
    eexists. split; [reflexivity|]. cbv beta. intros z Hz.
    assert (Hv : length (v_hat sde T t y0 z) = length (obs_inds m)). { unfold v_hat. rewrite length_map2. change (list R) with pixel in *. lia. }
    destruct (unpack_concat [] w h m Hm u (v_hat sde T t y0 z) Hu Hv) as [_ Sh].
    unfold csgm_drift. set (img := concat_parts [] w h u (v_hat sde T t y0 z) m) in *. destruct (Hs img (T - t) Sh) as [Ss Sd].
    cbn [unpack fst]. split. { rewrite !length_map2, length_gather. change (list R) with pixel in *. lia. }
    intros q r c p Hq Hr' Hc Hp Hin.
    assert (Lg : length (gather [] (ravel_image (score img (T - t))) (unobs_inds m)) = length u) by (rewrite length_gather; now symmetry).
    assert (Ng : nth p (gather [] (ravel_image (score img (T - t))) (unobs_inds m)) [] = px (score img (T - t)) q r).
    { unfold gather. rewrite (nth_indep _ [] (nth 0%nat (ravel_image (score img (T - t))) [])) by (rewrite map_length; lia).
      rewrite (map_nth (fun i => nth i (ravel_image (score img (T - t))) [])), Hin. now apply (ravel_px w h). }
    change (list R) with pixel in *.
    assert (N1 : forall (f : pixel -> pixel -> pixel) a b, (p < length a)%nat -> (p < length b)%nat -> nth p (map2 f a b) [] = f (nth p a []) (nth p b []))
      by (intros; now apply nth_map2).
    match goal with |- nth c (nth p (map2 ?f (map2 ?g ?a (map2 ?e ?a ?b)) rnd) []) 0 = _ =>
      assert (EQ : nth p (map2 f (map2 g a (map2 e a b)) rnd) [] = f (g (nth p a []) (e (nth p a []) (nth p b []))) (nth p rnd [])) end.
    { etransitivity; [apply N1; rewrite ?length_map2; lia|]. f_equal. etransitivity; [apply N1; rewrite ?length_map2; lia|]. f_equal. apply N1; lia. }
    refine (eq_trans (f_equal (fun x => nth c x 0) EQ) _). cbv beta. clear EQ N1.
    rewrite Ng. rewrite Forall_forall in Hud, Hrd.
    assert (Lu : length (nth p u []) = d) by (apply Hud, nth_In; assumption).
    assert (Lr : length (nth p rnd []) = d) by (apply Hrd, nth_In; lia).
    assert (Ls : length (px (score img (T - t)) q r) = d) by now apply Sd.
    assert (Lx : forall k (a : list R), length (vscale k a) = length a) by (intros; apply map_length).
    unfold euler_mean_px, vadd. rewrite nth_vmap2; [|rewrite length_vmap2, map_length, length_vmap2, !Lx; lia|rewrite Lx; lia].
    rewrite nth_vmap2; [|lia|rewrite map_length, length_vmap2, !Lx; lia].
    rewrite nth_vscale.
    assert (Nm : forall l : list R, nth c (map (fun a => a * dt) l) 0 = nth c l 0 * dt).
    { intros l. rewrite <- (Rmult_0_l dt) at 1. exact (map_nth (fun a => a * dt) l 0 c). }
    rewrite Nm, nth_vmap2 by (rewrite Lx; lia). rewrite !nth_vscale. ring.
  Qed.
End Step.
