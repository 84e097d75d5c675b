(** Properties of the image restoration scripts experiments/imgs/*.py and experiments/sb_imgs/supr.py. *)
From Coq Require Import String.
From Coq Require Import Reals List Lia Lra Permutation.
From Coquelicot Require Import Coquelicot.
From Verif Require Import Base Dist Prog Sde SdeProofs SdePaths Smc SmcProofs Images ImagesProofs ImagesMore Hygiene Twisted Restore Csgm.
Import ListNotations.
Open Scope R_scope.

(** ** C92: densities over a masked image *)
(** [image_step_logpdf] is the log density of one Euler step of the whole image, pixel by pixel and channel by channel;
    [image_step] is one Euler step with noise image [z]. *)
Theorem C92_joint_density : forall w h dt disp rd m u' v' u v t, (forall img t, image_shape w h img -> image_shape w h (rd img t)) -> splits_image (w * h) m ->
  length u = length (unobs_inds m) -> length v = length (obs_inds m) -> length u' = length (unobs_inds m) -> length v' = length (obs_inds m) ->
  img_transition_logpdf w h dt disp rd u' u v t m + img_likelihood_logpdf w h dt disp rd v' u v t m =
  image_step_logpdf w h dt disp rd (concat_parts [] w h u' v' m) (concat_parts [] w h u v m) t.
Proof. intros w h dt disp rd m u' v' u v t Hrd Hm. now apply img_joint_logpdf. Qed.
Print Assumptions C92_joint_density.

Theorem C92_transition_draw : forall w h dt disp rd m u v t z z' img', (forall img t, image_shape w h img -> image_shape w h (rd img t)) -> splits_image (w * h) m ->
  length u = length (unobs_inds m) -> length v = length (obs_inds m) -> length z = length (unobs_inds m) -> length z' = length (obs_inds m) ->
  image_step w h dt disp rd (concat_parts [] w h u v m) t (concat_parts [] w h z z' m) img' ->
  transition_point w h dt disp rd u v t m z = fst (unpack [] img' m).
Proof. intros w h dt disp rd m u v t z z' img' Hrd Hm. now apply img_transition_draw. Qed.
Print Assumptions C92_transition_draw.

(** a 2x2 image of two channels, the two pixels of one diagonal unobserved, and a drift that mixes pixels *)
Definition demo_mask : mask := mk_mask 1 1 [0; 3]%nat [1; 2]%nat.
Definition demo_drift (img : list (list pixel)) (t : R) : list (list pixel) := rev (map (@rev pixel) img).
Lemma demo_drift_ok : forall img (t : R), image_shape 2 2 img -> image_shape 2 2 (demo_drift img t).
Proof.
  intros img t [H1 H2]. unfold demo_drift. split; [now rewrite rev_length, map_length|].
  apply Forall_rev, Forall_map. eapply Forall_impl; [|exact H2]. intros r Hr. cbv beta. now rewrite rev_length.
Qed.
Lemma demo_mask_ok : splits_image (2 * 2) demo_mask.
Proof. unfold splits_image. cbn. apply perm_skip. apply Permutation_sym. apply (Permutation_app_comm [1; 2] [3])%nat. Qed.
Example C92_example :
  img_transition_logpdf 2 2 (1 / 10) (fun _ => 2) demo_drift [[1; 1]; [2; 2]] [[3; 3]; [4; 4]] [[5; 5]; [6; 6]] 0 demo_mask +
  img_likelihood_logpdf 2 2 (1 / 10) (fun _ => 2) demo_drift [[7; 7]; [8; 8]] [[3; 3]; [4; 4]] [[5; 5]; [6; 6]] 0 demo_mask =
  image_step_logpdf 2 2 (1 / 10) (fun _ => 2) demo_drift [[[1; 1]; [7; 7]]; [[8; 8]; [2; 2]]] [[[3; 3]; [5; 5]]; [[6; 6]; [4; 4]]] 0 /\
  transition_point 2 2 (1 / 10) (fun _ => 2) demo_drift [[3; 3]; [4; 4]] [[5; 5]; [6; 6]] 0 demo_mask [[1; 1]; [1; 1]] =
  [[3 + 4 * (1 / 10) + sqrt (1 / 10) * 2 * 1; 3 + 4 * (1 / 10) + sqrt (1 / 10) * 2 * 1];
   [4 + 3 * (1 / 10) + sqrt (1 / 10) * 2 * 1; 4 + 3 * (1 / 10) + sqrt (1 / 10) * 2 * 1]].
Proof.
  split; [|reflexivity].
  exact (C92_joint_density 2 2 (1 / 10) (fun _ => 2) demo_drift demo_mask [[1; 1]; [2; 2]] [[7; 7]; [8; 8]] [[3; 3]; [4; 4]] [[5; 5]; [6; 6]] 0 demo_drift_ok demo_mask_ok eq_refl eq_refl eq_refl eq_refl).
Qed.

(** ** C93: the restored images keep the observed pixels *)
Theorem C93_restored_keep_observed : forall (S : Type) w h zero (step : key -> S -> list pixel -> mask -> prog S) x0 init xs n task s random nsamples data_key k,
  length xs = n -> (1 <= n)%nat -> (1 <= w)%nat -> (1 <= h)%nat -> (1 <= s)%nat ->
  inpaint_task task s \/ (supr_task task s /\ w mod s = 0 /\ h mod s = 0)%nat -> Forall (image_shape w h) xs ->
  (forall k s y m, safe (step k s y m) (fun s' => length (x0 s') = length (unobs_inds m))) ->
  safe (restoration w h zero step x0 init xs n task random nsamples data_key k) (fun r => exists img m imgs, r = Some (img, m, imgs) /\
    In img xs /\ splits_image (w * h) m /\ length imgs = nsamples /\
    forall r, In r imgs -> image_shape w h r /\
      forall i j, (i < w)%nat -> (j < h)%nat -> In (i * h + j)%nat (obs_inds m) -> px r i j = px img i j).
Proof. exact @restoration_spec. Qed.
Print Assumptions C93_restored_keep_observed.

(** the score-based sampler meets the hypothesis on [step] *)
Theorem C93_csgm_shape : forall w h sde T dt score normal_x normal_y normal_xs m k y0 ts,
  (forall k, safe (normal_x k) (fun u => length u = length (unobs_inds m))) ->
  (forall k n, safe (normal_xs k n) (Forall (fun u => length u = length (unobs_inds m)))) ->
  safe (csgm_sampler w h sde T dt score normal_x normal_y normal_xs k y0 m ts) (fun u => length u = length (unobs_inds m)).
Proof. intros. now apply csgm_sampler_length. Qed.
Print Assumptions C93_csgm_shape.

(** the twisted sampler keeps its final image as it is: if no proposed image happens to carry the observation,
    no restored image does *)
Theorem C93_twisted_refuted : forall (Y : Type) translp twistlp (prop : key -> list (list (list pixel)) -> R -> Y -> prog (list (list (list pixel)))) proplp res init n m y0,
  (0 < n)%nat -> (forall a b t, length a = n -> length b = n -> length (translp a b t) = n) -> (forall y a t, length a = n -> length (twistlp y a t) = n) ->
  (forall a b t y, length a = n -> length b = n -> length (proplp a b t y) = n) ->
  (forall k us t y, length us = n -> safe (prop k us t y) (fun us' => length us' = n /\ Forall (fun img => snd (unpack [] img m) <> y0) us')) ->
  (forall k, safe (init k n) (fun us => length us = n /\ Forall (fun img => snd (unpack [] img m) <> y0) us)) ->
  (forall w k, length w = n -> safe (res w k) (fun inds => length inds = n)) ->
  forall k y ts, safe (twisted_restored translp twistlp prop proplp res init k y ts n) (fun img => snd (unpack [] img m) <> y0).
Proof. intros. now apply twisted_kept. Qed.
Print Assumptions C93_twisted_refuted.

Definition demo_images : list (list (list pixel)) := [[[[1]; [2]]; [[3]; [4]]]; [[[5]; [6]]; [[7]; [8]]]].
Example C93_example : forall nsamples data_key k,
  safe (restoration 2 2 [0] (fun k (s : list pixel) y m => Ret (map (fun _ => [0]) (unobs_inds m))) (fun s => s) (fun _ _ _ => Ret []) demo_images 2 "inpaint-1"%string false nsamples data_key k)
    (fun r => exists img m imgs, r = Some (img, m, imgs) /\ In img demo_images /\ splits_image (2 * 2) m /\ length imgs = nsamples /\
      forall r, In r imgs -> image_shape 2 2 r /\ forall i j, (i < 2)%nat -> (j < 2)%nat -> In (i * 2 + j)%nat (obs_inds m) -> px r i j = px img i j).
Proof.
  intros nsamples data_key k. apply (C93_restored_keep_observed _ 2 2 [0] _ _ _ demo_images 2 "inpaint-1"%string 1); try lia; try reflexivity.
  - left. split; reflexivity.
  - repeat constructor.
  - intros. apply safe_ret. now rewrite map_length.
Qed.
(** one particle, always the zero image; the observation is one *)
Example C93_twisted_example : exists translp twistlp (prop : key -> list (list (list pixel)) -> R -> unit -> prog (list (list (list pixel)))) proplp res init,
  forall k ts, safe (twisted_restored translp twistlp prop proplp res init k tt ts 1) (fun img => snd (unpack [] img demo_mask) <> [[1]; [1]]).
Proof.
  exists (fun a b t => map (fun _ => 0) a), (fun y a t => map (fun _ => 0) a), (fun k us t y => Ret (map (fun _ => [[[0]; [0]]; [[0]; [0]]]) us)),
    (fun a b t y => map (fun _ => 0) a), (fun w k => Ret (map (fun _ => 0%nat) w)), (fun k n => Ret (repeat [[[0]; [0]]; [[0]; [0]]] n)). intros k ts.
  assert (Hz : snd (unpack [] [[[0]; [0]]; [[0]; [0]]] demo_mask) <> [[1]; [1]]) by (cbn; intros E; injection E; lra).
  apply C93_twisted_refuted; try lia; intros; rewrite ?map_length; auto; apply safe_ret.
  - split; [now rewrite map_length|]. apply Forall_map, Forall_forall. intros ? _. exact Hz.
  - split; [apply repeat_length|]. cbn [repeat]. repeat constructor. exact Hz.
  - now rewrite map_length.
Qed.

(** ** C94: train and test images *)
(** one key for both: the data is divided *)
Theorem C94_same_key_partition : forall (A : Type) (d : A) data perm, Permutation perm (seq 0 (length data)) ->
  Permutation (snd (celeba_split d perm data true) ++ snd (celeba_split d perm data false)) data.
Proof. intros A d data perm. apply split_same. Qed.
Print Assumptions C94_same_key_partition.
Theorem C94_sizes : forall (A : Type) (d : A) data perm test, length data = (30 * 1000)%nat -> Permutation perm (seq 0 (length data)) ->
  length (snd (celeba_split d perm data test)) = fst (celeba_split d perm data test).
Proof. intros A d data perm test. apply split_lengths. Qed.
Print Assumptions C94_sizes.
Theorem C94_same_seed_disjoint_partial : forall (A : Type) (d : A) data (draw : key -> list nat) seed, NoDup data -> (forall k, Permutation (draw k) (seq 0 (length data))) ->
  forall x, In x (snd (celeba_split d (draw (dataset_key seed)) data true)) -> ~ In x (snd (celeba_split d (draw (dataset_key seed)) data false)).
Proof. intros A d data draw seed. apply same_seed_disjoint. Qed.
Print Assumptions C94_same_seed_disjoint_partial.
(** two keys: disjoint exactly when both rearrangements put the same images first *)
Theorem C94_two_keys_iff : forall (A : Type) (d : A) data perm1 perm2, NoDup data -> Permutation perm1 (seq 0 (length data)) -> Permutation perm2 (seq 0 (length data)) ->
  (forall x, In x (snd (celeba_split d perm2 data true)) -> ~ In x (snd (celeba_split d perm1 data false))) <->
  Permutation (firstn 1000 perm2) (firstn 1000 perm1).
Proof. intros A d data perm1 perm2. apply split_leak. Qed.
Print Assumptions C94_two_keys_iff.
(** the scripts train with seed 666 and test with seed 996: the keys differ, nothing prevents every test image from having been a training image *)
Theorem C94_scripts_refuted : forall (A : Type) (d : A) data, (2 * 1000 <= length data)%nat -> exists draw : key -> list nat,
  (forall k, Permutation (draw k) (seq 0 (length data))) /\
  forall x, In x (snd (celeba_split d (draw (dataset_key 996)) data true)) -> In x (snd (celeba_split d (draw (dataset_key 666)) data false)).
Proof. intros A d data. apply scripts_leak. Qed.
Print Assumptions C94_scripts_refuted.
(** on average a fraction 1 - 1000/n of the test images were training images *)
Theorem C94_expected_leak_refuted : forall n perm1 (D : dist (list nat)), (1000 <= n)%nat -> Permutation perm1 (seq 0 n) ->
  (forall j i, (j < n)%nat -> (i < n)%nat -> E D (fun p => if Nat.eq_dec (nth j p 0%nat) i then 1 else 0) = / INR n) ->
  E D (n_leaked perm1) = INR 1000 * INR (n - 1000) / INR n.
Proof. exact expected_leak. Qed.
Print Assumptions C94_expected_leak_refuted.
Example C94_example : forall n, (1000 <= n)%nat -> E (rotations n) (n_leaked (seq 0 n)) = INR 1000 * INR (n - 1000) / INR n.
Proof. intros n Hn. apply C94_expected_leak_refuted; [exact Hn|reflexivity|]. intros. now apply rotations_uniform. Qed.

(** ** C95: the keys of the test loop *)
(** [test_script seed ndraws ny0s start_from]: for every processed test image its number, the key that draws the image and the mask, and the sampler keys *)
Theorem C95_same_test_images : forall seed nd nd' ny ny' sf sf' i dk dk' ks ks',
  In (i, dk, ks) (test_script seed nd ny sf) -> In (i, dk', ks') (test_script seed nd' ny' sf') -> dk = dk'.
Proof. exact same_test_images. Qed.
Print Assumptions C95_same_test_images.
Theorem C95_keys_used_once : forall seed nd ny sf, ForallOrdPairs incomp (test_script_keys seed nd ny sf).
Proof. exact test_script_hygienic. Qed.
Print Assumptions C95_keys_used_once.
Theorem C95_all_processed : forall seed nd ny sf i, (sf <= i < ny)%nat <-> exists dk ks, In (i, dk, ks) (test_script seed nd ny sf) /\ length ks = nd.
Proof.
  intros seed nd ny sf i. split.
  - intros H. eexists. eexists. split; [now apply test_script_rows|]. now rewrite map_length, seq_length.
  - intros (dk & ks & H & _). now apply test_script_row in H.
Qed.
Print Assumptions C95_all_processed.
(** a run resumed at image [sf] does not continue the run: it re-uses for image [sf + i] the sampler keys of image [i], *)
Theorem C95_resume_refuted : forall seed nd ny sf i dk ks, In (i + sf, dk, ks)%nat (test_script seed nd ny sf) ->
  exists dk', In (i, dk', ks) (test_script seed nd ny 0).
Proof. exact resume_keys. Qed.
Print Assumptions C95_resume_refuted.
(** so the result for every image differs from that of the full run *)
Theorem C95_resume_differs_refuted : forall seed nd ny sf i dk ks dk' ks', (0 < sf)%nat -> (0 < nd)%nat ->
  In (i, dk, ks) (test_script seed nd ny sf) -> In (i, dk', ks') (test_script seed nd ny 0) -> dk = dk' /\ ks <> ks'.
Proof. exact resume_differs. Qed.
Print Assumptions C95_resume_differs_refuted.
Example C95_example : test_script 996 2 3 1 =
  [(1, [996; 1; 0; 1], [[996; 0; 0; 0; 1]; [996; 0; 0; 0; 0; 1]]); (2, [996; 1; 0; 0; 1], [[996; 0; 0; 0; 0; 0; 1]; [996; 0; 0; 0; 0; 0; 0; 1]])]%nat.
Proof. reflexivity. Qed.

(** ** C99: the noised observations of the score-based conditional sampler *)
(** [steps_noise row y0 n]: independent noise for [n] steps, one row of channels per observed pixel; [chan c p img]: channel c of pixel p *)
Theorem C99_marginal_moments : forall sde d row y0 T t n k p c c', white d row -> Forall (fun q => length q = d) y0 ->
  (k < n)%nat -> (p < length y0)%nat -> (c < d)%nat -> (c' < d)%nat -> 0 <= snd (FQ sde (T - t) 0) ->
  let v zs := v_hat sde T t y0 (nth k zs []) in let F := fst (FQ sde (T - t) 0) in
  E (steps_noise row y0 n) (fun zs => chan c p (v zs)) = F * chan c p y0 /\
  E (steps_noise row y0 n) (fun zs => (chan c p (v zs) - F * chan c p y0) * (chan c' p (v zs) - F * chan c' p y0)) =
    if Nat.eqb c c' then snd (FQ sde (T - t) 0) else 0.
Proof. intros. now apply (v_hat_moments sde d). Qed.
Print Assumptions C99_marginal_moments.
Theorem C99_keys_used_once : forall w h sde T dt score normal_x normal_y normal_xs k y0 m ts,
  (forall k, good [k] (normal_x k)) -> (forall k, good [k] (normal_y k)) -> (forall k n, good [k] (normal_xs k n)) ->
  good [k] (csgm_sampler w h sde T dt score normal_x normal_y normal_xs k y0 m ts).
Proof. intros. now apply csgm_sampler_good. Qed.
Print Assumptions C99_keys_used_once.
(** two steps are uncorrelated, two times of a forward path are not *)
Theorem C99_joint_law_refuted : forall sde d row y0 T s t n j k p c, white d row -> Forall (fun q => length q = d) y0 ->
  sde_defined sde -> (j < n)%nat -> (k < n)%nat -> j <> k -> (p < length y0)%nat -> (c < d)%nat ->
  T - t <= T - s -> 0 < T - t -> noisy_between sde 0 (T - t) -> noise_on sde 0 (T - t) -> noise_on sde (T - t) (T - s) ->
  let mean u := fst (FQ sde (T - u) 0) * chan c p y0 in
  E (steps_noise row y0 n) (fun zs => (chan c p (v_hat sde T s y0 (nth j zs [])) - mean s) * (chan c p (v_hat sde T t y0 (nth k zs [])) - mean t)) = 0 /\
  0 < E (dseq (repeat row 2)) (fun rnds => let path := exact_path (FQ sde) (nth p y0 []) [0; T - t; T - s] rnds in
        (nth c (nth 2 path []) 0 - mean s) * (nth c (nth 1 path []) 0 - mean t)).
Proof. intros. now apply (csgm_not_forward_path sde d). Qed.
Print Assumptions C99_joint_law_refuted.
(** one grey pixel, noise a fair sign, unit Ornstein-Uhlenbeck, T = 2, the steps at 0 and 1 *)
Example C99_example : let sde := ConstSDE (- (1 / 2)) 1 in let row := dseq (repeat [(1 / 2, 1); (1 / 2, -1)] 1) in
  let mean u := fst (FQ sde (2 - u) 0) * chan 0 0 [[3]] in
  E (steps_noise row [[3]] 2) (fun zs => (chan 0 0 (v_hat sde 2 0 [[3]] (nth 0 zs [])) - mean 0) * (chan 0 0 (v_hat sde 2 1 [[3]] (nth 1 zs [])) - mean 1)) = 0 /\
  0 < E (dseq (repeat row 2)) (fun rnds => let path := exact_path (FQ sde) [3] [0; 2 - 1; 2 - 0] rnds in
        (nth 0 (nth 2 path []) 0 - mean 0) * (nth 0 (nth 1 path []) 0 - mean 1)).
Proof.
  cbv zeta. apply (C99_joint_law_refuted (ConstSDE (- (1 / 2)) 1) 1 _ [[3]] 2 0 1 2 0 1 0 0); try lia; try (cbn; lra); try (repeat constructor; fail).
  apply white_iid; [split; [repeat constructor; cbn; lra|cbn; lra]|unfold E; cbn; lra|unfold E; cbn; lra].
Qed.
