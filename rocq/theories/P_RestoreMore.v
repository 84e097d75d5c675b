(** Tightened statements for C95 and C99. *)
From Coq Require Import String.
From Coquelicot Require Import Coquelicot.
From Verif Require Import Base Dist Prog Sde SdeProofs SdePaths Images ImagesProofs Hygiene CorruptProofs Restore Csgm RestoreMore.
Open Scope R_scope.

(** ** C95: one restored test image consumes exactly the keys handed to it, each once; they are the keys of [test_script] *)
Theorem C95_restoration_keys : forall w h zero (S : Type) (step : key -> S -> list pixel -> mask -> prog S) x0 (init : key -> list pixel -> mask -> prog S),
  (forall k s y m, good [k] (step k s y m)) -> (forall k y m, good [k] (init k y m)) ->
  forall xs n task random nsamples data_key k, incomp data_key k ->
  good (data_key :: snd (draw_keys (Datatypes.S nsamples) k)) (restoration w h zero step x0 init xs n task random nsamples data_key k).
Proof. intros w h zero S step x0 init Hs Hi xs n task random ns dk k. now apply restoration_good. Qed.
Print Assumptions C95_restoration_keys.
(** the key of the data set (C94) is the first key of the script *)
Theorem C95_dataset_key : forall seed nd ny sf, exists rest, test_script_keys seed nd ny sf = dataset_key seed :: rest /\ Forall (incomp (dataset_key seed)) rest.
Proof. exact dataset_key_fresh. Qed.
Print Assumptions C95_dataset_key.
(** two draws with a sampler that consumes its key *)
Example C95_restoration_keys_example :
  good [[996; 1; 1]; [996; 0; 0; 0; 1]; [996; 0; 0; 0; 0; 1]; [996; 0; 0; 0; 0; 0; 1]]%nat
    (restoration 2 2 [] (fun k (_ : nat) _ _ => choice_unif k 3) (fun _ => [[0]]) (fun k _ _ => choice_unif k 3)
       [[[[1]; [2]]; [[3]; [4]]]] 1 "inpaint-1"%string true 2 [996; 1; 1]%nat [996; 0; 0; 0]%nat).
Proof.
  apply (C95_restoration_keys 2 2 [] nat (fun k (_ : nat) _ _ => choice_unif k 3) (fun _ => [[0]]) (fun k _ _ => choice_unif k 3)); intros; try apply good_choice_unif.
  split; intros [l H]; discriminate H.
Qed.

(** ** C99: a step of the score-based sampler is the Euler step of the reverse equation on the unobserved pixels, the network seeing the image completed by the noised observation *)
Theorem C99_reverse_step : forall w h sde T dt score normal_y m d y0 u rnd t,
  splits_image (w * h) m -> length u = length (unobs_inds m) -> length rnd = length (unobs_inds m) ->
  Forall (fun p => length p = d) u -> Forall (fun p => length p = d) rnd ->
  (forall img s, image_shape w h img -> image_shape w h (score img s) /\ forall i j, (i < w)%nat -> (j < h)%nat -> length (px (score img s) i j) = d) ->
  length y0 = length (obs_inds m) ->
  forall k i rest, exists u' : list pixel -> list pixel,
    csgm_scan w h sde T dt score normal_y m y0 k i ((t, rnd) :: rest) u =
      bind (normal_y (split_key k i)) (fun z => csgm_scan w h sde T dt score normal_y m y0 k (S i) rest (u' z)) /\
    forall z, length z = length y0 -> length (u' z) = length u /\
      forall q r c p, (q < w)%nat -> (r < h)%nat -> (c < d)%nat -> (p < length u)%nat -> nth p (unobs_inds m) 0%nat = (q * h + r)%nat ->
        nth c (nth p (u' z) []) 0 =
        nth c (nth p u []) 0
        + (- (drift_coef sde (T - t) * nth c (nth p u []) 0)
           + dispersion sde (T - t) ^ 2 * nth c (px (score (concat_parts [] w h u (v_hat sde T t y0 z) m) (T - t)) q r) 0) * dt
        + dispersion sde (T - t) * sqrt dt * nth c (nth p rnd []) 0.
Proof. intros. eapply csgm_step_pixels; eassumption. Qed.
Print Assumptions C99_reverse_step.
(** an image of 1 x 2 grey pixels of which the first is observed *)
Example C99_reverse_step_example : forall normal_y k, exists u' : list pixel -> list pixel,
  csgm_scan 1 2 (ConstSDE (- (1 / 2)) 1) 2 1 (fun _ _ => [[[5]; [7]]]) normal_y (mk_mask 1 1 [1%nat] [0%nat]) [[3]] k 0 [(1, [[4]])] [[2]] =
    bind (normal_y (split_key k 0)) (fun z => Ret (u' z)) /\ nth 0 (nth 0 (u' [[0]]) []) 0 = 2 + (1 + 7) * 1 + 1 * sqrt 1 * 4.
Proof.
  intros normal_y k. destruct (C99_reverse_step 1 2 (ConstSDE (- (1 / 2)) 1) 2 1 (fun _ _ => [[[5]; [7]]]) normal_y (mk_mask 1 1 [1%nat] [0%nat]) 1 [[3]] [[2]] [[4]] 1) with (k := k) (i := 0%nat) (rest := @nil (R * list pixel))
    as (u' & E & H); try reflexivity; try (repeat constructor; fail).
  - intros img s _. split; [split; [reflexivity|repeat constructor]|]. intros [|i] [|[|j]] Hi Hj; try lia; reflexivity.
  - exists u'. split; [exact E|]. destruct (H [[0]] eq_refl) as [Hl Hc]. specialize (Hc 0 1 0 0)%nat. cbn in Hc. specialize (Hc ltac:(lia) ltac:(lia) ltac:(lia) ltac:(lia) eq_refl).
    rewrite Hc. lra.
Qed.
