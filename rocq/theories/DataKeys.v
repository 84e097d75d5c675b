(** Key discipline of the dataset samplers, and the restoration sampler. *)
From Coq Require Import Permutation String.
From Verif Require Import Base Prog Hygiene Images ImagesProofs ImagesMore Corrupt CorruptProofs Crescent.
Open Scope nat_scope.

Lemma good_crescent normal psi xi batch k : (forall k m d, good [k] (normal k m d)) -> good [k] (crescent_sampler normal psi xi batch k).
Proof.
  intros Hn. apply (good_under k [0; 1]). unfold crescent_sampler.
  apply (good_seq k [1] [0]); [key_disjoint|keys_in|apply Hn|]. intros zs. cbv zeta. apply good_bind_ret.
  cbn [map]. apply (good_under (split_key k 0) [1]). apply Hn.
Qed.

Lemma dataset_keys : forall k,
  (forall xs task n1 n2 nc, good [k] (image_sampler k xs task n1 n2 nc)) /\
  (forall task n1 n2 nc xs, good [k] (enumerate_images k task n1 n2 nc xs)) /\
  (forall (A : Type) (zero : A) xs n task w h random, good [k] (restore_sampler zero xs n task w h random k)) /\
  (forall normal psi xi batch, (forall k m d, good [k] (normal k m d)) -> good [k] (crescent_sampler normal psi xi batch k)).
Proof.
  intros k. split; [|split; [|split]].
  - intros. apply good_image_sampler.
  - intros. apply good_enumerate.
  - intros. apply good_restore_sampler.
  - intros. now apply good_crescent.
Qed.

Lemma restore_sample_spec {A} (zero : A) xs n task w h s random k : length xs = n -> 1 <= n -> 1 <= w -> 1 <= h -> 1 <= s ->
  inpaint_task task s \/ (supr_task task s /\ w mod s = 0 /\ h mod s = 0) -> Forall (image_shape w h) xs ->
  safe (restore_sampler zero xs n task w h random k) (fun r => In (fst r) xs /\ exists y m, snd r = Some (y, m) /\
    splits_image (w * h) m /\ y = snd (unpack zero (fst r) m) /\
    concat_parts zero w h (fst (unpack zero (fst r) m)) y m = fst r).
Proof.
  intros Hl Hn Hw Hh Hs Ht HF. unfold restore_sampler.
  apply (safe_bind _ _ (fun i => i < n)).
  - unfold choice_unif. apply safe_rint. intros l Hll HFl. apply safe_ret.
    destruct l as [|a [|? ?]]; try discriminate Hll. apply Forall_inv in HFl. unfold rint_hi in HFl. cbn. lia.
  - intros i Hi. eapply safe_bind; [apply (gen_mask_splits _ task w h s random Hw Hh Hs Ht)|].
    intros om (m & -> & Hm). apply safe_ret. cbn [fst snd].
    assert (Hin : In (nth i xs []) xs) by (apply nth_In; lia).
    split; [exact Hin|]. exists (snd (unpack zero (nth i xs []) m)), m. repeat split; [exact Hm|].
    apply concat_unpack; [exact Hm|]. rewrite Forall_forall in HF. now apply HF.
Qed.
