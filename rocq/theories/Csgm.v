(** Model of the score-based conditional sampler of experiments/imgs/{inpainting,supr}_csgm.py. *)
From Coquelicot Require Import Coquelicot.
From Verif Require Import Base Dist Prog Sde SdeProofs SdePaths Images ImagesProofs Hygiene Restore.
Open Scope R_scope.

Section Sampler.
  Variables (w h : nat) (sde : linear_sde) (T dt : R) (score : list (list pixel) -> R -> list (list pixel)).
  (** standard normal arrays of the shapes of x and y *)
  Variables (normal_x normal_y : key -> prog (list pixel)) (normal_xs : key -> nat -> prog (list (list pixel))).

  (** inpainting_csgm.py:88-89: the observation noised to time [T - t], pixel by pixel ([ts[0] = 0]) *)
  Definition v_hat (t : R) (y0 z : list pixel) : list pixel := map2 (move (FQ sde (T - t) 0)) y0 z.

  (** inpainting_csgm.py:87-91 *)
  Definition csgm_drift (u : list pixel) (t : R) (m : mask) (y0 z : list pixel) : list pixel :=
    let uv := concat_parts [] w h u (v_hat t y0 z) m in
    map2 (fun a b => vadd (vscale (- drift_coef sde (T - t)) a) (vscale (dispersion sde (T - t) * dispersion sde (T - t)) b))
      u (fst (unpack [] (score uv (T - t)) m)).

  (** inpainting_csgm.py:102-113; [keys i] is [key_ests[i]] *)
  Fixpoint csgm_scan (m : mask) (y0 : list pixel) (k_est : key) (i : nat) (steps : list (R * list pixel)) (u : list pixel) : prog (list pixel) :=
    match steps with
    | [] => Ret u
    | (t, rnd) :: rest =>
        z <- normal_y (split_key k_est i) ;;
        csgm_scan m y0 k_est (S i) rest
          (map2 (fun p q => vadd p (vscale (dispersion sde (T - t) * sqrt dt) q)) (map2 (euler_mean_px dt) u (csgm_drift u t m y0 z)) rnd)
    end.
  (** inpainting_csgm.py:116-121 *)
  Definition csgm_sampler (k : key) (y0 : list pixel) (m : mask) (ts : list R) : prog (list pixel) :=
    u0 <- normal_x (split_key k 0) ;;
    let k_sde := split_key k 1 in
    rnds <- normal_xs (split_key k_sde 0) (length ts - 1) ;;
    csgm_scan m y0 (split_key k_sde 1) 0 (combine (removelast ts) rnds) u0.

  Hypothesis Hx : forall k, good [k] (normal_x k).
  Hypothesis Hy : forall k, good [k] (normal_y k).
  Hypothesis Hxs : forall k n, good [k] (normal_xs k n).

  Lemma csgm_scan_good m y0 k steps : forall i u, good (map (split_key k) (seq i (length steps))) (csgm_scan m y0 k i steps u).
  Proof.
    induction steps as [|[t rnd] rest IH]; intros i u; cbn [csgm_scan length]; [apply good_ret|].
    apply good_step; [apply Hy|]. intros z. apply IH.
  Qed.
  Lemma csgm_sampler_good k y0 m ts : good [k] (csgm_sampler k y0 m ts).
  Proof.
    apply (good_under k [0; 1]%nat). unfold csgm_sampler. apply (good_seq k [0%nat] [1%nat]); [key_disjoint|keys_in|apply Hx|].
    intros u0. cbv zeta. cbn [map]. apply (good_under (split_key k 1) [0; 1]%nat). apply (good_seq _ [0%nat] [1%nat]); [key_disjoint|keys_in|apply Hxs|].
    intros rnds. cbn [map]. eapply good_under, csgm_scan_good.
  Qed.
End Sampler.

(** shape of the result *)
Section Shape.
  Variables (w h : nat) (sde : linear_sde) (T dt : R) (score : list (list pixel) -> R -> list (list pixel)).
  Variables (normal_x normal_y : key -> prog (list pixel)) (normal_xs : key -> nat -> prog (list (list pixel))) (m : mask).
  Hypothesis Hx : forall k, safe (normal_x k) (fun u => length u = length (unobs_inds m)).
  Hypothesis Hxs : forall k n, safe (normal_xs k n) (Forall (fun u => length u = length (unobs_inds m))).

  Lemma csgm_sampler_length k y0 ts :
    safe (csgm_sampler w h sde T dt score normal_x normal_y normal_xs k y0 m ts) (fun u => length u = length (unobs_inds m)).
  Proof.
    unfold csgm_sampler. eapply safe_bind; [apply Hx|]. intros u0 H0. cbv zeta. eapply safe_bind; [apply Hxs|]. intros rnds HF.
    assert (HF' : Forall (fun p => length (snd p) = length (unobs_inds m)) (combine (removelast ts) rnds)).
    { apply Forall_forall. intros [t r] Hin. apply in_combine_r in Hin. rewrite Forall_forall in HF. now apply HF. }
    generalize (split_key (split_key k 1) 1). intros ke. revert u0 H0. generalize 0%nat. induction HF' as [|[t rnd] rest Hr HF' IH]; intros i u0 H0; cbn [csgm_scan]; [now apply safe_ret|].
    apply (safe_bind _ _ (fun _ => True)); [intros ? ? ?; exact I|]. intros z _. apply IH.
    cbn [snd] in Hr. rewrite !length_map2. unfold csgm_drift. rewrite length_map2. cbn [unpack fst]. rewrite length_gather. change (list R) with pixel in *. lia.
  Qed.
End Shape.

(** ** Law of the simulated observations *)
Lemma E_iid_nth {A} (row : dist A) n k dflt f : is_prob row -> (k < n)%nat -> E (dseq (repeat row n)) (fun l => f (nth k l dflt)) = E row f.
Proof.
  intros Hp Hk. apply (E_dseq_nth (repeat row n) k row dflt); [apply Forall_forall; intros y Hy; apply repeat_spec in Hy; now subst|].
  now apply nth_error_repeat.
Qed.
Lemma is_prob_iid {A} (row : dist A) n : is_prob row -> is_prob (dseq (repeat row n)).
Proof. intros Hp. apply is_prob_dseq, Forall_forall. intros y Hy. apply repeat_spec in Hy. now subst. Qed.
Lemma E_iid_indep {A} (row : dist A) dflt (f g : A -> R) : is_prob row -> forall n j k, (j < n)%nat -> (k < n)%nat -> j <> k ->
  E (dseq (repeat row n)) (fun l => f (nth j l dflt) * g (nth k l dflt)) = E row f * E row g.
Proof.
  intros Hp. induction n as [|n IH]; intros j k Hj Hk Hjk; [lia|]. cbn [repeat]. rewrite E_dseq_cons.
  destruct j as [|j], k as [|k]; [lia| | |]; cbn [nth].
  - rewrite (E_ext' row _ (fun r => f r * E row g)). { now rewrite E_mult_r. }
    intros r. now rewrite E_mult_l, E_iid_nth by (assumption || lia).
  - rewrite (E_ext' row _ (fun r => E row f * g r)). { now rewrite E_mult_l. }
    intros r. now rewrite E_mult_r, E_iid_nth by (assumption || lia).
  - rewrite (E_ext' row _ (fun _ => E row f * E row g)); [now apply E_const|]. intros _. apply IH; lia.
Qed.

Section Law.
  Variables (sde : linear_sde) (d : nat) (row : dist (list R)) (y0 : list pixel).
  Hypothesis Hw : white d row.
  Hypothesis Hy0 : Forall (fun p => length p = d) y0.

  (** noise of one step: one row of channels per observed pixel; noise of [n] steps: independent copies *)
  Definition step_noise : dist (list pixel) := dseq (repeat row (length y0)).
  Definition steps_noise (n : nat) : dist (list (list pixel)) := dseq (repeat step_noise n).
  Lemma step_noise_prob : is_prob step_noise.
  Proof. apply is_prob_iid, Hw. Qed.

  (** channel [c] of pixel [p] *)
  Definition chan (c p : nat) (img : list pixel) : R := nth c (nth p img []) 0.

  Lemma E_step T t p (f : pixel -> R) : (p < length y0)%nat ->
    E step_noise (fun z => f (nth p (v_hat sde T t y0 z) [])) = E row (fun r => f (move (FQ sde (T - t) 0) (nth p y0 []) r)).
  Proof.
    intros Hp. rewrite <- (E_iid_nth row (length y0) p [] (fun r => f (move (FQ sde (T - t) 0) (nth p y0 []) r)) (wh_prob _ _ Hw) Hp).
    apply E_ext. intros z Hz. apply dseq_length in Hz. rewrite repeat_length in Hz. unfold v_hat.
    f_equal. apply nth_map2; [assumption|change (list R) with pixel in *; lia].
  Qed.
  Lemma len_px p : (p < length y0)%nat -> length (nth p y0 []) = d.
  Proof. intros Hp. rewrite Forall_forall in Hy0. now apply Hy0, nth_In. Qed.

  Lemma step_mean T t p c : (p < length y0)%nat -> (c < d)%nat ->
    E step_noise (fun z => chan c p (v_hat sde T t y0 z)) = fst (FQ sde (T - t) 0) * chan c p y0.
  Proof.
    intros Hp Hc. unfold chan. rewrite (E_step T t p (fun q => nth c q 0) Hp). apply (E_move_mean d row Hw); [now apply len_px|assumption].
  Qed.

  (** one step: the moments of the forward process at time [T - t] started from the observation *)
  Lemma v_hat_moments T t n k p c c' : (k < n)%nat -> (p < length y0)%nat -> (c < d)%nat -> (c' < d)%nat -> 0 <= snd (FQ sde (T - t) 0) ->
    let v zs := v_hat sde T t y0 (nth k zs []) in let F := fst (FQ sde (T - t) 0) in
    E (steps_noise n) (fun zs => chan c p (v zs)) = F * chan c p y0 /\
    E (steps_noise n) (fun zs => (chan c p (v zs) - F * chan c p y0) * (chan c' p (v zs) - F * chan c' p y0)) =
      if Nat.eqb c c' then snd (FQ sde (T - t) 0) else 0.
  Proof.
    intros Hk Hp Hc Hc' HQ v F. split.
    - unfold v, steps_noise. rewrite (E_iid_nth step_noise n k [] (fun z => chan c p (v_hat sde T t y0 z)) step_noise_prob Hk). now apply step_mean.
    - unfold v, steps_noise.
      rewrite (E_iid_nth step_noise n k [] (fun z => (chan c p (v_hat sde T t y0 z) - F * chan c p y0) * (chan c' p (v_hat sde T t y0 z) - F * chan c' p y0)) step_noise_prob Hk).
      unfold chan, F. set (x := nth p y0 []). set (q := FQ sde (T - t) 0) in *.
      pose proof (E_step T t p (fun s => (nth c s 0 - fst q * nth c x 0) * (nth c' s 0 - fst q * nth c' x 0)) Hp) as H. cbv beta in H. rewrite H. clear H.
      fold q x. assert (Hx : length x = d) by now apply len_px.
      rewrite (E_ext' row _ (fun r => nth c (move q x r) 0 * nth c' (move q x r) 0 + (Ropp (fst q * nth c' x 0) * nth c (move q x r) 0 +
        (Ropp (fst q * nth c x 0) * nth c' (move q x r) 0 + fst q * nth c x 0 * (fst q * nth c' x 0))))) by (intros; ring).
      rewrite !E_plus, !E_mult_l, !(E_move_mean d row Hw), (E_move_cov d row Hw) by assumption.
      rewrite E_const by apply Hw. destruct (Nat.eqb c c'); ring.
  Qed.

  (** two different steps are uncorrelated *)
  Lemma v_hat_uncorrelated T s t n j k p c p' c' : (j < n)%nat -> (k < n)%nat -> j <> k -> (p < length y0)%nat -> (p' < length y0)%nat -> (c < d)%nat -> (c' < d)%nat ->
    E (steps_noise n) (fun zs => (chan c p (v_hat sde T s y0 (nth j zs [])) - fst (FQ sde (T - s) 0) * chan c p y0) *
                                 (chan c' p' (v_hat sde T t y0 (nth k zs [])) - fst (FQ sde (T - t) 0) * chan c' p' y0)) = 0.
  Proof.
    intros Hj Hk Hjk Hp Hp' Hc Hc'. unfold steps_noise.
    rewrite (E_iid_indep step_noise [] (fun z => chan c p (v_hat sde T s y0 z) - fst (FQ sde (T - s) 0) * chan c p y0)
      (fun z => chan c' p' (v_hat sde T t y0 z) - fst (FQ sde (T - t) 0) * chan c' p' y0) step_noise_prob n j k) by assumption.
    rewrite (E_ext' step_noise _ (fun z => chan c p (v_hat sde T s y0 z) + Ropp (fst (FQ sde (T - s) 0) * chan c p y0))) by (intros; ring).
    rewrite E_plus, step_mean, E_const by (assumption || apply step_noise_prob). ring.
  Qed.

  Lemma F_pos t s : sde_defined sde -> 0 < fst (FQ sde t s).
  Proof. intros Hs. destruct sde; cbn [FQ fst]; try apply exp_pos. now cbn in Hs. Qed.

  (** the noised observations used at two steps are uncorrelated; on the forward path started from the observation they are positively correlated *)
  Lemma csgm_not_forward_path T s t n j k p c : sde_defined sde -> (j < n)%nat -> (k < n)%nat -> j <> k -> (p < length y0)%nat -> (c < d)%nat ->
    T - t <= T - s -> 0 < T - t -> noisy_between sde 0 (T - t) -> noise_on sde 0 (T - t) -> noise_on sde (T - t) (T - s) ->
    let mean u := fst (FQ sde (T - u) 0) * chan c p y0 in
    E (steps_noise n) (fun zs => (chan c p (v_hat sde T s y0 (nth j zs [])) - mean s) * (chan c p (v_hat sde T t y0 (nth k zs [])) - mean t)) = 0 /\
    0 < E (dseq (repeat row 2)) (fun rnds => let path := exact_path (FQ sde) (nth p y0 []) [0; T - t; T - s] rnds in
          (nth c (nth 2 path []) 0 - mean s) * (nth c (nth 1 path []) 0 - mean t)).
  Proof.
    intros Hs Hj Hk Hjk Hp Hc Hts Hpos Hn Hn1 Hn2 mean. split; [now apply v_hat_uncorrelated|].
    assert (HQ : Q_ok (FQ sde) [0; T - t; T - s]).
    { apply Q_ok_sde; [assumption|]. intros [|[|m]] Hm; cbn [nth length] in *; [split; [lra|assumption]|split; assumption|lia]. }
    pose proof (path_cov (FQ sde) (FQ_flow sde Hs) d row Hw [0; T - t; T - s] (nth p y0 []) 1 2 c c (len_px p Hp) Hc Hc ltac:(lia) ltac:(cbn; lia) HQ) as H.
    cbv zeta in H. unfold noise in H. cbn [length Nat.sub] in H. rewrite Nat.eqb_refl in H.
    rewrite (E_ext' _ _ (fun rnds => let path := exact_path (FQ sde) (nth p y0 []) [0; T - t; T - s] rnds in
          (nth c (nth 1 path []) 0 - mean t) * (nth c (nth 2 path []) 0 - mean s))) by (intros; cbv zeta; ring).
    unfold mean, chan. cbn [nth] in H. cbv zeta. cbn [nth]. rewrite H. apply Rmult_lt_0_compat; [now apply F_pos|now apply Q_pos].
  Qed.
End Law.
