(** The Gibbs chain: what one iteration remembers, and geometric convergence to the law of x0 given y0. *)
From Coquelicot Require Import Coquelicot.
From Coq Require Import String Permutation FunctionalExtensionality.
From Verif Require Export GibbsMore CsmcPath.
From Verif Require Import ResVariance FilterLimit.
Open Scope R_scope.

(** ** The forced move as a final choice among weighted paths *)
Definition moved {X} (f : X -> R) (w0 : R) (x0 : X) (y : R * X) : R :=
  acc (1 - fst y) (1 - w0) * f (snd y) + (1 - acc (1 - fst y) (1 - w0)) * f x0.
Definition forced {X} (f : X -> R) (ref : R * X) (rest : list (R * X)) : R :=
  if Rlt_dec (fst ref) (fm_threshold (S (length rest)))
  then Rsum (map (fun y => fst y / (1 - fst ref) * moved f (fst ref) (snd ref) y) rest)
  else Rsum (map (fun y => 1 / INR (S (length rest)) * moved f (fst ref) (snd ref) y) (ref :: rest)).

Lemma forced_perm {X} (f : X -> R) ref : perm_inv (forced f ref).
Proof.
  intros l l' P. unfold forced. rewrite (Permutation_length P). destruct Rlt_dec.
  - apply Rsum_perm. now apply Permutation_map.
  - apply Rsum_perm. apply Permutation_map. now constructor.
Qed.

Lemma Rsum_without {A} (l : list A) b d g : (b < length l)%nat ->
  Rsum (map (fun i => (if Nat.eqb i b then 0 else 1) * g (nth i l d)) (seq 0 (length l))) = Rsum (map g (rm b l)).
Proof.
  intros Hb.
  rewrite (Rsum_map_ext _ (fun i => g (nth i l d) + (if Nat.eqb i b then 1 else 0) * (- g (nth i l d)))).
  2:{ intros i _. destruct (Nat.eqb i b); ring. }
  rewrite Rsum_map_plus, (Rsum_indicator (length l) b (fun i => - g (nth i l d)) Hb).
  rewrite <- (map_map (fun i => nth i l d) g), map_nth_seq.
  rewrite <- (Rsum_perm _ _ (Permutation_map g (rm_perm b l d Hb))). cbn [map Rsum]. ring.
Qed.

Lemma forced_law {X} (dx : X) (f : X -> R) k w ps b : weights_ok w -> length ps = length w -> (b < length w)%nat ->
  law (force_move k w b) (fun i => f (nth (fst i) ps dx)) = forced f (nth b (combine w ps) (0, dx)) (rm b (combine w ps)).
Proof.
  intros Hw Hl Hb. rewrite force_move_law by assumption. cbv zeta. cbn [fst]. rewrite E_dcat, length_fm_rest.
  set (l := combine w ps). assert (Hll : length l = length w) by (unfold l; rewrite combine_length; lia).
  assert (Hn : forall i, nth i l (0, dx) = (nth i w 0, nth i ps dx)) by (intros i; unfold l; apply combine_nth; lia).
  unfold forced. rewrite rm_length by lia. replace (S (length l - 1)) with (length w) by lia. rewrite Hn. cbn [fst snd].
  destruct Rlt_dec as [H|H].
  - rewrite <- (Rsum_without l b (0, dx)) by lia. rewrite Hll. apply Rsum_map_ext. intros i Hi. apply in_seq in Hi.
    rewrite fm_rest_low by (assumption || lia). rewrite Hn. unfold moved. cbn [fst snd]. destruct (Nat.eqb i b); ring.
  - transitivity (Rsum (map (fun y => 1 / INR (length w) * moved f (nth b w 0) (nth b ps dx) y) l)).
    + rewrite <- (map_nth_seq (0, dx) l), map_map, Hll. apply Rsum_map_ext. intros i Hi. apply in_seq in Hi.
      rewrite Hn. unfold moved. cbn [fst snd]. f_equal. unfold fm_rest. cbv zeta. destruct Rlt_dec; [contradiction|].
      rewrite (nth_indep _ 0 (1 / INR (Datatypes.length w))) by (rewrite repeat_length; lia). apply nth_repeat.
    + rewrite <- Hn. symmetry. apply Rsum_perm, Permutation_map, rm_perm. lia.
Qed.

Lemma moved_nonneg {X} (f : X -> R) w0 x0 y : (forall x, 0 <= f x) -> 0 <= moved f w0 x0 y.
Proof.
  intros Hf. unfold moved. pose proof (acc_bounds (1 - fst y) (1 - w0)). pose proof (Hf (snd y)). pose proof (Hf x0).
  assert (0 <= acc (1 - fst y) (1 - w0) * f (snd y)) by (apply Rmult_le_pos; lra).
  assert (0 <= (1 - acc (1 - fst y) (1 - w0)) * f x0) by (apply Rmult_le_pos; lra). lra.
Qed.

Lemma forced_ge {X} (f : X -> R) ref rest : (forall x, 0 <= f x) -> weights_ok (map fst (ref :: rest)) -> fm_regular (map fst (ref :: rest)) ->
  E rest f <= forced f ref rest.
Proof.
  intros Hf [Hw Hs] Hr. cbn [map] in Hw, Hs, Hr. cbn [Rsum] in Hs. assert (Hw0 := Forall_inv Hw). apply Forall_inv_tail in Hw. rewrite Forall_map in Hw.
  assert (H1 : forall y, In y rest -> 0 <= fst y /\ fst y <= 1 - fst ref).
  { intros y Hy. rewrite Forall_forall in Hw. split; [now apply Hw|].
    assert (fst y <= Rsum (map fst rest)); [|lra]. apply Rsum_In_le; [now rewrite Forall_map; apply Forall_forall|now apply in_map]. }
  unfold forced. destruct Rlt_dec as [H|H].
  - pose proof (fm_threshold_lt1 (S (length rest))) as Ht. unfold E. apply Rsum_map_le. intros y Hy. destruct (H1 y Hy) as [Ha Hb].
    set (a := acc (1 - fst y) (1 - fst ref)).
    assert (HA : 1 - fst ref <= a).
    { unfold a, acc. destruct (Rle_dec (1 - fst ref) 0); [lra|]. destruct (Rle_dec (1 - fst y) (1 - fst ref)); [lra|].
      apply (Rmult_le_reg_r (1 - fst y)); [lra|]. unfold Rdiv. rewrite Rmult_assoc, Rinv_l by lra. rewrite Rmult_1_r.
      assert (0 <= (1 - fst ref) * fst y) by (apply Rmult_le_pos; lra). lra. }
    unfold moved. fold a. pose proof (acc_bounds (1 - fst y) (1 - fst ref)) as Hac. fold a in Hac.
    apply Rle_trans with (fst y / (1 - fst ref) * (a * f (snd y))).
    + unfold Rdiv. replace (fst y * / (1 - fst ref) * (a * f (snd y))) with (fst y * f (snd y) * (a * / (1 - fst ref))) by ring.
      rewrite <- (Rmult_1_r (fst y * f (snd y))) at 1. apply Rmult_le_compat_l; [apply Rmult_le_pos; [assumption|apply Hf]|].
      apply (Rmult_le_reg_r (1 - fst ref)); [lra|]. rewrite Rmult_assoc, Rinv_l by lra. lra.
    + apply Rmult_le_compat_l; [apply Rmult_le_pos; [assumption|left; apply Rinv_0_lt_compat; lra]|].
      assert (0 <= (1 - a) * f (snd ref)) by (apply Rmult_le_pos; [lra|apply Hf]). lra.
  - apply Forall_inv in Hr. cbn [length] in Hr. rewrite map_length in Hr. destruct Hr as [Hr|Hr]; [contradiction|].
    apply Rle_trans with 0.
    + right. unfold E. rewrite (Rsum_map_ext _ (fun _ => 0)); [rewrite Rsum_map_const; ring|]. intros y Hy. destruct (H1 y Hy). replace (fst y) with 0 by lra. ring.
    + apply Rsum_nonneg, Forall_map, Forall_forall. intros y _. apply Rmult_le_pos; [|now apply moved_nonneg].
      apply Rlt_le, Rdiv_lt_0_compat; [lra|]. apply lt_0_INR. lia.
Qed.

Lemma forced_plus {X} (f g : X -> R) ref rest : forced (fun x => f x + g x) ref rest = forced f ref rest + forced g ref rest.
Proof.
  unfold forced. destruct Rlt_dec; rewrite <- Rsum_map_plus; apply Rsum_map_ext; intros y _; unfold moved; ring.
Qed.
Lemma forced_scal {X} c (f : X -> R) ref rest : forced (fun x => c * f x) ref rest = c * forced f ref rest.
Proof.
  unfold forced. destruct Rlt_dec; rewrite <- Rsum_map_mult_l; apply Rsum_map_ext; intros y _; unfold moved; ring.
Qed.

(** ** Lineages end in the last particles *)
Lemma lineage_last {U} (udef : U) out : forall ps, Forall (fun o : list R * list nat * list U => length (snd (fst o)) = length (snd o)) out ->
  map (fun p => last p udef) (lineage ps out) = last (map snd out) (map (fun p => last p udef) ps).
Proof.
  induction out as [|[[lw A] us] out IH]; intros ps H; [reflexivity|]. cbn [lineage]. assert (H1 := Forall_inv H). apply Forall_inv_tail in H.
  cbn [fst snd] in H1. rewrite IH by assumption.
  assert (He : map (fun p => last p udef) (ext_paths ps A us) = us).
  { unfold ext_paths. rewrite map_map, (map_ext _ snd) by (intros; apply last_last). apply map_snd_combine. now rewrite length_gather. }
  rewrite He. cbn [map snd]. destruct out as [|o out]; [reflexivity|]. cbn [map]. set (l := map snd out). change (last (snd o :: l) us = last (snd o :: l) (map (fun p => last p udef) ps)). apply last_indep. discriminate.
Qed.

Lemma paths_of_last {U} (udef : U) N us_star bs_star res : us_star <> [] -> forward_ok (U := U) N us_star bs_star res ->
  map (fun p => last p udef) (paths_of res) = last (snd res) [].
Proof.
  intros Hne. destruct res as [[As lws] uss]. intros (H1 & H2 & H3 & H4 & H5 & H6 & _). unfold paths_of. cbn [fst snd].
  destruct uss as [|us0 uss]; [cbn in H3; lia|]. destruct lws as [|lw0 lws]; [cbn in H2; lia|]. cbn [nth tl]. cbn [length] in H2, H3.
  rewrite lineage_last.
  - rewrite map_snd_combine by (rewrite combine_length; lia). rewrite map_map. cbn [last]. rewrite map_id.
    destruct uss as [|us1 uss]; [reflexivity|]. change (last (us1 :: uss) us0 = last (us1 :: uss) []). apply last_indep. discriminate.
  - apply Forall_forall. intros [[lw A] us] Hin. cbn [fst snd]. apply Forall_inv_tail in H6. rewrite Forall_forall in H5, H6.
    assert (HA := in_combine_r _ _ _ _ (in_combine_l _ _ _ _ Hin)). assert (Hu := in_combine_r _ _ _ _ Hin).
    destruct (H5 A HA) as [HA1 _]. rewrite HA1. symmetry. now apply H6.
Qed.

(** ** The chain *)
Section gibbs_ergodic.
Context {U V : Type} (udef : U) (vdef : V).
Variable fwd_sampler : key -> U -> V -> prog (list U * list V).
Variable bridge_sampler : key -> V -> V -> list R -> prog (list V).
Variable normal_sampler : key -> nat -> prog (list U).
Variable transition_sampler : list U -> V -> R -> key -> prog (list U).
Variable transition_logpdf : U -> list U -> V -> R -> list R.
Variable likelihood_logpdf : V -> list U -> V -> R -> list R.
Variable y0 : V.
Variable ts : list R.
Notation gk := (gibbs_kernel udef vdef fwd_sampler bridge_sampler normal_sampler transition_sampler transition_logpdf likelihood_logpdf).

(** the loop around the kernel (experiments/toy/gp_gibbs.py:180-194, without the vmap over chains): a fresh key per
    iteration, state and indices handed on *)
Fixpoint gibbs_chain (k : key) (i m : nat) (x0 : U) (us : list U) (bs : list nat) (n : nat) (marg_y eb : bool) : prog (U * list U * list nat) :=
  match m with
  | O => Ret (x0, us, bs)
  | S m' => ' (x', us', bs', _) <- gk (split_key k i) x0 y0 us bs ts n marg_y eb false ;; gibbs_chain k (S i) m' x' us' bs' n marg_y eb
  end.

Variable FW : U -> dist (list U * list V).
Variable BR : V -> V -> dist (list V).
Variable M : V -> R -> U -> dist U.
Variable lg : V -> V -> R -> U -> R.
Hypothesis Hg : gibbs_model_ok fwd_sampler bridge_sampler transition_sampler transition_logpdf likelihood_logpdf y0 ts FW BR M lg.
Hypothesis Hts : ts <> [].
Variable n : nat.
Hypothesis Hn : (0 < n)%nat.
Variable marg_y eb : bool.

Local Notation c := (- ln (INR n)).
Definition fin (f : U -> R) : R * list U -> list (R * list U) -> R :=
  if eb then forced (fun p => f (last p udef)) else traced (fun p => f (last p udef)).
Definition KV (fin : R * list U -> list (R * list U) -> R) (vs : list V) (us : list U) : R :=
  kernel_value udef vdef (dret (nth 0 us udef)) (fun _ _ _ => c) M lg n (@phi_killing) fin vs ts (nth 0 us udef) (tl us).
(** the Markov operator on functions of x0 *)
Definition GP (f : U -> R) (x0 : U) : R := E (noised vdef FW BR marg_y x0) (fun p => KV (fin f) (snd p) (fst p)).

Lemma forced_final k (f : list U -> R) :
  final_value n (fun lw ps b => law (force_move k (map exp lw) b) (fun i => f (nth (fst i) ps []))) (forced f).
Proof.
  split; [intros; apply forced_perm|]. intros lw ps b Hl Hsum Hp Hb. apply forced_law; rewrite ?map_length; try lia. now apply weights_ok_exp.
Qed.

Local Notation fpass us := (forward_pass udef vdef (copies (nth 0 us udef)) (flat_ll c) transition_sampler likelihood_logpdf ckilling).
Local Notation cmodel u0 := (copies_model fwd_sampler bridge_sampler transition_sampler transition_logpdf likelihood_logpdf y0 ts FW BR M lg Hg u0 c).
Local Notation cshapes u0 := (copies_shapes fwd_sampler bridge_sampler transition_sampler transition_logpdf likelihood_logpdf y0 ts FW BR M lg Hg u0 c).

Definition bs_ok (bs : list nat) : Prop := length bs = length ts /\ Forall (fun b => (b < n)%nat) bs.

(** the noised paths and the indices, split at their heads *)
Lemma split_refs (us : list U) bs : length us = length ts -> bs_ok bs ->
  exists u0 b0 refs, us = u0 :: map snd refs /\ bs = b0 :: map fst refs /\ (b0 < n)%nat /\ Forall (fun bu => (fst bu < n)%nat) refs.
Proof.
  intros Hu [Hb HB]. destruct us as [|u0 us]; [destruct ts; [easy|discriminate]|]. destruct bs as [|b0 bs]; [destruct ts; [easy|discriminate]|].
  exists u0, b0, (combine bs us). cbn [length] in *. rewrite map_snd_combine, map_fst_combine by lia.
  split; [reflexivity|]. split; [reflexivity|]. split; [exact (Forall_inv HB)|].
  apply Forall_forall. intros [b u] Hin. apply in_combine_l in Hin. apply Forall_inv_tail in HB. rewrite Forall_forall in HB. cbn. auto.
Qed.

Lemma forced_stage k k' us vs bs f : length us = length ts -> length vs = length ts -> bs_ok bs ->
  law (fpass us k us bs vs ts (n - 1)) (fun res =>
    law (force_move k' (map exp (last (snd (fst res)) [])) (last bs 0%nat)) (fun i => f (nth (fst i) (last (snd res) []) udef)))
  = KV (forced (fun p => f (last p udef))) vs us.
Proof.
  intros Hu Hv Hb. destruct (split_refs us bs Hu Hb) as (u0 & b0 & refs & -> & -> & Hb0 & Hr). cbn [length] in Hu. rewrite map_length in Hu.
  unfold KV. cbn [nth tl].
  rewrite <- (law_forward_final udef vdef _ _ _ transition_logpdf _ _ _ _ M lg _ (cmodel u0) n Hn (cshapes u0) _ _ phi_killing_law exch_killing
     _ _ k vs ts u0 b0 refs (forced_final k' (fun p => f (last p udef)))) by (assumption || lia).
  apply (law_ext_safe _ (forward_ok n (u0 :: map snd refs) (b0 :: map fst refs))).
  - apply (forward_ok_star udef vdef _ _ _ transition_logpdf); try (assumption || lia). apply (cshapes u0).
  - intros res Hok. rewrite <- (paths_of_last udef n (u0 :: map snd refs) (b0 :: map fst refs) res ltac:(discriminate) Hok). apply law_ext. intros i. f_equal.
    exact (map_nth (fun p => last p udef) (paths_of res) [] (fst i)).
Qed.

Lemma stage_law kc us vs bs f : length us = length ts -> length vs = length ts -> bs_ok bs ->
  law (second_stage udef vdef fwd_sampler transition_sampler transition_logpdf likelihood_logpdf y0 ts eb n kc us vs bs) (fun ub => f (last (fst ub) udef))
  = KV (fin f) vs us.
Proof.
  intros Hu Hv Hb. unfold second_stage, fin. cbv zeta. destruct eb.
  - rewrite <- (forced_stage (split_key kc 0) (split_key kc 1) us vs bs f) by assumption. rewrite law_bind. apply law_ext. intros [[As lws] uss]. cbn [fst snd].
    rewrite law_bind. apply law_ext. intros [idx al]. cbn [fst snd]. rewrite law_bind, (gm_fwd _ _ _ _ _ _ _ _ _ _ _ Hg).
    set (x := nth idx (last uss []) udef). rewrite (E_ext _ _ (fun _ => f x)).
    + apply E_const, (gm_fwd_prob _ _ _ _ _ _ _ _ _ _ _ Hg).
    + intros [px py] Hp. destruct (gm_fwd_shape _ _ _ _ _ _ _ _ _ _ _ Hg x _ Hp) as (H1 & H2 & H3). cbn [fst snd bind law] in *.
      destruct px as [|a l]; [discriminate|]. injection H3 as ->. cbn [rev fst]. rewrite last_last.
      apply E_const. apply is_prob_dseq, Forall_repeat, is_prob_dunif. unfold rint_hi. lia.
  - destruct Hb as [Hb HB]. unfold KV. replace (nth 0 us udef) with (hd udef us) by (destruct us; reflexivity).
    rewrite <- (kernel_path_law udef vdef _ _ _ transition_logpdf _ _ _ _ M lg _ (cmodel (hd udef us)) n Hn (cshapes (hd udef us)) _ _
      phi_killing_law exch_killing kc vs ts us bs (fun p => f (last p udef))); [reflexivity| | | | |assumption].
    + destruct us; [destruct ts; [easy|discriminate]|discriminate].
    + lia.
    + lia.
    + lia.
Qed.

Definition new_x0 (out : U * list U * list nat * list bool) : U := let '(x', _, _, _) := out in x'.

Theorem gibbs_law k x0 us_star bs f : bs_ok bs ->
  law (gk k x0 y0 us_star bs ts n marg_y eb false) (fun out => f (new_x0 out)) = GP f x0.
Proof.
  intros Hb. rewrite (gibbs_kernel_stages udef vdef _ _ _ _ _ _ y0 ts FW BR M lg Hg) by assumption. unfold GP. apply E_ext. intros p Hp.
  destruct (noised_shape udef vdef _ _ _ _ _ _ _ _ _ _ _ Hg marg_y x0 p Hts Hp) as (H1 & H2 & _). cbn [new_x0].
  now apply stage_law.
Qed.

(** the new state depends on the old one only *)
Theorem gibbs_law_forgets k k' x0 us us' bs bs' f : bs_ok bs -> bs_ok bs' ->
  law (gk k x0 y0 us bs ts n marg_y eb false) (fun out => f (new_x0 out)) = law (gk k' x0 y0 us' bs' ts n marg_y eb false) (fun out => f (new_x0 out)).
Proof. intros H H'. now rewrite !gibbs_law. Qed.

Fixpoint GPn (m : nat) (f : U -> R) : U -> R := match m with O => f | S m' => GP (GPn m' f) end.

Hypothesis Hs : gibbs_shapes fwd_sampler bridge_sampler normal_sampler transition_sampler transition_logpdf likelihood_logpdf ts.
Lemma gibbs_chain_law f m : forall k i x0 us bs, bs_ok bs ->
  law (gibbs_chain k i m x0 us bs n marg_y eb) (fun out => f (fst (fst out))) = GPn m f x0.
Proof.
  induction m as [|m IH]; intros k i x0 us bs Hb; [reflexivity|]. cbn [gibbs_chain GPn]. rewrite law_bind.
  rewrite <- (gibbs_law (split_key k i) x0 us bs (GPn m f) Hb).
  apply (law_ext_safe _ (gibbs_out_ok udef ts n bs)).
  - destruct Hb as [Hb HB]. apply (gibbs_kernel_safe udef vdef _ _ _ _ _ _ ts Hs (split_key k i) x0 y0 us bs n marg_y eb false); assumption.
  - intros [[[x' us'] bs'] ch] (H1 & H2 & H3 & H4 & _). cbn [new_x0]. apply IH. now split.
Qed.

Lemma bs0_ok : bs_ok (repeat 0%nat (length ts)).
Proof. split; [apply repeat_length|]. now apply Forall_repeat. Qed.

Lemma noised_prob x0 : is_prob (noised vdef FW BR marg_y x0).
Proof.
  unfold noised. apply is_prob_dbind; [apply (gm_fwd_prob _ _ _ _ _ _ _ _ _ _ _ Hg)|]. intros p _. destruct marg_y; [apply is_prob_dmap, (gm_bridge_prob _ _ _ _ _ _ _ _ _ _ _ Hg)|apply is_prob_dret].
Qed.

Lemma KV_one us vs : length us = length ts -> length vs = length ts -> KV (fin (fun _ => 1)) vs us = 1.
Proof.
  intros Hu Hv. destruct (split_refs us _ Hu bs0_ok) as (u0 & b0 & refs & Eu & Eb & Hb0 & Hr).
  rewrite <- (stage_law [] us vs _ (fun _ => 1) Hu Hv bs0_ok). rewrite Eb. subst us. cbn [length] in Hu. rewrite map_length in Hu.
  unfold second_stage. cbv zeta. destruct eb.
  - rewrite law_bind.
    refine (eq_trans _ (law_fwd_const udef vdef _ _ _ _ _ _ _ M lg _ (cmodel u0) n Hn (split_key [] 0) vs ts u0 b0 refs 1 ltac:(lia) ltac:(lia) Hb0 Hr)).
    apply (law_ext_safe _ (forward_ok n (u0 :: map snd refs) (b0 :: map fst refs))).
    { apply (forward_ok_star udef vdef _ _ _ transition_logpdf); try (assumption || lia). apply (cshapes u0). }
    intros [[As lws] uss] Hok. rewrite law_bind.
    destruct (scan_lastlw_ok _ (u0 :: map snd refs) _ _ _ _ ltac:(discriminate) Hok) as [Hl1 Hl2].
    transitivity (law (force_move (split_key [] 1) (map exp (last lws [])) (last (b0 :: map fst refs) 0%nat)) (fun _ => 1)); [|apply force_move_const].
    + apply law_ext. intros [idx al]. rewrite law_bind, (gm_fwd _ _ _ _ _ _ _ _ _ _ _ Hg). rewrite (E_ext' _ _ (fun _ => 1)).
      * apply E_const, (gm_fwd_prob _ _ _ _ _ _ _ _ _ _ _ Hg).
      * intros [px py]. cbn [bind law]. apply E_const. apply is_prob_dseq, Forall_repeat, is_prob_dunif. unfold rint_hi. lia.
    + now apply weights_ok_exp.
    + rewrite map_length, Hl1. assert (HF : Forall (fun b => (b < n)%nat) (b0 :: map fst refs)) by (constructor; [assumption|now apply Forall_map]).
      rewrite Forall_forall in HF. apply HF, last_In. discriminate.
  - pose proof (kernel_total udef vdef _ _ _ transition_logpdf _ _ _ _ M lg _ (cmodel u0) n Hn (cshapes u0) [] (u0 :: map snd refs) (b0 :: map fst refs) vs ts) as H.
    cbn [nth]. apply H; [discriminate| | | |]; cbn [length]; rewrite ?map_length; try lia. constructor; [assumption|now apply Forall_map].
Qed.

Lemma fin_plus f g ref rest : fin (fun x => f x + g x) ref rest = fin f ref rest + fin g ref rest.
Proof. unfold fin. destruct eb; [apply (forced_plus (fun p => f (last p udef)))|apply E_plus]. Qed.
Lemma fin_scal d f ref rest : fin (fun x => d * f x) ref rest = d * fin f ref rest.
Proof. unfold fin. destruct eb; [apply (forced_scal d (fun p => f (last p udef)))|apply E_mult_l]. Qed.
Lemma GP_plus f g x0 : GP (fun x => f x + g x) x0 = GP f x0 + GP g x0.
Proof.
  unfold GP. rewrite <- E_plus. apply E_ext'. intros p. unfold KV. apply (kernel_value_plus udef vdef _ _ M lg n _ _ exch_killing).
  intros. apply fin_plus.
Qed.
Lemma GP_scal d f x0 : GP (fun x => d * f x) x0 = d * GP f x0.
Proof.
  unfold GP. rewrite <- E_mult_l. apply E_ext'. intros p. unfold KV. apply (kernel_value_scal udef vdef _ _ M lg n _ _ exch_killing).
  intros. apply fin_scal.
Qed.
Lemma GP_one x0 : GP (fun _ => 1) x0 = 1.
Proof.
  unfold GP. rewrite (E_ext _ _ (fun _ => 1)); [apply E_const, noised_prob|]. intros p Hp.
  destruct (noised_shape udef vdef _ _ _ _ _ _ _ _ _ _ _ Hg marg_y x0 p Hts Hp) as (H1 & H2 & _). now apply KV_one.
Qed.
Lemma GP_affine d e f x0 : GP (fun x => d * f x + e) x0 = d * GP f x0 + e.
Proof.
  rewrite (GP_plus (fun x => d * f x) (fun _ => e)), GP_scal. f_equal.
  transitivity (GP (fun _ => e * 1) x0); [f_equal; apply functional_extensionality; intros; ring|]. rewrite (GP_scal e (fun _ => 1)), GP_one. ring.
Qed.

(** invariance, for functions of x0 *)
Lemma GP_invariant pi f : compatible vdef ts FW BR M lg marg_y pi -> (eb = true -> regular_likelihood lg n) -> E pi (GP f) = E pi f.
Proof.
  intros Hc Hreg. assert (Hu : is_prob (unif_indices n (length ts))) by now apply is_prob_dseq, Forall_repeat, is_prob_dunif.
  pose proof (gibbs_kernel_invariant udef vdef _ _ normal_sampler _ _ _ y0 ts FW BR M lg Hg [] [] n marg_y eb pi (fun x' _ _ => f x') Hts Hn Hc Hreg) as H.
  cbv beta in H. transitivity (E pi (fun x0 => E (unif_indices n (length ts)) (fun bs =>
    law (gk [] x0 y0 [] bs ts n marg_y eb false) (fun out => let '(x', us', bs', _) := out in f x')))).
  - apply E_ext'. intros x0. rewrite (E_ext _ _ (fun _ => GP f x0)); [symmetry; now apply E_const|]. intros bs Hbs.
    rewrite <- (gibbs_law [] x0 [] bs f).
    + apply law_ext. now intros [[[x us] bs'] ch].
    + apply dseq_repeat_support in Hbs. destruct Hbs as [Hb1 Hb2]. split; [assumption|]. eapply Forall_impl; [|exact Hb2].
      intros b Hb. now apply dunif_support in Hb.
  - rewrite H. apply E_ext'. intros x0. rewrite (E_ext' (FW x0) _ (fun _ => f x0)) by (intros; now apply E_const).
    apply E_const, (gm_fwd_prob _ _ _ _ _ _ _ _ _ _ _ Hg).
Qed.

(** ** Minorisation: whatever x0, the noising reaches a common part [nu0] of (u0, vs) *)
Variable G : R.
Hypothesis HG : forall v vp t u, exp (lg v vp t u) <= G.
Hypothesis Hreg : eb = true -> regular_likelihood lg n.
Hypothesis Hn2 : (1 < n)%nat.
Variable nu0 : dist (U * list V).
Hypothesis Hov : forall x0 (F : U -> list V -> R), (forall u vs, 0 <= F u vs) ->
  E nu0 (fun uv => F (fst uv) (snd uv)) <= E (noised vdef FW BR marg_y x0) (fun p => F (nth 0 (fst p) udef) (snd p)).

Definition rate : R := INR (n - 1) / INR n * ((INR (n - 1) - 1 + 2 / INR n) / (INR n * G)) ^ (length ts - 1).
(** the common part, pushed through the backward model *)
Definition common (f : U -> R) : R :=
  E nu0 (fun uv => rate * E (fk_path (fk_of M lg (step_data (snd uv) ts)) (fst uv)) (fun us => f (last (fst uv :: us) udef))).

Lemma rate_pos : 0 < rate.
Proof.
  assert (0 < G) by (eapply Rlt_le_trans; [apply exp_pos|apply (HG vdef vdef 0 udef)]).
  assert (0 < INR n) by (apply lt_0_INR; lia). assert (1 <= INR (n - 1)) by (change 1 with (INR 1); apply le_INR; lia).
  unfold rate. apply Rmult_lt_0_compat; [apply Rdiv_lt_0_compat; lra|]. apply pow_lt. apply Rdiv_lt_0_compat; [|now apply Rmult_lt_0_compat].
  assert (0 < 2 / INR n) by (apply Rdiv_lt_0_compat; lra). lra.
Qed.

Lemma KV_ge f us vs : (forall x, 0 <= f x) -> length us = length ts -> length vs = length ts ->
  rate * E (fk_path (fk_of M lg (step_data vs ts)) (nth 0 us udef)) (fun l => f (last (nth 0 us udef :: l) udef)) <= KV (fin f) vs us.
Proof.
  intros Hf Hu Hv. unfold KV. set (u0 := nth 0 us udef). assert (HI : 0 < INR n) by (apply lt_0_INR; lia).
  assert (Hc : exp c = / INR n) by (rewrite exp_Ropp, exp_ln by assumption; reflexivity).
  assert (Hl : length (tl us) = length (step_data vs ts)).
  { rewrite length_step_data by lia. destruct us; cbn in *; lia. }
  pose proof (kernel_value_ge udef vdef _ _ _ _ _ _ _ M lg _ (cmodel u0) n Hn _ _ exch_killing G HG
    (fun w => eb = true -> fm_regular w)) as H.
  specialize (H ltac:(intros v vp t l Hll He; now apply Hreg) (fun p => f (last p udef)) (fin f) ltac:(intros; apply Hf)).
  specialize (H ltac:(intros ref rest Hlr Hw Hr; unfold fin; destruct eb;
    [apply (forced_ge (fun p => f (last p udef))); [intros; apply Hf|assumption|now apply Hr]|apply traced_ge; [intros; apply Hf|assumption]])).
  specialize (H (exp c) ltac:(intros; lra)).
  specialize (H ltac:(intros v v' l Hll He; cbv beta; rewrite map_const_repeat, Hll, normalise_const by assumption; now apply fm_regular_unif)).
  specialize (H vs ts u0 (tl us) Hn2 Hl). refine (Rle_trans _ _ _ _ H). right.
  rewrite E_smoothing_copies. rewrite Hl, length_step_data by lia. rewrite Hv. unfold minor, rate. rewrite Hc.
  replace (S (n - 1)) with n by lia.
  set (q := (INR (n - 1) - 1 + 2 / INR n) / (INR n * G)). generalize (q ^ (length ts - 1)). intros z. field. lra.
Qed.

Lemma GP_minor f x0 : (forall x, 0 <= f x) -> common f <= GP f x0.
Proof.
  intros Hf. unfold common. eapply Rle_trans.
  - apply (Hov x0 (fun u vs => rate * E (fk_path (fk_of M lg (step_data vs ts)) u) (fun us => f (last (u :: us) udef)))).
    intros u vs. apply Rmult_le_pos; [left; apply rate_pos|]. rewrite <- (fkv_fk udef M lg (fun p => f (last p udef)) _ [u]).
    apply (fkv_nonneg udef _ _ _ _ _ _ _ M lg _ (cmodel u)). intros; apply Hf.
  - unfold GP. apply E_le; [apply noised_prob|]. intros p Hp.
    destruct (noised_shape udef vdef _ _ _ _ _ _ _ _ _ _ _ Hg marg_y x0 p Hts Hp) as (H1 & H2 & _). now apply KV_ge.
Qed.
Lemma common_plus f g : common (fun x => f x + g x) = common f + common g.
Proof. unfold common. rewrite <- E_plus. apply E_ext'. intros uv. rewrite E_plus. ring. Qed.
Lemma common_scal d f : common (fun x => d * f x) = d * common f.
Proof. unfold common. rewrite <- E_mult_l. apply E_ext'. intros uv. rewrite E_mult_l. ring. Qed.
Definition overlap : R := common (fun _ => 1).
Lemma common_affine d e f : common (fun x => d * f x + e) = d * common f + e * overlap.
Proof.
  rewrite (common_plus (fun x => d * f x) (fun _ => e)), common_scal. f_equal. unfold overlap. rewrite <- (common_scal e (fun _ => 1)).
  f_equal. apply functional_extensionality. intros. ring.
Qed.

(** one step: an interval of values shrinks by 1 - overlap *)
Lemma GP_interval f a b : (forall x, a <= f x <= b) -> forall x0,
  a + (common f - a * overlap) <= GP f x0 <= b - (b * overlap - common f).
Proof.
  intros Hf x0. split.
  - pose proof (GP_minor (fun x => 1 * f x + - a) x0 ltac:(intros x; specialize (Hf x); lra)) as H. rewrite GP_affine, common_affine in H. lra.
  - pose proof (GP_minor (fun x => -1 * f x + b) x0 ltac:(intros x; specialize (Hf x); lra)) as H. rewrite GP_affine, common_affine in H. lra.
Qed.
Lemma GPn_interval f a b m : (forall x, a <= f x <= b) ->
  exists a', (forall x0, a' <= GPn m f x0 <= a' + (1 - overlap) ^ m * (b - a)).
Proof.
  intros Hf. induction m as [|m [a' IH]]; [exists a; intros x; cbn [GPn pow]; specialize (Hf x); lra|].
  exists (a' + (common (GPn m f) - a' * overlap)). intros x0. pose proof (GP_interval _ _ _ IH x0) as H. cbn [GPn pow]. lra.
Qed.
Lemma overlap_le1 : overlap <= 1.
Proof. pose proof (GP_minor (fun _ => 1) udef ltac:(intros; lra)) as H. rewrite GP_one in H. exact H. Qed.

Lemma E_pos_mass {A} (d : dist A) g : Forall (fun pa => 0 <= fst pa) d -> 0 < E d (fun _ => 1) -> (forall a, 0 < g a) -> 0 < E d g.
Proof.
  intros Hd Hm Hpos. induction d as [|[w a] d IH]; [cbn in Hm; lra|]. rewrite E_cons in *. assert (Hw := Forall_inv Hd). apply Forall_inv_tail in Hd. cbn [fst] in Hw.
  assert (H0 : 0 <= E d g).
  { clear - Hd Hpos. induction d as [|[w a] d IH]; [cbn; lra|]. rewrite E_cons. assert (Hw := Forall_inv Hd). apply Forall_inv_tail in Hd. cbn [fst] in Hw.
    specialize (IH Hd). pose proof (Rmult_le_pos _ _ Hw (Rlt_le _ _ (Hpos a))). lra. }
  destruct (Rle_lt_or_eq_dec 0 w Hw) as [H| <-].
  - pose proof (Rmult_lt_0_compat _ _ H (Hpos a)). lra.
  - rewrite Rmult_0_l in *. rewrite Rplus_0_l in *. now apply IH.
Qed.
Lemma fk_total_pos sd : forall u, 0 < E (fk_path (fk_of M lg sd) u) (fun _ => 1).
Proof.
  induction sd as [|[[v vp] t] sd IH]; intros u; cbn [fk_of map fk_path]; [rewrite E_dret; lra|].
  rewrite E_dscale, E_dbind. apply Rmult_lt_0_compat; [apply exp_pos|]. apply E_pos; [apply (gm_M _ _ _ _ _ _ _ _ _ _ _ Hg)|].
  intros u'. rewrite E_dmap. apply IH.
Qed.
Lemma overlap_pos : Forall (fun pa => 0 <= fst pa) nu0 -> 0 < E nu0 (fun _ => 1) -> 0 < overlap.
Proof.
  intros H1 H2. unfold overlap, common. apply E_pos_mass; [assumption|assumption|]. intros uv.
  apply Rmult_lt_0_compat; [apply rate_pos|apply fk_total_pos].
Qed.

Variable pi : dist U.
Hypothesis Hpi : is_prob pi.
Hypothesis Hcomp : compatible vdef ts FW BR M lg marg_y pi.

Theorem gibbs_chain_converges k m x0 us bs f a b : bs_ok bs -> (forall x, a <= f x <= b) ->
  Rabs (law (gibbs_chain k 0 m x0 us bs n marg_y eb) (fun out => f (fst (fst out))) - E pi f) <= (1 - overlap) ^ m * (b - a).
Proof.
  intros Hb Hf. rewrite gibbs_chain_law by assumption. destruct (GPn_interval f a b m Hf) as [a' H].
  assert (Hi : E pi (GPn m f) = E pi f).
  { clear H. induction m as [|m IH]; [reflexivity|]. cbn [GPn]. now rewrite GP_invariant. }
  assert (H2 : a' <= E pi f <= a' + (1 - overlap) ^ m * (b - a)).
  { assert (HE : forall d, E pi (fun _ => d) = d) by (intros d; now apply E_const). rewrite <- Hi. split.
    - rewrite <- (HE a'). apply E_le; [apply Hpi|]. intros; apply H.
    - rewrite <- (HE (a' + (1 - overlap) ^ m * (b - a))). apply E_le; [apply Hpi|]. intros; apply H. }
  specialize (H x0). apply Rabs_le. lra.
Qed.
End gibbs_ergodic.
