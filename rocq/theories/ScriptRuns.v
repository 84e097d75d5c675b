(** The main loops of the experiment scripts: several chains advanced together, and repeated independent sampling. *)
From Coquelicot Require Import Coquelicot.
From Verif Require Import Demo Hygiene GibbsMore Pmcmc ToyPmcmc FilterLimit FilterSlot Twisted TwistedLimit GibbsErgodic PmcmcErgodic.
Open Scope R_scope.

(** ** Several chains
    experiments/toy/gp_gibbs.py:169-194 and gp_pmcmc.py:157-183.  [kern] is the kernel, [ss] the states of the chains;
    the vmap over chains is the list recursion of [chains_step]. *)
Section chains.
Context {S : Type} (kern : key -> S -> prog S).

(** [kernel_chain_vmap(split(subkey, nchains), states)] *)
Fixpoint chains_step (k : key) (j : nat) (ss : list S) : prog (list S) :=
  match ss with
  | [] => Ret []
  | s :: ss' => s' <- kern (split_key k j) s ;; r <- chains_step k (j + 1) ss' ;; Ret (s' :: r)
  end.
(** gp_gibbs.py:182-185, gp_pmcmc.py:170-173: [key, subkey = split(key)] and one step of every chain, [m] times *)
Fixpoint chains_loop (k : key) (m : nat) (ss : list S) : prog (list S) :=
  match m with
  | O => Ret ss
  | Datatypes.S m' => ss' <- chains_step (split_key k 1) 0 ss ;; chains_loop (split_key k 0) m' ss'
  end.
(** gp_gibbs.py:176-178, gp_pmcmc.py:164-166: the initial states of the chains *)
Fixpoint chains_init (init : key -> prog S) (k : key) (j c : nat) : prog (list S) :=
  match c with
  | O => Ret []
  | Datatypes.S c' => s <- init (split_key k j) ;; r <- chains_init init k (j + 1) c' ;; Ret (s :: r)
  end.
Definition chains_run (init : key -> prog S) (k : key) (nchains m : nat) : prog (list S) :=
  ss <- chains_init init (split_key k 1) 0 nchains ;; chains_loop (split_key k 0) m ss.

(** one chain on its own, for comparison: chain [j] of the scripts *)
Fixpoint chain_alone (j : nat) (k : key) (m : nat) (s : S) : prog S :=
  match m with
  | O => Ret s
  | Datatypes.S m' => s' <- kern (split_key (split_key k 1) j) s ;; chain_alone j (split_key k 0) m' s'
  end.

Section keys.
Hypothesis Hgood : forall k s, good [k] (kern k s).
Lemma good_cons_step {B} k j m (p : prog B) (q : prog (list B)) :
  good [split_key k j] p -> good (map (split_key k) (seq (Datatypes.S j) m)) q ->
  good (map (split_key k) (seq j (Datatypes.S m))) (s <- p ;; r <- q ;; Ret (s :: r)).
Proof. intros Hp Hq. apply good_step; [exact Hp|]. intros s. now apply good_bind_ret. Qed.

Lemma chains_step_good k ss : forall j, good (map (split_key k) (seq j (length ss))) (chains_step k j ss).
Proof.
  induction ss as [|s ss IH]; intros j; cbn [chains_step length]; [apply good_ret|].
  apply good_cons_step; [apply Hgood|]. rewrite Nat.add_1_r. apply IH.
Qed.
Lemma chains_loop_good m : forall k ss, good [k] (chains_loop k m ss).
Proof.
  induction m as [|m IH]; intros k ss; cbn [chains_loop]; [apply good_ret|].
  apply (good_under k [0; 1]%nat). apply (good_seq k [1%nat] [0%nat]); [key_disjoint|keys_in| |].
  - eapply good_under, chains_step_good.
  - intros ss'. apply IH.
Qed.
Lemma chain_alone_good j m : forall k s, good [k] (chain_alone j k m s).
Proof.
  induction m as [|m IH]; intros k s; cbn [chain_alone]; [apply good_ret|].
  apply (good_under k [0; 1]%nat). apply (good_seq k [1%nat] [0%nat]); [key_disjoint|keys_in| |].
  - apply (good_under (split_key k 1) [j]), Hgood.
  - intros s'. apply IH.
Qed.
Variable init : key -> prog S.
Hypothesis Hinit : forall k, good [k] (init k).
Lemma chains_init_good k c : forall j, good (map (split_key k) (seq j c)) (chains_init init k j c).
Proof.
  induction c as [|c IH]; intros j; cbn [chains_init]; [apply good_ret|].
  apply good_cons_step; [apply Hinit|]. rewrite Nat.add_1_r. apply IH.
Qed.
Theorem chains_run_good k nchains m : good [k] (chains_run init k nchains m).
Proof.
  apply (good_under k [0; 1]%nat). unfold chains_run. apply (good_seq k [1%nat] [0%nat]); [key_disjoint|keys_in| |].
  - eapply good_under, chains_init_good.
  - intros ss. apply chains_loop_good.
Qed.
End keys.

(** *** Independence: [prods fs ss] is the product of the [fs] at the states of the chains *)
Fixpoint prods (fs : list (S -> R)) (ss : list S) : R :=
  match fs, ss with f :: fs', s :: ss' => f s * prods fs' ss' | _, _ => 1 end.

Lemma has_laws_ext {A} P (p : key -> prog A) k f g : has_laws P p -> (forall a, P a -> f a = g a) -> law (p k) f = law (p k) g.
Proof. intros (d & _ & H & HP) Hfg. rewrite !H. apply E_ext. intros a Ha. apply Hfg, HP, Ha. Qed.

Section laws.
Variable Inv : S -> Prop.
Hypothesis Hlaw : forall s, Inv s -> has_laws Inv (fun k => kern k s).

Lemma chains_step_laws ss : Forall Inv ss -> forall j, has_laws (fun ss' => Forall Inv ss' /\ length ss' = length ss) (fun k => chains_step k j ss).
Proof.
  induction 1 as [|s ss Hs Hss IH]; intros j; cbn [chains_step]; [apply has_laws_ret; now split|].
  apply (has_laws_bind Inv _ (fun k => kern k s) (fun s' k => r <- chains_step k (j + 1) ss ;; Ret (s' :: r)) (fun k => split_key k j) (fun k => k)); [now apply Hlaw|].
  intros s' Hs'. apply (has_laws_bind _ _ (fun k => chains_step k (j + 1) ss) (fun r k => Ret (s' :: r)) (fun k => k) (fun k => k) (IH (j + 1)%nat)).
  intros r [Hr Hl]. apply has_laws_ret. split; [now constructor|cbn; congruence].
Qed.

Lemma chain_alone_laws m j : forall s, Inv s -> has_laws Inv (fun k => chain_alone j k m s).
Proof.
  induction m as [|m IH]; intros s Hs; cbn [chain_alone]; [now apply has_laws_ret|].
  apply (has_laws_bind Inv _ (fun k => kern k s) (fun s' k => chain_alone j k m s') (fun k => split_key (split_key k 1) j) (fun k => split_key k 0)); [now apply Hlaw|exact IH].
Qed.

Lemma chains_step_prods ss : Forall Inv ss -> forall fs j k k', length fs = length ss ->
  law (chains_step k j ss) (prods fs) = prods (map (fun f s => law (kern k' s) f) fs) ss.
Proof.
  induction 1 as [|s ss Hs Hss IH]; intros [|f fs] j k k' Hl; try discriminate Hl; [reflexivity|].
  cbn [chains_step map prods]. rewrite law_bind.
  rewrite (law_ext _ _ (fun a => law (chains_step k (j + 1) ss) (fun r => f a * prods fs r))) by (intros a; rewrite law_bind; reflexivity).
  rewrite (law_ext _ _ (fun a => prods (map (fun f s => law (kern k' s) f) fs) ss * f a)).
  2:{ intros a. rewrite (has_laws_scal _ (fun k => chains_step k (j + 1) ss) k _ _ (chains_step_laws ss Hss (j + 1)%nat)).
      rewrite (IH fs (j + 1)%nat k k') by (cbn in Hl; lia). ring. }
  rewrite (has_laws_scal _ (fun k => kern k s) _ _ _ (Hlaw s Hs)), (has_laws_key _ (fun k => kern k s) (split_key k j) k' f (Hlaw s Hs)). ring.
Qed.

Lemma prods_ext_inv ss : Forall Inv ss -> forall (fs gs : list (S -> R)),
  Forall2 (fun f g => forall s, Inv s -> f s = g s) fs gs -> prods fs ss = prods gs ss.
Proof.
  induction 1 as [|s ss Hs Hss IH]; intros fs gs H; destruct H as [|f g fs gs Hfg H]; try reflexivity.
  cbn [prods]. rewrite (Hfg s Hs), (IH _ _ H). reflexivity.
Qed.

(** the chains are independent and each has the law it would have alone, whatever the keys *)
Theorem chains_independent m : forall k k' j ss fs, Forall Inv ss -> length fs = length ss ->
  law (chains_loop k m ss) (prods fs) = prods (map (fun f s => law (chain_alone j k' m s) f) fs) ss.
Proof.
  induction m as [|m IH]; intros k k' j ss fs Hss Hl; cbn [chains_loop].
  - cbn [law]. apply prods_ext_inv; [assumption|]. clear. induction fs; constructor; auto.
  - rewrite law_bind.
    rewrite (has_laws_ext _ (fun k => chains_step k 0 ss) (split_key k 1) _ (prods (map (fun f s => law (chain_alone j (split_key k' 0) m s) f) fs)) (chains_step_laws ss Hss 0)).
    + rewrite (chains_step_prods ss Hss _ 0 _ (split_key (split_key k' 1) j)) by now rewrite map_length.
      rewrite map_map. apply prods_ext_inv; [assumption|]. clear. induction fs as [|f fs IHf]; constructor; [|exact IHf].
      intros s _. cbn [chain_alone]. now rewrite law_bind.
    + intros ss' [Hss' Hl']. apply IH; [assumption|congruence].
Qed.
End laws.
End chains.

(** ** Repeated sampling: experiments/toy/gp_filter.py:145-149, gp_twisted.py:143-147, gp_csgm.py, sb/filter.py:164-168,
    [for i in range(nsamples): key, subkey = split(key); samples[i] = conditional_sampler(subkey)] *)
Section repeated.
Context {A : Type} (sampler : key -> prog A).
Fixpoint sample_loop (k : key) (n : nat) : prog (list A) :=
  match n with
  | O => Ret []
  | S n' => a <- sampler (split_key k 1) ;; r <- sample_loop (split_key k 0) n' ;; Ret (a :: r)
  end.

Theorem sample_loop_good : (forall k, good [k] (sampler k)) -> forall n k, good [k] (sample_loop k n).
Proof.
  intros H. induction n as [|n IH]; intros k; cbn [sample_loop]; [apply good_ret|].
  apply (good_under k [0; 1]%nat). apply (good_seq k [1%nat] [0%nat]); [key_disjoint|keys_in|apply H|].
  intros a. apply good_bind_ret, IH.
Qed.
Theorem sample_loop_denotes D : (forall k, denotes (sampler k) D) -> forall n k, denotes (sample_loop k n) (dseq (repeat D n)).
Proof.
  intros H. induction n as [|n IH]; intros k f; cbn [sample_loop repeat]; [exact (eq_sym (E_dret [] f))|].
  rewrite law_bind, (H _ _), E_dseq_cons. apply E_ext'. intros a. rewrite law_bind, (IH _ _). reflexivity.
Qed.
End repeated.

(** ** The samplers of the scripts *)
Section samplers.
Context {U V : Type} (udef : U) (vdef : V).

Theorem conditional_sampler_good trans lik res (fwd_ys : key -> prog (list V)) ts (ref : key -> V -> nat -> prog (list U)) n :
  (forall k, good [k] (fwd_ys k)) -> (forall k v n, good [k] (ref k v n)) -> (forall us v t k, good [k] (trans us v t k)) -> (forall w k, good [k] (res w k)) ->
  forall k, good [k] (conditional_sampler udef vdef trans lik res fwd_ys ts ref n k).
Proof.
  intros Hf Hr Ht Hs k. apply (good_under k [0; 2]%nat). unfold conditional_sampler.
  apply (good_seq k [0%nat] [2%nat]); [key_disjoint|keys_in|apply Hf|]. intros ys. cbv zeta. apply good_bind_ret. cbn [map].
  now apply bootstrap_filter_good.
Qed.

Theorem twisted_sampler_good {Y} tlp wlp (prop : key -> list U -> R -> Y -> prog (list U)) plp res (init : key -> nat -> prog (list U)) n y ts :
  (forall k n, good [k] (init k n)) -> (forall k us t y, good [k] (prop k us t y)) -> (forall w k, good [k] (res w k)) ->
  forall k, good [k] (twisted_sampler udef tlp wlp prop plp res init n y ts k).
Proof.
  intros Hi Hp Hr k. apply (good_under k [0; 1]%nat). unfold twisted_sampler.
  apply (good_seq k [0%nat] [1%nat]); [key_disjoint|keys_in|now apply twisted_smc_good|]. intros [uvs lws].
  apply good_bind_ret, good_choice.
Qed.

(** gp_gibbs.py:185: the kernel as a map on the state (x0, us_star, bs_star) of a chain *)
Definition gibbs_move fwd bridge normal trans tlp lik (y0 : V) ts n marg_y eb ef (k : key) (s : U * list U * list nat) : prog (U * list U * list nat) :=
  r <- gibbs_kernel udef vdef fwd bridge normal trans tlp lik k (fst (fst s)) y0 (snd (fst s)) (snd s) ts n marg_y eb ef ;; Ret (fst r).
Lemma gibbs_move_good fwd bridge normal trans tlp lik y0 ts n marg_y eb ef :
  (forall k x y, good [k] (fwd k x y)) -> (forall k y y' ts, good [k] (bridge k y y' ts)) -> (forall k n, good [k] (normal k n)) ->
  (forall us v t k, good [k] (trans us v t k)) -> forall k s, good [k] (gibbs_move fwd bridge normal trans tlp lik y0 ts n marg_y eb ef k s).
Proof. intros Hf Hb Hn Ht k s. apply good_bind_ret. now apply gibbs_kernel_good. Qed.

(** gp_pmcmc.py:173: the same for (u, log_ell, path_y) *)
Definition pmcmc_move trans meas res (init : key -> V -> nat -> prog (list U)) propose n which ts (k : key) (s : U * R * list V) : prog (U * R * list V) :=
  r <- pmcmc_kernel udef vdef trans meas res k (fst (fst s)) (snd (fst s)) (snd s) ts propose init n which ;; Ret (fst r).
Lemma pmcmc_move_good trans meas res init propose n which ts :
  (forall k v n, good [k] (init k v n)) -> (forall us v t k, good [k] (trans us v t k)) -> (forall w k, good [k] (res w k)) ->
  (forall k ys, good [k] (propose k ys)) -> forall k s, good [k] (pmcmc_move trans meas res init propose n which ts k s).
Proof. intros Hi Ht Hr Hp k s. apply good_bind_ret. now apply pmcmc_kernel_good. Qed.

Lemma pmcmc_chain_alone trans meas res init propose n which ts j m : forall k u e ys f,
  law (pmcmc_chain udef vdef trans meas res init propose n which ts j k m u e ys) f =
  law (chain_alone (pmcmc_move trans meas res init propose n which ts) j k m (u, e, ys)) f.
Proof.
  induction m as [|m IH]; intros k u e ys f; [reflexivity|]. cbn [pmcmc_chain chain_alone]. unfold pmcmc_move at 1. rewrite !law_bind.
  cbn [fst snd]. apply law_ext. intros [[[u' e'] ys'] st]. cbn [fst law]. apply IH.
Qed.

Lemma pmcmc_move_laws trans meas res M lg m0 (init : key -> V -> nat -> prog (list U)) q propose n which ts :
  filter_ok trans meas res M lg -> (forall v, is_prob (m0 v)) -> (forall k v n, denotes (init k v n) (dseq (repeat (m0 v) n))) ->
  (forall w, weights_ok w -> has_laws (valid_indices (length w)) (res w)) ->
  (forall ys, is_prob (q ys)) -> (forall k ys, denotes (propose k ys) (q ys)) -> (0 < n)%nat ->
  forall s, has_laws (fun _ => True) (fun k => pmcmc_move trans meas res init propose n which ts k s).
Proof.
  intros Hfo Hm0 Hinit Hres Hq Hprop Hn [[u e] ys].
  pose (RF := fun ys' => run_filter udef vdef trans meas res init n ts [] [] (rev ys')).
  pose (acc := fun (c : list U * R) => [(Rmin 1 (exp (snd c - e)), true); (1 - Rmin 1 (exp (snd c - e)), false)]).
  assert (Hp : has_laws (fun _ : U * R * list V => True) (fun k => bind (propose k ys) (fun ys' => bind (RF ys') (fun c => bind (Fin [] (map fst (acc c)) (fun i => Ret i))
     (fun i => Ret (if nth i (map snd (acc c)) true then (nth which (fst c) udef, snd c, ys') else (u, e, ys))))))).
  { apply (has_laws_bind (fun _ => True) _ (fun k => propose k ys) (fun ys' k => bind (RF ys') (fun c => bind (Fin [] (map fst (acc c)) (fun i => Ret i))
       (fun i => Ret (if nth i (map snd (acc c)) true then (nth which (fst c) udef, snd c, ys') else (u, e, ys))))) (fun k => k) (fun k => k)).
    { apply (has_laws_denotes _ _ (q ys)); [apply Hq|intros; apply Hprop|trivial]. }
    intros ys' _.
    apply (has_laws_bind (fun c => length (fst c) = n) _ (fun _ => RF ys') (fun c k => bind (Fin [] (map fst (acc c)) (fun i => Ret i))
       (fun i => Ret (if nth i (map snd (acc c)) true then (nth which (fst c) udef, snd c, ys') else (u, e, ys)))) (fun k => k) (fun k => k)).
    { exact (run_filter_has_laws udef vdef trans meas res M lg Hfo m0 Hm0 init Hinit Hres n ts (rev ys') (fun _ => []) (fun _ => []) Hn). }
    intros c _. apply (has_laws_denotes _ _ (dmap (fun b : bool => if b then (nth which (fst c) udef, snd c, ys') else (u, e, ys)) (acc c))); [| |trivial].
    - assert (0 <= Rmin 1 (exp (snd c - e)) <= 1) by (split; [apply Rmin_glb; [lra|left; apply exp_pos]|apply Rmin_l]).
      split; [unfold dmap, acc; cbn [map fst snd]; apply Forall_cons; [cbn [fst]; lra|apply Forall_cons; [cbn [fst]; lra|apply Forall_nil]]|]. unfold E, dmap, acc. cbn [map fst snd Rsum]. lra.
    - intros k f. rewrite law_bind, E_dmap. cbn [law]. exact (E_dcat_fst true (acc c) (fun b => f (if b then (nth which (fst c) udef, snd c, ys') else (u, e, ys)))). }
  destruct Hp as (d & H1 & H2 & H3). exists d. split; [assumption|]. split; [|assumption].
  intros k f. unfold pmcmc_move. rewrite law_bind. cbn [fst snd].
  rewrite (law_ext _ _ (fun r => let '(u', e', y', _) := r in f (u', e', y'))) by (intros [[[? ?] ?] ?]; reflexivity).
  rewrite (law_pmcmc_kernel udef vdef trans meas res M lg Hfo m0 Hm0 init Hinit Hres q propose Hprop n which ts Hn [] k u e ys (fun u' e' y' => f (u', e', y'))).
  rewrite <- (H2 k f), law_bind, (Hprop _ _ _). apply E_ext'. intros ys'. rewrite law_bind. apply law_ext. intros c. rewrite law_bind.
  cbn [law]. refine (eq_trans _ (eq_sym (E_dcat_fst true (acc c) (fun b : bool => f (if b then (nth which (fst c) udef, snd c, ys') else (u, e, ys)))))).
  unfold E, acc. cbn [map fst snd Rsum]. ring.
Qed.

Lemma conditional_sampler_laws trans lik res M lg m0 (ref : key -> V -> nat -> prog (list U)) (fwd_ys : key -> prog (list V)) P ts n :
  filter_ok trans lik res M lg -> consistent_res res -> (forall v, is_prob (m0 v)) -> (forall k v n, denotes (ref k v n) (dseq (repeat (m0 v) n))) ->
  is_prob P -> (forall k, denotes (fwd_ys k) P) -> (0 < n)%nat ->
  has_laws (fun _ => True) (fun k => conditional_sampler udef vdef trans lik res fwd_ys ts ref n k).
Proof.
  intros Hfo Hcr Hm0 Hinit HP Hf Hn. unfold conditional_sampler.
  apply (has_laws_bind (fun _ => True) _ fwd_ys (fun path_y k => let vs := rev path_y in
    r <- bootstrap_filter udef vdef trans lik res vs ts ref k n true true ;; Ret (nth 0 (last (fst r) []) udef)) (fun k => split_key k 0) (fun k => split_key k 2)).
  - apply (has_laws_denotes _ _ P); auto.
  - intros ys _. cbv zeta. apply (has_laws_bind _ _ (fun k => bootstrap_filter udef vdef trans lik res (rev ys) ts ref k n true true)
      (fun r k => Ret (nth 0 (last (fst r) []) udef)) (fun k => k) (fun k => k)
      (bootstrap_has_laws udef vdef trans lik res M lg Hfo Hcr m0 Hm0 ref Hinit n Hn (rev ys) ts true true)).
    intros r _. now apply has_laws_ret.
Qed.

Lemma twisted_sampler_laws {Y} tlp wlp prop plp res init m0 p q lp lq psi n (y : Y) ts :
  twisted_ok tlp wlp prop plp res init m0 p q lp lq psi -> consistent_res res -> (0 < n)%nat ->
  has_laws (fun _ => True) (fun k => twisted_sampler udef tlp wlp prop plp res init n y ts k).
Proof.
  intros Hok Hcr Hn.
  assert (H : has_laws (fun _ : U => True) (fun k => bind (twisted_smc_g udef tlp wlp prop plp res init n (split_key k 0) y ts)
     (fun r => let '(uvs, lws, _) := r in bind (choice (split_key k 1) (map exp lws)) (fun i => Ret (nth i uvs udef))))).
  { apply (has_laws_bind _ _ (fun k => twisted_smc_g udef tlp wlp prop plp res init n k y ts)
      (fun r k => let '(uvs, lws, _) := r in bind (choice k (map exp lws)) (fun i => Ret (nth i uvs udef))) (fun k => split_key k 0) (fun k => split_key k 1)
      (twisted_has_laws udef tlp wlp prop plp res init m0 p q lp lq psi Hok Hcr n Hn y ts)).
    intros [[xs lws] z] (Hx & Hl & Hs).
    assert (Hw : weights_ok (map exp lws)).
    { split; [apply Forall_map, Forall_forall; intros; left; apply exp_pos|exact Hs]. }
    apply (has_laws_denotes _ _ (dmap (fun i => nth i xs udef) (dcat (map exp lws)))); [|intros k f; rewrite law_bind, E_dmap; rewrite (choice_denotes _ _ Hw _); reflexivity|trivial].
    apply is_prob_dmap, is_prob_dcat, Hw. }
  destruct H as (d & H1 & H2 & H3). exists d. split; [assumption|]. split; [|assumption]. intros k f. rewrite <- (H2 k f).
  unfold twisted_sampler. rewrite !law_bind.
  rewrite <- (twisted_smc_g_erase udef tlp wlp prop plp res init n (split_key k 0) y ts
    (fun r => law (let '(uvs, log_ws) := r in i <- choice (split_key k 1) (map exp log_ws) ;; Ret (nth i uvs udef)) f)).
  apply law_ext. intros [[xs lws] z]. reflexivity.
Qed.
End samplers.
