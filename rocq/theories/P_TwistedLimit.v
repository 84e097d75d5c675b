(** Property C110: the sample reported by the twisted experiments has the twisted target as its limit law. *)
From Coquelicot Require Import Coquelicot.
From Verif Require Import TwistedLimit Demo P_Smc.
Open Scope R_scope.

(** [bounded_weights]: every initial weight and every incremental weight that can occur is at most G.  [ts = t0 :: ts']. *)
Definition bounded_weights {U Y} (m0 : dist U) (q : R -> Y -> U -> dist U) lp lq (psi : Y -> R -> U -> R) (G : R) (y : Y) (t0 : R) (ts : list R) : Prop :=
  (forall u, In u (map snd m0) -> exp (psi y t0 u) <= G) /\
  forall i up u, (i < length ts)%nat -> let t' := nth i (t0 :: ts) 0 in let t := nth i ts 0 in
    In u (map snd (q t y up)) -> exp (lp t u up + psi y t u - lq t y u up - psi y t' up) <= G.

Lemma bounded_incr {U Y} (m0 : dist U) (q : R -> Y -> U -> dist U) lp lq psi G y ts : forall t0,
  bounded_weights m0 q lp lq psi G y t0 ts -> incr_bounded q lp lq psi G y t0 ts.
Proof.
  intros t0 [_ H]. revert t0 H. induction ts as [|t ts IH]; intros t0 H; [exact I|]. split.
  - intros up u Hu. apply (H 0%nat up u); [simpl; lia|exact Hu].
  - apply IH. intros i up u Hi. apply (H (S i) up u). simpl. lia.
Qed.

(** the self-normalised average over the returned cloud *)
Theorem C110_weighted_average_error :
  forall (U Y : Type) (udef : U) translp twistlp prop proplp res init m0 p q lp lq psi,
  twisted_ok translp twistlp prop proplp res init m0 p q lp lq psi -> consistent_res res -> (forall t u, is_prob (p t u)) ->
  forall n k (y : Y) t0 ts phi G B, (0 < n)%nat -> 0 <= G -> bounded_weights m0 q lp lq psi G y t0 ts -> (forall u, Rabs (phi u) <= B) ->
  let T phi := E m0 (fun u0 => E (chain p ts u0) (fun u => exp (psi y (last (t0 :: ts) 0) u) * phi u)) in
  law (twisted_smc udef translp twistlp prop proplp res k y (t0 :: ts) init n)
    (fun r => (Rsum (map (fun i => exp (nth i (snd r) 0) * phi (nth i (fst r) udef)) (seq 0 n)) - T phi / T (fun _ => 1)) ^ 2)
  <= / INR n * (4 * (2 * INR (length ts) + 1) * G ^ (2 * S (length ts)) * B ^ 2 / T (fun _ => 1) ^ 2).
Proof.
  intros U Y udef translp twistlp prop proplp res init m0 p q lp lq psi Hok Hcr Hp n k y t0 ts phi G B Hn HG Hb HB.
  apply (twisted_consistent udef translp twistlp prop proplp res init m0 p q lp lq psi Hok Hcr n Hn Hp G B phi HB k y t0 ts); [eapply bounded_incr; eassumption|apply Hb].
Qed.

(** the reported sample: bias of order 1 / nparticles *)
Theorem C110_reported_sample_bias :
  forall (U Y : Type) (udef : U) translp twistlp prop proplp res init m0 p q lp lq psi,
  twisted_ok translp twistlp prop proplp res init m0 p q lp lq psi -> consistent_res res -> (forall t u, is_prob (p t u)) ->
  forall n k (y : Y) t0 ts phi G B, (0 < n)%nat -> 0 <= G -> bounded_weights m0 q lp lq psi G y t0 ts -> (forall u, Rabs (phi u) <= B) ->
  let T phi := E m0 (fun u0 => E (chain p ts u0) (fun u => exp (psi y (last (t0 :: ts) 0) u) * phi u)) in
  Rabs (law (twisted_sampler udef translp twistlp prop proplp res init n y (t0 :: ts) k) phi - T phi / T (fun _ => 1))
  <= / INR n * (2 * (2 * INR (length ts) + 1) * G ^ (2 * S (length ts)) * B / T (fun _ => 1) ^ 2).
Proof.
  intros U Y udef translp twistlp prop proplp res init m0 p q lp lq psi Hok Hcr Hp n k y t0 ts phi G B Hn HG Hb HB.
  apply (sampler_consistent udef translp twistlp prop proplp res init m0 p q lp lq psi Hok Hcr n Hn Hp G B HG phi HB k y t0 ts); [eapply bounded_incr; eassumption|apply Hb].
Qed.

(** the scheme of the experiments *)
Theorem C110_stratified : consistent_res stratified.
Proof. exact stratified_consistent. Qed.

(** one particle: the law is that of the proposal, whatever the twisting functions *)
Theorem C110_single_particle :
  forall (U Y : Type) (udef : U) translp twistlp prop proplp res init m0 p q lp lq psi,
  twisted_ok translp twistlp prop proplp res init m0 p q lp lq psi ->
  forall k (y : Y) ts phi,
  law (twisted_sampler udef translp twistlp prop proplp res init 1 y ts k) phi = E m0 (fun u0 => E (chain (fun t => q t y) (tl ts) u0) phi).
Proof.
  intros U Y udef translp twistlp prop proplp res init m0 p q lp lq psi Hok k y ts phi.
  exact (single_particle udef translp twistlp prop proplp res init m0 p q lp lq psi Hok y ts k phi).
Qed.
Print Assumptions C110_weighted_average_error.
Print Assumptions C110_reported_sample_bias.
Print Assumptions C110_stratified.
Print Assumptions C110_single_particle.

(** Sticky two-state chain, uniform proposal, twisting function doubling [true]: the target has [true] with probability 2/3.
    With 10^6 particles the reported sample is within 1/100 of it, with one particle it is a fair coin. *)
Example C110_example : forall k,
  let P n := law (twisted_sampler false tw_translp tw_twistlp tw_prop tw_proplp stratified demo_init n tt [0; 1; 2] k) b2r in
  Rabs (P (Z.to_nat 1000000) - 2/3) <= 1/100 /\ P 1%nat = 1/2.
Proof.
  intros k P. split.
  - assert (Hn : INR (Z.to_nat 1000000) = 1000000) by (rewrite INR_IZR_INZ, Z2Nat.id by lia; reflexivity).
    pose proof (C110_reported_sample_bias bool unit false tw_translp tw_twistlp tw_prop tw_proplp stratified demo_init coin (fun t u => sticky u) (fun t y u => coin) tw_lp tw_lq tw_psi
      tw_demo_ok stratified_consistent (fun t u => sticky_prob u) (Z.to_nat 1000000) k tt 0 [1; 2] b2r 3 1 ltac:(lia) ltac:(lra)) as H.
    cbv beta zeta in H. fold (P (Z.to_nat 1000000)) in H.
    assert (HT1 : E coin (fun u0 => E (chain (fun t u => sticky u) [1; 2] u0) (fun u => exp (tw_psi tt (last [0; 1; 2] 0) u) * 1)) = 3/2).
    { cbn [chain last]. unfold coin, sticky, tw_psi. rewrite !E_cons, !E_dbind, !E_cons. cbn [E map Rsum negb].
      rewrite !E_dbind, !E_cons. cbn [E map Rsum negb]. rewrite !E_dret, exp_0, exp_ln by lra. unfold E; simpl. lra. }
    assert (HT2 : E coin (fun u0 => E (chain (fun t u => sticky u) [1; 2] u0) (fun u => exp (tw_psi tt (last [0; 1; 2] 0) u) * b2r u)) = 1).
    { cbn [chain last]. unfold coin, sticky, tw_psi. rewrite !E_cons, !E_dbind, !E_cons. cbn [E map Rsum negb].
      rewrite !E_dbind, !E_cons. cbn [E map Rsum negb]. rewrite !E_dret, exp_0, exp_ln by lra. cbn [b2r]. unfold E; simpl. lra. }
    rewrite HT1, HT2, Hn in H. cbn [length INR pow Nat.mul Nat.add] in H. replace (1 / (3 / 2)) with (2/3) in H by field.
    eapply Rle_trans; [apply H|lra].
    + split.
      * intros u _. unfold tw_psi. destruct u; [rewrite exp_ln by lra|rewrite exp_0]; lra.
      * intros i up u _ t' t _. unfold tw_lp, tw_lq, tw_psi, Rminus. rewrite !exp_plus, !exp_Ropp.
        destruct u, up; cbn [eqb]; rewrite ?exp_0, ?exp_ln by lra; lra.
    + intros u. destruct u; cbn [b2r]; [rewrite Rabs_R1|rewrite Rabs_R0]; lra.
  - unfold P. rewrite (C110_single_particle _ _ _ _ _ _ _ _ _ _ _ _ _ _ _ tw_demo_ok). cbn [tl chain]. unfold coin.
    repeat first [rewrite E_cons|rewrite E_nil|rewrite E_dbind|rewrite E_dret]. cbn [b2r]. lra.
Qed.
