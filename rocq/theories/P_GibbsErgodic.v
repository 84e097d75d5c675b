(** Properties C107-C108: what the Gibbs sampler remembers, and where it converges (fbs/samplers/gibbs.py). *)
From Verif Require Import GibbsErgodic GibbsDemo.
From Coq Require Import Lra Lia.
Open Scope R_scope.

(** ** C107: given x0, neither the reference indices nor the stored path nor the key matter for the law of the new x0 *)
Theorem C107_new_state_depends_on_old_state_only :
  forall (U V : Type) (udef : U) (vdef : V) fwd bridge normal trans translp lik y0 ts FW BR M lg,
  gibbs_model_ok fwd bridge trans translp lik y0 ts FW BR M lg -> ts <> [] ->
  forall n marg_y eb k k' x0 us us' bs bs' f, (0 < n)%nat ->
  length bs = length ts -> Forall (fun b => (b < n)%nat) bs ->
  length bs' = length ts -> Forall (fun b => (b < n)%nat) bs' ->
  let kernel k us bs := gibbs_kernel udef vdef fwd bridge normal trans translp lik k x0 y0 us bs ts n marg_y eb false in
  law (kernel k us bs) (fun out => let '(x', _, _, _) := out in f x') = law (kernel k' us' bs') (fun out => let '(x', _, _, _) := out in f x').
Proof.
  intros U V udef vdef fwd bridge normal trans translp lik y0 ts FW BR M lg Hg Hts n marg_y eb k k' x0 us us' bs bs' f Hn Hb HB Hb' HB' kernel.
  transitivity (law (kernel k us bs) (fun out => f (new_x0 out))); [apply law_ext; now intros [[[? ?] ?] ?]|].
  transitivity (law (kernel k' us' bs') (fun out => f (new_x0 out))); [|apply law_ext; now intros [[[? ?] ?] ?]].
  exact (gibbs_law_forgets udef vdef _ _ _ _ _ _ y0 ts FW BR M lg Hg Hts n Hn marg_y eb k k' x0 us us' bs bs' f (conj Hb HB) (conj Hb' HB')).
Qed.
Print Assumptions C107_new_state_depends_on_old_state_only.

Example C107_example : forall k k' marg_y eb x0,
  let p us bs k := law (gibbs_kernel false false gd_fwd gd_bridge demo_init demo_trans demo_translp gd_lik k x0 true us bs [0; 1] 3 marg_y eb false)
                     (fun out => let '(x', _, _, _) := out in if x' then 1 else 0) in
  p [] [0; 0]%nat k = p [true; false] [2; 1]%nat k'.
Proof.
  intros k k' marg_y eb x0. cbv zeta.
  apply (C107_new_state_depends_on_old_state_only _ _ false false gd_fwd gd_bridge demo_init _ _ _ true gd_ts _ _ _ _ gd_model ltac:(discriminate)
    3 marg_y eb k k' x0 [] [true; false] [0; 0]%nat [2; 1]%nat (fun x => if x then 1 else 0)); try reflexivity; try lia; repeat constructor.
Qed.

(** ** C108: from every start the law of x0 approaches the conditional law given y0 geometrically fast *)
(** [nu] is a part of the law of (u0, vs) that every x0 reaches by noising. *)
Theorem C108_gibbs_chain_converges :
  forall (U V : Type) (udef : U) (vdef : V) fwd bridge normal trans translp lik y0 ts FW BR M lg,
  gibbs_model_ok fwd bridge trans translp lik y0 ts FW BR M lg ->
  gibbs_shapes fwd bridge normal trans translp lik ts -> ts <> [] ->
  forall n marg_y eb pi G nu, (2 <= n)%nat ->
  is_prob pi -> compatible vdef ts FW BR M lg marg_y pi ->
  (forall v vp t u, exp (lg v vp t u) <= G) ->
  (eb = true -> forall v v' t us, length us = n -> Forall (fun x => x < Rmax (1 - exp (- INR n)) (1 - / 10 ^ 12) \/ x = 1) (normalise (map (lg v v' t) us))) ->
  (forall x0 (F : U -> list V -> R), (forall u vs, 0 <= F u vs) ->
     E nu (fun uv => F (fst uv) (snd uv)) <= E (noised vdef FW BR marg_y x0) (fun p => F (nth 0 (fst p) udef) (snd p))) ->
  let N := INR n in
  let Z := E nu (fun uv => E (fk_path (fk_of M lg (step_data (snd uv) ts)) (fst uv)) (fun _ => 1)) in
  let eps := (N - 1) / N * ((N - 2 + 2 / N) / (N * G)) ^ (length ts - 1) * Z in
  eps <= 1 /\ (Forall (fun pa => 0 <= fst pa) nu -> 0 < E nu (fun _ => 1) -> 0 < eps) /\
  forall k m x0 us bs f a b, length bs = length ts -> Forall (fun b => (b < n)%nat) bs -> (forall x, a <= f x <= b) ->
  Rabs (law (gibbs_chain udef vdef fwd bridge normal trans translp lik y0 ts k 0 m x0 us bs n marg_y eb) (fun out => f (fst (fst out))) - E pi f)
    <= (1 - eps) ^ m * (b - a).
Proof.
  intros U V udef vdef fwd bridge normal trans translp lik y0 ts FW BR M lg Hg Hs Hts n marg_y eb pi G nu Hn Hpi Hc HG Hreg Hov N Z eps.
  assert (Hreg' : eb = true -> regular_likelihood lg n).
  { intros He v v' t us Hl. unfold fm_regular, fm_threshold. rewrite length_normalise, map_length, Hl. now apply Hreg. }
  assert (He : eps = overlap udef ts M lg n G nu).
  { unfold eps, Z, overlap, common. rewrite E_mult_l. unfold rate, N. rewrite minus_INR by lia. cbn [INR].
    replace (INR n - 1 - 1) with (INR n - 2) by lra. reflexivity. }
  assert (Hn0 : (0 < n)%nat) by lia. rewrite He. split; [|split].
  - exact (overlap_le1 udef vdef _ _ _ _ _ y0 ts FW BR M lg Hg Hts n Hn0 marg_y eb G HG Hreg' Hn nu Hov).
  - exact (overlap_pos udef vdef _ _ _ _ _ y0 ts FW BR M lg Hg n Hn0 G HG Hn nu).
  - intros k m x0 us bs f a b Hb HB Hf.
    exact (gibbs_chain_converges udef vdef _ _ normal _ _ _ y0 ts FW BR M lg Hg Hts n Hn0 marg_y eb Hs G HG Hreg' Hn nu Hov pi Hpi Hc
      k m x0 us bs f a b (conj Hb HB) Hf).
Qed.
Print Assumptions C108_gibbs_chain_converges.

Lemma gd_shapes : gibbs_shapes gd_fwd gd_bridge demo_init demo_trans demo_translp gd_lik [0; 1].
Proof.
  constructor.
  - intros k x y. unfold gd_fwd. apply safe_bind with (P := fun _ => True); [intros ? ? ?; exact I|]. intros u0 _.
    apply safe_bind with (P := fun _ => True); [intros ? ? ?; exact I|]. intros v0 _. apply safe_ret. split; reflexivity.
  - intros. apply safe_ret. reflexivity.
  - intros k n. unfold demo_init. eapply safe_weaken; [|apply fin_draws_length]. intros l Hl. now rewrite repeat_length in Hl.
  - intros. unfold demo_trans. eapply safe_weaken; [|apply fin_draws_length]. intros l Hl. now rewrite map_length in Hl.
  - intros. apply map_length.
  - intros. apply map_length.
Qed.

(** two particles, every variant: rate 13/15, and P(x0 = true | y0) = 5/8 *)
Example C108_example : forall k m x0 us bs marg_y eb, length bs = 2%nat -> Forall (fun b => (b < 2)%nat) bs ->
  Rabs (law (gibbs_chain false true gd_fwd gd_bridge demo_init demo_trans demo_translp gd_lik true [0; 1] k 0 m x0 us bs 2 marg_y eb)
     (fun out => if fst (fst out) then 1 else 0) - 5/8) <= (13/15) ^ m.
Proof.
  intros k m x0 us bs marg_y eb Hb HB.
  assert (Hn : forall x0 G, E (noised true gd_FW (fun y y' : bool => dret [y; y']) marg_y x0) G =
       E (gd_back x0) (fun u0 => E coin (fun v0 => G ([u0; x0], [v0; true])))).
  { intros x G. unfold noised, gd_FW. rewrite E_dbind, E_dbind. apply E_ext'. intros u0. rewrite E_dmap. apply E_ext'. intros v0.
    destruct marg_y; [rewrite E_dmap|]; now rewrite E_dret. }
  set (nu := [(1/4, (true, [true; true])); (1/4, (true, [false; true])); (1/20, (false, [true; true])); (1/20, (false, [false; true]))]).
  destruct (C108_gibbs_chain_converges _ _ false true gd_fwd gd_bridge demo_init _ _ _ true gd_ts _ _ _ _ gd_model gd_shapes ltac:(discriminate)
    2 marg_y eb gd_pi (3/4) nu ltac:(lia)) as (_ & _ & H).
  - split; [repeat constructor; cbn; lra|unfold E, gd_pi; cbn; lra].
  - apply gd_compatible.
  - intros v vp t u. unfold gd_lg. destruct (eqb v u); rewrite exp_ln; lra.
  - intros _ v v' t l Hl. pose proof (gd_regular 2 ltac:(lia) v v' t l Hl) as Hr. unfold fm_regular, fm_threshold in Hr.
    rewrite length_normalise, map_length, Hl in Hr. exact Hr.
  - intros x F HF. rewrite Hn. unfold nu, gd_back, coin, E. destruct x; cbn [map fst snd nth Rsum];
    pose proof (HF true [true; true]); pose proof (HF true [false; true]); pose proof (HF false [true; true]); pose proof (HF false [false; true]); lra.
  - specialize (H k m x0 us bs (fun x => if x then 1 else 0) 0 1 Hb HB ltac:(intros []; lra)).
    assert (HZ : E nu (fun uv => E (fk_path (fk_of demo_M gd_lg (step_data (snd uv) gd_ts)) (fst uv)) (fun _ => 1)) = 2/5).
    { unfold nu. rewrite !E_cons. unfold gd_ts. cbn [fst snd step_data fk_of map fk_path]. rewrite !E_dscale, !E_dbind.
      unfold demo_M, sticky, gd_lg. cbn [eqb negb]. rewrite !exp_ln by lra. unfold E. cbn [map fst snd Rsum dmap dret eqb]. rewrite ?exp_ln by lra. lra. }
    rewrite HZ in H. unfold gd_ts in H. cbn [length Nat.sub pow INR] in H.
    match type of H with Rabs (?x - ?y) <= _ => replace y with (5/8) in H by (unfold E, gd_pi; cbn; lra) end.
    match type of H with _ <= (1 - ?d) ^ m * _ => replace (1 - d) with (13/15) in H by lra end.
    lra.
Qed.
