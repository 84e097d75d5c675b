(** What the particle MCMC chain converges to. *)
From Coquelicot Require Import Coquelicot.
From Coq Require Import FunctionalExtensionality.
From Verif Require Import Pmcmc PmcmcSlot PmcmcBias PmcmcErgodic P_Smc.
Open Scope R_scope.

(** Specification: the law of the pair (x0, path) given the observations, P being the law of the path. *)
Definition joint_mass {U V} (udef : U) (vdef : V) M lg m0 (P : dist (list V)) ts (f : U -> list V -> R) : R :=
  E P (fun ys => E (filter_target vdef M lg m0 (rev ys) ts) (fun p => f (last p udef) ys)).
Definition joint_posterior {U V} (udef : U) (vdef : V) M lg m0 (P : dist (list V)) ts (f : U -> list V -> R) : R :=
  joint_mass udef vdef M lg m0 P ts f / joint_mass udef vdef M lg m0 P ts (fun _ _ => 1).

Section limit.
Context {U V : Type} (udef : U) (vdef : V).
Variable trans : list U -> V -> R -> key -> prog (list U).
Variable meas : V -> list U -> V -> R -> list R.
Variable res : list R -> key -> prog (list nat).
Variable M : V -> R -> U -> dist U.
Variable lg : V -> V -> R -> U -> R.
Hypothesis Hfo : filter_ok trans meas res M lg.
Variable m0 : V -> dist U.
Hypothesis Hm0 : forall v, is_prob (m0 v).
Variable init : key -> V -> nat -> prog (list U).
Hypothesis Hinit : forall k v n, denotes (init k v n) (dseq (repeat (m0 v) n)).
Hypothesis Hres : forall w, weights_ok w -> has_laws (valid_indices (length w)) (res w).
Variable P : dist (list V).
Variable q : list V -> dist (list V).
Variable propose : key -> list V -> prog (list V).
Hypothesis HP : is_prob P.
Hypothesis Hq : forall ys, is_prob (q ys).
Hypothesis Hprop : forall k ys, denotes (propose k ys) (q ys).
Hypothesis Hrev : forall F, E P (fun ys => E (q ys) (fun ys' => F ys ys')) = E P (fun ys => E (q ys) (fun ys' => F ys' ys)).
Variables (n which : nat) (ts : list R).
Hypothesis Hn : (0 < n)%nat.
Variable G : R.
Hypothesis HG : forall v vp t u, exp (lg v vp t u) <= G.
Hypothesis HPl : forall ys, In ys (map snd P) -> length ys = length ts.
Hypothesis Hql : forall ys ys', In ys' (map snd (q ys)) -> length ys' = length ts.
Variable eps : R.
Hypothesis Heps : 0 <= eps.
Hypothesis Hmin : forall ys F, length ys = length ts -> (forall ys', 0 <= F ys') -> eps * E P F <= E (q ys) F.

Notation mass := (joint_mass udef vdef M lg m0 P ts).
Notation chain := (pmcmc_chain udef vdef trans meas res init propose n which ts).
Notation rate := (1 - eps * mass (fun _ _ => 1) / G ^ (length ts - 1)).

Lemma Z_mass : Z udef vdef trans meas res init P n which ts [] = mass (fun _ _ => 1).
Proof.
  unfold Z. rewrite (pm_target_paths udef vdef _ _ _ _ _ Hfo m0 Hm0 init Hinit Hres P n which ts Hn [] (fun _ => 1)).
  unfold joint_mass. apply E_ext'. intros ys. ring.
Qed.

Lemma rate_bounds : 0 <= rate <= 1.
Proof.
  pose proof (delta_bounds udef vdef trans meas res M lg Hfo m0 Hm0 init Hinit Hres P q HP Hq Hrev n which ts Hn [] G HG HPl Hql eps Heps Hmin) as H.
  unfold delta, B in H. rewrite Z_mass in H. lra.
Qed.

Lemma rate_contracts : 0 < eps -> 0 <= rate < 1.
Proof.
  intros He. split; [apply rate_bounds|].
  pose proof (Z_pos udef vdef trans meas res M lg Hfo m0 Hm0 init Hinit Hres P HP n which ts Hn []) as HZ. rewrite Z_mass in HZ.
  pose proof (pow_lt G (length ts - 1) (G_pos vdef lg m0 Hm0 G HG)) as HB.
  assert (0 < eps * mass (fun _ _ => 1) / G ^ (length ts - 1)); [|lra]. apply Rdiv_lt_0_compat; [now apply Rmult_lt_0_compat|assumption].
Qed.

Lemma chain_rate j k m u e ys f a b : exp e <= G ^ (length ts - 1) -> length ys = length ts -> (forall u e ys, a <= f u e ys <= b) ->
  Rabs (law (chain j k m u e ys) (fun s => f (fst (fst s)) (snd (fst s)) (snd s))
        - pm_target udef vdef trans meas res init P n which ts [] f / mass (fun _ _ => 1)) <= rate ^ m * (b - a).
Proof.
  intros He Hl Hf.
  pose proof (pmcmc_chain_converges udef vdef trans meas res M lg Hfo m0 Hm0 init Hinit Hres P q propose HP Hq Hprop Hrev n which ts Hn [] G HG HPl Hql eps Hmin j k m u e ys f a b (conj He Hl) Hf) as H.
  unfold pi, delta, B in H. rewrite Z_mass in H. exact H.
Qed.

Theorem paths_converge j k m u e ys g a b : exp e <= G ^ (length ts - 1) -> length ys = length ts -> (forall ys, a <= g ys <= b) ->
  Rabs (law (chain j k m u e ys) (fun s => g (snd s)) - joint_posterior udef vdef M lg m0 P ts (fun _ ys => g ys)) <= rate ^ m * (b - a).
Proof.
  intros He Hl Hg. pose proof (chain_rate j k m u e ys (fun _ _ ys => g ys) a b He Hl (fun _ _ ys => Hg ys)) as H.
  replace (joint_posterior udef vdef M lg m0 P ts (fun _ ys => g ys)) with (pm_target udef vdef trans meas res init P n which ts [] (fun _ _ ys => g ys) / mass (fun _ _ => 1)); [exact H|].
  unfold joint_posterior. f_equal. rewrite (pm_target_paths udef vdef _ _ _ _ _ Hfo m0 Hm0 init Hinit Hres P n which ts Hn [] g).
  unfold joint_mass. apply E_ext'. intros y. rewrite Rmult_comm, <- E_mult_l. apply E_ext'. intros p. ring.
Qed.

(** when the kept particle is fair, so is the pair *)
Theorem pairs_converge j k m u e ys f a b :
  (forall vs phi, law (run_filter udef vdef trans meas res init n ts [] [] vs) (fun c => exp (snd c) * phi (nth which (fst c) udef)) =
     E (filter_target vdef M lg m0 vs ts) (fun p => phi (last p udef))) ->
  exp e <= G ^ (length ts - 1) -> length ys = length ts -> (forall u ys, a <= f u ys <= b) ->
  Rabs (law (chain j k m u e ys) (fun s => f (fst (fst s)) (snd s)) - joint_posterior udef vdef M lg m0 P ts f) <= rate ^ m * (b - a).
Proof.
  intros Hfair He Hl Hf. pose proof (chain_rate j k m u e ys (fun u _ ys => f u ys) a b He Hl (fun u _ ys => Hf u ys)) as H.
  replace (joint_posterior udef vdef M lg m0 P ts f) with (pm_target udef vdef trans meas res init P n which ts [] (fun u _ ys => f u ys) / mass (fun _ _ => 1)); [exact H|].
  unfold joint_posterior. f_equal. unfold pm_target, joint_mass. apply E_ext'. intros y. apply (Hfair (rev y) (fun u => f u y)).
Qed.
End limit.

(** ** Stratified and systematic resampling: the limit is not the posterior *)
Lemma unit_paths_prob : is_prob (dret [tt; tt]).
Proof. apply is_prob_dret. Qed.

Lemma bias_mass : joint_mass false tt (fun _ _ u => dret u) b_lg (fun _ => half) (dret [tt; tt]) [0; 1] (fun u _ => b2r u) = 3 / 2 /\
  joint_mass false tt (fun _ _ u => dret u) b_lg (fun _ => half) (dret [tt; tt]) [0; 1] (fun _ _ => 1) = 2.
Proof.
  unfold joint_mass. rewrite !E_dret. cbn [rev app]. split; [exact bias_target|].
  change (fun _ : list bool => 1) with (fun p : list bool => (fun _ : bool => 1) (last p false)).
  rewrite filter_target_final. cbn [step_data]. unfold half. rewrite !E_cons. cbn [E map Rsum].
  rewrite !fk_final_cons, !b_exp, !E_dret. unfold fk_final. cbn [fk_of map fk_path]. rewrite !E_dret. unfold E; simpl. lra.
Qed.

Lemma biased_limit res : res = stratified \/ res = systematic -> forall j k m e, (4 <= m)%nat -> forall u, exp e <= 3 ->
  1 / 50 <= Rabs (law (pmcmc_chain false tt id_trans b_lik res b_init (fun _ _ => Ret [tt; tt]) 3 0 [0; 1] j k m u e [tt; tt]) (fun s => b2r (fst (fst s)))
    - joint_posterior false tt (fun _ _ u => dret u) b_lg (fun _ => half) (dret [tt; tt]) [0; 1] (fun u _ => b2r u)).
Proof.
  intros Hr j k m e Hm u He.
  assert (Hg : good_res res) by (destruct Hr as [ ->| ->]; [exact (proj1 (proj2 C19_library_schemes))|exact (proj1 C19_library_schemes)]).
  assert (Hl : forall w, weights_ok w -> has_laws (valid_indices (length w)) (res w)) by (intros w Hw; destruct (C21_library_schemes w Hw) as (H1 & H2 & _); destruct Hr as [ ->| ->]; assumption).
  destruct bias_mass as [B1 B2].
  assert (Hlen : forall ys, In ys (map snd (dret [tt; tt])) -> length ys = length [0; 1]) by (intros ys [<-|[]]; reflexivity).
  pose proof (chain_rate false tt id_trans b_lik res (fun _ _ u => dret u) b_lg (bias_filter_ok _ Hg) (fun _ => half) (fun _ => half_prob) b_init
    ltac:(intros; apply b_draws_denotes) Hl (dret [tt; tt]) (fun _ => dret [tt; tt]) (fun _ _ => Ret [tt; tt]) unit_paths_prob (fun _ => unit_paths_prob)
    ltac:(intros; intros f; now rewrite E_dret) ltac:(intros; now rewrite !E_dret) 3%nat 0%nat [0; 1] ltac:(lia) 3
    ltac:(intros [] [] t []; rewrite b_exp; lra) Hlen (fun _ => Hlen) 1 ltac:(intros; lra) j k m u e [tt; tt] (fun u _ _ => b2r u) 0 1
    ltac:(cbn; lra) eq_refl ltac:(intros [] ? ?; cbn; lra)) as H.
  rewrite B2 in H. unfold joint_posterior. rewrite B1, B2.
  replace (pm_target false tt id_trans b_lik res b_init (dret [tt; tt]) 3 0 [0; 1] [] (fun u _ _ => b2r u)) with (17 / 12) in H.
  2: { unfold pm_target. rewrite E_dret. cbn [rev app]. symmetry. apply bias_value; [|apply (gr_valid _ Hg)].
       destruct Hr as [ ->| ->]; intros; [now apply stratified_first|now apply systematic_first]. }
  cbn [length Nat.sub pow] in H. replace (1 - 1 * 2 / (3 * 1)) with (/ 3) in H by lra.
  assert (Hp : (/ 3) ^ m <= (/ 3) ^ 4).
  { replace m with (4 + (m - 4))%nat by lia. rewrite pow_add. rewrite <- (Rmult_1_r ((/ 3) ^ 4)) at 2. apply Rmult_le_compat_l; [apply pow_le; lra|].
    rewrite <- (pow1 (m - 4)). apply pow_incr. lra. }
  assert (Hp4 : (/ 3) ^ 4 = 1 / 81) by lra.
  revert H. set (x := law _ _). intros H. assert (H' : Rabs (x - 17 / 24) <= 1 / 81) by (replace (17 / 24) with (17 / 12 / 2) by lra; lra).
  apply Rabs_le_between in H'. rewrite Rabs_left; lra.
Qed.
