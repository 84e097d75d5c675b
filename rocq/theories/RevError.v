(** How an inexact model of the reverse dynamics (an inexact score) changes what the filter targets (fbs/samplers/smc.py bootstrap_filter). *)
From Coquelicot Require Import Coquelicot.
From Coq Require Import Reals List Lia Lra.
From Verif Require ResVariance EmMoments.
From Verif Require Import Base Dist Prog Smc CsmcProofs CsmcInv SmcProofs Pmcmc FilterSlot Pinsker.
Import ListNotations.
Open Scope R_scope.

(** ** Specification *)
Section spec.
  Context {U V : Type}.
  (** The true reverse process: at the start (time T of the noising) v has law P0 and u given v the law k0 v; from (u, v) at the grid
      point t the next pair has law p t u v. *)
  Variables (P0 : dist V) (k0 : V -> dist U) (p : R -> U -> V -> dist (U * V)).
  Fixpoint reverse_path (ts : list R) (u : U) (v : V) : dist (list (U * V)) :=
    match ts with t :: ((_ :: _) as ts') => dbind (p t u v) (fun z => dmap (cons z) (reverse_path ts' (fst z) (snd z))) | _ => dret [] end.
  Definition joint_path (ts : list R) : dist (list (U * V)) :=
    dbind P0 (fun v => dbind (k0 v) (fun u => dmap (cons (u, v)) (reverse_path ts u v))).

  (** The model used by the filter: initial law m0, transitions M, log-likelihoods lg. Its densities relative to the true process. *)
  Variables (m0 : V -> dist U) (M : V -> R -> U -> dist U) (lg : V -> V -> R -> U -> R).
  Variable veq : forall v w : V, {v = w} + {v <> w}.
  Record density_ratio (r0 : V -> U -> R) (rt : R -> U -> V -> U * V -> R) : Prop := {
    dr_pos0 : forall v u, 0 < r0 v u;
    dr_pos : forall t u v z, 0 < rt t u v z;
    dr_init : forall v F, E (m0 v) F = E (k0 v) (fun u => r0 v u * F u);
    (** the chance that the model moves to u' and shows v' is rt times that of the true process *)
    dr_step : forall t u v v' F, exp (lg v' v t u) * E (M v t u) F = E (p t u v) (fun z => if veq (snd z) v' then rt t u v z * F (fst z) else 0);
    dr_mass : forall t u v, E (p t u v) (rt t u v) <= 1 }.

  Variables (r0 : V -> U -> R) (rt : R -> U -> V -> U * V -> R).
  (** the divergences of the model's initial law and steps, added up along a path *)
  Fixpoint path_kl (ts : list R) (u : U) (v : V) (pth : list (U * V)) : R :=
    match ts, pth with
    | t :: ((_ :: _) as ts'), z :: pth' => - E (p t u v) (fun z => ln (rt t u v z)) + path_kl ts' (fst z) (snd z) pth'
    | _, _ => 0
    end.
  Definition model_error (ts : list R) : R :=
    E P0 (fun v => - E (k0 v) (fun u => ln (r0 v u))) + E (joint_path ts) (fun pth => match pth with z :: pth' => path_kl ts (fst z) (snd z) pth' | [] => 0 end).
  (** P: the law of the observation path; K vs: the law of the states given the observation path vs *)
  Record disintegrates (ts : list R) (P : dist (list V)) (K : list V -> dist (list U)) : Prop := {
    di_pos : Forall (fun a => 0 < fst a) P;
    di_len : forall vs, In vs (map snd P) -> length vs = length ts;
    di_prob : forall vs, In vs (map snd P) -> is_prob (K vs);
    di_law : forall F, E (joint_path ts) (fun pth => F (map fst pth) (map snd pth)) = E P (fun vs => E (K vs) (fun us => F us vs)) }.
  (** The observation at time 0 has law D0, its noised path in forward time the law PF y0, and x0 given y0 the law post y0; the true reverse
      process is the noising run backwards. *)
  Variable vdef : V.
  Record reverses (ts : list R) (D0 : dist V) (PF : V -> dist (list V)) (K : list V -> dist (list U)) (post : V -> dist U) (udef : U) : Prop := {
    rv_pos : Forall (fun a => 0 < fst a) D0;
    rv_path_pos : forall y, In y (map snd D0) -> Forall (fun a => 0 < fst a) (PF y) /\ is_prob (PF y);
    rv_path : forall y ys, In y (map snd D0) -> In ys (map snd (PF y)) -> length ys = length ts /\ hd vdef ys = y;
    rv_states : forall y ys, In y (map snd D0) -> In ys (map snd (PF y)) -> is_prob (K (rev ys));
    rv_law : forall F, E (joint_path ts) (fun pth => F (map fst pth) (map snd pth)) = E D0 (fun y => E (PF y) (fun ys => E (K (rev ys)) (fun us => F us (rev ys))));
    rv_post : forall g phi, E D0 (fun y => g y * E (post y) phi) = E (joint_path ts) (fun pth => g (last (map snd pth) vdef) * phi (last (map fst pth) udef)) }.
End spec.

(** ** Proofs *)
Lemma in_weight {A} (d : dist A) a : In a (map snd d) -> exists w, In (w, a) d.
Proof. intros H. apply in_map_iff in H as ([w b] & <- & H). exists w. exact H. Qed.

Section proofs.
  Context {U V : Type}.
  Variables (udef : U) (vdef : V) (P0 : dist V) (k0 : V -> dist U) (p : R -> U -> V -> dist (U * V)).
  Variables (m0 : V -> dist U) (M : V -> R -> U -> dist U) (lg : V -> V -> R -> U -> R) (veq : forall v w : V, {v = w} + {v <> w}).
  Variables (r0 : V -> U -> R) (rt : R -> U -> V -> U * V -> R).
  Hypothesis HP0 : is_prob P0.
  Hypothesis Hk0 : forall v, is_prob (k0 v).
  Hypothesis Hp : forall t u v, is_prob (p t u v).
  Hypothesis Hm0 : forall v, is_prob (m0 v).
  Hypothesis HD : density_ratio k0 p m0 M lg veq r0 rt.

  Fixpoint path_ratio (ts : list R) (u : U) (v : V) (pth : list (U * V)) : R :=
    match ts, pth with
    | t :: ((_ :: _) as ts'), z :: pth' => rt t u v z * path_ratio ts' (fst z) (snd z) pth'
    | _, _ => 1
    end.
  Definition full_ratio (ts : list R) (pth : list (U * V)) : R := match pth with z :: pth' => r0 (snd z) (fst z) * path_ratio ts (fst z) (snd z) pth' | [] => 1 end.

  Lemma path_ratio_pos ts : forall u v pth, 0 < path_ratio ts u v pth.
  Proof using HD. induction ts as [|t ts IH]; intros u v pth; [cbn; lra|]. destruct ts as [|t' ts]; [cbn; destruct pth; lra|]. destruct pth as [|z pth]; [cbn; lra|]. change (0 < rt t u v z * path_ratio (t' :: ts) (fst z) (snd z) pth). apply Rmult_lt_0_compat; [apply HD|apply IH]. Qed.
  Lemma full_ratio_pos ts pth : 0 < full_ratio ts pth.
  Proof using HD. destruct pth as [|z pth]; cbn [full_ratio]; [lra|]. apply Rmult_lt_0_compat; [apply HD|apply path_ratio_pos]. Qed.
  Lemma reverse_path_prob ts : forall u v, is_prob (reverse_path p ts u v).
  Proof using Hp. induction ts as [|t ts IH]; intros u v; [apply is_prob_dret|]. destruct ts as [|t' ts]; [apply is_prob_dret|]. cbn [reverse_path]. apply is_prob_dbind; [apply Hp|]. intros z _. apply is_prob_dmap, IH. Qed.
  Lemma joint_prob ts : is_prob (joint_path P0 k0 p ts).
  Proof using HP0 Hk0 Hp. unfold joint_path. apply is_prob_dbind; [assumption|]. intros v _. apply is_prob_dbind; [apply Hk0|]. intros u _. apply is_prob_dmap, reverse_path_prob. Qed.
  Lemma E_joint ts F : E (joint_path P0 k0 p ts) F = E P0 (fun v => E (k0 v) (fun u => E (reverse_path p ts u v) (fun pth => F ((u, v) :: pth)))).
  Proof using. clear. unfold joint_path. rewrite E_dbind. apply E_ext'. intros v. rewrite E_dbind. apply E_ext'. intros u. now rewrite E_dmap. Qed.
  Lemma E_reverse_cons t t' ts u v F : E (reverse_path p (t :: t' :: ts) u v) F = E (p t u v) (fun z => E (reverse_path p (t' :: ts) (fst z) (snd z)) (fun pth => F (z :: pth))).
  Proof using. clear. change (reverse_path p (t :: t' :: ts) u v) with (dbind (p t u v) (fun z => dmap (cons z) (reverse_path p (t' :: ts) (fst z) (snd z)))). rewrite E_dbind. apply E_ext'. intros z. now rewrite E_dmap. Qed.

  (** the model's measure on state paths, for observations vs *)
  Lemma fk_path_ratio ts : forall vs u v G, length (v :: vs) = length ts ->
    E (fk_path (fk_of M lg (step_data (v :: vs) ts)) u) G =
    E (reverse_path p ts u v) (fun pth => if list_eq_dec veq (map snd pth) vs then path_ratio ts u v pth * G (map fst pth) else 0).
  Proof using HD.
    induction ts as [|t ts IH]; intros vs u v G Hl; [discriminate Hl|]. destruct ts as [|t' ts].
    - destruct vs; [|discriminate Hl]. cbn. ring.
    - destruct vs as [|v' vs]; [discriminate Hl|]. injection Hl as Hl. change (step_data (v :: v' :: vs) (t :: t' :: ts)) with ((v', v, t) :: step_data (v' :: vs) (t' :: ts)).
      unfold fk_of. cbn [map fk_path]. rewrite E_dscale, E_dbind. fold (fk_of M lg (step_data (v' :: vs) (t' :: ts))). rewrite (dr_step _ _ _ _ _ _ _ _ HD), E_reverse_cons. apply E_ext'. intros [u' w]. cbn [fst snd].
      destruct (veq w v') as [ ->|Hw].
      + rewrite E_dmap, (IH vs u' v') by (cbn [length] in *; lia). rewrite <- E_mult_l. apply E_ext'. intros pth. cbn [map fst snd].
        destruct (list_eq_dec veq (map snd pth) vs) as [Hv|Hv]; destruct (list_eq_dec veq (v' :: map snd pth) (v' :: vs)) as [Hv'|Hv']; try congruence; [|ring].
        change (path_ratio (t :: t' :: ts) u v ((u', v') :: pth)) with (rt t u v (u', v') * path_ratio (t' :: ts) u' v' pth). ring.
      + symmetry. rewrite (E_ext' _ _ (fun _ => 0)); [apply E_zero|]. intros pth. cbn [map snd]. destruct (list_eq_dec veq (w :: map snd pth) (v' :: vs)); [congruence|reflexivity].
  Qed.
  Definition mass (v : V) : R := E P0 (fun w => if veq w v then 1 else 0).
  Lemma joint_pick ts v vs H : E (joint_path P0 k0 p ts) (fun pth => if list_eq_dec veq (map snd pth) (v :: vs) then H pth else 0) =
    mass v * E (k0 v) (fun u => E (reverse_path p ts u v) (fun pth => if list_eq_dec veq (map snd pth) vs then H ((u, v) :: pth) else 0)).
  Proof using.
    clear. rewrite E_joint. unfold mass. rewrite <- E_mult_r. apply E_ext'. intros w. destruct (veq w v) as [ ->|Hw].
    - rewrite Rmult_1_l. apply E_ext'. intros u. apply E_ext'. intros pth. cbn [map snd]. destruct (list_eq_dec veq (map snd pth) vs); destruct (list_eq_dec veq (v :: map snd pth) (v :: vs)); congruence || reflexivity.
    - rewrite Rmult_0_l. rewrite (E_ext' _ _ (fun _ => 0)); [apply E_zero|]. intros u. rewrite (E_ext' _ _ (fun _ => 0)); [apply E_zero|]. intros pth. cbn [map snd]. destruct (list_eq_dec veq (w :: map snd pth) (v :: vs)); [congruence|reflexivity].
  Qed.
  Lemma target_ratio ts v vs G : length (v :: vs) = length ts ->
    mass v * E (filter_target vdef M lg m0 (v :: vs) ts) G = E (joint_path P0 k0 p ts) (fun pth => if list_eq_dec veq (map snd pth) (v :: vs) then full_ratio ts pth * G (map fst pth) else 0).
  Proof using HD.
    intros Hl. rewrite joint_pick. f_equal. unfold filter_target, fk_measure. cbn [nth]. rewrite E_dbind, (dr_init _ _ _ _ _ _ _ _ HD). apply E_ext'. intros u. rewrite E_dscale, E_dmap, exp_0, Rmult_1_l, (fk_path_ratio ts vs u v) by assumption.
    rewrite <- E_mult_l. apply E_ext'. intros pth. cbn [full_ratio map fst snd]. destruct (list_eq_dec veq (map snd pth) vs); ring.
  Qed.

  (** chain rule and total mass *)
  Lemma path_chain ts : forall u v, E (reverse_path p ts u v) (fun pth => - ln (path_ratio ts u v pth)) = E (reverse_path p ts u v) (fun pth => path_kl p rt ts u v pth).
  Proof using HD Hp.
    induction ts as [|t ts IH]; intros u v; [cbn; rewrite ln_1; ring|]. destruct ts as [|t' ts]; [cbn; rewrite ln_1; ring|]. rewrite !E_reverse_cons.
    set (c := - E (p t u v) (fun z => ln (rt t u v z))).
    transitivity (E (p t u v) (fun z => - ln (rt t u v z) + E (reverse_path p (t' :: ts) (fst z) (snd z)) (fun pth => path_kl p rt (t' :: ts) (fst z) (snd z) pth))).
    - apply E_ext'. intros z. rewrite <- IH. rewrite <- (E_const (- ln (rt t u v z)) (reverse_path p (t' :: ts) (fst z) (snd z)) (reverse_path_prob _ _ _)) at 1. rewrite <- E_plus. apply E_ext'. intros pth.
      change (path_ratio (t :: t' :: ts) u v (z :: pth)) with (rt t u v z * path_ratio (t' :: ts) (fst z) (snd z) pth). rewrite ln_mult by (apply HD || apply path_ratio_pos). ring.
    - rewrite E_plus. replace (E (p t u v) (fun z => - ln (rt t u v z))) with c by (unfold c; rewrite (E_ext' _ (fun z => - ln (rt t u v z)) (fun z => (-1) * ln (rt t u v z))) by (intros; ring); rewrite E_mult_l; ring).
      rewrite <- (E_const c (p t u v) (Hp t u v)) at 1. rewrite <- E_plus. apply E_ext'. intros z. rewrite <- (E_const c (reverse_path p (t' :: ts) (fst z) (snd z)) (reverse_path_prob _ _ _)) at 1. rewrite <- E_plus. apply E_ext'. intros pth. reflexivity.
  Qed.
  Lemma full_chain ts : E (joint_path P0 k0 p ts) (fun pth => - ln (full_ratio ts pth)) = model_error P0 k0 p r0 rt ts.
  Proof using HD HP0 Hk0 Hp.
    unfold model_error. rewrite !E_joint, <- E_plus. apply E_ext'. intros v.
    transitivity (E (k0 v) (fun u => - ln (r0 v u) + E (reverse_path p ts u v) (fun pth => path_kl p rt ts u v pth))).
    - apply E_ext'. intros u. rewrite <- path_chain. rewrite <- (E_const (- ln (r0 v u)) (reverse_path p ts u v) (reverse_path_prob _ _ _)) at 1. rewrite <- E_plus. apply E_ext'. intros pth. cbn [full_ratio fst snd].
      rewrite ln_mult by (apply HD || apply path_ratio_pos). ring.
    - rewrite E_plus. f_equal. rewrite (E_ext' _ (fun u => - ln (r0 v u)) (fun u => (-1) * ln (r0 v u))) by (intros; ring). rewrite E_mult_l. ring.
  Qed.
  Lemma path_mass ts : forall u v, E (reverse_path p ts u v) (path_ratio ts u v) <= 1.
  Proof using HD Hp.
    induction ts as [|t ts IH]; intros u v; [cbn; lra|]. destruct ts as [|t' ts]; [cbn; lra|]. rewrite E_reverse_cons.
    apply Rle_trans with (E (p t u v) (rt t u v)); [|apply HD]. apply ResVariance.E_le; [apply Hp|]. intros z _.
    rewrite (E_ext' _ _ (fun pth => rt t u v z * path_ratio (t' :: ts) (fst z) (snd z) pth)) by reflexivity. rewrite E_mult_l. rewrite <- (Rmult_1_r (rt t u v z)) at 2. apply Rmult_le_compat_l; [left; apply HD|apply IH].
  Qed.
  Lemma full_mass ts : E (joint_path P0 k0 p ts) (full_ratio ts) <= 1.
  Proof using HD HP0 Hk0 Hp Hm0.
    rewrite E_joint. apply Rle_trans with (E P0 (fun _ => 1)); [|rewrite E_const by assumption; lra]. apply ResVariance.E_le; [apply HP0|]. intros v _.
    apply Rle_trans with (E (k0 v) (fun u => r0 v u * 1)); [|rewrite <- (dr_init _ _ _ _ _ _ _ _ HD v (fun _ => 1)), E_const by apply Hm0; lra].
    apply ResVariance.E_le; [apply Hk0|]. intros u _. cbn [full_ratio fst snd]. rewrite E_mult_l. apply Rmult_le_compat_l; [left; apply HD|apply path_mass].
  Qed.

  (** the filter's target against the true law of the states given the observations *)
  Section error.
    Variables (ts : list R) (P : dist (list V)) (K : list V -> dist (list U)).
    Hypothesis Hts : ts <> [].
    Hypothesis HI : disintegrates P0 k0 p ts P K.
    Let ratio (vs : list V) (us : list U) : R := full_ratio ts (combine us vs).

    Lemma combine_split_maps (pth : list (U * V)) : combine (map fst pth) (map snd pth) = pth.
    Proof using. clear. induction pth as [|[u v] pth IH]; [reflexivity|]. cbn. now rewrite IH. Qed.
    Lemma E_joint_paths H : E (joint_path P0 k0 p ts) H = E P (fun vs => E (K vs) (fun us => H (combine us vs))).
    Proof using HI. rewrite <- (di_law _ _ _ _ _ _ HI (fun us vs => H (combine us vs))). apply E_ext'. intros pth. now rewrite combine_split_maps. Qed.
    Lemma P_prob : is_prob P.
    Proof using HI HP0 Hk0 Hp.
      split; [eapply Forall_impl; [|exact (di_pos _ _ _ _ _ _ HI)]; cbv beta; intros; lra|]. pose proof (E_joint_paths (fun _ => 1)) as H1. rewrite E_const in H1 by apply joint_prob. transitivity (E P (fun vs => E (K vs) (fun _ => 1))).
      - apply E_ext. intros vs Hv. symmetry. apply E_const. now apply HI.
      - now symmetry.
    Qed.
    Lemma atom_pos vs : In vs (map snd P) -> 0 < E P (fun w => if list_eq_dec veq w vs then 1 else 0).
    Proof using HI.
      intros Hv. apply in_weight in Hv as (w & Hw). pose proof (di_pos _ _ _ _ _ _ HI) as HF. rewrite Forall_forall in HF. apply in_split in Hw as (l1 & l2 & ->). rewrite E_app, E_cons. destruct (list_eq_dec veq vs vs) as [_|n]; [|now destruct n].
      assert (H0 : forall l, (forall a, In a l -> 0 < fst a) -> 0 <= E l (fun w => if list_eq_dec veq w vs then 1 else 0)).
      { intros l Hl. apply E_nonneg; [apply Forall_forall; intros a Ha; left; now apply Hl|]. intros a _. destruct (list_eq_dec veq a vs); lra. }
      pose proof (HF (w, vs) ltac:(apply in_or_app; right; now left)) as Hw. cbn [fst] in Hw. pose proof (H0 l1 ltac:(intros; apply HF, in_or_app; now left)). pose proof (H0 l2 ltac:(intros; apply HF, in_or_app; right; now right)). lra.
    Qed.
    Lemma target_cond vs : In vs (map snd P) -> exists c, 0 < c /\ forall G, E (filter_target vdef M lg m0 vs ts) G = c * E (K vs) (fun us => ratio vs us * G us).
    Proof using HD HI Hts HP0.
      intros Hv. pose proof (di_len _ _ _ _ _ _ HI vs Hv) as Hl. pose proof (atom_pos vs Hv) as Ha. set (a := E P _) in Ha. destruct vs as [|v vs]; [destruct ts; [easy|discriminate Hl]|].
      assert (Eq : forall H, E (joint_path P0 k0 p ts) (fun pth => if list_eq_dec veq (map snd pth) (v :: vs) then H (map fst pth) (map snd pth) else 0) = a * E (K (v :: vs)) (fun us => H us (v :: vs))).
      { intros H. rewrite (di_law _ _ _ _ _ _ HI (fun us ws => if list_eq_dec veq ws (v :: vs) then H us ws else 0)). unfold a. rewrite <- E_mult_r. apply E_ext'. intros ws. destruct (list_eq_dec veq ws (v :: vs)) as [ ->|Hn]; [ring|]. rewrite Rmult_0_l. apply E_zero. }
      assert (M0 : 0 < mass v).
      { assert (Hge : 0 <= mass v) by (apply E_nonneg; [apply HP0|]; intros w _; destruct (veq w v); lra). destruct (Rle_lt_or_eq_dec _ _ Hge) as [h|h]; [exact h|]. exfalso. pose proof (Eq (fun _ _ => 1)) as E1. rewrite joint_pick, <- h, Rmult_0_l in E1.
        rewrite E_const in E1 by now apply HI. lra. }
      exists (a / mass v). split; [now apply Rdiv_lt_0_compat|]. intros G. pose proof (target_ratio ts v vs G Hl) as T.
      rewrite (E_ext' _ _ (fun pth => if list_eq_dec veq (map snd pth) (v :: vs) then full_ratio ts (combine (map fst pth) (map snd pth)) * G (map fst pth) else 0)) in T by (intros pth; now rewrite combine_split_maps).
      rewrite (Eq (fun us ws => full_ratio ts (combine us ws) * G us)) in T. fold (ratio (v :: vs)) in T. apply (Rmult_eq_reg_l (mass v)); [|lra]. rewrite T. unfold ratio. field. lra.
    Qed.
    Lemma filter_error phi B : (forall us, Rabs (phi us) <= B) ->
      E P (fun vs => (E (K vs) phi - E (filter_target vdef M lg m0 vs ts) phi / E (filter_target vdef M lg m0 vs ts) (fun _ => 1)) ^ 2) <= 2 * B ^ 2 * model_error P0 k0 p r0 rt ts.
    Proof using HD HI Hts HP0 Hk0 Hp Hm0.
      intros HB. pose proof P_prob as HP. apply Rle_trans with (E P (fun vs => 2 * B ^ 2 * (E (K vs) (ratio vs) - 1 - E (K vs) (fun us => ln (ratio vs us))))).
      - apply ResVariance.E_le; [apply HP|]. intros vs Hv. destruct (target_cond vs Hv) as (c & Hc & HT). rewrite !HT. pose proof (di_prob _ _ _ _ _ _ HI vs Hv) as HK.
        assert (Hr : forall us, 0 < ratio vs us) by (intros us; apply full_ratio_pos). pose proof (E_pos_fun (K vs) HK (ratio vs) Hr) as Hm. rewrite (E_ext' (K vs) (fun us => ratio vs us * 1) (ratio vs)) by (intros; ring).
        replace (c * E (K vs) (fun us => ratio vs us * phi us) / (c * E (K vs) (ratio vs))) with (E (K vs) (fun us => ratio vs us * phi us) / E (K vs) (ratio vs)) by (field; lra).
        eapply Rle_trans; [apply (pinsker (K vs) (ratio vs) HK Hr phi B HB)|]. apply Rmult_le_compat_l; [pose proof (pow2_ge_0 B); lra|]. unfold divergence. pose proof (ln_le_minus _ Hm). lra.
      - rewrite E_mult_l. apply Rmult_le_compat_l; [pose proof (pow2_ge_0 B); lra|].
        rewrite (E_ext' P _ (fun vs => E (K vs) (ratio vs) + ((-1) * 1 + (-1) * E (K vs) (fun us => ln (ratio vs us))))) by (intros; ring). rewrite !E_plus, !E_mult_l, (E_const _ P HP).
        rewrite <- full_chain. rewrite (E_ext' _ (fun pth => - ln (full_ratio ts pth)) (fun pth => (-1) * ln (full_ratio ts pth))) by (intros; ring). rewrite E_mult_l, (E_joint_paths (fun pth => ln (full_ratio ts pth))).
        pose proof full_mass ts as FM. rewrite E_joint_paths in FM. unfold ratio. lra.
    Qed.
  End error.
End proofs.

(** ** The whole experiment *)
Lemma pos_dbind {A B} (d : dist A) (k : A -> dist B) : Forall (fun a => 0 < fst a) d -> (forall a, In a (map snd d) -> Forall (fun b => 0 < fst b) (k a)) -> Forall (fun b => 0 < fst b) (dbind d k).
Proof.
  intros Hd Hk. rewrite Forall_forall in *. intros [w b] Hin. unfold dbind in Hin. apply in_flat_map in Hin as ([q a] & Ha & Hin). apply in_map_iff in Hin as ([w' b'] & Hw & Hin).
  pose proof (Hd _ Ha) as H1. specialize (Hk a (in_map snd _ _ Ha)). rewrite Forall_forall in Hk. specialize (Hk _ Hin). cbn [fst snd] in *. injection Hw as <- <-. now apply Rmult_lt_0_compat.
Qed.
Lemma pos_dmap {A B} (f : A -> B) (d : dist A) : Forall (fun a => 0 < fst a) d -> Forall (fun b => 0 < fst b) (dmap f d).
Proof. intros Hd. unfold dmap. apply Forall_map. eapply Forall_impl; [|exact Hd]. intros [w a] Hw. exact Hw. Qed.
Lemma last_rev {A} (d : A) l : last (rev l) d = hd d l.
Proof. destruct l as [|a l]; [reflexivity|]. cbn [rev hd]. apply last_last. Qed.
Lemma le_sqrt x y : x ^ 2 <= y -> x <= sqrt y.
Proof.
  intros H. destruct (Rle_lt_dec x 0) as [Hx|Hx]; [pose proof (sqrt_pos y); lra|]. rewrite <- (sqrt_pow2 x) by lra. apply sqrt_le_1; [apply pow2_ge_0| |exact H]. pose proof (pow2_ge_0 x). lra.
Qed.

Section experiment.
  Context {U V : Type}.
  Variables (udef : U) (vdef : V) (P0 : dist V) (k0 : V -> dist U) (p : R -> U -> V -> dist (U * V)).
  Variables (trans : list U -> V -> R -> key -> prog (list U)) (meas : V -> list U -> V -> R -> list R) (res : list R -> key -> prog (list nat)).
  Variables (m0 : V -> dist U) (M : V -> R -> U -> dist U) (lg : V -> V -> R -> U -> R) (veq : forall v w : V, {v = w} + {v <> w}).
  Variables (r0 : V -> U -> R) (rt : R -> U -> V -> U * V -> R).
  Hypothesis HP0 : is_prob P0.
  Hypothesis Hk0 : forall v, is_prob (k0 v).
  Hypothesis Hp : forall t u v, is_prob (p t u v).
  Hypothesis Hm0 : forall v, is_prob (m0 v).
  Hypothesis HD : density_ratio k0 p m0 M lg veq r0 rt.
  Variables (ts : list R) (D0 : dist V) (PF : V -> dist (list V)) (K : list V -> dist (list U)) (post : V -> dist U).
  Hypothesis Hts : ts <> [].
  Hypothesis HD0 : is_prob D0.
  Hypothesis HR : reverses P0 k0 p vdef ts D0 PF K post udef.

  Definition obs_law : dist (list V) := dbind D0 (fun y => dmap (@rev V) (PF y)).
  Lemma obs_in vs : In vs (map snd obs_law) -> exists y ys, In y (map snd D0) /\ In ys (map snd (PF y)) /\ vs = rev ys.
  Proof using.
    clear. unfold obs_law. intros Hin. apply EmMoments.in_dbind in Hin as (y & Hy & Hin). apply EmMoments.in_dmap in Hin as (ys & Hys & Hin). now exists y, ys.
  Qed.
  Lemma obs_disintegrates : disintegrates P0 k0 p ts obs_law K.
  Proof using HR.
    constructor.
    - apply pos_dbind; [apply HR|]. intros y Hy. apply pos_dmap. now apply HR.
    - intros vs Hv. apply obs_in in Hv as (y & ys & Hy & Hys & ->). rewrite rev_length. now apply (rv_path _ _ _ _ _ _ _ _ _ _ HR y).
    - intros vs Hv. apply obs_in in Hv as (y & ys & Hy & Hys & ->). now apply (rv_states _ _ _ _ _ _ _ _ _ _ HR y).
    - intros F. rewrite (rv_law _ _ _ _ _ _ _ _ _ _ HR). unfold obs_law. rewrite E_dbind. apply E_ext'. intros y. now rewrite E_dmap.
  Qed.
  Lemma weighted_error phi B g : (forall u, Rabs (phi u) <= B) -> (forall v, Rabs (g v) <= 1) ->
    E D0 (fun y => g y * (E (PF y) (fun ys => filter_mean udef vdef M lg m0 (rev ys) ts phi) - E (post y) phi)) <= sqrt (2 * B ^ 2 * model_error P0 k0 p r0 rt ts).
  Proof using HD HR Hts HP0 Hk0 Hp Hm0.
    intros HB Hg. apply le_sqrt. set (Phi us := phi (last us udef) : R).
    assert (Eq : E D0 (fun y => g y * (E (PF y) (fun ys => filter_mean udef vdef M lg m0 (rev ys) ts phi) - E (post y) phi)) =
      E obs_law (fun vs => g (last vs vdef) * (filter_mean udef vdef M lg m0 vs ts phi - E (K vs) Phi))).
    { rewrite (E_ext' D0 _ (fun y => g y * E (PF y) (fun ys => filter_mean udef vdef M lg m0 (rev ys) ts phi) + (-1) * (g y * E (post y) phi))) by (intros; ring).
      rewrite (E_ext' obs_law _ (fun vs => g (last vs vdef) * filter_mean udef vdef M lg m0 vs ts phi + (-1) * (g (last vs vdef) * E (K vs) Phi))) by (intros; ring). rewrite !E_plus, !E_mult_l. f_equal; [|f_equal].
      - unfold obs_law. rewrite E_dbind. apply E_ext. intros y Hy. rewrite E_dmap, <- E_mult_l. apply E_ext. intros ys Hys. rewrite last_rev. now rewrite (proj2 (rv_path _ _ _ _ _ _ _ _ _ _ HR y ys Hy Hys)).
      - rewrite (rv_post _ _ _ _ _ _ _ _ _ _ HR g phi). rewrite (di_law _ _ _ _ _ _ obs_disintegrates (fun us vs => g (last vs vdef) * phi (last us udef))). apply E_ext'. intros vs. apply E_mult_l. }
    rewrite Eq. pose proof (P_prob P0 k0 p HP0 Hk0 Hp ts obs_law K obs_disintegrates) as HO. eapply Rle_trans; [apply E_sq_le, HO|].
    eapply Rle_trans; [|apply (filter_error vdef P0 k0 p m0 M lg veq r0 rt HP0 Hk0 Hp Hm0 HD ts obs_law K Hts obs_disintegrates Phi B)]; [|intros us; apply HB].
    apply ResVariance.E_le; [apply HO|]. intros vs _. unfold filter_mean. fold Phi. set (a := E _ Phi / _). set (b := E (K vs) Phi). rewrite Rpow_mult_distr, <- (pow2_abs (g _)).
    replace ((b - a) ^ 2) with (1 * (a - b) ^ 2) by ring. apply Rmult_le_compat_r; [apply pow2_ge_0|]. specialize (Hg (last vs vdef)). pose proof (Rabs_pos (g (last vs vdef))). nra.
  Qed.
  Hypothesis Hfo : filter_ok trans meas res M lg.
  Hypothesis Hcr : consistent_res res.
  Variable r : list R -> dist (list nat).
  Hypothesis Hr : forall w k, weights_ok w -> denotes (res w k) (r w).
  Hypothesis Hv : forall w A, weights_ok w -> In A (map snd (r w)) -> valid_indices (length w) A.
  Hypothesis He : equivariant r.
  Variable init : key -> V -> nat -> prog (list U).
  Hypothesis Hinit : forall k v n, denotes (init k v n) (dseq (repeat (m0 v) n)).
  Variables (n : nat) (fwd : V -> key -> prog (list V)).
  Hypothesis Hn : (0 < n)%nat.
  Hypothesis Hfwd : forall y k, In y (map snd D0) -> denotes (fwd y k) (PF y).
  Theorem experiment_error phi B G z k : 0 < z -> 0 <= G ->
    (forall y ys, In y (map snd D0) -> In ys (map snd (PF y)) -> lik_bounded lg G (step_data (rev ys) ts) /\ z <= E (filter_target vdef M lg m0 (rev ys) ts) (fun _ => 1)) ->
    (forall u, Rabs (phi u) <= B) ->
    E D0 (fun y => Rabs (law (conditional_sampler udef vdef trans meas res (fwd y) ts init n k) phi - E (post y) phi))
    <= sqrt (2 * B ^ 2 * model_error P0 k0 p r0 rt ts) + sqrt (/ INR n * ((2 * INR (length ts - 1) + 1) * G ^ (2 * (length ts - 1)) * B ^ 2 / z ^ 2)).
  Proof using All.
    intros Hz HG Hb HB. set (mc := sqrt (/ INR n * _)). set (a y := law (conditional_sampler udef vdef trans meas res (fwd y) ts init n k) phi).
    set (m y := E (PF y) (fun ys => filter_mean udef vdef M lg m0 (rev ys) ts phi)). set (q y := E (post y) phi). set (g y := if Rle_dec 0 (m y - q y) then 1 else -1).
    apply Rle_trans with (E D0 (fun y => g y * (m y - q y) + mc)).
    - apply ResVariance.E_le; [apply HD0|]. intros y Hy. assert (H1 : Rabs (a y - m y) <= mc).
      { apply le_sqrt. rewrite pow2_abs. apply (reported_consistent udef vdef trans meas res M lg Hfo Hcr r Hr Hv He m0 Hm0 init Hinit n Hn (fwd y) (PF y) ts k G B z phi); try assumption.
        - now apply HR.
        - intros k'. now apply Hfwd.
        - intros ys Hys. destruct (Hb y ys Hy Hys). split; [assumption|]. split; [assumption|]. now apply (rv_path _ _ _ _ _ _ _ _ _ _ HR y). }
      assert (H2 : g y * (m y - q y) = Rabs (m y - q y)) by (unfold g; destruct (Rle_dec 0 (m y - q y)) as [h|h]; [rewrite Rabs_pos_eq by exact h; ring|rewrite Rabs_left by (apply Rnot_le_lt; exact h); ring]).
      change (Rabs (a y - q y) <= g y * (m y - q y) + mc). rewrite H2. replace (a y - q y) with ((a y - m y) + (m y - q y)) by ring. pose proof (Rabs_triang (a y - m y) (m y - q y)). lra.
    - rewrite E_plus, (E_const mc D0 HD0). apply Rplus_le_compat_r. apply weighted_error; [exact HB|]. intros v. unfold g. destruct (Rle_dec 0 (m v - q v)); [rewrite Rabs_R1|rewrite Rabs_left]; lra.
  Qed.
End experiment.
