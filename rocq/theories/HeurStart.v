(** How the filter experiments on the Schroedinger bridge start the noised observation path: experiments/sb/filter.py with [--x0 proper] and
    [--x0 heuristic], and the three starts of experiments/sb_imgs/supr.py. *)
From Coquelicot Require Import Coquelicot.
From Coq Require Import Reals List Bool Lia Lra.
From Verif Require ResVariance SampleStats.
From Verif Require Import Base Dist Prog Smc CsmcProofs CsmcInv SmcProofs Pmcmc FilterLimit FilterSlot Demo RevError Hygiene.
Import ListNotations.
Open Scope R_scope.

(** ** Model *)
(** experiments/sb/filter.py:134-145 [fwd_ys_sampler_proper] (x0_sampler = gp_posterior_sampler) and [fwd_ys_sampler_heuristic] (x0_sampler = standard
    normal); sb/gibbs.py:146-150 is the second; sb_imgs/supr.py:144-159, 229-233 draws x0 by random/blank/interp_x0_sampler and passes it to gibbs_init.
    [simulate] stands for [euler_maruyama(key_em, concatenate([x0_, y0]), ts, drift, dispersion, …, return_path=True)], a path of pairs (x, y);
    [[:, d:]] keeps the y part.  The draws have finite support here (Gaussians in the code). *)
Definition fwd_ys_sampler {U V} (x0_sampler : key -> prog U) (simulate : key -> U -> V -> prog (list (U * V))) (y0 : V) (k : key) : prog (list V) :=
  x0 <- x0_sampler (split_key k 0) ;;
  path <- simulate (split_key k 1) x0 y0 ;;
  Ret (map snd path).

(** ** Specification *)
Section spec.
  Context {U V : Type}.
  Variables (P0 : dist V) (k0 : V -> dist U) (p : R -> U -> V -> dist (U * V)).
  (** The data: y0 has law Dy and x0 given y0 the law post y0.  From (x0, y0) the noising makes a path with law Fwd x0 y0; the true reverse process
      (P0, k0, p) is the noising, started at the data, run backwards. *)
  Record noising (ts : list R) (Dy : dist V) (post : V -> dist U) (Fwd : U -> V -> dist (list (U * V))) : Prop := {
    no_pos : Forall (fun a => 0 < fst a) Dy;
    no_post : forall y, is_prob (post y);
    no_fwd : forall x y, is_prob (Fwd x y);
    no_start : forall x y pth, In pth (map snd (Fwd x y)) -> length pth = length ts /\ hd (x, y) pth = (x, y);
    no_law : forall F, E (joint_path P0 k0 p ts) F = E Dy (fun y => E (post y) (fun x => E (Fwd x y) (fun pth => F (rev pth)))) }.
  Variables (m0 : V -> dist U) (M : V -> R -> U -> dist U) (lg : V -> V -> R -> U -> R).
  Variable veq : forall v w : V, {v = w} + {v <> w}.
  (** the filter uses the true reverse process (the densities of the model relative to it are 1) *)
  Definition exact_reverse : Prop := density_ratio k0 p m0 M lg veq (fun _ _ => 1) (fun _ _ _ _ => 1).
  (** law of the noised observation path when x0 is drawn from nu *)
  Definition obs_path (Fwd : U -> V -> dist (list (U * V))) (nu : dist U) (y : V) : dist (list V) := dbind nu (fun x => dmap (map snd) (Fwd x y)).
  (** nu and pi are at most delta apart in total variation *)
  Definition tv_within (nu pi : dist U) (delta : R) : Prop := forall h b, (forall x, Rabs (h x) <= b) -> Rabs (E nu h - E pi h) <= 2 * delta * b.
  (** a share eps of the noised observation path does not depend on x0 *)
  Definition path_overlap (Fwd : U -> V -> dist (list (U * V))) (y : V) (eps : R) : Prop :=
    exists q : dist (list V), is_prob q /\ forall x h, (forall vs, 0 <= h vs) -> eps * E q h <= E (Fwd x y) (fun pth => h (map snd pth)).
End spec.

(** ** Proofs *)
Lemma E_ext_nz {A} (d : dist A) f g : (forall w a, In (w, a) d -> w = 0 \/ f a = g a) -> E d f = E d g.
Proof.
  induction d as [|[w a] d IH]; intros H; [reflexivity|]. rewrite !E_cons, IH by (intros; apply H; now right).
  destruct (H w a (or_introl eq_refl)) as [ ->| ->]; ring.
Qed.
Lemma atom_mass {A} (d : dist A) (f : A -> R) w a : Forall (fun b => 0 <= fst b) d -> (forall b, 0 <= f b) -> f a = 1 -> In (w, a) d -> w <= E d f.
Proof.
  intros Hd Hf Ha Hin. apply in_split in Hin as (l1 & l2 & ->). apply Forall_app in Hd as [H1 H2]. inversion H2; subst. rewrite E_app, E_cons, Ha.
  pose proof (E_nonneg l1 f H1 (fun b _ => Hf b)). pose proof (E_nonneg l2 f ltac:(assumption) (fun b _ => Hf b)). lra.
Qed.

Lemma supp_dbind {A B} (d : dist A) (k : A -> dist B) b : In b (map snd (dbind d k)) -> exists a, In a (map snd d) /\ In b (map snd (k a)).
Proof.
  intros H. apply in_map_iff in H as ([w c] & <- & H). unfold dbind in H. apply in_flat_map in H as ([w1 a] & H1 & H2). apply in_map_iff in H2 as ([w2 c2] & E2 & H2).
  cbn [fst snd] in *. injection E2 as _ <-. exists a. split; apply in_map_iff; [now exists (w1, a)|now exists (w2, c2)].
Qed.
Lemma supp_dmap {A B} (g : A -> B) (d : dist A) b : In b (map snd (dmap g d)) -> exists a, In a (map snd d) /\ g a = b.
Proof.
  intros H. apply in_map_iff in H as ([w c] & <- & H). unfold dmap in H. apply in_map_iff in H as ([w1 a] & E1 & H). cbn [fst snd] in *. injection E1 as _ <-. exists a. split; [|reflexivity]. apply in_map_iff. now exists (w1, a).
Qed.

Section proofs.
  Context {U V : Type}.
  Variables (udef : U) (vdef : V) (P0 : dist V) (k0 : V -> dist U) (p : R -> U -> V -> dist (U * V)).
  Variables (m0 : V -> dist U) (M : V -> R -> U -> dist U) (lg : V -> V -> R -> U -> R) (veq : forall v w : V, {v = w} + {v <> w}).
  Hypothesis HP0 : is_prob P0.
  Hypothesis Hk0 : forall v, is_prob (k0 v).
  Hypothesis Hp : forall t u v, is_prob (p t u v).
  Hypothesis HX : exact_reverse k0 p m0 M lg veq.
  Variable ts : list R.
  Hypothesis Hts : ts <> [].
  Local Notation FM := (filter_mean udef vdef M lg m0).
  Local Notation J := (joint_path P0 k0 p ts).

  Lemma reverse_path_len l : forall u v pth, l <> [] -> In pth (map snd (reverse_path p l u v)) -> S (length pth) = length l.
  Proof using.
    clear. induction l as [|t l IH]; intros u v pth Hl Hin; [easy|]. destruct l as [|t' l]; [destruct Hin as [<-|[]]; reflexivity|].
    change (reverse_path p (t :: t' :: l) u v) with (dbind (p t u v) (fun z => dmap (cons z) (reverse_path p (t' :: l) (fst z) (snd z)))) in Hin.
    apply supp_dbind in Hin as (z & _ & Hin). apply supp_dmap in Hin as (q & Hin & <-). cbn [length]. f_equal. now apply (IH (fst z) (snd z) q).
  Qed.
  Lemma joint_len pth : In pth (map snd J) -> length pth = length ts.
  Proof using Hts.
    intros H. unfold joint_path in H. apply supp_dbind in H as (v & _ & H). apply supp_dbind in H as (u & _ & H). apply supp_dmap in H as (q & H & <-). cbn [length]. now apply (reverse_path_len ts u v q).
  Qed.
  Lemma full_ratio_one l pth : full_ratio (fun _ _ => 1) (fun (_ : R) (_ : U) (_ : V) (_ : U * V) => 1) l pth = 1.
  Proof using.
    clear. destruct pth as [|z pth]; [reflexivity|]. cbn [full_ratio]. rewrite Rmult_1_l. generalize (fst z) (snd z). revert pth. induction l as [|t l IH]; intros pth u v; [reflexivity|]. destruct l as [|t' l]; [reflexivity|].
    destruct pth as [|y pth]; [reflexivity|]. change (1 * path_ratio (fun (_ : R) (_ : U) (_ : V) (_ : U * V) => 1) (t' :: l) (fst y) (snd y) pth = 1). rewrite IH. ring.
  Qed.
  Let cell (vs : list V) (G : list U -> R) : R := E J (fun pth => if list_eq_dec veq (map snd pth) vs then G (map fst pth) else 0).
  Lemma exact_target v vs G : length (v :: vs) = length ts -> mass P0 veq v * E (filter_target vdef M lg m0 (v :: vs) ts) G = cell (v :: vs) G.
  Proof using HX.
    intros Hl. rewrite (target_ratio vdef P0 k0 p m0 M lg veq _ _ HX ts v vs G Hl). apply E_ext'. intros pth. rewrite full_ratio_one, Rmult_1_l. reflexivity.
  Qed.
  (** given the observation path, the final state has the filtering law *)
  Lemma exact_filter (g : list V -> R) phi :
    E J (fun pth => g (map snd pth) * phi (last (map fst pth) udef)) = E J (fun pth => g (map snd pth) * FM (map snd pth) ts phi).
  Proof using HX HP0 Hk0 Hp Hts.
    set (a vs := cell vs (fun _ => 1)). pose proof (joint_prob P0 k0 p HP0 Hk0 Hp ts) as HJ.
    assert (Ha : forall w pth, In (w, pth) J -> w = 0 \/ 0 < a (map snd pth)).
    { intros w pth Hin. pose proof (proj1 HJ) as HF. rewrite Forall_forall in HF. pose proof (HF _ Hin) as Hw. cbn [fst] in Hw. destruct (Rle_lt_or_eq_dec _ _ Hw) as [h|h]; [right|now left].
      apply Rlt_le_trans with w; [exact h|]. apply (atom_mass J _ w pth (proj1 HJ)); [|now destruct (list_eq_dec veq (map snd pth) (map snd pth))|exact Hin].
      intros b. destruct (list_eq_dec veq (map snd b) (map snd pth)); lra. }
    symmetry. transitivity (E J (fun pth => E J (fun pth' => if list_eq_dec veq (map snd pth') (map snd pth) then g (map snd pth) / a (map snd pth) * phi (last (map fst pth') udef) else 0))).
    - apply E_ext_nz. intros w pth Hin. destruct (Ha w pth Hin) as [h|h]; [now left|right].
      assert (Hl : length (map snd pth) = length ts) by (rewrite map_length; apply joint_len; apply in_map_iff; now exists (w, pth)).
      destruct (map snd pth) as [|v vs] eqn:Ev; [destruct ts; [easy|discriminate Hl]|].
      pose proof (exact_target v vs (fun _ => 1) Hl) as T1. fold (a (v :: vs)) in T1. pose proof (exact_target v vs (fun us => phi (last us udef)) Hl) as T2.
      assert (Hm : mass P0 veq v <> 0) by (intros Hm; rewrite Hm, Rmult_0_l in T1; lra).
      assert (HT : E (filter_target vdef M lg m0 (v :: vs) ts) (fun _ => 1) <> 0) by (intros h1; rewrite h1, Rmult_0_r in T1; lra).
      unfold filter_mean. transitivity (g (v :: vs) / a (v :: vs) * cell (v :: vs) (fun us => phi (last us udef))).
      + rewrite <- T2, <- T1. field. now split.
      + unfold cell. rewrite <- E_mult_l. apply E_ext'. intros b. destruct (list_eq_dec veq (map snd b) (v :: vs)); ring.
    - rewrite E_exchange. apply E_ext_nz. intros w pth Hin. destruct (Ha w pth Hin) as [h|h]; [now left|right].
      transitivity (g (map snd pth) / a (map snd pth) * phi (last (map fst pth) udef) * cell (map snd pth) (fun _ => 1)); [|fold (a (map snd pth)); field; lra].
      unfold cell. rewrite <- E_mult_l. apply E_ext'. intros b.
      destruct (list_eq_dec veq (map snd pth) (map snd b)) as [e|n]; destruct (list_eq_dec veq (map snd b) (map snd pth)) as [e'|n']; try congruence; [rewrite e'|]; ring.
  Qed.

  Section start.
    Variables (Dy : dist V) (post : V -> dist U) (Fwd : U -> V -> dist (list (U * V))).
    Hypothesis HN : noising P0 k0 p ts Dy post Fwd.

    Lemma E_obs_path nu y h : E (obs_path Fwd nu y) h = E nu (fun x => E (Fwd x y) (fun pth => h (map snd pth))).
    Proof using. clear. unfold obs_path. rewrite E_dbind. apply E_ext'. intros x. now rewrite E_dmap. Qed.
    Lemma obs_path_prob nu y : is_prob nu -> is_prob (obs_path Fwd nu y).
    Proof using HN. intros Hnu. apply is_prob_dbind; [exact Hnu|]. intros x _. apply is_prob_dmap, HN. Qed.
    Lemma obs_path_in nu y vs : In vs (map snd (obs_path Fwd nu y)) -> exists x pth, In x (map snd nu) /\ In pth (map snd (Fwd x y)) /\ vs = map snd pth.
    Proof using. clear. intros H. apply supp_dbind in H as (x & Hx & H). apply supp_dmap in H as (pth & H & <-). now exists x, pth. Qed.

    (** x0 drawn from the posterior: the filtering law, averaged over the path, is the posterior *)
    Lemma proper_start y phi : In y (map snd Dy) -> E (obs_path Fwd (post y) y) (fun ys => FM (rev ys) ts phi) = E (post y) phi.
    Proof using HX HP0 Hk0 Hp Hts HN.
      intros Hy. set (ind z := if veq z y then 1 else 0).
      pose proof (exact_filter (fun vs => ind (last vs vdef)) phi) as Q. cbv beta in Q. rewrite !(no_law _ _ _ _ _ _ _ HN) in Q.
      assert (Hlast : forall x z pth, In pth (map snd (Fwd x z)) -> last (map snd (rev pth)) vdef = z /\ last (map fst (rev pth)) udef = x).
      { intros x z pth Hin. destruct (no_start _ _ _ _ _ _ _ HN x z pth Hin) as [Hl Hh]. destruct pth as [|z0 pth]; [destruct ts; [easy|discriminate Hl]|]. cbn [hd] in Hh. subst z0.
        cbn [rev]. rewrite !map_app. cbn [map fst snd]. now rewrite !last_last. }
      rewrite (E_ext' Dy _ (fun z => ind z * E (post z) phi)) in Q.
      2:{ intros z. rewrite <- E_mult_l. apply E_ext'. intros x. rewrite (E_ext _ _ (fun _ => ind z * phi x)); [apply E_const, HN|]. intros pth Hin. destruct (Hlast x z pth Hin) as [-> ->]. reflexivity. }
      rewrite (E_ext' Dy (fun z => E (post z) (fun x => E (Fwd x z) (fun pth => ind (last (map snd (rev pth)) vdef) * FM (map snd (rev pth)) ts phi))) (fun z => ind z * E (obs_path Fwd (post z) z) (fun ys => FM (rev ys) ts phi))) in Q.
      2:{ intros z. rewrite E_obs_path, <- E_mult_l. apply E_ext'. intros x. rewrite <- E_mult_l. apply E_ext. intros pth Hin. destruct (Hlast x z pth Hin) as [-> _]. now rewrite map_rev. }
      assert (Hpick : forall f : V -> R, E Dy (fun z => ind z * f z) = f y * E Dy ind).
      { intros f. rewrite <- E_mult_l. apply E_ext'. intros z. unfold ind. destruct (veq z y) as [ ->|]; ring. }
      rewrite !Hpick in Q. apply in_weight in Hy as (w & Hw).
      assert (Hpos : 0 < E Dy ind).
      { pose proof (no_pos _ _ _ _ _ _ _ HN) as HF. rewrite Forall_forall in HF. apply Rlt_le_trans with w; [exact (HF _ Hw)|]. apply (atom_mass Dy ind w y); [|unfold ind; intros b; destruct (veq b y); lra|unfold ind; now destruct (veq y y)|exact Hw].
        apply Forall_forall. intros b Hb. left. now apply HF. }
      apply (Rmult_eq_reg_r (E Dy ind)); [now symmetry|lra].
    Qed.

    (** any other start *)
    Lemma start_error y nu delta eps h B : is_prob nu -> tv_within nu (post y) delta -> path_overlap Fwd y eps -> (forall vs, Rabs (h vs) <= B) ->
      Rabs (E (obs_path Fwd nu y) h - E (obs_path Fwd (post y) y) h) <= 2 * delta * ((1 - eps) * B).
    Proof using HN.
      intros Hnu Htv (q & Hq & Hov) HB. rewrite !E_obs_path. set (K x := E (Fwd x y) (fun pth => h (map snd pth))). set (c := eps * E q h).
      assert (HK : forall x, Rabs (K x - c) <= (1 - eps) * B).
      { intros x. assert (Hb : forall vs, - B <= h vs <= B) by (intros vs; specialize (HB vs); unfold Rabs in HB; destruct (Rcase_abs (h vs)); lra).
        pose proof (Hov x (fun vs => B + 1 * h vs) ltac:(intros vs; cbv beta; specialize (Hb vs); lra)) as L1. pose proof (Hov x (fun vs => B + (-1) * h vs) ltac:(intros vs; cbv beta; specialize (Hb vs); lra)) as L2. cbv beta in L1, L2.
        rewrite !E_plus, !E_mult_l, !E_const in L1, L2 by (exact Hq || apply HN). fold (K x) in L1, L2. unfold c. apply Rabs_le. lra. }
      replace (E nu K - E (post y) K) with (E nu (fun x => K x - c) - E (post y) (fun x => K x - c)).
      - now apply Htv.
      - rewrite (E_ext' nu (fun x => K x - c) (fun x => K x + (-1) * c)), (E_ext' (post y) (fun x => K x - c) (fun x => K x + (-1) * c)) by (intros; ring).
        rewrite !E_plus, !E_const by (exact Hnu || apply HN). ring.
    Qed.
  End start.
End proofs.

(** ** The experiment *)
Section experiment.
  Context {U V : Type}.
  Variables (udef : U) (vdef : V).
  Variables (trans : list U -> V -> R -> key -> prog (list U)) (meas : V -> list U -> V -> R -> list R) (res : list R -> key -> prog (list nat)).
  Variables (m0 : V -> dist U) (M : V -> R -> U -> dist U) (lg : V -> V -> R -> U -> R).
  Hypothesis Hm0 : forall v, is_prob (m0 v).
  Hypothesis Hfo : filter_ok trans meas res M lg.
  Local Notation FM := (filter_mean udef vdef M lg m0).

  Lemma fk_final_bound sd phi B : (forall u, Rabs (phi u) <= B) -> forall u, Rabs (fk_final M lg sd phi u) <= B * fk_final M lg sd (fun _ => 1) u.
  Proof using Hfo.
    intros HB. induction sd as [|[[v vp] t] sd IH]; intros u.
    - unfold fk_final. cbn [fk_of map fk_path]. rewrite !E_dret. cbn [last]. specialize (HB u). lra.
    - rewrite !fk_final_cons, Rabs_mult, (Rabs_pos_eq (exp _)) by (left; apply exp_pos). replace (B * (exp (lg v vp t u) * E (M vp t u) (fk_final M lg sd (fun _ => 1)))) with (exp (lg v vp t u) * E (M vp t u) (fun u' => B * fk_final M lg sd (fun _ => 1) u')) by (rewrite E_mult_l; ring).
      apply Rmult_le_compat_l; [left; apply exp_pos|]. assert (HM : is_prob (M vp t u)) by apply Hfo. eapply Rle_trans; [apply (SampleStats.E_abs_lower _ _ HM)|]. apply ResVariance.E_le; [apply HM|]. intros u' _. apply IH.
  Qed.
  Lemma filter_mean_bound vs ts phi B : (forall u, Rabs (phi u) <= B) -> Rabs (FM vs ts phi) <= B.
  Proof using Hfo Hm0.
    intros HB. unfold filter_mean. pose proof (target_mass_pos udef vdef trans meas res M lg Hfo m0 Hm0 vs ts) as Z. set (T1 := E (filter_target vdef M lg m0 vs ts) (fun _ => 1)) in *.
    unfold Rdiv. rewrite Rabs_mult, (Rabs_pos_eq (/ T1)) by (left; now apply Rinv_0_lt_compat). apply (Rmult_le_reg_r T1); [exact Z|]. rewrite Rmult_assoc, Rinv_l, Rmult_1_r by lra.
    assert (HT : T1 = E (m0 (nth 0 vs vdef)) (fk_final M lg (step_data vs ts) (fun _ => 1))) by (unfold T1; apply (filter_target_final udef vdef M lg m0 vs ts (fun _ => 1))).
    rewrite HT, filter_target_final, <- E_mult_l.
    eapply Rle_trans; [apply SampleStats.E_abs_lower, Hm0|]. apply ResVariance.E_le; [apply Hm0|]. intros u _. now apply fk_final_bound.
  Qed.

  Variables (Fwd : U -> V -> dist (list (U * V))) (simulate : key -> U -> V -> prog (list (U * V))).
  Hypothesis Hsim : forall k x y, denotes (simulate k x y) (Fwd x y).
  Lemma fwd_ys_law nu x0_sampler y k : (forall k, denotes (x0_sampler k) nu) -> denotes (fwd_ys_sampler x0_sampler simulate y k) (obs_path Fwd nu y).
  Proof using Hsim.
    intros Hx F. unfold fwd_ys_sampler. rewrite law_bind, (Hx _ _), E_obs_path. apply E_ext'. intros x. rewrite law_bind, (Hsim _ _ _ _). reflexivity.
  Qed.
  (** separable noising: the start does not matter *)
  Lemma start_irrelevant nu nu' xs xs' y ts init n k phi : is_prob nu -> is_prob nu' -> (forall k, denotes (xs k) nu) -> (forall k, denotes (xs' k) nu') ->
    (forall x x' h, E (Fwd x y) (fun pth => h (map snd pth)) = E (Fwd x' y) (fun pth => h (map snd pth))) ->
    law (conditional_sampler udef vdef trans meas res (fwd_ys_sampler xs simulate y) ts init n k) phi = law (conditional_sampler udef vdef trans meas res (fwd_ys_sampler xs' simulate y) ts init n k) phi.
  Proof using Hsim.
    intros Hnu Hnu' Hx Hx' Hsep. unfold conditional_sampler. rewrite !law_bind, (fwd_ys_law nu xs y _ Hx _), (fwd_ys_law nu' xs' y _ Hx' _), !E_obs_path.
    rewrite (E_ext' nu _ (fun _ => E (Fwd udef y) (fun pth => law (r <- bootstrap_filter udef vdef trans meas res (rev (map snd pth)) ts init (split_key k 2) n true true;; Ret (nth 0 (last (fst r) []) udef)) phi))).
    2:{ intros x. apply (Hsep x udef (fun vs => law (r <- bootstrap_filter udef vdef trans meas res (rev vs) ts init (split_key k 2) n true true;; Ret (nth 0 (last (fst r) []) udef)) phi)). }
    rewrite (E_ext' nu' _ (fun _ => E (Fwd udef y) (fun pth => law (r <- bootstrap_filter udef vdef trans meas res (rev (map snd pth)) ts init (split_key k 2) n true true;; Ret (nth 0 (last (fst r) []) udef)) phi))).
    2:{ intros x. apply (Hsep x udef (fun vs => law (r <- bootstrap_filter udef vdef trans meas res (rev vs) ts init (split_key k 2) n true true;; Ret (nth 0 (last (fst r) []) udef)) phi)). }
    now rewrite !E_const.
  Qed.

  Hypothesis Hcr : consistent_res res.
  Variable r : list R -> dist (list nat).
  Hypothesis Hr : forall w k, weights_ok w -> denotes (res w k) (r w).
  Hypothesis Hv : forall w A, weights_ok w -> In A (map snd (r w)) -> valid_indices (length w) A.
  Hypothesis He : equivariant r.
  Variable init : key -> V -> nat -> prog (list U).
  Hypothesis Hinit : forall k v n, denotes (init k v n) (dseq (repeat (m0 v) n)).
  Variables (P0 : dist V) (k0 : V -> dist U) (p : R -> U -> V -> dist (U * V)) (veq : forall v w : V, {v = w} + {v <> w}).
  Hypothesis HP0 : is_prob P0.
  Hypothesis Hk0 : forall v, is_prob (k0 v).
  Hypothesis Hp : forall t u v, is_prob (p t u v).
  Hypothesis HX : exact_reverse k0 p m0 M lg veq.
  Variables (ts : list R) (Dy : dist V) (post : V -> dist U).
  Hypothesis Hts : ts <> [].
  Hypothesis HN : noising P0 k0 p ts Dy post Fwd.

  Theorem start_experiment nu xs y n k phi B G z delta eps : is_prob nu -> (forall k, denotes (xs k) nu) -> In y (map snd Dy) -> (0 < n)%nat ->
    tv_within nu (post y) delta -> path_overlap Fwd y eps -> 0 < z -> 0 <= G ->
    (forall x pth, In x (map snd nu) -> In pth (map snd (Fwd x y)) -> let vs := rev (map snd pth) in
       lik_bounded lg G (step_data vs ts) /\ z <= E (filter_target vdef M lg m0 vs ts) (fun _ => 1)) -> (forall u, Rabs (phi u) <= B) ->
    Rabs (law (conditional_sampler udef vdef trans meas res (fwd_ys_sampler xs simulate y) ts init n k) phi - E (post y) phi)
    <= 2 * delta * ((1 - eps) * B) + sqrt (/ INR n * ((2 * INR (length ts - 1) + 1) * G ^ (2 * (length ts - 1)) * B ^ 2 / z ^ 2)).
  Proof using Hm0 Hfo Hsim Hcr r Hr Hv He Hinit HP0 Hk0 Hp HX Hts HN.
    intros Hnu Hx Hy Hn Htv Hov Hz HG Hb HB.
    pose proof (reported_consistent udef vdef trans meas res M lg Hfo Hcr r Hr Hv He m0 Hm0 init Hinit n Hn (fwd_ys_sampler xs simulate y) (obs_path Fwd nu y) ts k G B z phi
      (obs_path_prob P0 k0 p ts Dy post Fwd HN nu y Hnu) (fun k => fwd_ys_law nu xs y k Hx) Hz HG) as MC.
    pose proof (start_error P0 k0 p ts Dy post Fwd HN y nu delta eps (fun ys => FM (rev ys) ts phi) B Hnu Htv Hov (fun vs => filter_mean_bound (rev vs) ts phi B HB)) as SE.
    rewrite (proper_start udef vdef P0 k0 p m0 M lg veq HP0 Hk0 Hp HX ts Hts Dy post Fwd HN y phi Hy) in SE.
    set (L := law _ phi) in *. set (m := E (obs_path Fwd nu y) _) in *. replace (L - E (post y) phi) with ((m - E (post y) phi) + (L - m)) by ring.
    eapply Rle_trans; [apply Rabs_triang|]. apply Rplus_le_compat; [exact SE|]. apply le_sqrt. rewrite pow2_abs. apply MC; [|exact HB].
    intros ys Hin. apply obs_path_in in Hin as (x & pth & Hx1 & Hx2 & ->). destruct (Hb x pth Hx1 Hx2) as [H1 H2]. split; [exact H1|]. split; [exact H2|]. rewrite map_length. now apply (no_start _ _ _ _ _ _ _ HN x y).
  Qed.
End experiment.

(** ** A model in which the start matters: the noising replaces y by x with probability a and by the other value otherwise *)
Definition hs_keep (a : R) (b : bool) : dist bool := [(a, b); (1 - a, negb b)].
Definition hs_Fwd (a : R) (x y : bool) : dist (list (bool * bool)) := dbind coin (fun u => dmap (fun v => [(x, y); (u, v)]) (hs_keep a x)).
Definition hs_p (a t : R) (u v : bool) : dist (bool * bool) := dbind (hs_keep a v) (fun x => dmap (fun y => (x, y)) coin).
Definition hs_M (a : R) (v : bool) (t : R) (u : bool) : dist bool := hs_keep a v.
Definition hs_lg (v' v : bool) (t : R) (u : bool) : R := ln (1/2).
Definition hs_trans (a : R) (us : list bool) (v : bool) (t : R) (k : key) : prog (list bool) := fin_draws false k 0 (map (hs_M a v t) us).
Definition hs_lik (v' : bool) (us : list bool) (v : bool) (t : R) : list R := map (hs_lg v' v t) us.
Definition hs_init (k : key) (v : bool) (n : nat) : prog (list bool) := fin_draws false k 0 (repeat coin n).
Definition hs_sim (a : R) (k : key) (x y : bool) : prog (list (bool * bool)) :=
  u <- fin_draw false (split_key k 0) coin ;; v <- fin_draw false (split_key k 1) (hs_keep a x) ;; Ret [(x, y); (u, v)].
Definition hs_nu : dist bool := [(3/4, true); (1/4, false)].
Definition hs_sign (b : bool) : R := if b then 1 else -1.

Section model.
  Variable a : R.
  Hypothesis Ha : 1/2 <= a <= 1.
  Lemma hs_keep_prob b : is_prob (hs_keep a b).
  Proof using Ha. split; [repeat (apply Forall_cons; [cbn; lra|]); apply Forall_nil|]. unfold hs_keep. rewrite !E_cons, E_nil. lra. Qed.
  Lemma hs_Fwd_prob x y : is_prob (hs_Fwd a x y).
  Proof using Ha. apply is_prob_dbind; [apply coin_prob|]. intros. apply is_prob_dmap, hs_keep_prob. Qed.
  Lemma hs_p_prob t u v : is_prob (hs_p a t u v).
  Proof using Ha. apply is_prob_dbind; [apply hs_keep_prob|]. intros. apply is_prob_dmap, coin_prob. Qed.
  Lemma hs_exact : exact_reverse (fun _ => coin) (hs_p a) (fun _ => coin) (hs_M a) hs_lg bool_dec.
  Proof using Ha.
    constructor; try (intros; lra).
    - intros v F. apply E_ext'. intros; ring.
    - intros t u v v' F. unfold hs_p, hs_M, hs_keep, hs_lg, coin. rewrite exp_ln by lra. unfold E, dbind, dmap. cbn. destruct v'; cbn; lra.
    - intros t u v. rewrite E_const by apply hs_p_prob. lra.
  Qed.
  Lemma hs_noising : noising coin (fun _ => coin) (hs_p a) [0; 1] coin (fun _ => coin) (hs_Fwd a).
  Proof using Ha.
    constructor.
    - repeat constructor; cbn; lra.
    - intros. apply coin_prob.
    - apply hs_Fwd_prob.
    - intros x y pth H. apply supp_dbind in H as (u & _ & H). apply supp_dmap in H as (v & _ & <-). split; reflexivity.
    - intros F. unfold E, joint_path, reverse_path, hs_p, hs_Fwd, hs_keep, coin, dbind, dmap, dret. cbn. lra.
  Qed.
  Lemma hs_sim_law k x y : denotes (hs_sim a k x y) (hs_Fwd a x y).
  Proof using Ha.
    intros F. unfold hs_sim, hs_Fwd. rewrite law_bind, (fin_draw_denotes false _ _ _), E_dbind. apply E_ext'. intros u. rewrite law_bind, (fin_draw_denotes false _ _ _), E_dmap. reflexivity.
  Qed.
  Lemma hs_ok res : good_res res -> filter_ok (hs_trans a) hs_lik res (hs_M a) hs_lg.
  Proof using Ha. intros Hr. constructor; [intros; apply hs_keep_prob|intros; apply fin_draws_denotes|reflexivity|exact Hr]. Qed.
  Lemma hs_overlap y : path_overlap (hs_Fwd a) y (2 * (1 - a)).
  Proof using Ha.
    exists (dmap (fun v => [y; v]) coin). split; [apply is_prob_dmap, coin_prob|]. intros x h Hh. pose proof (Hh [y; true]). pose proof (Hh [y; false]).
    unfold hs_Fwd, hs_keep, coin, E, dbind, dmap. cbn. destruct x; cbn; nra.
  Qed.
  Lemma hs_tv : tv_within hs_nu coin (1/4).
  Proof using.
    intros h b Hb. pose proof (Hb true) as H1. pose proof (Hb false) as H2. unfold hs_nu, coin. rewrite !E_cons, !E_nil.
    apply Rabs_le. unfold Rabs in H1, H2. destruct (Rcase_abs (h true)), (Rcase_abs (h false)); lra.
  Qed.
  Lemma hs_target vs : length vs = 2%nat -> E (filter_target false (hs_M a) hs_lg (fun _ => coin) vs [0; 1]) (fun _ => 1) = 1/2.
  Proof using Ha.
    intros Hl. destruct vs as [|v [|v' [|]]]; try discriminate Hl. change (fun _ : list bool => 1) with (fun q : list bool => (fun _ : bool => 1) (last q false)). rewrite (filter_target_final false).
    cbn [step_data nth]. rewrite (E_ext' _ _ (fun _ => 1/2)); [apply E_const, coin_prob|]. intros u. rewrite fk_final_cons. unfold hs_lg. rewrite exp_ln by lra.
    rewrite (E_ext' _ _ (fun _ => 1)); [rewrite E_const by apply hs_keep_prob; lra|]. intros u'. unfold fk_final. cbn [fk_of map fk_path]. now rewrite E_dret.
  Qed.

  Lemma E_dseq_slot {A} (dflt : A) (d : dist A) n : is_prob d -> forall i f, (i < n)%nat -> E (dseq (repeat d n)) (fun l => f (nth i l dflt)) = E d f.
  Proof using.
    clear. intros Hd. induction n as [|n IH]; intros i f Hi; [lia|]. cbn [repeat]. rewrite E_dseq_cons. destruct i as [|i].
    - apply E_ext'. intros b. cbn [nth]. apply E_const. apply is_prob_dseq. apply Forall_forall. intros e He. apply repeat_spec in He. now subst.
    - rewrite (E_ext' d _ (fun _ => E d f)); [now apply E_const|]. intros b. cbn [nth]. apply IH. lia.
  Qed.
  (** the reported sample, for any number of particles *)
  Lemma hs_value res xs y n k phi : consistent_res res -> (forall k, denotes (xs k) hs_nu) -> (0 < n)%nat ->
    law (conditional_sampler false false (hs_trans a) hs_lik res (fwd_ys_sampler xs (hs_sim a) y) [0; 1] hs_init n k) phi = E hs_nu (fun x => E (hs_keep a x) (fun v => E (hs_keep a v) phi)).
  Proof using Ha.
    intros Hcr Hxs Hn. unfold conditional_sampler. rewrite law_bind, (fwd_ys_law (hs_Fwd a) (hs_sim a) hs_sim_law hs_nu xs y _ Hxs _), E_obs_path.
    apply E_ext'. intros x. unfold hs_Fwd. rewrite E_dbind. rewrite (E_ext' coin _ (fun _ => E (hs_keep a x) (fun v => E (hs_keep a v) phi))); [apply E_const, coin_prob|]. intros u0. rewrite E_dmap. apply E_ext'. intros v.
    cbn [map snd rev app]. rewrite law_bind. unfold bootstrap_filter. rewrite law_bind. unfold hs_init. rewrite (fin_draws_denotes false _ _ _ _).
    assert (Hin : forall us, length us = n -> law (' (last_samples, nell, filtering_samples) <- bf_scan false (hs_trans a) hs_lik res n (split_key (split_key k 2) 1) 0 (filter_inputs [v; y] [0; 1]) (us, 0) ;; Ret (if true then [last_samples] else us :: filtering_samples, nell))
       (fun r => law (Ret (nth 0 (last (fst r) []) false)) phi) = E (hs_keep a v) phi).
    { intros us Hus. cbn [filter_inputs bf_scan]. rewrite law_bind. unfold bf_body at 1. rewrite !law_bind. unfold hs_trans at 1. rewrite (fin_draws_denotes false _ _ _ _).
      assert (Hrep : map (hs_M a v 0) us = repeat (hs_keep a v) n) by (rewrite <- Hus; clear; induction us as [|b us IH]; [reflexivity|]; cbn [map length repeat]; now rewrite IH). rewrite Hrep.
      set (w := map exp _). assert (Hw : weights_ok w /\ length w = n).
      { split; [apply (normalise_ok (hs_lik y us v 0)); unfold hs_lik; destruct us; [cbn in Hus; lia|discriminate]|]. unfold w, hs_lik. now rewrite !map_length. }
      destruct Hw as [Hw Hwl]. destruct (cr_laws _ Hcr w Hw) as (d & Hd & Hlaw & Hval).
      transitivity (E (dseq (repeat (hs_keep a v) n)) (fun us' => E d (fun A => phi (nth (nth 0 A 0%nat) us' false)))).
      - apply E_ext'. intros us'. rewrite law_bind, Hlaw. apply E_ext. intros A HA. cbn [law bind fst snd last]. destruct (Hval A HA) as [HA1 _]. unfold gather. destruct A as [|i A]; [rewrite Hwl in HA1; cbn in HA1; lia|]. reflexivity.
      - rewrite E_exchange. rewrite (E_ext d _ (fun _ => E (hs_keep a v) phi)); [now apply E_const|]. intros A HA. apply E_dseq_slot; [apply hs_keep_prob|]. destruct (Hval A HA) as [HA1 HA2]. rewrite Hwl in HA1, HA2. rewrite Forall_forall in HA2. apply HA2. apply nth_In. lia. }
    rewrite (E_ext _ _ (fun _ => E (hs_keep a v) phi)).
    - apply E_const, is_prob_dseq. apply Forall_forall. intros e He. apply repeat_spec in He. subst. apply coin_prob.
    - intros us Hus. apply Hin. apply dseq_length in Hus. now rewrite repeat_length in Hus.
  Qed.
End model.

(** ** Keys *)
Lemma fwd_ys_good {U V} (x0_sampler : key -> prog U) (simulate : key -> U -> V -> prog (list (U * V))) y0 k :
  (forall k, good [k] (x0_sampler k)) -> (forall k x y, good [k] (simulate k x y)) -> good [k] (fwd_ys_sampler x0_sampler simulate y0 k).
Proof.
  intros Hx Hs. unfold fwd_ys_sampler. apply (good_under k [0; 1]%nat). apply (good_seq k [0%nat] [1%nat]); [key_disjoint|keys_in|apply Hx|].
  intros x0. apply good_bind_ret, Hs.
Qed.
Lemma hs_sim_good a k x y : good [k] (hs_sim a k x y).
Proof.
  unfold hs_sim. apply (good_under k [0; 1]%nat). apply (good_seq k [0%nat] [1%nat]); [key_disjoint|keys_in|apply good_fin|].
  intros u. apply good_bind_ret, good_fin.
Qed.
