(** Reverse simulation, Doob bridges and the discrete-time simulator. *)
From Coquelicot Require Import Coquelicot.
From Verif Require Export Sim.
Open Scope R_scope.

Ltac asR := cbn beta; match goal with |- @eq _ ?a ?b => change (@eq R a b) end.

(** ** discrete-time simulator *)
Lemma dts_cons f q x t t' ts r rs : discrete_time_simulator f q x (t :: t' :: ts) (r :: rs) =
  discrete_time_simulator f q (vadd (f x t' t) (vscale (q t' t) r)) (t' :: ts) rs.
Proof. reflexivity. Qed.

Lemma last_cons_default {A} (y : A) l d d' : last (y :: l) d = last (y :: l) d'.
Proof. revert y. induction l as [|z l IH]; intros y; [reflexivity|]. exact (IH z). Qed.

Theorem dts_exact disc ts : forall x rnds,
  discrete_time_simulator (fun x t s => vscale (fst (disc t s)) x) (fun t s => sqrt (snd (disc t s))) x ts rnds = last (exact_path disc x ts rnds) [].
Proof.
  induction ts as [|t ts IH]; intros x rnds; [reflexivity|]. destruct ts as [|t' ts]; [destruct rnds; reflexivity|]. destruct rnds as [|r rs]; [reflexivity|].
  rewrite dts_cons, IH. unfold exact_path. cbn [path_scan]. reflexivity.
Qed.

Theorem dts_euler f g ts : forall x rnds,
  em_terminal f g 1 x ts (map (fun r => r :: []) rnds) =
  discrete_time_simulator (fun x t' t => vadd x (vscale (Rabs (t' - t)) (f x t))) (fun t' t => g t * sqrt (Rabs (t' - t))) x ts rnds.
Proof.
  unfold em_terminal. induction ts as [|t ts IH]; intros x rnds; [reflexivity|]. destruct ts as [|t' ts]; [reflexivity|]. destruct rnds as [|r rs]; [reflexivity|].
  cbn [map]. rewrite em_carry_cons, dts_cons, IH. f_equal. unfold em_step. cbv zeta. cbn [linspace em_sub INR]. unfold em_move.
  now rewrite Rdiv_1.
Qed.

(** ** reverse simulator *)
Theorem reverse_times score score' drift drift' disp disp' n u0 ts rndss : (1 <= n)%nat ->
  (forall k, (S k < length ts)%nat -> nth k ts 0 < nth (S k) ts 0) ->
  (forall s, 0 < s <= last ts 0 - nth 0 ts 0 -> disp s = disp' s /\ (forall u, score u s = score' u s) /\ (forall u, drift u s = drift' u s)) ->
  reverse_simulator score drift disp n true u0 ts rndss = reverse_simulator score' drift' disp' n true u0 ts rndss.
Proof.
  intros Hn Hinc Ha. unfold reverse_simulator. f_equal. rewrite !em_terminal_last. f_equal. apply em_times_inside; [assumption|assumption|].
  intros t Ht. destruct (Ha (last ts 0 - t) ltac:(lra)) as (Hd & Hs & Hf). unfold reverse_dispersion, reverse_drift. split; [assumption|].
  intros x. now rewrite Hd, Hs, Hf.
Qed.

(** one sub-step per interval: the reverse-time Euler scheme *)
Theorem reverse_step score drift disp u t t' ts rnd rnds : let T := last (t :: t' :: ts) 0 in
  em_terminal (reverse_drift score drift disp T) (reverse_dispersion disp T) 1 u (t :: t' :: ts) (map (fun r => r :: []) (rnd :: rnds)) =
  em_terminal (reverse_drift score drift disp T) (reverse_dispersion disp T) 1
    (vadd (vadd u (vscale (Rabs (t' - t)) (vadd (vscale (Ropp 1) (drift u (T - t))) (vscale (disp (T - t) * disp (T - t)) (score u (T - t))))))
          (vscale (disp (T - t) * sqrt (Rabs (t' - t))) rnd)) (t' :: ts) (map (fun r => r :: []) rnds).
Proof.
  intros T. unfold em_terminal. cbn [map]. rewrite em_carry_cons. f_equal. unfold em_step. cbv zeta. cbn [linspace em_sub INR]. unfold em_move. now rewrite Rdiv_1.
Qed.

(** exact score: the reverse SDE has the forward marginals, run backwards *)
Section reverse_moments.
Variable sde : linear_sde.
Hypothesis Hsde : sde_defined sde.
Variable s m0 v0 T : R.
Definition fwd_mean (t : R) : R := fst (FQ sde t s) * m0.
Definition fwd_var (t : R) : R := fst (FQ sde t s) * fst (FQ sde t s) * v0 + snd (FQ sde t s).
Definition gauss_score (u : list R) (t : R) : list R := map (fun x => - (x - fwd_mean t) / fwd_var t) u.

Lemma fwd_mean_derive t : is_derive fwd_mean t (drift_coef sde t * fwd_mean t).
Proof.
  unfold fwd_mean. evar_last; [apply @is_derive_scal_l with (k := m0) (f := fun t => fst (FQ sde t s)); apply F_derive; assumption|].
  cbn. unfold scal. cbn. unfold mult. cbn. ring.
Qed.
Lemma fwd_var_derive t : nonneg_noise sde t -> is_derive fwd_var t (2 * drift_coef sde t * fwd_var t + dispersion sde t * dispersion sde t).
Proof.
  intros Hn. unfold fwd_var. pose proof (F_derive sde t s Hsde) as HF. pose proof (Q_derive sde t s Hsde Hn) as HQ.
  evar_last; [apply (is_derive_plus (V := R_NormedModule)); [apply (is_derive_mult (fun t => fst (FQ sde t s) * fst (FQ sde t s)) (fun _ => v0) t); [apply (is_derive_mult _ _ t _ _ HF HF); intros; apply Rmult_comm|apply @is_derive_const|intros; apply Rmult_comm]|exact HQ]|].
  unfold plus, mult, zero. cbn. unfold plus, mult, zero. cbn. ring.
Qed.

Lemma derive_reversed f f' tau : is_derive f (T - tau) f' -> is_derive (fun tau => f (T - tau)) tau (- f').
Proof.
  intros H. evar_last; [apply (is_derive_comp f (fun tau => T - tau) tau f' (Ropp 1)); [exact H|auto_derive; [exact I|ring]]|].
  unfold scal. cbn. unfold mult. cbn. ring.
Qed.

Theorem reverse_gaussian_moments tau : nonneg_noise sde (T - tau) -> 0 < fwd_var (T - tau) ->
  exists A B, (forall u, reverse_drift gauss_score (drift sde) (dispersion sde) T [u] tau = [A * u + B]) /\
  is_derive (fun tau => fwd_mean (T - tau)) tau (A * fwd_mean (T - tau) + B) /\
  is_derive (fun tau => fwd_var (T - tau)) tau (2 * A * fwd_var (T - tau) + reverse_dispersion (dispersion sde) T tau * reverse_dispersion (dispersion sde) T tau).
Proof.
  intros Hn Hv. set (a := drift_coef sde (T - tau)). set (b := dispersion sde (T - tau)). set (m := fwd_mean (T - tau)). set (v := fwd_var (T - tau)) in *.
  exists (- a - b * b / v), (b * b * m / v). split; [|split].
  - intros u. unfold reverse_drift, gauss_score, drift, vadd, vscale, vmap2. cbn [map combine fst snd]. fold a b m v. f_equal. field. lra.
  - evar_last; [apply derive_reversed, fwd_mean_derive|]. fold a m. field. lra.
  - evar_last; [apply derive_reversed, fwd_var_derive, Hn|]. unfold reverse_dispersion. fold a b v. field. lra.
Qed.
End reverse_moments.

(** ** Doob bridge *)
Section bridge_moments.
Variable sde : linear_sde.
Hypothesis Hsde : sde_defined sde.
Hypothesis Hb : bridgeable sde.
Variable s T : R.
Variable x0 xT : R.
Notation F := (fun t u => fst (FQ sde t u)).
Notation Q := (fun t u => snd (FQ sde t u)).
(** the Gaussian bridge: X_t given X_s = x0 and X_T = xT *)
Definition bridge_mean (t : R) : R := F t s * x0 + F T t * Q t s / Q T s * (xT - F T s * x0).
Definition bridge_var (t : R) : R := Q t s * Q T t / Q T s.

Lemma F_pos t u : 0 < F t u.
Proof. destruct sde; cbn in *; try contradiction; apply exp_pos. Qed.

Lemma F_derive_snd t : is_derive (fun t => F T t) t (- drift_coef sde t * F T t).
Proof.
  apply (is_derive_ext (fun t => F T s / F t s)).
  - intros u. destruct (FQ_compose sde s u T Hsde) as [H _]. pose proof (F_pos u s) as Hp. cbn beta in Hp. asR. rewrite H. field. lra.
  - pose proof (F_derive sde t s Hsde) as HF. pose proof (F_pos t s) as Hp. cbn beta in Hp.
    destruct (FQ_compose sde s t T Hsde) as [H _]. unfold Rdiv.
    evar_last; [apply (is_derive_scal (fun u => / fst (FQ sde u s)) t (fst (FQ sde T s))); apply (is_derive_inv (fun u => fst (FQ sde u s)) t _ HF); lra|].
    rewrite H. field. lra.
Qed.
Lemma Q_derive_snd t : nonneg_noise sde t -> is_derive (fun t => Q T t) t (- (dispersion sde t * dispersion sde t) * (F T t * F T t)).
Proof.
  intros Hn. apply (is_derive_ext (fun t => Q T s - F T t * F T t * Q t s)).
  - intros u. destruct (FQ_compose sde s u T Hsde) as [_ H]. asR. rewrite H. ring.
  - pose proof (F_derive_snd t) as HF. pose proof (Q_derive sde t s Hsde Hn) as HQ. cbn beta in HF.
    evar_last; [apply (is_derive_minus (V := R_NormedModule)); [apply @is_derive_const|apply (is_derive_mult (fun t => fst (FQ sde T t) * fst (FQ sde T t)) (fun t => snd (FQ sde t s)) t); [apply (is_derive_mult _ _ t _ _ HF HF); intros; apply Rmult_comm|exact HQ|intros; apply Rmult_comm]]|].
    unfold minus, plus, opp, mult, zero. cbn. unfold plus, opp, mult, zero. cbn. ring.
Qed.

Theorem bridge_ends : 0 < Q T s -> bridge_mean s = x0 /\ bridge_mean T = xT /\ bridge_var s = 0 /\ bridge_var T = 0.
Proof.
  intros Hc. unfold bridge_mean, bridge_var. rewrite !(FQ_id sde) by assumption. cbn [fst snd]. repeat split; field; lra.
Qed.

Theorem bridge_moment_equations t : nonneg_noise sde t -> 0 < Q T s -> 0 < Q T t ->
  exists A B, (forall x, bridge_fn sde [xT] T [x] t = [A * x + B]) /\
  is_derive bridge_mean t (A * bridge_mean t + B) /\
  is_derive bridge_var t (2 * A * bridge_var t + dispersion sde t * dispersion sde t).
Proof.
  intros Hn Hc Hr. cbn beta in *.
  set (a := drift_coef sde t). set (b2 := dispersion sde t * dispersion sde t).
  exists (a - b2 * (F T t * F T t) / Q T t), (b2 * F T t * xT / Q T t). cbn beta.
  pose proof (F_derive sde t s Hsde) as HF. pose proof (Q_derive sde t s Hsde Hn) as HQ. pose proof (F_derive_snd t) as HG. pose proof (Q_derive_snd t Hn) as HR. cbn beta in HG, HR.
  destruct (FQ_compose sde s t T Hsde) as [EF EQ]. fold a b2 in HF, HQ, HG, HR.
  split; [|split].
  - intros x. unfold bridge_fn. destruct (bridge_drift_closed sde [x] t [xT] T Hb Hr eq_refl) as (out & -> & Hl & Hv).
    destruct out as [|o [|o' out]]; try discriminate. specialize (Hv 0%nat ltac:(cbn; lia)). cbn [nth] in Hv. f_equal. rewrite Hv. fold a b2. field. lra.
  - unfold bridge_mean.
    apply (is_derive_ext (fun t => fst (FQ sde t s) * x0 + (fst (FQ sde T t) * snd (FQ sde t s)) * ((xT - fst (FQ sde T s) * x0) / snd (FQ sde T s)))); [intros u; asR; field; lra|].
    evar_last; [apply (is_derive_plus (V := R_NormedModule));
      [apply (is_derive_mult (fun t => fst (FQ sde t s)) (fun _ => x0) t (a * fst (FQ sde t s)) 0 HF); [apply @is_derive_const|intros; apply Rmult_comm]
      |apply (is_derive_mult (fun t => fst (FQ sde T t) * snd (FQ sde t s)) (fun _ => (xT - fst (FQ sde T s) * x0) / snd (FQ sde T s)) t);
        [apply (is_derive_mult _ _ t _ _ HG HQ); intros; apply Rmult_comm|apply @is_derive_const|intros; apply Rmult_comm]]|].
    unfold plus, mult, zero. cbn. unfold plus, mult, zero. cbn. rewrite EF.
    assert (ER : snd (FQ sde t s) * (fst (FQ sde T t) * fst (FQ sde T t)) = snd (FQ sde T s) - snd (FQ sde T t)) by (rewrite EQ; ring).
    set (f := fst (FQ sde t s)) in *. set (G := fst (FQ sde T t)) in *. set (q := snd (FQ sde t s)) in *. set (r := snd (FQ sde T t)) in *. set (c := snd (FQ sde T s)) in *.
    assert (Ec : c = q * (G * G) + r) by lra. clearbody f G q r c a b2. subst c. field. split; lra.
  - unfold bridge_var.
    apply (is_derive_ext (fun t => (snd (FQ sde t s) * snd (FQ sde T t)) * / snd (FQ sde T s))); [intros u; reflexivity|].
    evar_last; [apply (is_derive_mult (fun t => snd (FQ sde t s) * snd (FQ sde T t)) (fun _ => / snd (FQ sde T s)) t);
       [apply (is_derive_mult _ _ t _ _ HQ HR); intros; apply Rmult_comm|apply @is_derive_const|intros; apply Rmult_comm]|].
    unfold plus, mult, zero. cbn. unfold plus, mult, zero. cbn.
    assert (ER : snd (FQ sde t s) * (fst (FQ sde T t) * fst (FQ sde T t)) = snd (FQ sde T s) - snd (FQ sde T t)) by (rewrite EQ; ring).
    set (f := fst (FQ sde t s)) in *. set (G := fst (FQ sde T t)) in *. set (q := snd (FQ sde t s)) in *. set (r := snd (FQ sde T t)) in *. set (c := snd (FQ sde T s)) in *.
    assert (Ec : c = q * (G * G) + r) by lra. clearbody f G q r c a b2. subst c. field. split; lra.
Qed.
End bridge_moments.

Theorem doob_ends sde x0 xT ts n replace rndss : (2 <= length ts)%nat -> length rndss = (length ts - 1)%nat ->
  let p := doob_bridge_simulator sde x0 xT ts n replace rndss in
  length p = length ts /\ nth 0 p [] = x0 /\ (replace = true -> nth (length ts - 1) p [] = xT) /\
  forall k, (k < length ts - 1)%nat -> nth k p [] = nth k (doob_bridge_simulator sde x0 xT ts n false rndss) [].
Proof.
  intros Ht Hr p. unfold p, doob_bridge_simulator. cbv zeta.
  set (q := em_path (bridge_fn sde xT (last ts 0)) (dispersion sde) n x0 ts rndss).
  assert (Hl : length q = length ts) by (apply em_path_length; [destruct ts; [simpl in Ht; lia|easy]|assumption]).
  assert (H0 : nth 0 q [] = x0) by reflexivity.
  destruct replace; [|repeat split; try assumption; discriminate].
  split; [now rewrite length_set_nth|]. split; [rewrite nth_set_nth_neq by lia; assumption|]. split.
  - intros _. rewrite Hl. apply nth_set_nth_eq. lia.
  - intros k Hk. rewrite nth_set_nth_neq by lia. reflexivity.
Qed.

Theorem doob_times sde x0 xT ts n f' g' rndss : (1 <= n)%nat ->
  (forall k, (S k < length ts)%nat -> nth k ts 0 < nth (S k) ts 0) ->
  agree_on (fun t => nth 0 ts 0 <= t < last ts 0) (bridge_fn sde xT (last ts 0)) f' (dispersion sde) g' ->
  doob_bridge_simulator sde x0 xT ts n false rndss = em_path f' g' n x0 ts rndss.
Proof. intros Hn Hinc Ha. unfold doob_bridge_simulator. cbv zeta. now apply em_times_inside. Qed.

Theorem doob_regular sde xT T t x : sde_defined sde -> bridgeable sde -> t < T -> noisy_between sde t T -> length xT = length x ->
  0 < snd (FQ sde T t) /\ length (bridge_fn sde xT T x t) = length x /\
  forall i, (i < length x)%nat -> nth i (bridge_fn sde xT T x t) 0 = drift_coef sde t * nth i x 0 +
     dispersion sde t * dispersion sde t * (fst (FQ sde T t) * (nth i xT 0 - fst (FQ sde T t) * nth i x 0) / snd (FQ sde T t)).
Proof.
  intros Hd Hb Ht Hn Hl. pose proof (Q_pos sde T t Hd Ht Hn) as HQ. split; [assumption|].
  unfold bridge_fn. destruct (bridge_drift_closed sde x t xT T Hb HQ Hl) as (out & -> & H1 & H2). auto.
Qed.
