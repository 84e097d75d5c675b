(** Properties of the simulators (fbs/sdes/simulators.py). *)
From Coquelicot Require Import Coquelicot.
From Verif Require Import SimMore.
Open Scope R_scope.

(** ** C37 *)
Theorem C37_path_shape : forall drift disp n d x0 ts rndss, ts <> [] -> length rndss = (length ts - 1)%nat ->
  (forall x t, length x = d -> length (drift x t) = d) -> length x0 = d -> Forall (Forall (fun r => length r = d)) rndss ->
  let p := em_path drift disp n x0 ts rndss in
  length p = length ts /\ Forall (fun x => length x = d) p /\ nth 0 p [] = x0 /\ em_terminal drift disp n x0 ts rndss = last p x0.
Proof.
  intros drift disp n d x0 ts rndss Hne Hl Hf Hx HF p. split; [now apply em_path_length|]. split; [now apply em_path_shape|]. split; [reflexivity|].
  apply em_terminal_last.
Qed.
Print Assumptions C37_path_shape.

(** the result does not depend on the coefficients outside [ts[0], ts[-1]) *)
Theorem C37_times_inside : forall f f' g g' n x0 ts rndss, (1 <= n)%nat ->
  (forall k, (S k < length ts)%nat -> nth k ts 0 < nth (S k) ts 0) ->
  (forall t, nth 0 ts 0 <= t < last ts 0 -> g t = g' t /\ forall x, f x t = f' x t) ->
  em_path f g n x0 ts rndss = em_path f' g' n x0 ts rndss.
Proof. exact em_times_inside. Qed.
Print Assumptions C37_times_inside.

(** [n] sub-steps: the plain Euler chain on the grid where each interval is divided into [n] equal parts *)
Theorem C37_equal_substeps : forall f g n ts x rndss, (1 <= n)%nat -> (forall k, (S k < length ts)%nat -> nth k ts 0 <= nth (S k) ts 0) ->
  length rndss = (length ts - 1)%nat -> Forall (fun rnds => length rnds = n) rndss ->
  em_terminal f g n x ts rndss = euler_chain f g x (refine n ts) (concat rndss).
Proof. intros f g n ts x rndss Hn. exact (em_refine f g n Hn ts x rndss). Qed.
Print Assumptions C37_equal_substeps.

Theorem C37_decreasing_one_substep : forall f f' g g' x0 ts rndss,
  (forall k, (S k < length ts)%nat -> nth (S k) ts 0 < nth k ts 0) ->
  (forall t, last ts 0 < t <= nth 0 ts 0 -> g t = g' t /\ forall x, f x t = f' x t) ->
  em_path f g 1 x0 ts rndss = em_path f' g' 1 x0 ts rndss.
Proof. exact em_times_inside_decreasing. Qed.
Print Assumptions C37_decreasing_one_substep.

(** on a decreasing interval with two or more sub-steps the last evaluation is beyond the right end *)
Theorem C37_decreasing_overshoot_refuted : forall t t' n, (2 <= n)%nat -> t' < t ->
  let times := linspace t (t' - Rabs (t' - t) / INR n) n in nth (n - 1) times 0 = t' - (t - t') / INR n /\ nth (n - 1) times 0 < t'.
Proof.
  intros t t' n Hn Ht times. unfold times. rewrite Rabs_left by lra. destruct n as [|[|n]]; try lia. unfold linspace.
  set (f := fun i => t + INR i * ((t' - - (t' - t) / INR (S (S n)) - t) / INR (S (S n) - 1))).
  rewrite (nth_indep _ 0 (f 0%nat)) by (rewrite map_length, seq_length; lia). rewrite (map_nth f), seq_nth by lia. unfold f. rewrite Nat.add_0_l.
  set (m := (S (S n) - 1)%nat). assert (Hm : INR m <> 0) by (apply not_0_INR; unfold m; lia).
  assert (HN : 0 < INR (S (S n))) by (apply lt_0_INR; lia). set (N := INR (S (S n))) in *.
  assert (E : t + INR m * ((t' - - (t' - t) / N - t) / INR m) = t' - (t - t') / N) by (field; split; lra).
  rewrite E. split; [reflexivity|]. assert (0 < (t - t') / N) by (apply Rdiv_lt_0_compat; lra). lra.
Qed.
Print Assumptions C37_decreasing_overshoot_refuted.

(** and the result does depend on it *)
Theorem C37_decreasing_times_refuted : exists f f' g ts x0 rndss,
  (forall k, (S k < length ts)%nat -> nth (S k) ts 0 < nth k ts 0) /\ (forall t x, last ts 0 <= t <= nth 0 ts 0 -> f x t = f' x t) /\
  em_path f g 2 x0 ts rndss <> em_path f' g 2 x0 ts rndss.
Proof.
  set (f := fun (x : list R) (t : R) => if Rlt_dec t 0 then [1] else [0]). set (f' := fun (x : list R) (t : R) => [0]).
  exists f, f', (fun _ => 0), [1; 0], [0], [[[0]; [0]]]. split; [intros [|k] Hk; cbn [length nth] in *; [lra|lia]|]. split.
  - intros t x Ht. cbn [last nth] in Ht. unfold f, f'. destruct (Rlt_dec t 0); [lra|reflexivity].
  - unfold em_path. intros H. injection H as H. revert H. unfold em_step. cbv zeta.
    replace (Rabs (0 - 1)) with 1 by (rewrite Rabs_left by lra; ring). cbn [linspace seq map Nat.sub em_sub]. unfold em_move.
    replace (f [0] (1 + INR 0 * ((0 - 1 / INR 2 - 1) / INR 1))) with [0].
    2: { unfold f. destruct (Rlt_dec _ 0) as [H|]; [|reflexivity]. cbn [INR] in H. lra. }
    set (y := vadd (vadd [0] (vscale (1 / INR 2) [0])) (vscale (0 * sqrt (1 / INR 2)) [0])).
    replace (f y (1 + INR 1 * ((0 - 1 / INR 2 - 1) / INR 1))) with [1].
    2: { unfold f. destruct (Rlt_dec _ 0) as [H|H]; [reflexivity|]. exfalso. apply H. cbn [INR]. lra. }
    unfold f'. cbn [INR]. unfold y, vadd, vscale, vmap2. cbn [map combine fst snd]. intros H. apply (f_equal (fun l => nth 0 l 0)) in H. cbn [nth] in H. revert H.
    generalize (sqrt (1 / (1 + 1))). intros z H. lra.
Qed.
Print Assumptions C37_decreasing_times_refuted.

Example C37_example : exists (f : list R -> R -> list R) (ts : list R) (rndss : list (list (list R))),
  (forall k, (S k < length ts)%nat -> nth k ts 0 < nth (S k) ts 0) /\ length rndss = (length ts - 1)%nat /\ Forall (fun rnds => length rnds = 2%nat) rndss /\
  (forall x t, length x = 1%nat -> length (f x t) = 1%nat) /\ refine 2 ts = [0; 1/2; 1; 2; 3].
Proof.
  exists (fun x t => vscale t x), [0; 1; 3], [[[1]; [2]]; [[3]; [4]]]. split; [|split; [reflexivity|split; [repeat constructor|split]]].
  - intros [|[|k]] Hk; cbn [length nth] in *; try lia; lra.
  - intros x t H. now rewrite length_vscale.
  - cbn [refine seq map app INR]. repeat (apply (f_equal2 cons); [lra|]). reflexivity.
Qed.

(** ** C38 *)
(** with T = ts[-1] the coefficients are used at T - t, i.e. in (0, T - ts[0]] *)
Theorem C38_reverse_times : forall score score' drift drift' disp disp' n u0 ts rndss, (1 <= n)%nat ->
  (forall k, (S k < length ts)%nat -> nth k ts 0 < nth (S k) ts 0) ->
  (forall s, 0 < s <= last ts 0 - nth 0 ts 0 -> disp s = disp' s /\ (forall u, score u s = score' u s) /\ (forall u, drift u s = drift' u s)) ->
  reverse_simulator score drift disp n true u0 ts rndss = reverse_simulator score' drift' disp' n true u0 ts rndss.
Proof. exact reverse_times. Qed.
Print Assumptions C38_reverse_times.

(** hence inside (ts[0], ts[-1]] when ts[0] = 0 *)
Theorem C38_reverse_times_from_zero : forall score score' drift drift' disp disp' n u0 ts rndss, (1 <= n)%nat -> nth 0 ts 0 = 0 ->
  (forall k, (S k < length ts)%nat -> nth k ts 0 < nth (S k) ts 0) ->
  (forall s, nth 0 ts 0 < s <= last ts 0 -> disp s = disp' s /\ (forall u, score u s = score' u s) /\ (forall u, drift u s = drift' u s)) ->
  reverse_simulator score drift disp n true u0 ts rndss = reverse_simulator score' drift' disp' n true u0 ts rndss.
Proof. intros sc sc' f f' g g' n u0 ts rndss Hn H0 Hinc Ha. apply C38_reverse_times; [assumption|assumption|]. intros s Hs. apply Ha. lra. Qed.
Print Assumptions C38_reverse_times_from_zero.

(** for another ts[0] times outside the grid are used *)
Theorem C38_shifted_grid_refuted : exists score score' drift disp ts u0 rndss,
  (forall k, (S k < length ts)%nat -> nth k ts 0 < nth (S k) ts 0) /\ (forall s u, nth 0 ts 0 <= s <= last ts 0 -> score u s = score' u s) /\
  reverse_simulator score drift disp 1 true u0 ts rndss <> reverse_simulator score' drift disp 1 true u0 ts rndss.
Proof.
  set (sc := fun (x : list R) (t : R) => if Rlt_dec t 1 then [1] else [0]). set (sc' := fun (x : list R) (t : R) => [0]).
  exists sc, sc', (fun _ _ => [0]), (fun _ => 1), [1; 3/2; 2], [0], [[[0]]; [[0]]]. split; [intros [|[|k]] Hk; cbn [length nth] in *; lra || lia|]. split.
  - intros t x Ht. cbn [last nth] in Ht. unfold sc, sc'. destruct (Rlt_dec t 1); [lra|reflexivity].
  - unfold reverse_simulator. cbv zeta. cbn [last].
    pose proof (dts_euler (reverse_drift sc (fun _ _ => [0]) (fun _ => 1) 2) (reverse_dispersion (fun _ => 1) 2) [1; 3/2; 2] [0] [[0]; [0]]) as E1.
    pose proof (dts_euler (reverse_drift sc' (fun _ _ => [0]) (fun _ => 1) 2) (reverse_dispersion (fun _ => 1) 2) [1; 3/2; 2] [0] [[0]; [0]]) as E2.
    cbn [map] in E1, E2. rewrite E1, E2. clear E1 E2. intros H. injection H as H. revert H.
    replace (Rabs (3/2 - 1)) with (1/2) by (rewrite Rabs_pos_eq; lra). replace (Rabs (2 - 3/2)) with (1/2) by (rewrite Rabs_pos_eq; lra).
    unfold reverse_drift. replace (sc [0] (2 - 1)) with [0] by (unfold sc; destruct (Rlt_dec (2 - 1) 1); [lra|reflexivity]).
    unfold sc'. set (y := vadd (vadd [0] _) _).
    replace (sc y (2 - 3/2)) with [1] by (unfold sc; destruct (Rlt_dec (2 - 3/2) 1) as [|H]; [reflexivity|exfalso; apply H; lra]).
    unfold y, vadd, vscale, vmap2, reverse_dispersion. cbn [map combine fst snd]. intros H. apply (f_equal (fun l => nth 0 l 0)) in H. cbn [nth] in H. lra.
Qed.
Print Assumptions C38_shifted_grid_refuted.

(** one step of the recursion, times running down from T - ts[0] *)
Theorem C38_reverse_step : forall score drift disp u t t' ts rnd rnds, let T := last (t :: t' :: ts) 0 in
  em_terminal (reverse_drift score drift disp T) (reverse_dispersion disp T) 1 u (t :: t' :: ts) (map (fun r => r :: []) (rnd :: rnds)) =
  em_terminal (reverse_drift score drift disp T) (reverse_dispersion disp T) 1
    (vadd (vadd u (vscale (Rabs (t' - t)) (vadd (vscale (Ropp 1) (drift u (T - t))) (vscale (disp (T - t) * disp (T - t)) (score u (T - t))))))
          (vscale (disp (T - t) * sqrt (Rabs (t' - t))) rnd)) (t' :: ts) (map (fun r => r :: []) rnds).
Proof. exact reverse_step. Qed.
Print Assumptions C38_reverse_step.

Example C38_example : let ts := [0; 1/2; 2] in nth 0 ts 0 = 0 /\ (forall k, (S k < length ts)%nat -> nth k ts 0 < nth (S k) ts 0) /\
  forall score drift disp, reverse_simulator score drift disp 3 false [1] ts [] = None.
Proof. cbv zeta. split; [reflexivity|]. split; [intros [|[|k]] Hk; cbn [length nth] in *; lra || lia|reflexivity]. Qed.

(** ** C39 *)
Theorem C39_bridge_ends : forall sde x0 xT ts n replace rndss, (2 <= length ts)%nat -> length rndss = (length ts - 1)%nat ->
  let p := doob_bridge_simulator sde x0 xT ts n replace rndss in
  length p = length ts /\ nth 0 p [] = x0 /\ (replace = true -> nth (length ts - 1) p [] = xT) /\
  forall k, (k < length ts - 1)%nat -> nth k p [] = nth k (doob_bridge_simulator sde x0 xT ts n false rndss) [].
Proof. exact doob_ends. Qed.
Print Assumptions C39_bridge_ends.

(** the drift is only used strictly before the terminal time ... *)
Theorem C39_terminal_time_not_used : forall sde x0 xT ts n f' g' rndss, (1 <= n)%nat ->
  (forall k, (S k < length ts)%nat -> nth k ts 0 < nth (S k) ts 0) ->
  (forall t, nth 0 ts 0 <= t < last ts 0 -> dispersion sde t = g' t /\ forall x, bridge_fn sde xT (last ts 0) x t = f' x t) ->
  doob_bridge_simulator sde x0 xT ts n false rndss = em_path f' g' n x0 ts rndss.
Proof. exact doob_times. Qed.
Print Assumptions C39_terminal_time_not_used.

(** ... where its divisor is positive *)
Theorem C39_bridge_regular_before_end : forall sde xT T t x, (exists p, discretise sde T t = Some p) ->
  (match sde with ConstSDE _ _ | LinSDE _ _ _ _ => True | _ => False end) -> t < T -> noisy_between sde t T -> length xT = length x ->
  0 < snd (FQ sde T t) /\ length (bridge_fn sde xT T x t) = length x /\
  forall i, (i < length x)%nat -> nth i (bridge_fn sde xT T x t) 0 = drift_coef sde t * nth i x 0 +
     dispersion sde t * dispersion sde t * (fst (FQ sde T t) * (nth i xT 0 - fst (FQ sde T t) * nth i x 0) / snd (FQ sde T t)).
Proof. intros sde xT T t x H. apply discretise_defined in H. exact (doob_regular sde xT T t x H). Qed.
Print Assumptions C39_bridge_regular_before_end.

Example C39_example : let sde := LinSDE (2/100) 5 0 2 in (exists p, discretise sde 2 1 = Some p) /\ noisy_between sde 1 2 /\
  nth 2 (doob_bridge_simulator sde [0] [7] [0; 1; 2] 1 true [[[0]]; [[0]]]) [] = [7].
Proof.
  cbv zeta. split; [apply discretise_defined; cbn; lra|]. split; [cbn [noisy_between]; unfold beta; lra|].
  destruct (doob_ends (LinSDE (2/100) 5 0 2) [0] [7] [0; 1; 2] 1 true [[[0]]; [[0]]] ltac:(cbn; lia) eq_refl) as (_ & _ & H & _). exact (H eq_refl).
Qed.

(** ** C40 *)
Theorem C40_exact_simulation : forall sde ts x rnds,
  discrete_time_simulator (fun x t s => vscale (fst (FQ sde t s)) x) (fun t s => sqrt (snd (FQ sde t s))) x ts rnds = last (exact_path (FQ sde) x ts rnds) [].
Proof. intros. apply dts_exact. Qed.
Print Assumptions C40_exact_simulation.

Theorem C40_euler_scheme : forall f g ts x rnds,
  em_terminal f g 1 x ts (map (fun r => r :: []) rnds) =
  discrete_time_simulator (fun x t' t => vadd x (vscale (Rabs (t' - t)) (f x t))) (fun t' t => g t * sqrt (Rabs (t' - t))) x ts rnds.
Proof. intros. apply dts_euler. Qed.
Print Assumptions C40_euler_scheme.

Example C40_example : discrete_time_simulator (fun x t s => vscale 2 x) (fun _ _ => 1) [1] [0; 1; 2] [[1]; [3]] = [2 * (2 * 1 + 1 * 1) + 1 * 3].
Proof. reflexivity. Qed.

(** ** C69: [fwd_mean], [fwd_var] are the forward mean F(t,s) m0 and variance F(t,s)^2 v0 + Q(t,s) *)
Theorem C69_reverse_marginals : forall sde s m0 v0 T tau, (exists p, discretise sde T s = Some p) ->
  let m t := fst (FQ sde t s) * m0 in let v t := fst (FQ sde t s) * fst (FQ sde t s) * v0 + snd (FQ sde t s) in
  let score u t := map (fun x => - (x - m t) / v t) u in
  nonneg_noise sde (T - tau) -> 0 < v (T - tau) ->
  exists A B, (forall u, reverse_drift score (drift sde) (dispersion sde) T [u] tau = [A * u + B]) /\
  is_derive (fun tau => m (T - tau)) tau (A * m (T - tau) + B) /\
  is_derive (fun tau => v (T - tau)) tau (2 * A * v (T - tau) + reverse_dispersion (dispersion sde) T tau * reverse_dispersion (dispersion sde) T tau).
Proof. intros sde s m0 v0 T tau H m v score Hn Hv. apply discretise_defined in H. exact (reverse_gaussian_moments sde H s m0 v0 T tau Hn Hv). Qed.
Print Assumptions C69_reverse_marginals.

Example C69_example : let sde := ConstSDE (Ropp (1/2)) 1 in (exists p, discretise sde 2 0 = Some p) /\ nonneg_noise sde (2 - 1) /\
  0 < fst (FQ sde (2 - 1) 0) * fst (FQ sde (2 - 1) 0) * 3 + snd (FQ sde (2 - 1) 0).
Proof.
  cbv zeta. split; [apply discretise_defined; cbn; lra|]. split; [exact I|].
  assert (0 < snd (FQ (ConstSDE (Ropp (1/2)) 1) (2 - 1) 0)) by (apply Q_pos; cbn; lra).
  pose proof (Rle_0_sqr (fst (FQ (ConstSDE (Ropp (1/2)) 1) (2 - 1) 0))) as Hs. unfold Rsqr in Hs. lra.
Qed.

(** ** C70 *)
Theorem C70_bridge_moments : forall sde s T x0 xT t, (exists p, discretise sde T s = Some p) ->
  (match sde with ConstSDE _ _ | LinSDE _ _ _ _ => True | _ => False end) ->
  let F t u := fst (FQ sde t u) in let Q t u := snd (FQ sde t u) in
  let mean t := F t s * x0 + F T t * Q t s / Q T s * (xT - F T s * x0) in let var t := Q t s * Q T t / Q T s in
  nonneg_noise sde t -> 0 < Q T s -> 0 < Q T t ->
  exists A B, (forall x, bridge_fn sde [xT] T [x] t = [A * x + B]) /\
  is_derive mean t (A * mean t + B) /\ is_derive var t (2 * A * var t + dispersion sde t * dispersion sde t).
Proof. intros sde s T x0 xT t H Hb F Q mean var. apply discretise_defined in H. exact (bridge_moment_equations sde H Hb s T x0 xT t). Qed.
Print Assumptions C70_bridge_moments.

Theorem C70_bridge_hits_both_ends : forall sde s T x0 xT, (exists p, discretise sde T s = Some p) ->
  let F t u := fst (FQ sde t u) in let Q t u := snd (FQ sde t u) in
  let mean t := F t s * x0 + F T t * Q t s / Q T s * (xT - F T s * x0) in let var t := Q t s * Q T t / Q T s in
  0 < Q T s -> mean s = x0 /\ mean T = xT /\ var s = 0 /\ var T = 0.
Proof. intros sde s T x0 xT H F Q mean var. apply discretise_defined in H. exact (bridge_ends sde H s T x0 xT). Qed.
Print Assumptions C70_bridge_hits_both_ends.

Example C70_example : let sde := LinSDE (2/100) 5 0 2 in (exists p, discretise sde 2 0 = Some p) /\ nonneg_noise sde 1 /\ 0 < snd (FQ sde 2 0) /\ 0 < snd (FQ sde 2 1).
Proof.
  cbv zeta. split; [apply discretise_defined; cbn; lra|]. split; [cbn [nonneg_noise]; unfold beta; lra|].
  split; (apply Q_pos; [cbn; lra|lra|cbn [noisy_between]; unfold beta; lra]).
Qed.

(** ** C71 *)
Theorem C71_keys_used_once : forall normal, (forall k m d, good [k] (normal k m d)) ->
  (forall k x0 ts f g n, good [k] (euler_maruyama_path normal k x0 ts f g n)) /\
  (forall disc k x0 ts, good [k] (simulate_cond_forward normal disc k x0 ts)) /\
  (forall sde nn t0 T nsteps rt lt k x0s, good [k] (loss_fn sde nn t0 T nsteps rt lt normal k x0s)).
Proof.
  intros normal HN. split; [intros; now apply euler_maruyama_good|]. split; [intros; now apply simulate_cond_forward_good|].
  intros. now apply loss_fn_good.
Qed.
Print Assumptions C71_keys_used_once.

Example C71_example : exists normal : normal_sampler, (forall k m d, good [k] (normal k m d)) /\ normal_shape normal.
Proof.
  exists (fun k m d => Unif k m (fun us => Ret (map (fun u => repeat u d) us))). split; [intros; apply good_unif|].
  intros k m d. apply safe_unif. intros us Hl _. apply safe_ret. rewrite map_length. split; [assumption|].
  apply Forall_map, Forall_forall. intros u _. apply repeat_length.
Qed.
