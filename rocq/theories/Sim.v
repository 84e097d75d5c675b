(** Model of fbs/sdes/simulators.py.  A state array is the list of its entries. *)
From Coquelicot Require Import Coquelicot.
From Verif Require Export SdeMore Hygiene.
Open Scope R_scope.

Section em.
Variable drift : list R -> R -> list R.
Variable disp : R -> R.

(** simulators.py:84-88 [scan_body_] *)
Definition em_move (ddt : R) (x : list R) (t : R) (rnd : list R) : list R :=
  vadd (vadd x (vscale ddt (drift x t))) (vscale (disp t * sqrt ddt) rnd).
Fixpoint em_sub (ddt : R) (x : list R) (rnds : list (list R)) (times : list R) : list R :=
  match rnds, times with
  | rnd :: rnds', t :: times' => em_sub ddt (em_move ddt x t rnd) rnds' times'
  | _, _ => x
  end.
(** simulators.py:83-92 [step], [rnds] being the [n] rows of noise of this interval *)
Definition em_step (n : nat) (x : list R) (t t_next : R) (rnds : list (list R)) : list R :=
  let ddt := Rabs (t_next - t) / INR n in em_sub ddt x rnds (linspace t (t_next - ddt) n).
(** simulators.py:94-101: the scan over (keys, ts[:-1], ts[1:]); its stacked outputs and its final carry *)
Fixpoint em_scan (n : nat) (x : list R) (ts : list R) (rndss : list (list (list R))) : list (list R) :=
  match ts, rndss with
  | t :: ((t_next :: _) as ts'), rnds :: rndss' => let x' := em_step n x t t_next rnds in x' :: em_scan n x' ts' rndss'
  | _, _ => []
  end.
Fixpoint em_carry (n : nat) (x : list R) (ts : list R) (rndss : list (list (list R))) : list R :=
  match ts, rndss with
  | t :: ((t_next :: _) as ts'), rnds :: rndss' => em_carry n (em_step n x t t_next rnds) ts' rndss'
  | _, _ => x
  end.
(** simulators.py:103-106 *)
Definition em_path (n : nat) (x0 : list R) (ts : list R) (rndss : list (list (list R))) : list (list R) := x0 :: em_scan n x0 ts rndss.
Definition em_terminal (n : nat) (x0 : list R) (ts : list R) (rndss : list (list (list R))) : list R := em_carry n x0 ts rndss.
End em.

(** simulators.py:53-106 [euler_maruyama] with its keys, one per interval *)
Fixpoint em_draws (normal : normal_sampler) (k : key) (i m n d : nat) : prog (list (list (list R))) :=
  match m with
  | O => Ret []
  | S m' => r <- normal (split_key k i) n d ;; rs <- em_draws normal k (S i) m' n d ;; Ret (r :: rs)
  end.
Definition euler_maruyama_path (normal : normal_sampler) (k : key) (x0 ts : list R) drift disp (n : nat) : prog (list (list R)) :=
  rndss <- em_draws normal k 0 (length ts - 1) n (length x0) ;; Ret (em_path drift disp n x0 ts rndss).
Definition euler_maruyama_terminal (normal : normal_sampler) (k : key) (x0 ts : list R) drift disp (n : nat) : prog (list R) :=
  rndss <- em_draws normal k 0 (length ts - 1) n (length x0) ;; Ret (em_terminal drift disp n x0 ts rndss).

(** simulators.py:37-44 *)
Definition reverse_drift (score drift : list R -> R -> list R) (disp : R -> R) (T : R) (u : list R) (t : R) : list R :=
  vadd (vscale (Ropp 1) (drift u (T - t))) (vscale (disp (T - t) * disp (T - t)) (score u (T - t))).
Definition reverse_dispersion (disp : R -> R) (T t : R) : R := disp (T - t).
(** simulators.py:8-50 [reverse_simulator]; [euler] says whether integrator == 'euler-maruyama', another name raises *)
Definition reverse_simulator (score drift : list R -> R -> list R) (disp : R -> R) (n : nat) (euler : bool)
  (u0 ts : list R) (rndss : list (list (list R))) : option (list R) :=
  let T := last ts 0 in
  if euler then Some (em_terminal (reverse_drift score drift disp T) (reverse_dispersion disp T) n u0 ts rndss) else None.

(** simulators.py:109-124 [discrete_time_simulator] *)
Fixpoint discrete_time_simulator (f : list R -> R -> R -> list R) (q : R -> R -> R) (x : list R) (ts : list R) (rnds : list (list R)) : list R :=
  match ts, rnds with
  | t :: ((t_next :: _) as ts'), rnd :: rnds' =>
      discrete_time_simulator f q (vadd (f x t_next t) (vscale (q t_next t) rnd)) ts' rnds'
  | _, _ => x
  end.

(** simulators.py:126-160 [doob_bridge_simulator]; the SDE classes with a [bridge_drift] are the ones where it is [Some] *)
Definition bridge_fn (sde : linear_sde) (xT : list R) (T : R) (x : list R) (t : R) : list R :=
  match bridge_drift sde x t xT T with Some v => v | None => [] end.
Definition doob_bridge_simulator (sde : linear_sde) (x0 xT ts : list R) (n : nat) (replace : bool) (rndss : list (list (list R))) : list (list R) :=
  let path := em_path (bridge_fn sde xT (last ts 0)) (dispersion sde) n x0 ts rndss in
  if replace then set_nth (length path - 1) xT path else path.

(** ** basic facts *)
Lemma em_scan_cons drift disp n x t t' ts r rs :
  em_scan drift disp n x (t :: t' :: ts) (r :: rs) = em_step drift disp n x t t' r :: em_scan drift disp n (em_step drift disp n x t t' r) (t' :: ts) rs.
Proof. reflexivity. Qed.
Lemma em_carry_cons drift disp n x t t' ts r rs :
  em_carry drift disp n x (t :: t' :: ts) (r :: rs) = em_carry drift disp n (em_step drift disp n x t t' r) (t' :: ts) rs.
Proof. reflexivity. Qed.

Lemma em_terminal_last drift disp n ts : forall x rndss, em_terminal drift disp n x ts rndss = last (em_path drift disp n x ts rndss) x.
Proof.
  unfold em_terminal, em_path. induction ts as [|t ts IH]; intros x rndss; [reflexivity|].
  destruct ts as [|t' ts]; [reflexivity|]. destruct rndss as [|r rs]; [reflexivity|].
  rewrite em_scan_cons, em_carry_cons, IH. set (y := em_step drift disp n x t t' r).
  change (last (x :: y :: em_scan drift disp n y (t' :: ts) rs) x) with (last (y :: em_scan drift disp n y (t' :: ts) rs) x).
  generalize (em_scan drift disp n y (t' :: ts) rs) as l. clear. intros l. revert y. induction l as [|z l IH]; intros y; [reflexivity|].
  change (last (y :: z :: l) y) with (last (z :: l) y). change (last (y :: z :: l) x) with (last (z :: l) x).
  clear IH. revert z. induction l as [|w l IH]; intros z; [reflexivity|]. exact (IH w).
Qed.

Lemma em_path_length drift disp n ts : forall x rndss, ts <> [] -> length rndss = (length ts - 1)%nat -> length (em_path drift disp n x ts rndss) = length ts.
Proof.
  unfold em_path. induction ts as [|t ts IH]; intros x rndss Hne Hl; [easy|].
  destruct ts as [|t' ts]; [destruct rndss; [reflexivity|reflexivity]|]. destruct rndss as [|r rs]; [simpl in Hl; lia|].
  rewrite em_scan_cons. specialize (IH (em_step drift disp n x t t' r) rs ltac:(easy) ltac:(cbn [length] in *; lia)). cbn [length] in *. lia.
Qed.

(** ** the time points used *)
(** sub-step [i] of an increasing interval starts at the left end point of the [i]-th of [n] equal parts *)
Lemma linspace_increasing t t' n i : (1 <= n)%nat -> t <= t' -> (i < n)%nat ->
  nth i (linspace t (t' - Rabs (t' - t) / INR n) n) 0 = t + INR i * ((t' - t) / INR n).
Proof.
  intros Hn Ht Hi. rewrite Rabs_pos_eq by lra. unfold linspace. destruct n as [|[|n]]; [lia| |].
  - assert (i = 0%nat) by lia. subst. cbn. field.
  - set (f := fun i => t + INR i * ((t' - (t' - t) / INR (S (S n)) - t) / INR (S (S n) - 1))).
    rewrite (nth_indep _ 0 (f 0%nat)) by (rewrite map_length, seq_length; lia). rewrite (map_nth f), seq_nth by lia. unfold f. rewrite Nat.add_0_l.
    f_equal. f_equal. replace (S (S n) - 1)%nat with (S n) by lia. assert (INR (S n) <> 0) by (apply not_0_INR; lia). assert (INR (S n) + 1 <> 0) by (pose proof (pos_INR (S n)); lra).
    rewrite (S_INR (S n)). field. split; assumption.
Qed.
Lemma length_linspace a b n : length (linspace a b n) = n.
Proof. unfold linspace. destruct n as [|[|n]]; [reflexivity|reflexivity|]. now rewrite map_length, seq_length. Qed.

(** dependence on the coefficients *)
Definition agree_on (P : R -> Prop) (f f' : list R -> R -> list R) (g g' : R -> R) : Prop :=
  forall t, P t -> g t = g' t /\ forall x, f x t = f' x t.

Lemma em_sub_agree f f' g g' P ddt times : agree_on P f f' g g' -> Forall P times -> forall x rnds, em_sub f g ddt x rnds times = em_sub f' g' ddt x rnds times.
Proof.
  intros Ha HF. induction HF as [|t times Ht HF IH]; intros x [|r rnds]; try reflexivity. cbn [em_sub].
  unfold em_move at 1. destruct (Ha t Ht) as [-> Hf]. rewrite Hf. apply IH.
Qed.

Lemma em_scan_agree f f' g g' P n ts : agree_on P f f' g g' ->
  (forall k, (S k < length ts)%nat -> Forall P (linspace (nth k ts 0) (nth (S k) ts 0 - Rabs (nth (S k) ts 0 - nth k ts 0) / INR n) n)) ->
  forall x rndss, em_scan f g n x ts rndss = em_scan f' g' n x ts rndss.
Proof.
  intros Ha. induction ts as [|t ts IH]; intros HF x rndss; [reflexivity|]. destruct ts as [|t' ts]; [reflexivity|]. destruct rndss as [|r rs]; [reflexivity|].
  rewrite !em_scan_cons. assert (Hs : em_step f g n x t t' r = em_step f' g' n x t t' r).
  { unfold em_step. apply (em_sub_agree f f' g g' P); [assumption|]. exact (HF 0%nat ltac:(cbn [length]; lia)). }
  rewrite Hs. f_equal. apply IH. intros k Hk. apply (HF (S k)). cbn [length] in *. lia.
Qed.

Lemma increasing_bounds (ts : list R) : (forall k, (S k < length ts)%nat -> nth k ts 0 <= nth (S k) ts 0) ->
  forall j k, (j <= k < length ts)%nat -> nth j ts 0 <= nth k ts 0.
Proof.
  intros H j k [Hjk Hk]. induction k as [|k IH]; [assert (j = 0%nat) by lia; subst; lra|].
  destruct (Nat.eq_dec j (S k)) as [->|Hne]; [lra|]. apply Rle_trans with (nth k ts 0); [apply IH; lia|apply H; lia].
Qed.
Lemma last_nth {A} (l : list A) d : last l d = nth (length l - 1) l d.
Proof.
  induction l as [|a l IH]; [reflexivity|]. destruct l as [|b l]; [reflexivity|].
  change (last (a :: b :: l) d) with (last (b :: l) d). rewrite IH. cbn [length]. replace (S (S (length l)) - 1)%nat with (S (S (length l) - 1)) by lia. reflexivity.
Qed.

(** On a strictly increasing grid only times in [ts[0], ts[-1]) matter. *)
Theorem em_times_inside f f' g g' n x0 ts rndss : (1 <= n)%nat ->
  (forall k, (S k < length ts)%nat -> nth k ts 0 < nth (S k) ts 0) ->
  agree_on (fun t => nth 0 ts 0 <= t < last ts 0) f f' g g' ->
  em_path f g n x0 ts rndss = em_path f' g' n x0 ts rndss.
Proof.
  intros Hn Hinc Ha. unfold em_path. f_equal. apply (em_scan_agree f f' g g' (fun t => nth 0 ts 0 <= t < last ts 0)); [assumption|].
  intros k Hk. apply Forall_forall. intros t Ht. apply (In_nth _ _ 0) in Ht as (i & Hi & <-). rewrite length_linspace in Hi.
  pose proof (Hinc k Hk) as Hk'. rewrite linspace_increasing by (assumption || lra).
  assert (Hle : forall k, (S k < length ts)%nat -> nth k ts 0 <= nth (S k) ts 0) by (intros; left; auto).
  pose proof (increasing_bounds ts Hle 0 k ltac:(lia)). rewrite last_nth. pose proof (increasing_bounds ts Hle (S k) (length ts - 1) ltac:(lia)).
  assert (HnR : 0 < INR n) by (apply lt_0_INR; lia). assert (Hi0 : 0 <= INR i) by apply pos_INR. assert (Hin : INR i < INR n) by (now apply lt_INR).
  set (D := nth (S k) ts 0 - nth k ts 0) in *. assert (HD : 0 < D) by (unfold D; lra). assert (Hd : 0 < D / INR n) by (now apply Rdiv_lt_0_compat).
  assert (HDn : INR n * (D / INR n) = D) by (field; lra). split; [nra|]. apply Rlt_le_trans with (nth (S k) ts 0); [|assumption].
  replace (nth (S k) ts 0) with (nth k ts 0 + INR n * (D / INR n)) by (rewrite HDn; unfold D; ring). nra.
Qed.

(** A decreasing grid with one sub-step per interval only uses times in (ts[-1], ts[0]]. *)
Theorem em_times_inside_decreasing f f' g g' x0 ts rndss :
  (forall k, (S k < length ts)%nat -> nth (S k) ts 0 < nth k ts 0) ->
  agree_on (fun t => last ts 0 < t <= nth 0 ts 0) f f' g g' ->
  em_path f g 1 x0 ts rndss = em_path f' g' 1 x0 ts rndss.
Proof.
  intros Hdec Ha. unfold em_path. f_equal. apply (em_scan_agree f f' g g' (fun t => last ts 0 < t <= nth 0 ts 0)); [assumption|].
  intros k Hk. cbn [linspace]. apply Forall_cons; [|apply Forall_nil].
  assert (Hle : forall k, (S k < length (map Ropp ts))%nat -> nth k (map Ropp ts) 0 <= nth (S k) (map Ropp ts) 0).
  { rewrite map_length. intros j Hj. rewrite <- Ropp_0, !(map_nth Ropp). specialize (Hdec j Hj). lra. }
  pose proof (increasing_bounds _ Hle 0 k ltac:(rewrite map_length; lia)) as H1.
  pose proof (increasing_bounds _ Hle (S k) (length ts - 1) ltac:(rewrite map_length; lia)) as H2.
  rewrite <- Ropp_0, !(map_nth Ropp) in H1, H2. rewrite last_nth. specialize (Hdec k Hk). lra.
Qed.

(** ** refinement: [n] sub-steps on [ts] are one sub-step on the refined grid *)
Fixpoint refine (n : nat) (ts : list R) : list R :=
  match ts with
  | t :: ((t' :: _) as ts') => map (fun i => t + INR i * ((t' - t) / INR n)) (seq 0 n) ++ refine n ts'
  | _ => ts
  end.

(** [x_{r+1} = x_r + f(x_r, tau_r) h_r + g(tau_r) sqrt(h_r) w_r], h_r = |tau_{r+1} - tau_r| *)
Fixpoint euler_chain (f : list R -> R -> list R) (g : R -> R) (x : list R) (taus : list R) (ws : list (list R)) : list R :=
  match taus, ws with
  | t :: ((t' :: _) as taus'), w :: ws' => euler_chain f g (em_move f g (Rabs (t' - t)) x t w) taus' ws'
  | _, _ => x
  end.

Lemma euler_chain_cons f g x t t' taus w ws : euler_chain f g x (t :: t' :: taus) (w :: ws) = euler_chain f g (em_move f g (Rabs (t' - t)) x t w) (t' :: taus) ws.
Proof. reflexivity. Qed.

Lemma linspace_map t t' n : (1 <= n)%nat -> t <= t' -> linspace t (t' - Rabs (t' - t) / INR n) n = map (fun i => t + INR i * ((t' - t) / INR n)) (seq 0 n).
Proof.
  intros Hn Ht. apply (nth_ext _ _ 0 0); [rewrite length_linspace, map_length, seq_length; reflexivity|].
  intros i Hi. rewrite length_linspace in Hi. rewrite linspace_increasing by assumption.
  set (h := fun i => t + INR i * ((t' - t) / INR n)). rewrite (nth_indep (map h _) 0 (h 0%nat)) by (rewrite map_length, seq_length; lia).
  rewrite (map_nth h), seq_nth by lia. reflexivity.
Qed.

Lemma refine_head n t t' ts : (1 <= n)%nat -> exists l, refine n (t :: t' :: ts) = t :: l.
Proof. intros Hn. destruct n as [|n]; [lia|]. eexists. cbn [refine seq map]. cbn [app]. f_equal. cbn [INR]. ring. Qed.
Lemma refine_head' n t ts : (1 <= n)%nat -> exists l, refine n (t :: ts) = t :: l.
Proof. intros Hn. destruct ts as [|t' ts]; [now exists []|now apply refine_head]. Qed.

Lemma em_sub_chain f g n t t' tl l : (1 <= n)%nat -> t <= t' -> tl = t' :: l -> forall m i x rnds ws, (i + m = n)%nat -> length rnds = m ->
  euler_chain f g x (map (fun i => t + INR i * ((t' - t) / INR n)) (seq i m) ++ tl) (rnds ++ ws) =
  euler_chain f g (em_sub f g (Rabs (t' - t) / INR n) x rnds (map (fun i => t + INR i * ((t' - t) / INR n)) (seq i m))) tl ws.
Proof.
  intros Hn Ht Htl. assert (HnR : 0 < INR n) by (apply lt_0_INR; lia).
  induction m as [|m IH]; intros i x rnds ws Him Hl; [destruct rnds; [reflexivity|discriminate]|].
  destruct rnds as [|r rnds]; [discriminate|]. cbn [seq map app em_sub].
  assert (Hnext : exists l', map (fun i => t + INR i * ((t' - t) / INR n)) (seq (S i) m) ++ tl = (t + INR (S i) * ((t' - t) / INR n)) :: l').
  { destruct m as [|m]; [|eexists; reflexivity]. exists l. cbn [seq map app]. rewrite Htl. f_equal. replace (S i) with n by lia. field. lra. }
  destruct Hnext as [l' Hl']. rewrite Hl', euler_chain_cons, <- Hl'. 
  replace (Rabs (t + INR (S i) * ((t' - t) / INR n) - (t + INR i * ((t' - t) / INR n)))) with (Rabs (t' - t) / INR n).
  - apply IH; [lia|]. cbn [length] in Hl. lia.
  - rewrite S_INR. replace (t + (INR i + 1) * ((t' - t) / INR n) - (t + INR i * ((t' - t) / INR n))) with ((t' - t) / INR n) by ring.
    unfold Rdiv. rewrite Rabs_mult, (Rabs_pos_eq (/ INR n)); [reflexivity|]. left. now apply Rinv_0_lt_compat.
Qed.

Theorem em_refine f g n : (1 <= n)%nat -> forall ts x rndss, (forall k, (S k < length ts)%nat -> nth k ts 0 <= nth (S k) ts 0) ->
  length rndss = (length ts - 1)%nat -> Forall (fun rnds => length rnds = n) rndss ->
  em_terminal f g n x ts rndss = euler_chain f g x (refine n ts) (concat rndss).
Proof.
  intros Hn. unfold em_terminal. induction ts as [|t ts IH]; intros x rndss Hinc Hl HF; [reflexivity|].
  destruct ts as [|t' ts]; [destruct rndss; [reflexivity|discriminate]|]. destruct rndss as [|r rs]; [simpl in Hl; lia|].
  apply Forall_cons_iff in HF as [Hr HF]. rewrite em_carry_cons. pose proof (Hinc 0%nat ltac:(cbn [length]; lia)) as H0. cbn [nth] in H0.
  destruct (refine_head' n t' ts Hn) as [l Hl']. cbn [concat].
  change (refine n (t :: t' :: ts)) with (map (fun i => t + INR i * ((t' - t) / INR n)) (seq 0 n) ++ refine n (t' :: ts)).
  rewrite (em_sub_chain f g n t t' _ l Hn H0 Hl' n 0 x r (concat rs)) by (reflexivity || assumption).
  unfold em_step. cbv zeta. rewrite <- linspace_map by assumption. apply IH; [|cbn [length] in *; lia|assumption].
  intros k Hk. apply (Hinc (S k)). cbn [length] in *. lia.
Qed.

(** ** shapes *)
Lemma length_em_move f g d ddt x t r : (forall x t, length x = d -> length (f x t) = d) -> length x = d -> length r = d -> length (em_move f g ddt x t r) = d.
Proof. intros Hf Hx Hr. unfold em_move, vadd. rewrite length_vmap2; rewrite length_vmap2; rewrite ?length_vscale, ?Hf; congruence. Qed.
Lemma em_sub_shape f g d ddt times : (forall x t, length x = d -> length (f x t) = d) ->
  forall x rnds, length x = d -> Forall (fun r => length r = d) rnds -> length (em_sub f g ddt x rnds times) = d.
Proof.
  intros Hf. induction times as [|t times IH]; intros x rnds Hx HF; destruct rnds as [|r rnds]; try assumption. cbn [em_sub].
  apply Forall_cons_iff in HF as [Hr HF]. apply IH; [now apply length_em_move|assumption].
Qed.
Theorem em_path_shape f g d n ts : (forall x t, length x = d -> length (f x t) = d) ->
  forall x rndss, length x = d -> Forall (Forall (fun r => length r = d)) rndss -> Forall (fun x => length x = d) (em_path f g n x ts rndss).
Proof.
  intros Hf. unfold em_path. induction ts as [|t ts IH]; intros x rndss Hx HF; [repeat constructor; assumption|].
  destruct ts as [|t' ts]; [destruct rndss; repeat constructor; assumption|]. destruct rndss as [|r rs]; [repeat constructor; assumption|].
  rewrite em_scan_cons. constructor; [assumption|]. apply Forall_cons_iff in HF as [Hr HF]. apply IH; [|assumption].
  unfold em_step. now apply em_sub_shape.
Qed.

(** ** keys *)
Lemma em_draws_good normal k n d : (forall k m d, good [k] (normal k m d)) -> forall m i, good (map (split_key k) (seq i m)) (em_draws normal k i m n d).
Proof.
  intros HN. induction m as [|m IH]; intros i; cbn [em_draws]; [apply good_ret|].
  apply good_step; [apply HN|]. intros r. apply good_bind_ret, IH.
Qed.
Theorem euler_maruyama_good normal k x0 ts f g n : (forall k m d, good [k] (normal k m d)) -> good [k] (euler_maruyama_path normal k x0 ts f g n).
Proof. intros HN. apply good_bind_ret. eapply good_under. apply (em_draws_good normal k n (length x0) HN (length ts - 1) 0). Qed.
Theorem simulate_cond_forward_good normal disc k x0 ts : (forall k m d, good [k] (normal k m d)) -> good [k] (simulate_cond_forward normal disc k x0 ts).
Proof. intros HN. apply good_bind_ret, HN. Qed.
Theorem loss_fn_good normal sde nn t0 T nsteps rt lt k x0s : (forall k m d, good [k] (normal k m d)) -> good [k] (loss_fn sde nn t0 T nsteps rt lt normal k x0s).
Proof.
  intros HN. assert (HD : forall k m d n i, good (map (split_key k) (seq i n)) (draw_batch normal k i n m d)).
  { intros k' m d. induction n as [|n IH]; intros i; cbn [draw_batch]; [apply good_ret|]. apply good_step; [apply HN|]. intros r. apply good_bind_ret, IH. }
  unfold loss_fn. apply (good_under k [0; 1]%nat). apply (good_seq k [0%nat] [1%nat]); [key_disjoint|keys_in| |].
  - destruct rt; [apply good_unif|apply good_ret].
  - intros draws. apply good_bind_ret. eapply good_under. apply HD.
Qed.
