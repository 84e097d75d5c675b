(** Model of fbs/sdes/linear.py (the SDE classes, make_ou_sde, make_linear_sde and the losses).
    A state array is the list of its entries; times and parameters are reals. *)
From Coquelicot Require Import Coquelicot.
From Verif Require Export Base Dist Prog.
Open Scope R_scope.

(** ** Elementwise array operations *)
Definition vmap2 (f : R -> R -> R) (x y : list R) : list R := map (fun p => f (fst p) (snd p)) (combine x y).
Definition vscale (c : R) (x : list R) : list R := map (fun a => c * a) x.
Definition vadd : list R -> list R -> list R := vmap2 Rplus.

(** [jax.scipy.stats.norm.logpdf(x, loc, scale)]. *)
Definition norm_logpdf (x loc scale : R) : R :=
  (ln (2 * PI * (scale * scale)) + (x - loc) * (x - loc) / (scale * scale)) / Ropp 2.

(** [jax.grad(f)(x)] of a scalar function of an array: the partial derivatives. *)
Definition grad (f : list R -> R) (x : list R) : list R :=
  map (fun i => Derive (fun z => f (set_nth i z x)) (nth i x 0)) (seq 0 (length x)).

(** linear.py:9-112: the classes deriving from [LinearSDE]; [OtherSDE] stands for any other instance. *)
Inductive linear_sde : Type :=
| ConstSDE (a b : R)
| LinSDE (beta_min beta_max t0 T : R)
| ExpSDE (a b c z : R)
| OtherSDE.

(** linear.py:60-62 *)
Definition beta (beta_min beta_max t0 T t : R) : R :=
  (beta_max - beta_min) / (T - t0) * t + (beta_min * T - beta_max * t0) / (T - t0).
(** linear.py:64-67 *)
Definition beta_integral (beta_min beta_max t0 T t s : R) : R :=
  1/2 * (t - s) * ((beta_max - beta_min) / (T - t0) * (t + s) + 2 * (beta_min * T - beta_max * t0) / (T - t0)).

(** The methods [drift], [dispersion] (linear.py:22-26, 69-73, 108-112).  [OtherSDE] has none. *)
Definition drift_coef (sde : linear_sde) (t : R) : R :=
  match sde with
  | ConstSDE a _ => a
  | LinSDE m M t0 T => Ropp (1/2) * beta m M t0 T t
  | ExpSDE a _ c z => a * exp (c * (t - z))
  | OtherSDE => 0
  end.
Definition drift (sde : linear_sde) (x : list R) (t : R) : list R := vscale (drift_coef sde t) x.
Definition dispersion (sde : linear_sde) (t : R) : R :=
  match sde with
  | ConstSDE _ b => b
  | LinSDE m M t0 T => sqrt (beta m M t0 T t)
  | ExpSDE _ b c z => b * exp (c * (t - z) / 2)
  | OtherSDE => 0
  end.

(** The methods [mean], [variance] (linear.py:28-34, 75-81); the exponential class has none. *)
Definition sde_mean (sde : linear_sde) (t s : R) (m0 : list R) : option (list R) :=
  match sde with
  | ConstSDE a _ => Some (map (fun m => m * exp (a * (t - s))) m0)
  | LinSDE m M t0 T => Some (map (fun x => x * exp (Ropp (1/2) * beta_integral m M t0 T t s)) m0)
  | _ => None
  end.
Definition sde_variance (sde : linear_sde) (t s : R) : option R :=
  match sde with
  | ConstSDE a b => Some (b * b / (2 * a) * (exp (2 * a * (t - s)) - 1))
  | LinSDE m M t0 T => Some (1 - exp (- beta_integral m M t0 T t s))
  | _ => None
  end.

(** linear.py:36-45, 83-92 [bridge_drift]. *)
Definition log_h (sde : linear_sde) (t T : R) (target b : list R) : R :=
  match sde_mean sde T t b, sde_variance sde T t with
  | Some m, Some v => Rsum (map (fun p => norm_logpdf (fst p) (snd p) (sqrt v)) (combine target m))
  | _, _ => 0
  end.
Definition bridge_drift (sde : linear_sde) (x : list R) (t : R) (target : list R) (T : R) : option (list R) :=
  match sde with
  | ConstSDE _ _ | LinSDE _ _ _ _ =>
      Some (vadd (drift sde x t) (vscale (dispersion sde t * dispersion sde t) (grad (fun b => log_h sde t T target b) x)))
  | _ => None
  end.

(** linear.py:119-120 [discretise_ou_sde]. *)
Definition discretise_ou (a b t : R) : R * R := (exp (a * t), b * b / (2 * a) * (exp (2 * a * t) - 1)).

(** linear.py:169-184 [discretise_linear_sde]: the formulas, and the function with its failures.
    The branch for an unknown class raises; where a divisor is zero the code produces NaN, shown as [None] too. *)
Definition FQ (sde : linear_sde) (t s : R) : R * R :=
  match sde with
  | LinSDE m M t0 T => let r := beta_integral m M t0 T t s in (exp (Ropp (1/2) * r), 1 - exp (- r))
  | ConstSDE a b => (exp (a * (t - s)), b * b / (2 * a) * (exp (2 * a * (t - s)) - 1))
  | ExpSDE a b c z =>
      let stationary_variance := - (b * b) / (2 * a) in
      let r := a * (exp (c * (t - z)) - exp (c * (s - z))) / c in
      (exp r, stationary_variance * (1 - exp (2 * r)))
  | OtherSDE => (0, 0)
  end.
Definition discretise (sde : linear_sde) (t s : R) : option (R * R) :=
  match sde with
  | LinSDE _ _ t0 T => if Req_EM_T T t0 then None else Some (FQ sde t s)
  | ConstSDE a _ => if Req_EM_T a 0 then None else Some (FQ sde t s)
  | ExpSDE a _ c _ => if Req_EM_T a 0 then None else if Req_EM_T c 0 then None else Some (FQ sde t s)
  | OtherSDE => None
  end.

(** linear.py:186-188 and 122-124 [cond_score_t_0]. *)
Definition score_of (FQ : R * R) (x x0 : list R) : list R := vmap2 (fun a b => - (a - fst FQ * b) / snd FQ) x x0.
Definition cond_score (sde : linear_sde) (x : list R) (t : R) (x0 : list R) (s : R) : list R := score_of (FQ sde t s) x x0.
Definition cond_score_ou (a b : R) (x : list R) (t : R) (x0 : list R) : list R := score_of (discretise_ou a b t) x x0.

(** linear.py:211-217 and 145-151 [scan_body]; the scan over (ts[1:], ts[:-1], rnds) (resp. (diff ts, rnds)). *)
Definition move (FQ : R * R) (x rnd : list R) : list R := vadd (vscale (fst FQ) x) (vscale (sqrt (snd FQ)) rnd).
Fixpoint path_scan (disc : R -> R -> R * R) (x : list R) (t_prev : R) (ts : list R) (rnds : list (list R)) : list (list R) :=
  match ts, rnds with
  | t :: ts', rnd :: rnds' => let x' := move (disc t t_prev) x rnd in x' :: path_scan disc x' t ts' rnds'
  | _, _ => []
  end.
Definition exact_path (disc : R -> R -> R * R) (x0 : list R) (ts : list R) (rnds : list (list R)) : list (list R) :=
  match ts with [] => x0 :: [] | t :: ts' => x0 :: path_scan disc x0 t ts' rnds end.

(** NumPy broadcasting of one-dimensional arrays, and of a (n,) array against the last axis of an (m, d) array. *)
Definition bcast1 (f : R -> R -> R) (x y : list R) : option (list R) :=
  if Nat.eqb (length x) (length y) then Some (vmap2 f x y)
  else if Nat.eqb (length x) 1 then Some (map (f (nth 0 x 0)) y)
  else if Nat.eqb (length y) 1 then Some (map (fun a => f a (nth 0 y 0)) x)
  else None.
Definition option_all {A} (l : list (option A)) : option (list A) :=
  fold_right (fun a acc => match a, acc with Some x, Some l => Some (x :: l) | _, _ => None end) (Some []) l.
Definition bcast_rows (f : R -> R -> R) (x : list R) (m : list (list R)) : option (list (list R)) :=
  option_all (map (bcast1 f x) m).
Definition obind {A B} (x : option A) (f : A -> option B) : option B := match x with Some a => f a | None => None end.

(** linear.py:222-225, keep_path=False.  With a scalar time (the use in the memory-saving loss) ... *)
Definition marginal_at (sde : linear_sde) (x0 : list R) (t t0 : R) (rnd : list R) : option (list R) :=
  match discretise sde t t0 with Some FQ => Some (move FQ x0 rnd) | None => None end.
(** ... and with the documented array of times, where [Fs * x0 + sqrt(Qs) * rnds] broadcasts (n,) against (d,) and
    (n, d).  [t0 = None] (the default) raises. *)
Definition marginals_array (sde : linear_sde) (x0 : list R) (ts : list R) (t0 : option R) (rnds : list (list R))
  : option (list (list R)) :=
  obind t0 (fun s =>
  obind (option_all (map (fun t => discretise sde t s) ts)) (fun FQs =>
  obind (bcast1 Rmult (map fst FQs) x0) (fun m =>
  obind (bcast_rows Rmult (map (fun fq => sqrt (snd fq)) FQs) rnds) (fun e =>
  bcast_rows Rplus m e)))).
(** linear.py:157-160: the OU helper inserts the missing axes; the initial time is 0. *)
Definition ou_marginals (a b : R) (x0 : list R) (ts : list R) (rnds : list (list R)) : list (list R) :=
  map (fun p => move (discretise_ou a b (fst p)) x0 (snd p)) (combine ts rnds).
Definition ou_path (a b : R) (x0 : list R) (ts : list R) (rnds : list (list R)) : list (list R) :=
  exact_path (fun t s => discretise_ou a b (t - s)) x0 ts rnds.

(** [jax.random.normal(key, (m, d))]: a sampler of [m] rows of [d] numbers. *)
Definition normal_sampler := key -> nat -> nat -> prog (list (list R)).
Definition simulate_cond_forward (normal : normal_sampler) (disc : R -> R -> R * R) (k : key) (x0 ts : list R) : prog (list (list R)) :=
  rnds <- normal k (length ts - 1)%nat (length x0) ;; Ret (exact_path disc x0 ts rnds).

(** ** Losses *)
(** [jnp.linspace(start, stop, num)]. *)
Definition linspace (a b : R) (n : nat) : list R :=
  match n with
  | 1%nat => a :: []
  | _ => map (fun i => a + INR i * ((b - a) / INR (n - 1))) (seq 0 n)
  end.
(** [jnp.sort]. *)
Fixpoint insert (x : R) (l : list R) : list R :=
  match l with [] => x :: [] | y :: l' => if Rle_dec x y then x :: l else y :: insert x l' end.
Definition sort (l : list R) : list R := fold_right insert [] l.
(** linear.py:274-279, 378-383: the time grid; [draws] are the uniforms on [0,1). *)
Definition loss_grid (random_times : bool) (minval t0 T : R) (nsteps : nat) (draws : list R) : list R :=
  if random_times then t0 :: sort (map (fun u => minval + u * (T - minval)) draws) ++ T :: []
  else linspace t0 T (nsteps + 1).

Inductive loss_type := Lscore | Lipf | Lipfscore | Lunknown.

Definition sq_diff (x y : list R) : list R := vmap2 (fun a b => (a - b) * (a - b)) x y.
(** column [k] of the batch of paths: the (n, d) array [fwd_paths[:, k]] *)
Definition column (paths : list (list (list R))) (k : nat) : list (list R) := map (fun p => nth k p []) paths.

(** linear.py:269-317 [loss_fn] after the random draws.  [nn xs t] is the network on a batch at one time.  The means run
    over (sample, step, coordinate) in the code and over (step, sample, coordinate) here. *)
Section loss.
Variable disc : R -> R -> R * R.
Variable score : list R -> R -> list R -> R -> list R.
Variable nn : list (list R) -> R -> list (list R).

Definition score_terms (ts : list R) (paths : list (list (list R))) (k : nat) : list R :=
  let t := nth k ts 0 in let t0 := nth 0 ts 0 in
  map (fun q => let '(out, (x, x0)) := q in Rmean (sq_diff out (score x t x0 t0)) * snd (disc t t0))
    (combine (nn (column paths k) t) (combine (column paths k) (column paths 0))).
Definition ipf_target (t s : R) (x xp : list R) : list R :=
  let F := fst (disc t s) in vmap2 Rminus (vadd x (vscale F xp)) (vscale F x).
Definition ipf_terms (ts : list R) (paths : list (list (list R))) (k : nat) : list R :=
  let t := nth k ts 0 in let s := nth (k - 1) ts 0 in
  concat (map (fun q => let '(out, (x, xp)) := q in sq_diff out (ipf_target t s x xp))
    (combine (nn (column paths k) t) (combine (column paths k) (column paths (k - 1))))).
Definition ipfscore_terms (ts : list R) (paths : list (list (list R))) (k : nat) : list R :=
  let t := nth k ts 0 in let s := nth (k - 1) ts 0 in
  concat (map (fun q => let '(out, (x, xp)) := q in sq_diff out (score x t xp s))
    (combine (nn (column paths k) t) (combine (column paths k) (column paths (k - 1))))).
Definition loss_value (lt : loss_type) (ts : list R) (paths : list (list (list R))) : option R :=
  let over terms := Rmean (concat (map (terms ts paths) (seq 1 (length ts - 1)))) in
  match lt with
  | Lscore => Some (over score_terms)
  | Lipf => Some (over ipf_terms)
  | Lipfscore => Some (over ipfscore_terms)
  | Lunknown => None
  end.
End loss.

Definition linear_loss (sde : linear_sde) (nn : list (list R) -> R -> list (list R)) (lt : loss_type)
  (ts : list R) (x0s : list (list R)) (rndss : list (list (list R))) : option R :=
  loss_value (FQ sde) (cond_score sde) nn lt ts
    (map (fun q => exact_path (FQ sde) (fst q) ts (snd q)) (combine x0s rndss)).

(** linear.py:368-394 [make_ou_score_matching_loss]: scores and scales are conditional on time 0 *)
Definition ou_loss (a b : R) (nn : list (list R) -> R -> list (list R)) (ts : list R) (x0s : list (list R))
  (rndss : list (list (list R))) : option R :=
  loss_value (fun t _ => discretise_ou a b t) (fun x t x0 _ => cond_score_ou a b x t x0) nn Lscore ts
    (map (fun q => ou_path a b (fst q) ts (snd q)) (combine x0s rndss)).

(** linear.py:319-363 [loss_fn_save_mem] after the random draws, for states of shape (d,): one time per sample.
    [nn xs ts] gets the whole array of times.  The ipf variants slice axis 1 of the (n, d) array [fwd_paths] (the
    features) against the n times, which needs d = n; then [nn_evals] of shape (n, d) meets an array of shape (n, d-1),
    which broadcasts only for d = 2 (d = 1 gives the mean of an empty array, a NaN). *)
Definition save_mem_ipf_ok (n d : nat) : bool := Nat.eqb n 2 && Nat.eqb d 2.
Definition save_mem_loss (sde : linear_sde) (nn : list (list R) -> list R -> list (list R)) (lt : loss_type)
  (t0 : R) (ts : list R) (x0s : list (list R)) (rnds : list (list R)) : option R :=
  let n := length x0s in let d := length (nth 0 x0s []) in
  let xs := map (fun q => let '(x0, (t, rnd)) := q in move (FQ sde t t0) x0 rnd) (combine x0s (combine ts rnds)) in
  let outs := nn xs ts in
  let col j := map (fun x => nth j x 0) xs in
  (* for n = d = 2: column 1 of the targets, broadcast along the features of the network's output *)
  let broadcast target := Rmean (concat (map (fun q => map (fun o => (o - snd q) * (o - snd q)) (fst q)) (combine outs target))) in
  match lt with
  | Lscore =>
      Some (Rmean (map (fun q => let '(out, (x, (x0, t))) := q in Rmean (sq_diff out (cond_score sde x t x0 t0)) * snd (FQ sde t t0))
              (combine outs (combine xs (combine x0s ts)))))
  | Lipf => if save_mem_ipf_ok n d then Some (broadcast (ipf_target (FQ sde) (nth 1 ts 0) (nth 0 ts 0) (col 1%nat) (col 0%nat))) else None
  | Lipfscore => if save_mem_ipf_ok n d then Some (broadcast (cond_score sde (col 1%nat) (nth 1 ts 0) (col 0%nat) (nth 0 ts 0))) else None
  | Lunknown => None
  end.
(** linear.py:324-330: the times of the memory-saving loss *)
Definition save_mem_grid (random_times : bool) (minval t0 T : R) (n : nat) (draws : list R) : list R :=
  if random_times then sort (map (fun u => minval + u * (T - minval)) draws) ++ T :: []
  else linspace (t0 + (T - t0) / INR n) T n.

(** linear.py:269-286: the random part of [loss_fn], [x0s] of shape (n, d). *)
Fixpoint draw_batch (normal : normal_sampler) (k : key) (i n m d : nat) : prog (list (list (list R))) :=
  match n with
  | O => Ret []
  | S n' => r <- normal (split_key k i) m d ;; rs <- draw_batch normal k (S i) n' m d ;; Ret (r :: rs)
  end.
Definition loss_fn (sde : linear_sde) (nn : list (list R) -> R -> list (list R)) (t0 T : R) (nsteps : nat)
  (random_times : bool) (lt : loss_type) (normal : normal_sampler) (k : key) (x0s : list (list R)) : prog (option R) :=
  draws <- (if random_times then Unif (split_key k 0) (nsteps - 1) (fun us => Ret us) else Ret []) ;;
  let ts := loss_grid random_times (t0 + / 10 ^ 5) t0 T nsteps draws in
  rndss <- draw_batch normal (split_key k 1) 0 (length x0s) (length ts - 1) (length (nth 0 x0s [])) ;;
  Ret (linear_loss sde nn lt ts x0s rndss).
