(** Model of fbs/samplers/smc.py. *)
From Verif Require Export Csmc.
Open Scope R_scope.

(** The scanned inputs (vs[1:], vs[:-1], ts[:-1]) of the filters. *)
Fixpoint filter_inputs {V} (vs : list V) (ts : list R) : list (V * V * R) :=
  match vs, ts with
  | v0 :: ((v1 :: _) as vs'), t0 :: ts' => (v1, v0, t0) :: filter_inputs vs' ts'
  | _, _ => []
  end.

Section smc.
Context {U V : Type} (udef : U) (vdef : V).

Section filters.
Variable transition_sampler : list U -> V -> R -> key -> prog (list U).
Variable measurement_cond_pdf : V -> list U -> V -> R -> list R.
Variable resampling : list R -> key -> prog (list nat).

(** smc.py:58-74 [scan_body] of [bootstrap_filter]; the carry is (us_prev, log_nell).
    The split at line 71 is unused. *)
Definition bf_body (n : nat) (c : list U * R) (x : V * V * R) (k : key) : prog (list U * R) :=
  let '(us_prev, nell) := c in
  let '(v, v_prev, t_prev) := x in
  us <- transition_sampler us_prev v_prev t_prev (split_key k 0) ;;
  let log_weights := measurement_cond_pdf v us_prev v_prev t_prev in
  let c := logsumexp log_weights in
  inds <- resampling (map exp (map (fun x => x - c) log_weights)) (split_key k 1) ;;
  Ret (gather udef us inds, nell - (c - ln (INR n))).

(** [jax.lax.scan]: final carry and the stacked particle arrays; step [i] uses [keys[i]]. *)
Fixpoint bf_scan (n : nat) (k : key) (i : nat) (inputs : list (V * V * R)) (c : list U * R)
  : prog (list U * R * list (list U)) :=
  match inputs with
  | [] => Ret (c, [])
  | x :: rest =>
      c' <- bf_body n c x (split_key k i) ;;
      ' (cT, out) <- bf_scan n k (S i) rest c' ;;
      Ret (cT, fst c' :: out)
  end.

(** smc.py:9-88 [bootstrap_filter].  The flag [log] is accepted and ignored, as in the code.
    With [return_last] the single array returned by the code is given as a one-element list. *)
Definition bootstrap_filter (vs : list V) (ts : list R) (init_sampler : key -> V -> nat -> prog (list U))
  (k : key) (nparticles : nat) (log return_last : bool) : prog (list (list U) * R) :=
  init_samples <- init_sampler (split_key k 0) (nth 0 vs vdef) nparticles ;;
  ' (last_samples, nell, filtering_samples)
     <- bf_scan nparticles (split_key k 1) 0 (filter_inputs vs ts) (init_samples, 0) ;;
  Ret (if return_last then [last_samples] else init_samples :: filtering_samples, nell).

(** smc.py:138-152 [scan_body] of [pmcmc_filter_step]. *)
Definition pf_body (n : nat) (c : list U * R) (x : V * V * R) (k : key) : prog (list U * R) :=
  let '(us_prev, log_ell) := c in
  let '(v, v_prev, t_prev) := x in
  let log_ws := measurement_cond_pdf v us_prev v_prev t_prev in
  let c := logsumexp log_ws in
  inds <- resampling (map exp (map (fun x => x - c) log_ws)) (split_key k 1) ;;
  us <- transition_sampler (gather udef us_prev inds) v_prev t_prev (split_key k 0) ;;
  Ret (us, log_ell - ln (INR n) + c).

Fixpoint pf_scan (n : nat) (k : key) (i : nat) (inputs : list (V * V * R)) (c : list U * R) : prog (list U * R) :=
  match inputs with
  | [] => Ret c
  | x :: rest => c' <- pf_body n c x (split_key k i) ;; pf_scan n k (S i) rest c'
  end.

(** smc.py:115-158 [pmcmc_filter_step]. *)
Definition pmcmc_filter_step (k : key) (vs_bridge : list V) (u0s : list U) (ts : list R) (nparticles : nat)
  : prog (list U * R) :=
  pf_scan nparticles k 0 (filter_inputs vs_bridge ts) (u0s, 0).

(** [jnp.log(z) < x] for z in [0,1): log 0 = -inf, so z = 0 always passes. *)
Definition log_lt (z x : R) : bool :=
  if Rle_dec z 0 then true else if Rlt_dec (ln z) x then true else false.

(** samplers/common.py:5-9 [MCMCState]. *)
Record mcmc_state := mk_mcmc { acceptance_prob : R; is_accepted : bool; st_prop_log_ell : R; st_log_ell : R }.

(** smc.py:171-258 [pmcmc_kernel].  [propose k ys] stands for lines 233-237: [fwd_ys_sampler(k, y0)] when delta is
    None, [pcn_proposal] otherwise. *)
Definition pmcmc_kernel (k : key) (uT : U) (log_ell : R) (ys : list V) (ts : list R)
  (propose : key -> list V -> prog (list V)) (ref_sampler : key -> V -> nat -> prog (list U))
  (nparticles which_u : nat) : prog (U * R * list V * mcmc_state) :=
  prop_ys <- propose (split_key k 0) ys ;;
  let vs := rev prop_ys in
  u0s <- ref_sampler (split_key k 1) (nth 0 vs vdef) nparticles ;;
  ' (prop_uTs, prop_log_ell) <- pmcmc_filter_step (split_key k 2) vs u0s ts nparticles ;;
  let prop_uT := nth which_u prop_uTs udef in
  let log_acc_prob := Rmin 0 (prop_log_ell - log_ell) in
  Unif (split_key k 3) 1 (fun zs =>
    let z := nth 0 zs 0 in
    let acc := log_lt z log_acc_prob in
    let st := mk_mcmc (exp log_acc_prob) acc prop_log_ell log_ell in
    Ret (if acc then (prop_uT, prop_log_ell, prop_ys, st) else (uT, log_ell, ys, st))).
End filters.

(** smc.py:98-105 [scan_body] of [bootstrap_backward_smoother]. *)
Section smoother.
Variable transition_logpdf : U -> list U -> V -> R -> list R.

Fixpoint sm_scan (k : key) (i : nat) (u_kp1 : U) (inputs : list (list U * V * R)) : prog (list U) :=
  match inputs with
  | [] => Ret []
  | (uf_k, v_k, t_k) :: rest =>
      let log_ws := transition_logpdf u_kp1 uf_k v_k t_k in
      let log_ws' := map (fun x => x - logsumexp log_ws) log_ws in
      j <- choice (split_key k i) (map exp log_ws') ;;
      let u_k := nth j uf_k udef in
      out <- sm_scan k (S i) u_k rest ;;
      Ret (u_k :: out)
  end.

(** smc.py:91-112 [bootstrap_backward_smoother].  Line 109 draws [uT] with [key] itself, not with [key_last]. *)
Definition bootstrap_backward_smoother (k : key) (filter_us : list (list U)) (vs : list V) (ts : list R) : prog (list U) :=
  j <- choice_unif k (length (last filter_us [])) ;;
  let uT := nth j (last filter_us []) udef in
  traj <- sm_scan (split_key k 1) 0 uT
            (combine (combine (rev (removelast filter_us)) (rev (removelast vs))) (rev (removelast ts))) ;;
  Ret (rev traj ++ [uT]).
End smoother.

(** smc.py:261-309 [twisted_smc]. *)
Section twisted.
Context {Y : Type}.
Variable transition_logpdf : list U -> list U -> R -> list R.
Variable twisting_logpdf : Y -> list U -> R -> list R.
Variable twisting_prop_sampler : key -> list U -> R -> Y -> prog (list U).
Variable twisting_prop_logpdf : list U -> list U -> R -> Y -> list R.
Variable resampling : list R -> key -> prog (list nat).

Definition zip4 (f : R -> R -> R -> R -> R) (a b c d : list R) : list R :=
  map (fun q => let '(x, y, z, w) := q in f x y z w) (combine (combine (combine a b) c) d).

Definition tw_body (y : Y) (c : list U * list R * list R) (t : R) (k : key) : prog (list U * list R * list R) :=
  let '(xs_prev, log_ps_prev, log_ws) := c in
  inds <- resampling (map exp log_ws) (split_key k 0) ;;
  let xs_prev := gather udef xs_prev inds in
  let log_ps_prev := gather 0 log_ps_prev inds in
  xs <- twisting_prop_sampler (split_key k 1) xs_prev t y ;;
  let log_ps := twisting_logpdf y xs t in
  let log_ws := zip4 (fun a b c d => a + b - c - d)
                  (transition_logpdf xs xs_prev t) log_ps (twisting_prop_logpdf xs xs_prev t y) log_ps_prev in
  Ret (xs, log_ps, map (fun x => x - logsumexp log_ws) log_ws).

Fixpoint tw_scan (y : Y) (k : key) (i : nat) (ts : list R) (c : list U * list R * list R) : prog (list U * list R * list R) :=
  match ts with
  | [] => Ret c
  | t :: ts' => c' <- tw_body y c t (split_key k i) ;; tw_scan y k (S i) ts' c'
  end.

Definition twisted_smc (k : key) (y : Y) (ts : list R) (init_sampler : key -> nat -> prog (list U)) (nparticles : nat)
  : prog (list U * list R) :=
  init_xs <- init_sampler (split_key k 0) nparticles ;;
  let init_log_ps := twisting_logpdf y init_xs (nth 0 ts 0) in
  let init_log_ws := map (fun x => x - logsumexp init_log_ps) init_log_ps in
  ' (samples, _, log_weights) <- tw_scan y (split_key k 1) 0 (tl ts) (init_xs, init_log_ps, init_log_ws) ;;
  Ret (samples, log_weights).
End twisted.
End smc.

(** smc.py:161-168 [pcn_proposal], coordinatewise on a vector; [rnds] are the two draws. *)
Definition pcn_point (delta x mean r0 r1 : R) : R :=
  let beta := 2 / (2 + delta) in
  let p := x + sqrt (delta / 2) * (r0 - mean) in
  beta * p + (1 - beta) * mean + sqrt (1 - beta) * (r1 - mean).
Definition pcn_proposal (k : key) (delta : R) (x mean : list R) (sampler : key -> prog (list R)) : prog (list R) :=
  r0 <- sampler (split_key k 0) ;;
  r1 <- sampler (split_key k 1) ;;
  Ret (map (fun q => let '(a, m, s0, s1) := q in pcn_point delta a m s0 s1) (combine (combine (combine x mean) r0) r1)).
