(** Model of fbs/samplers/csmc/csmc.py.
    A particle (a row of an array) is an element of [U], a measurement of [V]; arrays of
    particles are lists.  [udef] stands for whatever JAX returns on an out-of-range gather. *)
From Verif Require Export CondResampling.
Open Scope R_scope.

(** [logsumexp]; csmc.py:273-292 [normalise] in log space and in natural space. *)
Definition logsumexp (l : list R) : R := ln (Rsum (map exp l)).
Definition normalise_log (lw : list R) : list R := map (fun x => x - logsumexp lw) lw.
Definition normalise (lw : list R) : list R := map exp (normalise_log lw).

(** csmc.py:295-297 [barker_move]. *)
Definition barker_move (k : key) (ws : list R) : prog nat := choice k ws.

Section csmc.
Context {U V : Type} (udef : U) (vdef : V).

(** the user-supplied model *)
Variable init_sampler : key -> nat -> prog (list U).
Variable init_likelihood_logpdf : V -> list U -> V -> list R.
Variable transition_sampler : list U -> V -> R -> key -> prog (list U).
Variable transition_logpdf : U -> list U -> V -> R -> list R.
Variable likelihood_logpdf : V -> list U -> V -> R -> list R.
Variable cond_resampling : key -> list R -> nat -> nat -> bool -> prog (list nat).

(** one element of the scanned inputs, csmc.py:158:
    (vs[1:], vs[:-1], ts[:-1], bs_star[:-1], bs_star[1:], us_star[1:]) (the key is handled apart) *)
Record step_in := mk_step { s_v : V; s_vprev : V; s_t : R; s_bprev : nat; s_b : nat; s_u : U }.

Fixpoint scan_inputs (vs : list V) (ts : list R) (bs : list nat) (us : list U) : list step_in :=
  match vs, ts, bs, us with
  | v0 :: ((v1 :: _) as vs'), t0 :: ts', b0 :: ((b1 :: _) as bs'), _ :: ((u1 :: _) as us') =>
      mk_step v1 v0 t0 b0 b1 u1 :: scan_inputs vs' ts' bs' us'
  | _, _, _, _ => []
  end.

(** csmc.py:132-148 [scan_body]: from (log_ws, us_prev) to (log_ws, A, us). *)
Definition scan_body (lw : list R) (us_prev : list U) (s : step_in) (k : key)
  : prog (list R * list nat * list U) :=
  A <- cond_resampling (split_key k 0) (map exp lw) (s_bprev s) (s_b s) true ;;
  let us_prev' := gather udef us_prev A in
  us <- transition_sampler us_prev' (s_vprev s) (s_t s) (split_key k 1) ;;
  let us' := set_nth (s_b s) (s_u s) us in
  Ret (normalise_log (likelihood_logpdf (s_v s) us_prev' (s_vprev s) (s_t s)), A, us').

(** csmc.py:157-159: the scan; step number [i] uses [split(key_scan, nsteps)[i]]. *)
Fixpoint scan_forward (k : key) (i : nat) (inputs : list step_in) (lw : list R) (us : list U)
  : prog (list (list R * list nat * list U)) :=
  match inputs with
  | [] => Ret []
  | s :: rest =>
      ' (lw', A, us') <- scan_body lw us s (split_key k i) ;;
      out <- scan_forward k (S i) rest lw' us' ;;
      Ret ((lw', A, us') :: out)
  end.

(** csmc.py:80-164 [forward_pass]: returns (As, log_wss, uss). *)
Definition forward_pass (k : key) (us_star : list U) (bs_star : list nat) (vs : list V) (ts : list R)
  (nsamples : nat) : prog (list (list nat) * list (list R) * list (list U)) :=
  us <- init_sampler (split_key k 0) (nsamples + 1) ;;
  let us0 := set_nth (nth 0 bs_star 0%nat) (nth 0 us_star udef) us in
  let lw0 := normalise_log (init_likelihood_logpdf (nth 0 vs vdef) us0 (nth 1 vs vdef)) in
  out <- scan_forward (split_key k 1) 0 (scan_inputs vs ts bs_star us_star) lw0 us0 ;;
  Ret (map (fun o => snd (fst o)) out,
       lw0 :: map (fun o => fst (fst o)) out,
       us0 :: map snd out).

(** csmc.py:230-270 [backward_scanning_pass].  The scanned inputs are (xss[-2::-1], As[::-1]). *)
Fixpoint trace_back (B : nat) (inp : list (list U * list nat)) : list (U * nat) :=
  match inp with
  | [] => []
  | (xs, A) :: inp' =>
      let B' := nth B A 0%nat in
      (nth B' xs udef, B') :: trace_back B' inp'
  end.
Definition backward_scanning_pass (k : key) (As : list (list nat)) (xss : list (list U)) (log_w_T : list R)
  : prog (list U * list nat) :=
  B_T <- barker_move k (normalise log_w_T) ;;
  let x_T := nth B_T (last xss []) udef in
  let out := (x_T, B_T) :: trace_back B_T (combine (rev (removelast xss)) (rev As)) in
  Ret (rev (map fst out), rev (map snd out)).

(** csmc.py:167-227 [backward_sampling_pass]. *)
Definition backward_weights (x_t : U) (xs : list U) (log_w : list R) (v : V) (t : R) : list R :=
  let G := transition_logpdf x_t xs v t in
  let G' := map (fun x => x - Rmax_list G) G in
  normalise (map (fun ab => fst ab + snd ab) (combine G' log_w)).

Fixpoint scan_backward (k : key) (i : nat) (x_t : U) (inp : list (list U * list R * V * R))
  : prog (list (U * nat)) :=
  match inp with
  | [] => Ret []
  | (xs, lw, v, t) :: inp' =>
      B <- choice (split_key k i) (backward_weights x_t xs lw v t) ;;
      let x := nth B xs udef in
      out <- scan_backward k (S i) x inp' ;;
      Ret ((x, B) :: out)
  end.
Definition backward_sampling_pass (k : key) (vs : list V) (ts : list R) (uss : list (list U))
  (log_ws : list (list R)) : prog (list U * list nat) :=
  B_T <- barker_move (split_key k (length uss - 1)) (normalise (last log_ws [])) ;;
  let x_T := nth B_T (last uss []) udef in
  out <- scan_backward k 0 x_T
           (combine (combine (combine (rev (removelast uss)) (rev (removelast log_ws)))
                             (rev (removelast vs))) (rev (removelast ts))) ;;
  let res := (x_T, B_T) :: out in
  Ret (rev (map fst res), rev (map snd res)).

(** csmc.py:14-77 [csmc_kernel]. *)
Definition csmc_kernel (k : key) (us_star : list U) (bs_star : list nat) (vs : list V) (ts : list R)
  (nsamples : nat) (backward : bool) : prog (list U * list nat) :=
  ' (As, log_ws, xss) <- forward_pass (split_key k 0) us_star bs_star vs ts nsamples ;;
  if backward then backward_sampling_pass (split_key k 1) vs ts xss log_ws
  else backward_scanning_pass (split_key k 1) As xss (last log_ws []).

End csmc.
