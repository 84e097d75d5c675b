(** Model of fbs/samplers/gibbs.py. *)
From Coq Require Import String.
From Verif Require Export Smc.
Open Scope R_scope.

(** ** force_move, gibbs.py:171-214 *)

(** line 203: max(1 - exp(-M), 1 - 1e-12) *)
Definition fm_threshold (M : nat) : R := Rmax (1 - exp (- INR M)) (1 - / 10 ^ 12).

(** lines 202-205 *)
Definition fm_rest (weights : list R) (k0 : nat) : list R :=
  let M := length weights in
  let w_k := nth k0 weights 0 in
  if Rlt_dec w_k (fm_threshold M) then map (fun x => x / (1 - w_k)) (set_nth k0 0 weights) else repeat (1 / INR M) M.

(** lines 211, 214: clip(nansum(temp * rest / (1 - weights)), 0, 1).  A term whose denominator is 0 is NaN (dropped) when
    its numerator is 0 and +inf otherwise; an infinite sum is clipped to 1. *)
Definition fm_term (num den : R) : option R :=
  if Req_EM_T den 0 then if Req_EM_T num 0 then Some 0 else None else Some (num / den).
Fixpoint fm_sum (l : list (option R)) : option R :=
  match l with
  | [] => Some 0
  | None :: _ => None
  | Some x :: l' => match fm_sum l' with Some s => Some (x + s) | None => None end
  end.
Definition fm_alpha (weights : list R) (k0 : nat) : R :=
  let temp := 1 - nth k0 weights 0 in
  match fm_sum (map (fun rw => fm_term (temp * fst rw) (1 - snd rw)) (combine (fm_rest weights k0) weights)) with
  | Some a => Rmin (Rmax a 0) 1
  | None => 1
  end.

Definition force_move (k : key) (weights : list R) (k0 : nat) : prog (nat * R) :=
  i <- choice (split_key k 0) (fm_rest weights k0) ;;
  Unif (split_key k 1) 1 (fun us =>
    let u := nth 0 us 0 in
    let accept := if Rlt_dec (u * (1 - nth i weights 0)) (1 - nth k0 weights 0) then true else false in
    Ret (if accept then i else k0, fm_alpha weights k0)).

Section gibbs.
Context {U V : Type} (udef : U) (vdef : V).

(** [fwd_sampler] followed by [unpack]: the noised paths of x and y, each starting at time 0 *)
Variable fwd_sampler : key -> U -> V -> prog (list U * list V).
(** [bridge_sampler(key, y_0, y_T, ts, sde)] (lines 17-20; the simulator itself is in Sde files) *)
Variable bridge_sampler : key -> V -> V -> list R -> prog (list V).
(** [jax.random.normal(key, (n, *shape))] *)
Variable normal_sampler : key -> nat -> prog (list U).
Variable transition_sampler : list U -> V -> R -> key -> prog (list U).
Variable transition_logpdf : U -> list U -> V -> R -> list R.
Variable likelihood_logpdf : V -> list U -> V -> R -> list R.

(** lines 127-130: the reversed paths (us, vs) *)
Definition noise_stage (k_fwd k_bridge : key) (x0 : U) (y0 : V) (ts : list R) (marg_y : bool) : prog (list U * list V) :=
  ' (path_x, path_y) <- fwd_sampler k_fwd x0 y0 ;;
  if marg_y then
    l <- bridge_sampler k_bridge (nth 0 path_y vdef) (last path_y vdef) ts ;; Ret (rev path_x, rev l)
  else Ret (rev path_x, rev path_y).

(** lines 132-144; without [explicit_final] the number of samples asked for is ignored *)
Definition gk_init (explicit_final : bool) (nparticles : nat) (u0 : U) (k : key) (n : nat) : prog (list U) :=
  if explicit_final then normal_sampler k n else Ret (repeat u0 nparticles).
Definition gk_initll (explicit_final : bool) (nparticles : nat) (t0 : R) (v0 : V) (u0s : list U) (v1 : V) : list R :=
  if explicit_final then likelihood_logpdf v0 u0s v1 t0 else repeat (- ln (INR nparticles)) nparticles.

(** gibbs.py:68-168 [gibbs_kernel]; [us_star] is unused, as in the code.  Returns (x0, us_star, bs_star, changed). *)
Definition gibbs_kernel (k : key) (x0 : U) (y0 : V) (us_star : list U) (bs_star : list nat) (ts : list R) (nparticles : nat)
  (marg_y explicit_backward explicit_final : bool) : prog (U * list U * list nat * list bool) :=
  ' (us, vs) <- noise_stage (split_key k 0) (split_key k 2) x0 y0 ts marg_y ;;
  let init_sampler := gk_init explicit_final nparticles (nth 0 us udef) in
  let init_likelihood_logpdf := gk_initll explicit_final nparticles (nth 0 ts 0) in
  let key_csmc := split_key k 1 in
  ' (us_star_next, bs_star_next) <-
    (if explicit_backward then
       ' (_, log_ws, uss) <- forward_pass udef vdef init_sampler init_likelihood_logpdf transition_sampler likelihood_logpdf ckilling
                               (split_key key_csmc 0) us bs_star vs ts nparticles ;;
       ' (idx, _) <- force_move (split_key key_csmc 1) (map exp (last log_ws [])) (last bs_star 0%nat) ;;
       let x0' := nth idx (last uss []) udef in
       ' (path_x, _) <- fwd_sampler (split_key key_csmc 2) x0' y0 ;;
       bs <- Rint (split_key key_csmc 3) (length us) nparticles (fun l => Ret l) ;;
       Ret (rev path_x, bs)
     else csmc_kernel udef vdef init_sampler init_likelihood_logpdf transition_sampler transition_logpdf likelihood_logpdf ckilling
            key_csmc us bs_star vs ts nparticles false) ;;
  Ret (last us_star_next udef, us_star_next, bs_star_next,
       map (fun ab => negb (Nat.eqb (fst ab) (snd ab))) (combine bs_star_next bs_star)).

(** gibbs.py:23-65 [gibbs_init].  [x0 = None] means zeros of the given shape ([uzero]).
    An unknown method raises ValueError ([None]). *)
Variable uzero : U.
Inductive init_result := InitState (x0 : U) (us_star : list U) | InitDebug (uss : list (list U)).

Definition gibbs_init (k : key) (y0 : V) (ts : list R) (nparticles : nat) (method : string) (marg_y : bool) (x0 : option U)
  : option (prog init_result) :=
  let x0 := match x0 with Some x => x | None => uzero end in
  let run (rl : bool) (vs : list V) :=
    bootstrap_filter udef vdef transition_sampler likelihood_logpdf stratified vs ts
      (fun _ _ _ => normal_sampler (split_key k 2) nparticles) (split_key k 3) nparticles true rl in
  let stage := noise_stage (split_key k 0) (split_key k 1) x0 y0 ts marg_y in
  if String.eqb method "filter" then Some (
    ' (_, vs) <- stage ;;
    ' (uss, _) <- run true vs ;;
    let approx_x0 := nth 0 (last uss []) udef in
    ' (path_x, _) <- fwd_sampler (split_key k 4) approx_x0 y0 ;;
    Ret (InitState approx_x0 (rev path_x)))
  else if String.eqb method "smoother" then Some (
    ' (_, vs) <- stage ;;
    ' (uss, _) <- run false vs ;;
    us <- bootstrap_backward_smoother udef transition_logpdf (split_key k 5) uss vs ts ;;
    Ret (InitState (nth 0 (last uss []) udef) us))
  else if String.eqb method "debug" then Some (
    ' (_, vs) <- stage ;;
    ' (uss, _) <- run false vs ;;
    Ret (InitDebug uss))
  else None.
End gibbs.
