(** Model of fbs/samplers/resampling.py (unconditional resampling).
    Floats are reals; [key]s and uniforms as in Prog.v. *)
From Verif Require Export Prog.

(** resampling.py:36-40 [_sorted_uniforms]: [us] are the n+1 uniforms; z = cumsum(-log us); z[:-1]/z[-1].
    (Simplification: for u = 0 the float code has log 0 = -inf; Coq's [ln 0] is 0.) *)
Definition sorted_uniforms_of (us : list R) : list R :=
  let z := cumsum (map (fun u => - ln u) us) in
  map (fun x => x / last z 0) (removelast z).

(** resampling.py:49-51: searchsorted of the points in the cumulative weights, then clip to [0, n-1]. *)
Definition inverse_cdf_indices (weights points : list R) : list nat :=
  map (fun v => clip_index (length weights) (searchsorted (cumsum weights) v)) points.

(** resampling.py:50: (arange(n) + u) / n for a vector u of length n. *)
Definition strat_points (us : list R) : list R :=
  map (fun ku => (INR (fst ku) + snd ku) / INR (length us)) (combine (seq 0 (length us)) us).

(** resampling.py:43-55 [systematic]: one uniform, broadcast over the n strata. *)
Definition systematic_of (weights : list R) (u : R) : list nat :=
  inverse_cdf_indices weights (strat_points (repeat u (length weights))).
Definition systematic (weights : list R) (k : key) : prog (list nat) :=
  Unif k 1 (fun us => Ret (systematic_of weights (nth 0 us 0))).

(** resampling.py:43-51,58-59 [stratified]: n uniforms. *)
Definition stratified_of (weights us : list R) : list nat :=
  inverse_cdf_indices weights (strat_points us).
Definition stratified (weights : list R) (k : key) : prog (list nat) :=
  Unif k (length weights) (fun us => Ret (stratified_of weights us)).

(** resampling.py:62-68 [multinomial]. *)
Definition multinomial_of (weights us : list R) : list nat :=
  inverse_cdf_indices weights (sorted_uniforms_of us).
Definition multinomial (weights : list R) (k : key) : prog (list nat) :=
  Unif k (length weights + 1) (fun us => Ret (multinomial_of weights us)).

(** Slot [i] survives iff not (u_i * w_max >= w_i)  (resampling.py:97). *)
Definition survives (w_max : R) (i : nat) (w u : R) : option nat :=
  if Rle_dec w (u * w_max) then None else Some i.

(** resampling.py:97-100: where(~killed, arange(N), choice). *)
Definition killing_select (weights us : list R) (cs : list nat) : list nat :=
  map (fun oc => match fst oc with Some i => i | None => snd oc end)
      (combine (zipapp (map (fun iw => survives (Rmax_list weights) (fst iw) (snd iw))
                            (combine (seq 0 (length weights)) weights)) us) cs).

(** resampling.py:71-101 [killing]: key_1, key_2, (unused) key_3 = split(key, 3). *)
Definition killing (weights : list R) (k : key) : prog (list nat) :=
  us <- Unif (split_key k 0) (length weights) (fun us => Ret us) ;;
  cs <- choices (split_key k 1) weights (length weights) ;;
  Ret (killing_select weights us cs).

(** resampling.py:104-108 [_avg_n_nplusone] on a vector: hx padded right plus hx shifted. *)
Definition avg_n_nplusone (x : list R) : list R :=
  let hx := map (fun a => / 2 * a) x in
  map (fun ab => fst ab + snd ab) (combine (hx ++ [0]) (0 :: hx)).
