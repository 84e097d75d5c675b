(** Model of fbs/samplers/csmc/resamplings.py (conditional resampling). *)
From Coq Require Import ZArith.
From Verif Require Export Resampling.

(** [jnp.roll(x, s)] for an integer shift: out[l] = x[(l - s) mod N]. *)
Definition roll_src (n : nat) (s : Z) (l : nat) : nat :=
  Z.to_nat ((Z.of_nat l - s) mod Z.of_nat n)%Z.
Definition roll {A} (d : A) (s : Z) (x : list A) : list A :=
  map (fun l => nth (roll_src (length x) s l) x d) (seq 0 (length x)).

(** resamplings.py:10-37 [multinomial]. *)
Definition cmultinomial (k : key) (weights : list R) (i j : nat) (conditional : bool) : prog (list nat) :=
  indices <- choices k weights (length weights) ;;
  Ret (if conditional then set_nth j i indices else indices).

(** resamplings.py:79-82: the law of the slot J that carried the conditioned-on offspring. *)
Definition J_probs (weights : list R) (i : nat) : list R :=
  let n := length weights in
  let w_max := Rmax_list weights in
  let p := set_nth i 0 (map (fun w => (1 - w / w_max) / INR n) weights) in
  set_nth i (Rmax (1 - Rsum p) 0) p.

(** resamplings.py:40-88 [killing]. *)
Definition ckilling (k : key) (weights : list R) (i j : nat) (conditional : bool) : prog (list nat) :=
  us <- Unif (split_key k 0) (length weights) (fun us => Ret us) ;;
  cs <- choices (split_key k 1) weights (length weights) ;;
  let idx := killing_select weights us cs in
  if conditional then
    J <- choice (split_key k 2) (J_probs weights i) ;;
    Ret (set_nth j i (roll 0%nat (Z.of_nat j - Z.of_nat J)%Z idx))
  else Ret idx.

(** resamplings.py:91-129 [systematic]: the conditional branch raises NotImplementedError ([None]);
    the unconditional branch (lines 120-125) has no final clip. *)
Definition csystematic_of (weights : list R) (u : R) : list nat :=
  map (searchsorted (cumsum weights)) (strat_points (repeat u (length weights))).
Definition csystematic (k : key) (weights : list R) (i j : nat) (conditional : bool) : option (prog (list nat)) :=
  if conditional then None
  else Some (Unif k 1 (fun us => Ret (csystematic_of weights (nth 0 us 0)))).
