(** C132: the values of the small networks of fbs/nn/models.py. *)
From Coquelicot Require Import Coquelicot.
From Coq Require Import Reals List Lia Lra Bool PeanoNat.
From Verif Require Sde Sim Demo.
From Verif Require Import Base Dist Prog Mat Nets UNet UNetVal EmMoments EmConverge EmStable Mlp MlpProofs MlpMain.
Import ListNotations.
Open Scope R_scope.

(** CrescentMLP takes a vector or a batch, one time or one per row ([sizes_agree]: numpy's broadcasting rule), and its result has no
    axis of size one: one row gives a vector, dim = 1 drops the last axis. *)
Theorem C132_crescent_shape : forall P dt dim h hs x t s,
  option_map dims (crescent_val P dt dim (h :: hs) x t) = Some s <-> is_scalar x = false /\ exists n, sizes_agree (row_count x) (time_count t) n /\ s = no_ones [n; dim].
Proof. exact crescent_shape. Qed.
Print Assumptions C132_crescent_shape.
(** Every row of the result is what the network gives on that row alone, at its own time. *)
Theorem C132_crescent_rows : forall P dt dim h hs x t o, crescent_val P dt dim (h :: hs) x t = Some o -> exists n, sizes_agree (row_count x) (time_count t) n /\
  forall b, (b < n)%nat -> exists p, crescent_val P dt dim (h :: hs) (Vect (width x) (row x b)) (At (time_at t b)) = Some p /\
    forall i, (i < dim)%nat -> get o (b * dim + i) = get p i.
Proof. exact crescent_separate. Qed.
Print Assumptions C132_crescent_rows.
(** GMSBMLP takes batches only, and does not squeeze. *)
Theorem C132_gmsb_shape : forall P dt dim x t s, option_map dims (gmsb_val P dt dim x t) = Some s <-> exists x0, x = Table x0 /\ (time_count t = 1 \/ time_count t = rn x0)%nat /\ s = [rn x0; dim].
Proof. exact gmsb_shape. Qed.
Print Assumptions C132_gmsb_shape.
Theorem C132_gmsb_rows : forall P dt dim x t o, gmsb_val P dt dim (Table x) t = Some o -> forall b, (b < rn x)%nat ->
  exists p, gmsb_val P dt dim (Table (Rows 1 (rd x) (fun _ => rv x b))) (At (time_at t b)) = Some p /\ forall i, (i < dim)%nat -> get o (b * dim + i) = get p i.
Proof. exact gmsb_separate. Qed.
Print Assumptions C132_gmsb_rows.

(** For all parameters the networks are Lipschitz in space with one constant for all times; all but CrescentMLP are so in space and
    time together ([close]: entry by entry), CrescentMLP on bounded sets. *)
Theorem C132_crescent_space : forall P dt dim h hs d, exists k, 0 <= k /\ forall u v t e, 0 <= e -> close d e u v ->
  exists o p, crescent_val P dt dim (h :: hs) (Vect d u) (At t) = Some o /\ crescent_val P dt dim (h :: hs) (Vect d v) (At t) = Some p /\ close dim (k * e) (get o) (get p).
Proof. exact crescent_space. Qed.
Print Assumptions C132_crescent_space.
Theorem C132_crescent_bounded_sets : forall P dt dim h hs d M, 0 <= M -> exists k, 0 <= k /\ forall u v t s e, 0 <= e -> within d M u -> within d M v -> close d e u v -> Rabs (t - s) <= e ->
  exists o p, crescent_val P dt dim (h :: hs) (Vect d u) (At t) = Some o /\ crescent_val P dt dim (h :: hs) (Vect d v) (At s) = Some p /\ close dim (k * e) (get o) (get p).
Proof. exact crescent_joint. Qed.
Print Assumptions C132_crescent_bounded_sets.
Theorem C132_gmsb_lipschitz : forall P dt dim d, exists k, 0 <= k /\ forall u v t s e, 0 <= e -> close d e u v -> Rabs (t - s) <= e ->
  exists o p, gmsb_val P dt dim (Table (Rows 1 d (fun _ => u))) (At t) = Some o /\ gmsb_val P dt dim (Table (Rows 1 d (fun _ => v))) (At s) = Some p /\ close dim (k * e) (get o) (get p).
Proof. exact gmsb_joint. Qed.
Print Assumptions C132_gmsb_lipschitz.
Theorem C132_classic_lipschitz : forall P embed_dim d, (embed_dim mod 2 = 0)%nat -> embed_dim <> 2%nat -> exists k, 0 <= k /\ forall u v t s e, 0 <= e -> close d e u v -> Rabs (t - s) <= e ->
  exists o p, classic_val P embed_dim (Vect d u) t = Some o /\ classic_val P embed_dim (Vect d v) s = Some p /\ dims o = no_ones [d] /\ close d (k * e) (get o) (get p).
Proof. exact (fun P ed d => vec_joint P d ed 16 8 16 8 [32; 8]%nat d). Qed.
Print Assumptions C132_classic_lipschitz.
Theorem C132_autoencoder_lipschitz : forall P d, exists k, 0 <= k /\ forall u v t s e, 0 <= e -> close d e u v -> Rabs (t - s) <= e ->
  exists o p, autoencoder_val P (Vect d u) t = Some o /\ autoencoder_val P (Vect d v) s = Some p /\ dims o = no_ones [784 * 2]%nat /\ close (784 * 2) (k * e) (get o) (get p).
Proof. exact (fun P d => vec_joint P (784 * 2) 128 128 32 64 32 [128; 256]%nat d eq_refl (fun H => O_S _ (eq_add_S _ _ (eq_add_S _ _ (eq_sym H))))). Qed.
Print Assumptions C132_autoencoder_lipschitz.
(** Not so for CrescentMLP, whose blocks multiply by functions of the time: with its own layers, between the same two times, the change is unbounded. *)
Theorem C132_crescent_time_refuted : exists P, forall dt, dt <> 0 -> forall K, exists a o p,
  crescent_val P dt 1 crescent_hiddens (Vect 1 (fun _ => a)) (At 0) = Some o /\ crescent_val P dt 1 crescent_hiddens (Vect 1 (fun _ => a)) (At (dt * (PI / 2))) = Some p /\ K < Rabs (get p 0%nat - get o 0%nat).
Proof. exact crescent_time_refuted. Qed.
Print Assumptions C132_crescent_time_refuted.
(** As a score it still makes a stable sampler: the sample is Lipschitz in its initial value and has a bounded second moment, for all grids. *)
Theorem C132_sampler : forall P dt h hs d sde T, 0 <= T -> exists K C B, 0 <= K /\ 0 <= C /\ 0 <= B /\
  (forall n ts rndss u v e, (1 <= n)%nat -> ts <> [] -> 0 <= nth 0 ts 0 -> ascending ts -> last ts 0 = T ->
    Forall (Forall (fun r => length r = d)) rndss -> length u = d -> 0 <= e -> near e u v ->
    exists x y, Sim.reverse_simulator (crescent_score P dt (h :: hs) d) (Sde.drift sde) (Sde.dispersion sde) n true u ts rndss = Some x /\
      Sim.reverse_simulator (crescent_score P dt (h :: hs) d) (Sde.drift sde) (Sde.dispersion sde) n true v ts rndss = Some y /\ length x = d /\ near (exp (K * T) * e) x y) /\
  (forall normal key n N ts D, (1 <= n)%nat -> ts <> [] -> 0 <= nth 0 ts 0 -> ascending ts -> last ts 0 = T ->
    has_moments d N (fun _ => 0) mid -> (forall k, denotes (normal k n d) (dseq (repeat N n))) -> is_prob D -> (forall u, In u (map snd D) -> length u = d) ->
    E D (fun u0 => law (reverse_prog normal key u0 ts (crescent_score P dt (h :: hs) d) (Sde.drift sde) (Sde.dispersion sde) n) (on_some sq_norm)) <= exp (C * T) * (E D sq_norm + B * T)).
Proof. exact crescent_sampler. Qed.
Print Assumptions C132_sampler.

Example C132_example : forall P,
  let x := Table (Rows 3 2 (fun b i => INR (b + i))) in let f := crescent_val P (1 / 200) 2 crescent_hiddens in
  option_map dims (f x (Each [0; 1; 2])) = Some [3; 2]%nat /\ option_map dims (f x (At 1)) = Some [3; 2]%nat /\ f x (Each [0; 1]) = None /\
  option_map dims (f (Vect 2 (fun i => INR i)) (At 1)) = Some [2]%nat /\ option_map dims (f (Vect 2 (fun i => INR i)) (Each [0; 1])) = Some [2; 2]%nat /\
  option_map dims (gmsb_val P 1 2 x (Each [0; 1; 2])) = Some [3; 2]%nat /\ gmsb_val P 1 2 (Vect 2 (fun i => INR i)) (At 1) = None /\
  (exists o p, f x (Each [0; 1; 2]) = Some o /\ f (Vect 2 (fun i => INR (2 + i))) (At 2) = Some p /\ forall i, (i < 2)%nat -> get o (4 + i)%nat = get p i) /\
  (exists k, 0 <= k /\ forall e, 0 <= e -> exists o p, f (Vect 2 (fun i => INR i)) (At 1) = Some o /\ f (Vect 2 (fun i => INR i + e)) (At 1) = Some p /\ close 2 (k * e) (get o) (get p)).
Proof.
  intros P x f.
  assert (S1 : option_map dims (f x (Each [0; 1; 2])) = Some [3; 2]%nat) by (apply C132_crescent_shape; split; [reflexivity|]; exists 3%nat; split; [left; split; reflexivity|reflexivity]).
  split; [exact S1|]. split; [apply C132_crescent_shape; split; [reflexivity|]; exists 3%nat; split; [right; right; split; reflexivity|reflexivity]|].
  split. { destruct (f x (Each [0; 1])) as [o|] eqn:H; [|reflexivity]. assert (G : option_map dims (f x (Each [0; 1])) = Some (dims o)) by now rewrite H. apply C132_crescent_shape in G. destruct G as (_ & n & [[G _]|[[G _]|[G _]]] & _); discriminate G. }
  split; [apply C132_crescent_shape; split; [reflexivity|]; exists 1%nat; split; [left; split; reflexivity|reflexivity]|].
  split; [apply C132_crescent_shape; split; [reflexivity|]; exists 2%nat; split; [right; left; split; reflexivity|reflexivity]|].
  split; [apply C132_gmsb_shape; exists (Rows 3 2 (fun b i => INR (b + i))); split; [reflexivity|]; split; [right|]; reflexivity|].
  split. { destruct (gmsb_val P 1 2 (Vect 2 (fun i => INR i)) (At 1)) as [o|] eqn:H; [|reflexivity]. assert (G : option_map dims (gmsb_val P 1 2 (Vect 2 (fun i => INR i)) (At 1)) = Some (dims o)) by now rewrite H. apply C132_gmsb_shape in G. destruct G as (x0 & G & _). discriminate G. }
  split.
  - destruct (f x (Each [0; 1; 2])) as [o|] eqn:Ho; [|discriminate S1]. destruct (C132_crescent_rows _ _ _ _ _ _ _ _ Ho) as (n & Hn & H). assert (n = 3%nat) as -> by (destruct Hn as [[_ ->]|[[H1 _]|[H1 _]]]; [reflexivity|discriminate H1|discriminate H1]).
    destruct (H 2%nat ltac:(lia)) as (p & Hp & G). exists o, p. split; [reflexivity|]. split; [exact Hp|]. intros i Hi. apply (G i Hi).
  - destruct (C132_crescent_space P (1 / 200) 2 256 [256; 128; 64; 32; 16]%nat 2) as (k & Hk & H). exists k. split; [exact Hk|]. intros e He. apply H; [exact He|]. intros i _. replace (INR i - (INR i + e)) with (- e) by ring. rewrite Rabs_Ropp, Rabs_pos_eq; lra.
Qed.
Example C132_sampler_example : forall P, let sde := Sde.LinSDE (1/50) 5 0 2 in let s := crescent_score P (1 / 200) crescent_hiddens 1 in exists K, 0 <= K /\ forall r z, exists x y,
  Sim.reverse_simulator s (Sde.drift sde) (Sde.dispersion sde) 2 true [1] [0; 1; 2] [[[z]; [z]]; [[z]; [z]]] = Some x /\
  Sim.reverse_simulator s (Sde.drift sde) (Sde.dispersion sde) 2 true [1 + r] [0; 1; 2] [[[z]; [z]]; [[z]; [z]]] = Some y /\ near (exp (K * 2) * Rabs r) x y.
Proof.
  intros P sde s. destruct (C132_sampler P (1 / 200) 256 [256; 128; 64; 32; 16]%nat 1 sde 2 ltac:(lra)) as (K & _ & _ & HK & _ & _ & H & _). exists K. split; [exact HK|]. intros r z.
  destruct (H 2%nat [0; 1; 2] [[[z]; [z]]; [[z]; [z]]] [1] [1 + r] (Rabs r)) as (x & y & Hx & Hy & _ & Hn); [lia|discriminate|cbn [nth]; lra| |reflexivity|repeat constructor|reflexivity|apply Rabs_pos| |].
  - intros [|[|k]] Hk; cbn [length nth] in *; [lra|lra|lia].
  - split; [reflexivity|]. intros [|i] Hi; cbn [length nth] in *; [|lia]. replace (1 - (1 + r)) with (- r) by ring. rewrite Rabs_Ropp. lra.
  - exists x, y. auto.
Qed.
