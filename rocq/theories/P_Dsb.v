(** Properties of the iterative-proportional-fitting losses (fbs/dsb/base.py). *)
From Verif Require Import Dsb.
Open Scope R_scope.

(** ** C43: [N] is the number of entries of the batch array *)
Theorem C43_implementations_agree : forall parametric simulator disp N init ts rnds,
  (0 < N)%nat -> (forall x t, length x = N -> length (parametric x t) = N) -> (forall x t, length x = N -> length (simulator x t) = N) ->
  length init = N -> (2 <= length ts)%nat -> length rnds = (length ts - 1)%nat -> Forall (fun r => length r = N) rnds ->
  ipf_loss_cont parametric simulator disp init ts rnds = ipf_loss_cont_v parametric simulator disp init ts rnds.
Proof. intros p s disp N init ts rnds HN Hp Hs Hi Ht Hr HF. exact (ipf_losses_agree p s disp N HN Hp Hs init ts rnds Hi Ht Hr HF). Qed.
Print Assumptions C43_implementations_agree.

(** [trajectory] k is the k-th Euler-Maruyama state *)
Theorem C43_loss_nonneg_zero_iff : forall parametric simulator disp N init ts rnds,
  (0 < N)%nat -> (forall x t, length x = N -> length (parametric x t) = N) -> (forall x t, length x = N -> length (simulator x t) = N) ->
  length init = N -> (2 <= length ts)%nat -> length rnds = (length ts - 1)%nat -> Forall (fun r => length r = N) rnds ->
  let X := trajectory simulator disp init ts rnds in let t k := nth k ts 0 in let dt k := Rabs (t (S k) - t k) in
  0 <= ipf_loss_cont parametric simulator disp init ts rnds /\
  (ipf_loss_cont parametric simulator disp init ts rnds = 0 <->
   forall k i, (S k < length ts)%nat -> (i < N)%nat ->
     dt k * nth i (parametric (X (S k)) (t (S k))) 0 =
     (nth i (X k) 0 + dt k * nth i (simulator (X k) (t k)) 0) - (nth i (X (S k)) 0 + dt k * nth i (simulator (X (S k)) (t k)) 0)).
Proof. exact ipf_mean_matching. Qed.
Print Assumptions C43_loss_nonneg_zero_iff.

(** the discretised loss with x + drift * dt in place of the drifts and gamma = dt g^2 is (number of steps) times the continuous one *)
Theorem C43_discrete_loss_agrees : forall parametric simulator N dt g init ts rnds, 0 < dt -> 0 <= g ->
  (forall x t, length x = N -> length (parametric x t) = N) -> (forall x t, length x = N -> length (simulator x t) = N) ->
  length init = N -> (2 <= length ts)%nat -> length rnds = (length ts - 1)%nat -> Forall (fun r => length r = N) rnds ->
  (forall k, (S k < length ts)%nat -> nth (S k) ts 0 - nth k ts 0 = dt) ->
  ipf_loss_disc (fun x t => vadd x (vscale dt (parametric x t))) (fun x t => vadd x (vscale dt (simulator x t))) init ts (repeat (dt * g * g) (length ts - 1)) rnds =
  INR (length ts - 1) * ipf_loss_cont parametric simulator (fun _ => g) init ts rnds.
Proof.
  intros p s N dt g init ts rnds Hdt Hg Hp Hs Hi Ht Hr HF Hd. unfold ipf_loss_disc, ipf_loss_cont.
  rewrite (disc_cont_scan p s N dt g Hdt Hg Hp Hs ts init 0 rnds Hi HF Hr Hd). field. apply not_0_INR. lia.
Qed.
Print Assumptions C43_discrete_loss_agrees.

Theorem C43_discrete_loss_nonneg : forall parametric simulator x0s ks gammas rnds, 0 <= ipf_loss_disc parametric simulator x0s ks gammas rnds.
Proof. exact ipf_disc_nonneg. Qed.
Print Assumptions C43_discrete_loss_nonneg.

Example C43_example : exists N (init ts : list R) (rnds : list (list R)), let f := fun (x : list R) (t : R) => vscale (Ropp t) x in
  (0 < N)%nat /\ (forall x t, length x = N -> length (f x t) = N) /\ length init = N /\ (2 <= length ts)%nat /\
  length rnds = (length ts - 1)%nat /\ Forall (fun r => length r = N) rnds /\ (forall k, (S k < length ts)%nat -> nth (S k) ts 0 - nth k ts 0 = 1).
Proof.
  exists 2%nat, [1; 2], [0; 1; 2], [[1; Ropp 1]; [1; 1]]. cbv zeta. repeat split; try (cbn; lia); try reflexivity; [|repeat constructor|].
  - intros x t H. now rewrite length_vscale.
  - intros [|[|k]] Hk; cbn [length nth] in *; try lia; lra.
Qed.
