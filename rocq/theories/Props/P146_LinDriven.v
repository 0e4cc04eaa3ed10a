(** C146: the linear solver integrates sources that depend on time to the order of the method. *)
From Coq Require Import ZArith Reals Lra Lia String List Bool.
From Verif Require Import Base.Prelude Base.Cplx Model.Af Model.Grid Model.Config Model.Linear
  Spec.Waves Spec.LinearSpec Spec.FreeStream Spec.LinDriven Proofs.LinDriven.
Import ListNotations.
Local Open Scope R_scope.

(** Sources that do not depend on f, whose mean over the domain is a polynomial in time
    that the methods of the run can integrate: the mean of f at every momentum changes by
    the exact integral. *)
Theorem C146_exact (c : lcfg) (g : R -> Z -> Z -> Z -> Z -> R) b h st st' x s a n :
  lin_ok c -> lin_driven c g -> lin_state_ok c st ->
  (forall t, mean2 (lN1 c) (lN2 c) (g t x s) = poly a n t) ->
  Forall (fun k => (n <= degree (fst k))%nat) h -> lin_run c b h st = Ok st' ->
  mean_f c st' x s = mean_f c st x s + poly_integral a n (lt st) (lt st + lin_duration h).
Proof. exact (fun OK DR => driven_exact c g OK DR b h st st' x s a n). Qed.
Print Assumptions C146_exact.

(** Any smooth source, with G its exact integral: an error of order n + 2 in each step. *)
Theorem C146_order (c : lcfg) (g : R -> Z -> Z -> Z -> Z -> R) b h st st' x s n M G :
  lin_ok c -> lin_driven c g -> lin_state_ok c st -> 0 <= M ->
  (forall t, derivable_pt_lim G t (mean2 (lN1 c) (lN2 c) (g t x s))) ->
  smooth n M (fun t => mean2 (lN1 c) (lN2 c) (g t x s)) ->
  Forall (fun k => (n <= degree (fst k))%nat /\ 0 <= snd k) h -> lin_run c b h st = Ok st' ->
  Rabs (mean_f c st' x s - (mean_f c st x s + (G (lt st + lin_duration h) - G (lt st)))) <= driven_error M n h.
Proof. exact (driven_order c g b h st st' x s n M G). Qed.
Print Assumptions C146_order.

(** Two species, a source proportional to t^3 in one column of cells and to t in the
    others: RK4 and RK5 are exact, whatever the steps; RK2 is not. *)
Example C146_applies : exists b st, linear_solver dr_c = Ok (b, st) /\ forall h, Forall (fun k => fst k <> RK2_) h ->
  exists st', lin_run dr_c b h st = Ok st'
  /\ forall x s, let T := lin_duration h in mean_f dr_c st' x s = mean_f dr_c st x s + 4 / 3 * T ^ 2 + IZR (1 + x) / 12 * T ^ 4.
Proof. exact dr_exact. Qed.
Example C146_sharp : exists b st st', linear_solver dr_c = Ok (b, st) /\ lin_run dr_c b [(RK2_, 1)] st = Ok st'
  /\ mean_f dr_c st' 2 0 = mean_f dr_c st 2 0 + 4 / 3 + 3 / 12 - 1 / 8.
Proof. exact dr_sharp. Qed.
Example C146_order_applies : lin_ok dr_c /\ lin_driven dr_c dr_src
  /\ (forall t, derivable_pt_lim (fun u => poly_integral (dr_a 2) 3 0 u) t (mean2 (lN1 dr_c) (lN2 dr_c) (dr_src t 2 0)))
  /\ smooth 3 1 (fun t => mean2 (lN1 dr_c) (lN2 dr_c) (dr_src t 2 0)).
Proof.
  split; [exact dr_ok|]. split; [exact dr_driven|]. split.
  - intros t. rewrite dr_mean. apply poly_integral_diff.
  - intros t. exists (dr_a 2). intros u. rewrite dr_mean. unfold Rminus at 1. rewrite Rplus_opp_r, Rabs_R0, Rmult_1_l. apply pow_le, Rabs_pos.
Qed.
