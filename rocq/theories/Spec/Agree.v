(** One physical system, solved by both solvers: initial data as a sum of plane waves. *)
From Coq Require Import ZArith Reals List Bool.
From Verif Require Import Base.Prelude Base.ZSum Base.Cplx Model.Af Model.Config Model.Linear
  Spec.Dft Spec.FvmProblem Spec.FvmRun Spec.LinearSpec Spec.FreeStream.
Local Open Scope R_scope.

(** The amplitude of the plane wave with wave numbers (kx k, ky l) in the initial data. *)
Definition amplitude (c : lcfg) (x s k l : Z) : cplx :=
  cscale (/ (IZR (lN1 c) * IZR (lN2 c))) (dft2 (lN1 c) (lN2 c) (fun i j => RtoC (el (init_f c) x s i j)) k l).

(** The sum of these waves, at any point of the plane. *)
Definition waves (c : lcfg) (x s : Z) (q1 q2 : R) : R :=
  zsum (lN1 c) (fun k => zsum (lN2 c) (fun l =>
    re (cmul (amplitude c x s k l) (cis (kx c k * (q1 - lq1 c 0) + ky c l * (q2 - lq2 c 0)))))).

(** The sum of g k l times the size of wave (k, l). *)
Definition over_waves (c : lcfg) (x s : Z) (g : Z -> Z -> R) : R :=
  zsum (lN1 c) (fun k => zsum (lN2 c) (fun l => g k l * cmod (amplitude c x s k l))).

(** A bound on the second derivatives. *)
Definition roughness (c : lcfg) (x s : Z) : R :=
  over_waves c x s (fun k l => 2 * (Rabs (kx c k) + Rabs (ky c l)) ^ 2).

(** What the steps of the linear solver add up to. *)
Definition phase_error (c : lcfg) (steps : list (rk * R)) (x s : Z) : R :=
  over_waves c x s (fun k l => total_error (omega c x s k l) steps).

(** Particles move with their momentum. *)
Definition moves_with_p (c : cfg) : Prop := forall s t q1 q2 p1 p2 p3, C_q c s t q1 q2 p1 p2 p3 = (p1, p2).

(** The Courant condition for particles that move with their momentum. *)
Definition courant (c : cfg) (dt : R) : Prop :=
  0 <= dt /\ forall x s, inb (N_p c) x -> inb (N_species c) s ->
  Rabs (mom1 c (1/2) x s) * dt / dq1 c + Rabs (mom2 c (1/2) x s) * dt / dq2 c <= 1.
