(** Equations whose terms depend on time. *)
From Coq Require Import ZArith Reals List Bool.
From Verif Require Import Base.Prelude Model.Af Model.Petsc Model.Config Model.Fvm Model.Splitting Model.Timestep
  Spec.Lattice Spec.FvmProblem Spec.FvmRun.
Import ListNotations.
Local Open Scope R_scope.

(** The source adds particles at a rate that depends on time, momentum and species
    only. *)
Definition driven (c : cfg) (g : R -> Z -> Z -> R) : Prop :=
  source_enabled c = true /\ forall t q1 q2 w x s, source c t q1 q2 w x s = g t x s.

(** The same value in every cell. *)
Definition everywhere (a : Z -> Z -> R) : gstate := fun x s _ _ => a x s.

(** The sum of dt * r(t) over the steps of a history, t the time a step starts at. *)
Fixpoint left_sum (r : R -> R) (t : R) (h : list (method * R)) : R :=
  match h with [] => 0 | (_, dt) :: h => dt * r t + left_sum r (t + dt) h end.

(** [G] is an integral of [r], which changes no faster than K per unit time. *)
Definition integral_of (K : R) (r G : R -> R) : Prop :=
  forall t dt, 0 <= dt -> Rabs (G (t + dt) - G t - dt * r t) <= K / 2 * dt ^ 2.

(** Steps between 0 and [b]. *)
Definition steps_within (b : R) (h : list (method * R)) : Prop := Forall (fun p => 0 <= snd p <= b) h.

(** No fields: [n] steps with the terms of the equation taken at the time each
    step starts at. *)
Definition no_fields : fields3 := (fun _ _ _ => 0, fun _ _ _ => 0, fun _ _ _ => 0).
Fixpoint frozen_run (c : cfg) (k1 k2 : scheme) (t : R) (h : list (method * R)) (u : gstate) : gstate :=
  match h with
  | [] => u
  | (_, dt) :: h => let p := prob c k1 k2 t no_fields in frozen_run c k1 k2 (t + dt) h (midpoint p p dt u)
  end.
