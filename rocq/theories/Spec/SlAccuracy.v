(** Stability and accuracy of semi-Lagrangian runs of free particles. *)
From Coq Require Import ZArith Reals String List Bool.
From Verif Require Import Base.Prelude Base.ZSum Model.Af Model.Petsc Model.Config Model.Timestep
  Model.Solver Spec.Domain Spec.Lattice Spec.FvmProblem Spec.FvmRun Spec.Interp.
Import ListNotations.
Local Open Scope R_scope.

(** Root mean square over the grid, for momentum x and species s. *)
Definition rms (c : cfg) (u : gstate) (x s : Z) : R :=
  sqrt (zsum (gN1 (lay c)) (fun i => zsum (gN2 (lay c)) (fun j => u x s i j ^ 2))
        / (IZR (gN1 (lay c)) * IZR (gN2 (lay c)))).

(** Along each axis [phi] has two derivatives and a cubic remainder (for instance third
    derivatives bounded by 6 M1 and 6 M2). *)
Definition smooth3 (M1 M2 : R) (phi : R -> R -> R) : Prop :=
  (exists g h : R -> R -> R, forall x y a,
     Rabs (phi (x + a) y - phi x y - a * g x y - a ^ 2 * h x y) <= M1 * Rabs a ^ 3)
  /\ (exists g h : R -> R -> R, forall x y b,
     Rabs (phi x (y + b) - phi x y - b * g x y - b ^ 2 * h x y) <= M2 * Rabs b ^ 3).

(** Particles of momentum x and species s move with the constant velocity (v1 x s, v2 x s). *)
Definition flies_with (c : cfg) (v1 v2 : Z -> Z -> R) : Prop :=
  forall t x s g1 g2, inb (N_p c) x -> inb (N_species c) s -> velocity_a c t x s g1 g2 = (v1 x s, v2 x s).

(** How many interpolations in a row a history performs. *)
Definition hops (h : list (method * R)) : R :=
  fold_right (fun k n => (match fst k with Strang | Jia => 2 | _ => 1 end) + n) 0 h.
