(** Free motion of particles as an exact solution to compare runs with. *)
From Coq Require Import ZArith Reals String List Bool.
From Verif Require Import Base.Prelude Model.Af Model.Petsc Model.Config Model.Fvm
  Spec.Domain Spec.Lattice Spec.FvmProblem Spec.FvmRun.
Import ListNotations.
Local Open Scope R_scope.

(** [phi] has a gradient everywhere, with a quadratic remainder (for instance second
    derivatives bounded by 2 M). *)
Definition smooth (M : R) (phi : R -> R -> R) : Prop :=
  exists g1 g2 : R -> R -> R, forall x y a b,
  Rabs (phi (x + a) (y + b) - phi x y - a * g1 x y - b * g2 x y) <= M * (Rabs a + Rabs b) ^ 2.

(** [phi] has the periods of the domain. *)
Definition fits (c : cfg) (phi : R -> R -> R) : Prop :=
  forall x y, phi (x + IZR (gN1 (lay c)) * dq1 c) y = phi x y /\ phi x (y + IZR (gN2 (lay c)) * dq2 c) = phi x y.

(** Particles of momentum x and species s move with the constant velocity (v1 x s, v2 x s). *)
Definition moves_with (c : cfg) (v1 v2 : Z -> Z -> R) : Prop :=
  forall t x s q1 q2, inb (N_p c) x -> inb (N_species c) s -> velocity c t x s q1 q2 = (v1 x s, v2 x s).

(** The exact solution at time T, at the centres of the cells. *)
Definition carried (c : cfg) (v1 v2 : Z -> Z -> R) (phi : Z -> Z -> R -> R -> R) (T : R) : gstate := fun x s g1 g2 =>
  phi x s (pos1 c (1/2) g1 - v1 x s * T) (pos2 c (1/2) g2 - v2 x s * T).

(** Time covered by a list of calls. *)
Definition duration (l : list call) : R := fold_right (fun k T => cdt k + T) 0 l.

(** Within [n] steps of (g1, g2) the values of momentum x and species s lie on a plane. *)
Definition plane_near (c : cfg) (n : Z) (u : gstate) (x s g1 g2 : Z) (A B1 B2 : R) : Prop :=
  forall d1 d2, (Z.abs d1 + Z.abs d2 <= n)%Z ->
  u x s ((g1 + d1) mod gN1 (lay c))%Z ((g2 + d2) mod gN2 (lay c))%Z = A + B1 * (IZR d1 * dq1 c) + B2 * (IZR d2 * dq2 c).
