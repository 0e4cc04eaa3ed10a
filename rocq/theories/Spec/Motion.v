(** Free motion in the plane. *)
From Coq Require Import Reals.
Local Open Scope R_scope.

(** [g'] is the derivative of [g] *)
Definition has_derivative (g g' : R -> R) : Prop := forall t, derivable_pt_lim g t (g' t).

(** [g] is the position along one Cartesian axis of a particle moving uniformly *)
Definition uniform (g : R -> R) : Prop := exists a b, forall t, g t = a + b * t.
