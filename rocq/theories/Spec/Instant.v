(** Instantaneous collisions. *)
From Coq Require Import ZArith Reals List Bool.
From Verif Require Import Base.Prelude Model.Af Model.Petsc Model.Config Model.Fvm Model.Solver
  Spec.Domain Spec.Lattice Spec.FvmProblem.
Import ListNotations.
Local Open Scope R_scope.

(** The source's equilibrium is an equilibrium: it depends on the momenta and species
    of the grid only, not on time, and is its own equilibrium. *)
Definition settles (P : params) : Prop :=
  let inside x s := inb (N_p (pc P)) x /\ inb (N_species (pc P)) s in
  forall t t' q1 q2 w,
  (forall w', (forall x s, inside x s -> w x s = w' x s) -> forall x s, inside x s -> source_inst P t q1 q2 w x s = source_inst P t' q1 q2 w' x s)
  /\ (forall x s, inside x s -> source_inst P t q1 q2 (source_inst P t q1 q2 w) x s = source_inst P t q1 q2 w x s).

(** f is the equilibrium of itself at every cell. *)
Definition relaxed (P : params) (s : solver) : Prop :=
  let L := lay (pc P) in
  forall x sp i j, inb (N_p (pc P)) x -> inb (N_species (pc P)) sp -> inb (gN1 L) i -> inb (gN2 L) j ->
  gval L (f_of s) x sp i j
  = source_inst P (time_elapsed s) (pos1 (pc P) (1/2) i) (pos2 (pc P) (1/2) j) (fun y r => gval L (f_of s) y r i j) x sp.

(** The same parameters with another setting of instantaneous_collisions and another
    equilibrium. *)
Definition instantly (P : params) (on : bool) (g : R -> R -> R -> (Z -> Z -> R) -> Z -> Z -> R) : params :=
  Params (pc P) (pf P) (fields_type P) (charge P) (table P) (initial_mu P) (T_e P) on g (approx_p P).
