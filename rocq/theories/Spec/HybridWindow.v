(** Ohm's law as one rank evaluates it.  The arrays of a rank cover its block and the
    ghost zones around it, and a displaced array (af.shift) is cyclic: what lies
    outside this window is read from its other end. *)
From Coq Require Import ZArith Reals String List Bool.
From Verif Require Import Base.Prelude Model.Af Model.Petsc Model.Config Model.Fvm Model.Em
  Model.Moments Model.Timestep Model.Solver
  Spec.Domain Spec.Lattice Spec.FvmProblem Spec.FvmRun Spec.Yee Spec.EmRun Spec.SolverSpec Spec.VlasovMaxwell Spec.Hybrid.
Import ListNotations.
Local Open Scope R_scope.

(** The cell read for cell [u] of an axis by the rank holding [size] cells from [o]. *)
Definition seen_at (o size ng u : Z) : Z := (o - ng + (u - (o - ng)) mod (size + 2 * ng))%Z.

(** The density around the cells of rank (r1, r2). *)
Definition window (L : layout) (r1 r2 : nat) (g : grid) : grid := fun u v =>
  g (seen_at (off (blk1 L) r1) (bsize (blk1 L) r1) (ng1 L) u)
    (seen_at (off (blk2 L) r2) (bsize (blk2 L) r2) (ng2 L) v).

(** The hybrid model with one ion species, for any number of ghost zones. *)
Record hybrid_any (P : params) : Prop := HybridAny {
  ha_type : fields_type P = "electrodynamic"%string;
  ha_solver : fields_solver (pf P) = "fdtd"%string;
  ha_hybrid : hybrid (pf P) = true;
  ha_one : N_species (pc P) = 1%Z;
  ha_regular : regular (pf P) }.

Definition windowed (L : layout) (r1 r2 : nat) (F : fluid) : fluid :=
  Fluid (window L r1 r2 (num F)) (vel_1 F) (vel_2 F) (vel_3 F).

(** The electric field of one step on the cells of rank (r1, r2): [Y], [C] are the
    fields and [u] the ions before the step. *)
Definition rank_E (P : params) (k1 k2 : scheme) (t dt : R) (S : vm_state) (r1 r2 : nat) : lattice :=
  let p := vm_problem P k1 k2 t (vm_cc S) in
  let uh : gstate := fun x s i j => vm_f S x s i j + dt / 2 * rhs p (vm_f S) x s i j in
  ohm (pf P) (nth 0 (charge P) 0) (T_e P) (ions P (through1 p uh)) (ions P (through2 p uh))
    (windowed (lay (pc P)) r1 r2 (ions P uh)) (vm_yee S).
