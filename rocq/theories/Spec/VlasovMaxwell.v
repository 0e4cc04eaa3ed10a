(** Vlasov-Maxwell steps on the global grid: midpoint rule for f, Yee scheme for
    the fields, currents from the particles that cross the cell faces. *)
From Coq Require Import ZArith Reals String List Bool.
From Verif Require Import Base.Prelude Base.ZSum Model.Af Model.Petsc Model.Config Model.Fvm Model.Em
  Model.Moments Model.Timestep Model.Solver
  Spec.Domain Spec.Lattice Spec.FvmProblem Spec.FvmRun Spec.Yee Spec.EmRun Spec.MomentSpec Spec.SolverSpec.
Import ListNotations.
Local Open Scope R_scope.

(** f, the staggered fields, and the cell-centred fields that act on f. *)
Record vm_state : Type := VM { vm_f : gstate; vm_yee : lattice; vm_cc : lattice }.

(** The six components by number. *)
Definition components (C : lattice) : gfields := fun n i j =>
  if (n =? 0)%Z then E1 C i j else if (n =? 1)%Z then E2 C i j else if (n =? 2)%Z then E3 C i j
  else if (n =? 3)%Z then B1 C i j else if (n =? 4)%Z then B2 C i j else B3 C i j.

(** What is carried through the lower q1-face and the lower q2-face of a cell. *)
Definition through1 (p : problem) (u : gstate) (x s i j : Z) : R :=
  upwind (kq p) (fun z => vel1 p x s z j) (periodic (n1 p) (fun z => u x s z j)) i.
Definition through2 (p : problem) (u : gstate) (x s i j : Z) : R :=
  upwind (kq p) (fun z => vel2 p x s i z) (periodic (n2 p) (fun z => u x s i z)) j.

(** Current densities: charge times velocity, summed over momenta and species. *)
Definition current1 (P : params) (p : problem) (u : gstate) : grid := fun i j =>
  charge_moment P (fun v _ _ => v) (fun x s => through1 p u x s (i mod n1 p)%Z (j mod n2 p)%Z).
Definition current2 (P : params) (p : problem) (u : gstate) : grid := fun i j =>
  charge_moment P (fun _ v _ => v) (fun x s => through2 p u x s (i mod n1 p)%Z (j mod n2 p)%Z).
Definition current3 (P : params) (p : problem) (u : gstate) : grid := fun i j =>
  charge_moment P (fun _ _ v => v) (fun x s => u x s (i mod n1 p)%Z (j mod n2 p)%Z).

(** One step.  The fields advance once, with the currents of the half-step state;
    the second evaluation sees B after and E halfway. *)
Definition vm_problem (P : params) (k1 k2 : scheme) (t : R) (C : lattice) : problem :=
  prob (pc P) k1 k2 t (components C, components C, components C).

Definition vm_step (P : params) (k1 k2 : scheme) (t dt : R) (S : vm_state) : vm_state :=
  let p := vm_problem P k1 k2 t (vm_cc S) in
  let uh : gstate := fun x s i j => vm_f S x s i j + dt / 2 * rhs p (vm_f S) x s i j in
  let Y := yee_step (fdq1 (pf P)) (fdq2 (pf P)) (eps (pf P)) (mu (pf P)) dt
             (current1 P p uh) (current2 P p uh) (current3 P p uh) (vm_yee S) in
  let C := EB (mid (vm_cc S) (centred Y)) (centred Y) in
  VM (midpoint p (vm_problem P k1 k2 t C) dt (vm_f S)) Y C.

Fixpoint vm_run (P : params) (k1 k2 : scheme) (t : R) (h : list (method * R)) (S : vm_state) : vm_state :=
  match h with
  | [] => S
  | (_, dt) :: h => vm_run P k1 k2 (t + dt) h (vm_step P k1 k2 t dt S)
  end.

(** A solver holding a global state. *)
Definition vm_holds (P : params) (s : solver) (S : vm_state) : Prop :=
  holds (pc P) (f_of s) (vm_f S)
  /\ same (view (lay (pc P)) (yee_val (fields s))) (vm_yee S)
  /\ same (view (lay (pc P)) (cc_val (fields s))) (vm_cc S).

(** Full electrodynamics, kinetic currents. *)
Record maxwell (P : params) : Prop := Maxwell {
  mx_type : fields_type P = "electrodynamic"%string;
  mx_solver : fields_solver (pf P) = "fdtd"%string;
  mx_hybrid : hybrid (pf P) = false;
  mx_regular : regular (pf P) }.

(** Particles move with their momentum (unit mass), and f and the fields use the
    same cells. *)
Record ballistic (P : params) : Prop := Ballistic {
  bl_q : forall s t q1 q2 p1 p2 p3, C_q (pc P) s t q1 q2 p1 p2 p3 = (p1, p2);
  bl_h1 : fdq1 (pf P) = dq1 (pc P);
  bl_h2 : fdq2 (pf P) = dq2 (pc P) }.

(** The same plasma on another process grid, with another ghost width. *)
Definition with_flayout (c : fcfg) (L : layout) : fcfg :=
  FCfg L (fN_g c) (fq1_start c) (fq2_start c) (fdq1 c) (fdq2 c) (eps c) (mu c) (fin_q c) (em_bc c)
    (fields_solver c) (fields_initialize c) (method_in_p c) (hybrid c)
    (init_E c) (init_A_phi c) (init_B c) (init_A c) (init_A3_B3 c).
Definition with_layouts (P : params) (L : layout) : params :=
  Params (with_layout (pc P) L) (with_flayout (pf P) L) (fields_type P) (charge P) (table P) (initial_mu P) (T_e P)
    (instantaneous P) (source_inst P) (approx_p P).

(** A uniform plasma at rest: f does not depend on the cell, no fields, no current
    in any direction, and no force without fields. *)
Definition no_fields (Y : lattice) : Prop :=
  same Y (Lattice (fun _ _ => 0) (fun _ _ => 0) (fun _ _ => 0) (fun _ _ => 0) (fun _ _ => 0) (fun _ _ => 0)).

Definition current_free (P : params) (a : Z -> Z -> R) : Prop :=
  charge_moment P (fun v _ _ => v) a = 0 /\ charge_moment P (fun _ v _ => v) a = 0
  /\ charge_moment P (fun _ _ v => v) a = 0.

Definition field_driven (c : cfg) : Prop :=
  forall s t q1 q2 p1 p2 p3, C_p c s t q1 q2 p1 p2 p3 0 0 0 0 0 0 = (0, 0, 0).

(** Constructed solvers. *)
Definition starts (P : params) (s : solver) : Prop :=
  (exists rho, fields_solver_init (pf P) rho = Ok (fields s))
  /\ shaped (lay (pc P)) (N_p (pc P)) (N_species (pc P)) (f_of s).
