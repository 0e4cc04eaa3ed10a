(** Which choices of advection methods, field model and step method can be
    advanced in time. *)
From Coq Require Import ZArith Reals String List.
From Verif Require Import Base.Prelude Model.Af Model.Petsc Model.Config Model.Fvm Model.Em Model.Moments
  Model.Splitting Model.Timestep Model.Solver Spec.Lattice Spec.FvmProblem Spec.EmRun Spec.SolverSpec Spec.Inputs.
Local Open Scope string_scope.

(** A problem on a periodic domain whose names are all documented ones.  The
    moments a field solver asks for are defined; semi-Lagrangian steps in p are
    given one species, and Poisson's equation one process. *)
Record documented (P : params) : Prop := Documented {
  do_q : solver_method_in_q (pc P) = "FVM" \/ solver_method_in_q (pc P) = "ASL";
  do_p : solver_method_in_p (pc P) = "FVM" \/ solver_method_in_p (pc P) = "ASL";
  do_same : method_in_p (pf P) = solver_method_in_p (pc P);
  do_type : fields_type P = "electrodynamic" \/ fields_type P = "electrostatic";
  do_solver : solver_known (fields_type P) (fields_solver (pf P));
  do_edges : forall e, in_q (pc P) e = "periodic";
  do_regular : regular (pf P);
  do_schemes : exists k1 k2, scheme_of_name (reconstruction_method_in_q (pc P)) = Some k1
                          /\ scheme_of_name (reconstruction_method_in_p (pc P)) = Some k2;
  do_grid : p_space_grid (pc P) = "cartesian";
  do_density : has (table P) "density";
  do_v1 : has (table P) "mom_v1_bulk";
  do_v2 : has (table P) "mom_v2_bulk";
  do_v3 : has (table P) "mom_v3_bulk";
  do_species : solver_method_in_p (pc P) = "ASL" ->
    List.length (p2_start (pc P)) = 1%nat /\ List.length (p3_start (pc P)) = 1%nat
    /\ List.length (dp2 (pc P)) = 1%nat /\ List.length (dp3 (pc P)) = 1%nat;
  do_process : fields_solver (pf P) = "fft" -> comm_size (pf P) = 1%nat }.

(** The choices that work.  Without fields: all.  With fields: finite volumes in
    q and p; semi-Lagrangian in q and finite volumes in p for electrostatic
    fields; semi-Lagrangian in p unless the fields are those of the full
    Maxwell equations; jia steps with finite volumes throughout only. *)
Definition available (P : params) (m : method) : Prop :=
  let q := solver_method_in_q (pc P) in
  let p := solver_method_in_p (pc P) in
  fields_enabled (pc P) = true ->
    (q = "FVM" /\ p = "FVM")
    \/ (q = "ASL" /\ p = "FVM" /\ fields_type P = "electrostatic" /\ m <> Jia)
    \/ (p = "ASL" /\ (fields_solver (pf P) <> "fdtd" \/ hybrid (pf P) = true) /\ m <> Jia).
