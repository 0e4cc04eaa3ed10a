(** Static data of a nonlinear solver: what nonlinear_solver.__init__
    (/repo/bolt/lib/nonlinear/nonlinear_solver.py:100-414) takes from the physical
    system, together with the PETSc layout. *)
From Coq Require Import ZArith Reals String List.
From Verif Require Import Base.Prelude Model.Af Model.Grid Model.Petsc.

Inductive edge : Type := ELeft | ERight | EBottom | ETop.

(** Names follow the attributes of the solver, params and boundary_conditions.
    User callbacks are represented as follows.
    - [C_q], [A_q]: the pair returned for a species at one phase-space point
      (t, q1, q2, p1, p2, p3); af.broadcast evaluates them at all points.  The
      species is an argument because params.charge and params.mass carry a
      species axis.
    - [C_p]: the same with the six fields E1 E2 E3 B1 B2 B3 at the cell centre.
    - [source]: from time, q1, q2 and the values of f over (p, species) at that
      cell to the source over (p, species) at that cell.
    - [f_bc]: boundary_conditions.f_left, f_right, f_bottom, f_top, as functions
      of time, the local q1_center and q2_center, and f.
    - [approx2]: af.approx2 with bicubic splines (values, pos0, pos1, xp, yp). *)
Record cfg : Type := Cfg {
  lay : layout;
  N_ghost : Z;
  N_p1 : Z; N_p2 : Z; N_p3 : Z; N_species : Z;
  q1_start : R; q1_end : R; q2_start : R; q2_end : R; dq1 : R; dq2 : R;
  p1_start : list R; p2_start : list R; p3_start : list R;
  dp1 : list R; dp2 : list R; dp3 : list R;
  solver_method_in_q : string; solver_method_in_p : string;
  reconstruction_method_in_q : string; reconstruction_method_in_p : string;
  p_space_grid : string;
  fields_enabled : bool; source_enabled : bool;
  C_q : Z -> R -> R -> R -> R -> R -> R -> R * R;
  A_q : Z -> R -> R -> R -> R -> R -> R -> R * R;
  C_p : Z -> R -> R -> R -> R -> R -> R -> R -> R -> R -> R -> R -> R -> R * R * R;
  A_p : Z -> R -> R -> R -> R -> R -> R -> R -> R -> R -> R -> R -> R -> R * R * R;
  source : R -> R -> R -> (Z -> Z -> R) -> Z -> Z -> R;
  in_q : edge -> string;
  f_bc : edge -> R -> arr R -> arr R -> arr R -> arr R;
  shear_q : R; shear_omega : R;
  approx2 : arr R -> arr R -> arr R -> arr R -> arr R -> arr R;
  loop_fuel : nat }.

(** Local coordinates of rank (r1, r2), nonlinear_solver.py:331-366. *)
Definition qc (c : cfg) (r1 r2 : nat) : qcoords :=
  calculate_q (q1_start c + IZR (off (blk1 (lay c)) r1) * dq1 c)
              (q2_start c + IZR (off (blk2 (lay c)) r2) * dq2 c)
              (bsize (blk1 (lay c)) r1) (bsize (blk2 (lay c)) r2)
              (ng1 (lay c)) (ng2 (lay c)) (dq1 c) (dq2 c).

(** Momentum coordinates, nonlinear_solver.py:368-410. *)
Definition p_center (c : cfg) : arr R * arr R * arr R :=
  calculate_p_center (p1_start c) (p2_start c) (p3_start c)
                     (N_p1 c) (N_p2 c) (N_p3 c) (dp1 c) (dp2 c) (dp3 c).
Definition p_corner (c : cfg) : arr R * arr R * arr R :=
  calculate_p_corner (p1_start c) (p2_start c) (p3_start c)
                     (N_p1 c) (N_p2 c) (N_p3 c) (dp1 c) (dp2 c) (dp3 c).

Definition p1_center c := fst (fst (p_center c)).
Definition p2_center c := snd (fst (p_center c)).
Definition p3_center c := snd (p_center c).
Definition p1_left c := fst (fst (p_corner c)).
Definition p2_bottom c := snd (fst (p_corner c)).
Definition p3_back c := snd (p_corner c).

Definition N_p (c : cfg) : Z := (N_p1 c * N_p2 c * N_p3 c)%Z.

(** af.broadcast(g, time, q1, q2, p1, p2, p3, params): [g] at every phase-space
    point.  ArrayFire keeps unit extents where [g] ignores an argument; every use
    of the result broadcasts it again, so the full array is taken here. *)
Definition broadcast_qp {B} (c : cfg) (q1 q2 p1 p2 p3 : arr R)
    (g : Z -> R -> R -> R -> R -> R -> B) : arr B :=
  Arr (N_p c) (N_species c) (d2 q1) (d3 q1)
      (fun x s i j => g s (bel q1 x s i j) (bel q2 x s i j)
                        (bel p1 x s i j) (bel p2 x s i j) (bel p3 x s i j)).

(** _convert_to_q_expanded and _convert_to_p_expanded,
    nonlinear_solver.py:416-462, on rank (r1, r2). *)
Definition convert_to_q_expanded {A} (c : cfg) (r1 r2 : nat) (a : arr A) : arr A :=
  moddims a (N_p c) (N_species c) (n1g (lay c) r1) (n2g (lay c) r2).
Definition convert_to_p_expanded {A} (c : cfg) (r1 r2 : nat) (a : arr A) : arr A :=
  moddims a (N_p1 c) (N_p2 c) (N_p3 c) (N_species c * n1g (lay c) r1 * n2g (lay c) r2).
