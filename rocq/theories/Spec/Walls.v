(** What each boundary condition puts in the ghost cells of an edge. *)
From Coq Require Import ZArith Reals String List Bool.
From Verif Require Import Base.Prelude Model.Af Model.Grid Model.Petsc Model.Config Spec.Mirror Spec.FvmProblem.
Import ListNotations.

(** Boundary conditions that write ghost cells. *)
Definition acts (b : string) : bool :=
  String.eqb b "dirichlet" || String.eqb b "mirror" || String.eqb b "mirror+dirichlet"
  || String.eqb b "shearing-box".

Definition known_names : list string :=
  ["dirichlet"; "mirror"; "mirror+dirichlet"; "periodic"; "none"; "shearing-box"]%string.

(** The boundary conditions at edge [e] can be carried out. *)
Definition accepted (c : cfg) (e : edge) : Prop :=
  In (in_q c e) known_names
  /\ (in_q c e = "mirror"%string \/ in_q c e = "mirror+dirichlet"%string ->
      p_space_grid c = "cartesian"%string \/ p_space_grid c = "polar2D"%string).

(** The velocity at the centre of global cell (g1, g2): C_q for the finite-volume
    method, A_q otherwise. *)
Definition bc_velocity (c : cfg) (t : R) (x s g1 g2 : Z) : R * R :=
  (if String.eqb (solver_method_in_q c) "FVM" then C_q c s t else A_q c s t)
    (pos1 c (1/2) g1) (pos2 c (1/2) g2) (mom1 c (1/2) x s) (mom2 c (1/2) x s) (mom3 c (1/2) x s).

(** The velocity points from the wall into the domain. *)
Definition inflow (e : edge) (v : R * R) : Prop :=
  match e with
  | ELeft => (0 < fst v)%R | ERight => (fst v < 0)%R
  | EBottom => (0 < snd v)%R | ETop => (snd v < 0)%R
  end.
Definition inflow_dec e v : {inflow e v} + {~ inflow e v}.
Proof. destruct e; apply Rlt_dec. Defined.

(** The momentum seen in the mirror. *)
Definition reflected (c : cfg) (e : edge) (x : Z) : Z :=
  if String.eqb (p_space_grid c) "cartesian" then reverse_normal e (N_p1 c) (N_p2 c) x
  else reflect_angle e (N_p1 c) (N_p2 c) x.

(** What f_left, f_right, f_bottom or f_top returns on rank (r1, r2). *)
Definition prescribed (c : cfg) (r1 r2 : nat) (e : edge) (t : R) (f : arr R) : arr R :=
  f_bc c e t (fst (q_center (qc c r1 r2))) (snd (q_center (qc c r1 r2))) f.

(** Ghost value by name: [m] is the mirrored value, [b] the prescribed one, [f]
    the one found there, [inn] whether the velocity points inwards. *)
Definition wall_value {inn : Prop} (name : string) (d : {inn} + {~ inn}) (m b f : R) : R :=
  if String.eqb name "dirichlet" then if d then b else f
  else if String.eqb name "mirror" then m
  else if String.eqb name "mirror+dirichlet" then if d then b else m
  else f.

(** The same configuration with a larger iteration budget for the loops of the
    shearing box. *)
Definition with_fuel (c : cfg) (n : nat) : cfg :=
  Cfg (lay c) (N_ghost c) (N_p1 c) (N_p2 c) (N_p3 c) (N_species c)
    (q1_start c) (q1_end c) (q2_start c) (q2_end c) (dq1 c) (dq2 c)
    (p1_start c) (p2_start c) (p3_start c) (dp1 c) (dp2 c) (dp3 c)
    (solver_method_in_q c) (solver_method_in_p c) (reconstruction_method_in_q c)
    (reconstruction_method_in_p c) (p_space_grid c) (fields_enabled c) (source_enabled c)
    (C_q c) (A_q c) (C_p c) (A_p c) (source c) (in_q c) (f_bc c) (shear_q c) (shear_omega c)
    (approx2 c) n.
