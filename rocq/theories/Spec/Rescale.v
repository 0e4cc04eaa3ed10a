(** The same problem written in other units, and a problem with all signs of charge
    reversed (units of charge and of fields -1). *)
From Coq Require Import ZArith Reals String List Bool.
From Verif Require Import Base.Prelude Base.ZSum Model.Af Model.Petsc Model.Config Model.Fvm Model.Em
  Model.Moments Model.Timestep Model.Solver
  Spec.Domain Spec.Lattice Spec.FvmProblem Spec.FvmRun Spec.Yee Spec.EmRun Spec.VlasovMaxwell.
Import ListNotations.
Local Open Scope R_scope.

(** One old unit of length, time, f, charge and electric field, in new units.  Momenta
    are velocities; the magnetic field follows from v x B, which is an electric field. *)
Record units : Type := Units { u_len : R; u_time : R; u_f : R; u_charge : R; u_E : R }.
Definition u_vel (U : units) : R := u_len U / u_time U.
Definition u_B (U : units) : R := u_E U / u_vel U.
Definition proper (U : units) : Prop :=
  0 < u_len U /\ 0 < u_time U /\ u_f U <> 0 /\ u_charge U <> 0 /\ u_E U <> 0.

(** eps: charge density (charge * f * velocity^3) over field per length. *)
Definition u_eps (U : units) : R := u_charge U * u_f U * u_vel U ^ 3 * u_len U / u_E U.
(** mu: 1 / (eps * velocity^2). *)
Definition u_mu (U : units) : R := / (u_eps U * u_vel U ^ 2).

Definition times2 (a : R) (v : R * R) : R * R := (a * fst v, a * snd v).
Definition times3 (a : R) (v : R * R * R) : R * R * R := (a * fst (fst v), a * snd (fst v), a * snd v).

(** A user function of species, time, position and momentum. *)
Definition in_units {A} (U : units) (g : Z -> R -> R -> R -> R -> R -> R -> A) (s : Z) (t q1 q2 p1 p2 p3 : R) : A :=
  g s (t / u_time U) (q1 / u_len U) (q2 / u_len U) (p1 / u_vel U) (p2 / u_vel U) (p3 / u_vel U).

Definition convert_cfg (U : units) (c : cfg) : cfg :=
  let l := u_len U in let v := u_vel U in
  let force g s t q1 q2 p1 p2 p3 E1 E2 E3 B1 B2 B3 :=
    times3 (v / u_time U) (in_units U g s t q1 q2 p1 p2 p3 (E1 / u_E U) (E2 / u_E U) (E3 / u_E U)
                                    (B1 / u_B U) (B2 / u_B U) (B3 / u_B U)) in
  Cfg (lay c) (N_ghost c) (N_p1 c) (N_p2 c) (N_p3 c) (N_species c)
    (l * q1_start c) (l * q1_end c) (l * q2_start c) (l * q2_end c) (l * dq1 c) (l * dq2 c)
    (map (Rmult v) (p1_start c)) (map (Rmult v) (p2_start c)) (map (Rmult v) (p3_start c))
    (map (Rmult v) (dp1 c)) (map (Rmult v) (dp2 c)) (map (Rmult v) (dp3 c))
    (solver_method_in_q c) (solver_method_in_p c) (reconstruction_method_in_q c)
    (reconstruction_method_in_p c) (p_space_grid c) (fields_enabled c) (source_enabled c)
    (fun s t q1 q2 p1 p2 p3 => times2 v (in_units U (C_q c) s t q1 q2 p1 p2 p3))
    (fun s t q1 q2 p1 p2 p3 => times2 v (in_units U (A_q c) s t q1 q2 p1 p2 p3))
    (force (C_p c)) (force (A_p c))
    (fun t q1 q2 w x s => u_f U / u_time U * source c (t / u_time U) (q1 / l) (q2 / l) (fun x s => w x s / u_f U) x s)
    (in_q c) (f_bc c) (shear_q c) (shear_omega c) (approx2 c) (loop_fuel c).

Definition at_len {A} (U : units) (g : R -> R -> A) (q1 q2 : R) : A := g (q1 / u_len U) (q2 / u_len U).
Definition convert_fcfg (U : units) (c : fcfg) : fcfg :=
  let l := u_len U in
  FCfg (flay c) (fN_g c) (l * fq1_start c) (l * fq2_start c) (l * fdq1 c) (l * fdq2 c)
    (u_eps U * eps c) (u_mu U * mu c) (fin_q c) (em_bc c)
    (fields_solver c) (fields_initialize c) (method_in_p c) (hybrid c)
    (option_map (fun g q1 q2 => times3 (u_E U) (at_len U g q1 q2)) (init_E c))
    (option_map (fun g q1 q2 => let v := at_len U g q1 q2 in
       (times3 (u_B U * l) (fst v), u_E U * l * snd v)) (init_A_phi c))
    (option_map (fun g q1 q2 => times3 (u_B U) (at_len U g q1 q2)) (init_B c))
    (option_map (fun g q1 q2 => times3 (u_B U * l) (at_len U g q1 q2)) (init_A c))
    (option_map (fun g q1 q2 => let v := at_len U g q1 q2 in (u_B U * l * fst v, u_B U * snd v)) (init_A3_B3 c)).

Definition convert (U : units) (P : params) : params :=
  Params (convert_cfg U (pc P)) (convert_fcfg U (pf P)) (fields_type P) (map (Rmult (u_charge U)) (charge P)) (table P)
    (initial_mu P) (T_e P) (instantaneous P)
    (fun t q1 q2 w x s => u_f U * source_inst P (t / u_time U) (q1 / u_len U) (q2 / u_len U) (fun x s => w x s / u_f U) x s)
    (approx_p P).

(** States and histories. *)
Definition convert_f (U : units) (u : gstate) : gstate := fun x s i j => u_f U * u x s i j.
Definition convert_fields (U : units) (Y : lattice) : lattice :=
  Lattice (fun i j => u_E U * E1 Y i j) (fun i j => u_E U * E2 Y i j) (fun i j => u_E U * E3 Y i j)
          (fun i j => u_B U * B1 Y i j) (fun i j => u_B U * B2 Y i j) (fun i j => u_B U * B3 Y i j).
Definition convert_vm (U : units) (S : vm_state) : vm_state :=
  VM (convert_f U (vm_f S)) (convert_fields U (vm_yee S)) (convert_fields U (vm_cc S)).
Definition convert_steps (U : units) (h : list (method * R)) : list (method * R) :=
  map (fun p => (fst p, u_time U * snd p)) h.

(** ** Every charge reversed *)
Definition minus3 (v : R * R * R) : R * R * R := (- fst (fst v), - snd (fst v), - snd v).
Definition reversed_cfg (c : cfg) : cfg :=
  let force g (s : Z) (t q1 q2 p1 p2 p3 E1 E2 E3 B1 B2 B3 : R) : R * R * R :=
    g s t q1 q2 p1 p2 p3 (- E1) (- E2) (- E3) (- B1) (- B2) (- B3) in
  Cfg (lay c) (N_ghost c) (N_p1 c) (N_p2 c) (N_p3 c) (N_species c)
    (q1_start c) (q1_end c) (q2_start c) (q2_end c) (dq1 c) (dq2 c)
    (p1_start c) (p2_start c) (p3_start c) (dp1 c) (dp2 c) (dp3 c)
    (solver_method_in_q c) (solver_method_in_p c) (reconstruction_method_in_q c)
    (reconstruction_method_in_p c) (p_space_grid c) (fields_enabled c) (source_enabled c)
    (C_q c) (A_q c) (force (C_p c)) (force (A_p c)) (source c)
    (in_q c) (f_bc c) (shear_q c) (shear_omega c) (approx2 c) (loop_fuel c).
Definition reversed_fcfg (c : fcfg) : fcfg :=
  FCfg (flay c) (fN_g c) (fq1_start c) (fq2_start c) (fdq1 c) (fdq2 c) (eps c) (mu c) (fin_q c) (em_bc c)
    (fields_solver c) (fields_initialize c) (method_in_p c) (hybrid c)
    (option_map (fun g q1 q2 => minus3 (g q1 q2)) (init_E c))
    (option_map (fun g q1 q2 => (minus3 (fst (g q1 q2)), - snd (g q1 q2))) (init_A_phi c))
    (option_map (fun g q1 q2 => minus3 (g q1 q2)) (init_B c))
    (option_map (fun g q1 q2 => minus3 (g q1 q2)) (init_A c))
    (option_map (fun g q1 q2 => (- fst (g q1 q2), - snd (g q1 q2))) (init_A3_B3 c)).
(** Opposite charges in opposite initial fields: the force is the one of the fields
    reversed. *)
Definition reversed (P : params) : params :=
  Params (reversed_cfg (pc P)) (reversed_fcfg (pf P)) (fields_type P) (map Ropp (charge P)) (table P)
    (initial_mu P) (T_e P) (instantaneous P) (source_inst P) (approx_p P).
Definition reversed_fields (Y : lattice) : lattice :=
  Lattice (fun i j => - E1 Y i j) (fun i j => - E2 Y i j) (fun i j => - E3 Y i j)
          (fun i j => - B1 Y i j) (fun i j => - B2 Y i j) (fun i j => - B3 Y i j).
