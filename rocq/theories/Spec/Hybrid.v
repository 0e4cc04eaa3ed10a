(** Hybrid plasmas on the global grid: kinetic ions, massless isothermal electrons.
    The electric field is given by the generalised Ohm's law
      E = - v x B + J x B / (e n) - T_e grad n / (e n),   J = curl B / mu,
    with every quantity averaged to the place of the component on the Yee grid. *)
From Coq Require Import ZArith Reals String List Bool.
From Verif Require Import Base.Prelude Base.ZSum Model.Af Model.Petsc Model.Config Model.Fvm Model.Em
  Model.Moments Model.Timestep Model.Solver
  Spec.Domain Spec.Lattice Spec.FvmProblem Spec.FvmRun Spec.Yee Spec.EmRun Spec.MomentSpec Spec.SolverSpec Spec.VlasovMaxwell.
Import ListNotations.
Local Open Scope R_scope.

(** Number density and mean velocity of the ions (one species). *)
Record fluid : Type := Fluid { num : grid; vel_1 : grid; vel_2 : grid; vel_3 : grid }.

Definition ion (P : params) (w : R -> R -> R -> R) (g : Z -> R) : R :=
  let c := pc P in
  integral (species_grid c 0) w (fun i1 i2 i3 => g (i1 + N_p1 c * (i2 + N_p2 c * i3))%Z).

Definition ions (P : params) (h : gstate) : fluid :=
  let m w : grid := fun i j =>
    ion P w (fun x => h x 0%Z (i mod gN1 (lay (pc P)))%Z (j mod gN2 (lay (pc P)))%Z) in
  let n := m (fun _ _ _ => 1) in
  Fluid n (fun i j => m (fun v _ _ => v) i j / n i j) (fun i j => m (fun _ v _ => v) i j / n i j)
          (fun i j => m (fun _ _ v => v) i j / n i j).

(** Fourth-order central differences. *)
Definition slope1 (h : R) (n : grid) : grid := fun i j =>
  (8 * n (i + 1)%Z j - n (i + 2)%Z j - 8 * n (i - 1)%Z j + n (i - 2)%Z j) / (12 * h).
Definition slope2 (h : R) (n : grid) : grid := fun i j =>
  (8 * n i (j + 1)%Z - n i (j + 2)%Z - 8 * n i (j - 1)%Z + n i (j - 2)%Z) / (12 * h).

(** E1 at (i, j+1/2) with the ions on the left face, E2 at (i+1/2, j) with those on
    the bottom face, E3 in the centre.  The pressure terms of E1 and E2 divide by
    the density [n] of the cell, as df_dt_fvm.py:184-198 does. *)
Definition ohm (c : fcfg) (e Te : R) (left bottom centre : fluid) (Y : lattice) : lattice :=
  let J1 : grid := fun i j => fwd2 (fdq2 c) (B3 Y) i j / mu c in
  let J2 : grid := fun i j => - fwd1 (fdq1 c) (B3 Y) i j / mu c in
  let J3 : grid := fun i j => (fwd1 (fdq1 c) (B2 Y) i j - fwd2 (fdq2 c) (B1 Y) i j) / mu c in
  let n := num centre in
  Lattice
    (fun i j =>
       let b3 := (B3 Y i j + B3 Y i (j + 1)%Z) / 2 in
       let b2 := B2 Y i j in
       let j2 := (J2 i j + J2 i (j + 1)%Z + J2 (i - 1)%Z j + J2 (i - 1)%Z (j + 1)%Z) / 4 in
       let j3 := (J3 i j + J3 (i - 1)%Z j) / 2 in
       - (vel_2 left i j * b3 - vel_3 left i j * b2) + (j2 * b3 - j3 * b2) / (e * num left i j)
       - Te * ((slope1 (fdq1 c) n i j + slope1 (fdq1 c) n (i - 1)%Z j) / 2) / (e * n i j))
    (fun i j =>
       let b1 := B1 Y i j in
       let b3 := (B3 Y i j + B3 Y (i + 1)%Z j) / 2 in
       let j1 := (J1 i j + J1 i (j - 1)%Z + J1 (i + 1)%Z j + J1 (i + 1)%Z (j - 1)%Z) / 4 in
       let j3 := (J3 i j + J3 i (j - 1)%Z) / 2 in
       - (vel_3 bottom i j * b1 - vel_1 bottom i j * b3) + (j3 * b1 - j1 * b3) / (e * num bottom i j)
       - Te * ((slope2 (fdq2 c) n i j + slope2 (fdq2 c) n i (j - 1)%Z) / 2) / (e * n i j))
    (fun i j =>
       let b1 := (B1 Y i j + B1 Y i (j + 1)%Z) / 2 in
       let b2 := (B2 Y i j + B2 Y (i + 1)%Z j) / 2 in
       let j1 := (J1 i j + J1 (i + 1)%Z j) / 2 in
       let j2 := (J2 i j + J2 i (j + 1)%Z) / 2 in
       - (vel_1 centre i j * b2 - vel_2 centre i j * b1) + (j1 * b2 - j2 * b1) / (e * n i j))
    (B1 Y) (B2 Y) (B3 Y).

(** One step: E from Ohm's law and the half-step ions, then B by Faraday's law; f by
    the midpoint rule in the cell-centred fields. *)
Definition hyb_fields (P : params) (p : problem) (dt : R) (uh : gstate) (Y : lattice) : lattice :=
  faraday (fdq1 (pf P)) (fdq2 (pf P)) dt
    (ohm (pf P) (nth 0 (charge P) 0) (T_e P) (ions P (through1 p uh)) (ions P (through2 p uh)) (ions P uh) Y).

Definition hyb_step (P : params) (k1 k2 : scheme) (t dt : R) (S : vm_state) : vm_state :=
  let p := vm_problem P k1 k2 t (vm_cc S) in
  let uh : gstate := fun x s i j => vm_f S x s i j + dt / 2 * rhs p (vm_f S) x s i j in
  let Y := hyb_fields P p dt uh (vm_yee S) in
  let C := EB (mid (vm_cc S) (centred Y)) (centred Y) in
  VM (midpoint p (vm_problem P k1 k2 t C) dt (vm_f S)) Y C.

Fixpoint hyb_run (P : params) (k1 k2 : scheme) (t : R) (h : list (method * R)) (S : vm_state) : vm_state :=
  match h with
  | [] => S
  | (_, dt) :: h => hyb_run P k1 k2 (t + dt) h (hyb_step P k1 k2 t dt S)
  end.

(** The hybrid model with one ion species; the pressure gradient reads three cells
    to the left, so three ghost zones are needed. *)
Record hybrid_fvm (P : params) : Prop := HybridFvm {
  hf_type : fields_type P = "electrodynamic"%string;
  hf_solver : fields_solver (pf P) = "fdtd"%string;
  hf_hybrid : hybrid (pf P) = true;
  hf_one : N_species (pc P) = 1%Z;
  hf_ghosts : (3 <= ng1 (lay (pc P)))%Z /\ (3 <= ng2 (lay (pc P)))%Z;
  hf_regular : regular (pf P) }.
