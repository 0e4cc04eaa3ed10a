(** Energy of a plasma and of its fields in electrodynamic runs. *)
From Coq Require Import ZArith Reals String List Bool.
From Verif Require Import Base.Prelude Base.ZSum Model.Af Model.Petsc Model.Config Model.Fvm Model.Em
  Model.Moments Model.Timestep Model.Solver
  Spec.Domain Spec.Lattice Spec.FvmProblem Spec.FvmRun Spec.Yee Spec.MomentSpec Spec.VlasovMaxwell Spec.Poisson.
Import ListNotations.
Local Open Scope R_scope.

(** Field energy at a step: (eps E^2 + B^- B^+ / mu) / 2 summed over the cells,
    times their area.  [Y] holds E at the step and B^+ half a step after it; B^- is
    half a step before it, by Faraday's law. *)
Definition field_energy (P : params) (dt : R) (Y : lattice) : R :=
  let f := pf P in
  energy (gN1 (flay f)) (gN2 (flay f)) (eps f) (mu f) (faraday (fdq1 f) (fdq2 f) (- dt) Y) Y / 2 * (fdq1 f * fdq2 f).

(** Rate of work of the field on the currents, J . E, with E halfway in a step. *)
Definition joule (P : params) (J1 J2 J3 : grid) (Y Y' : lattice) : R :=
  let f := pf P in let M := mid Y Y' in
  total (gN1 (flay f)) (gN2 (flay f)) (fun i j => J1 i j * E1 M i j + J2 i j * E2 M i j + J3 i j * E3 M i j)
  * (fdq1 f * fdq2 f).

(** The half-step state of a step, and the problem of its second evaluation. *)
Definition vm_half (P : params) (k1 k2 : scheme) (t dt : R) (S : vm_state) : gstate :=
  fun x s i j => vm_f S x s i j + dt / 2 * rhs (vm_problem P k1 k2 t (vm_cc S)) (vm_f S) x s i j.
Definition vm_forced (P : params) (k1 k2 : scheme) (t dt : R) (S : vm_state) : problem :=
  vm_problem P k1 k2 t (vm_cc (vm_step P k1 k2 t dt S)).

(** The work in a run of steps: the currents are those of the half-step states. *)
Fixpoint vm_work (P : params) (k1 k2 : scheme) (t : R) (h : list (method * R)) (S : vm_state) : R :=
  match h with
  | [] => 0
  | (_, dt) :: h =>
      let p := vm_problem P k1 k2 t (vm_cc S) in
      let uh := vm_half P k1 k2 t dt S in
      let S' := vm_step P k1 k2 t dt S in
      dt * joule P (current1 P p uh) (current2 P p uh) (current3 P p uh) (vm_yee S) (vm_yee S')
      + vm_work P k1 k2 (t + dt) h S'
  end.

(** Steps of one size. *)
Definition all_steps (dt : R) (h : list (method * R)) : Prop := Forall (fun x => snd x = dt) h.

(** Kinetic energy: mass v^2 / 2. *)
Definition half_square (a b c : R) : R := (a ^ 2 + b ^ 2 + c ^ 2) / 2.
Definition kinetic_energy (P : params) (mass : Z -> R) (u : gstate) : R :=
  total_moment P mass half_square u * (dq1 (pc P) * dq2 (pc P)).

(** [w] of the particles in a momentum cell. *)
Definition weight (c : cfg) (w : R -> R -> R -> R) (s x : Z) : R :=
  w (mom1 c (1/2) x s) (mom2 c (1/2) x s) (mom3 c (1/2) x s).

(** What acceleration gives to the total of a quantity [w] in a cell: through each
    face of the momentum grid so many particles pass, and each of them exchanges the
    [w] of the cell below the face for that of the cell above it.  The momentum grid
    is periodic: below the lowest cell is the highest. *)
Definition gained (c : cfg) (p : problem) (w : R -> R -> R -> R) (u : gstate) (s i j : Z) : R :=
  let W := weight c w s in
  zsum (M3 p) (fun i3 => zsum (M2 p) (fun i2 => zsum (M1 p) (fun i1 =>
    flux (kp p) (periodic (M1 p) (fun a => acc1 p (pidx p a i2 i3) s i j))
                (periodic (M1 p) (fun a => u (pidx p a i2 i3) s i j)) i1
    * (W (pidx p i1 i2 i3) - W (pidx p ((i1 - 1) mod M1 p) i2 i3))))) * (hp2 p s * hp3 p s)
  + zsum (M3 p) (fun i3 => zsum (M1 p) (fun i1 => zsum (M2 p) (fun i2 =>
    flux (kp p) (periodic (M2 p) (fun a => acc2 p (pidx p i1 a i3) s i j))
                (periodic (M2 p) (fun a => u (pidx p i1 a i3) s i j)) i2
    * (W (pidx p i1 i2 i3) - W (pidx p i1 ((i2 - 1) mod M2 p) i3))))) * (hp1 p s * hp3 p s)
  + zsum (M2 p) (fun i2 => zsum (M1 p) (fun i1 => zsum (M3 p) (fun i3 =>
    flux (kp p) (periodic (M3 p) (fun a => acc3 p (pidx p i1 i2 a) s i j))
                (periodic (M3 p) (fun a => u (pidx p i1 i2 a) s i j)) i3
    * (W (pidx p i1 i2 i3) - W (pidx p i1 i2 ((i3 - 1) mod M3 p)))))) * (hp1 p s * hp2 p s).

Definition total_gained (P : params) (mass : Z -> R) (w : R -> R -> R -> R) (p : problem) (u : gstate) : R :=
  let c := pc P in
  zsum (gN1 (lay c)) (fun i => zsum (gN2 (lay c)) (fun j => zsum (N_species c) (fun s =>
    mass s * gained c p w u s i j))).

Fixpoint vm_gained (P : params) (mass : Z -> R) (w : R -> R -> R -> R) (k1 k2 : scheme) (t : R)
    (h : list (method * R)) (S : vm_state) : R :=
  match h with
  | [] => 0
  | (_, dt) :: h =>
      dt * total_gained P mass w (vm_forced P k1 k2 t dt S) (vm_half P k1 k2 t dt S)
      + vm_gained P mass w k1 k2 (t + dt) h (vm_step P k1 k2 t dt S)
  end.

(** Momentum cells of some width. *)
Definition momentum_steps (c : cfg) : Prop := forall s, inb (N_species c) s ->
  nth (Z.to_nat s) (dp1 c) 0 <> 0 /\ nth (Z.to_nat s) (dp2 c) 0 <> 0 /\ nth (Z.to_nat s) (dp3 c) 0 <> 0.

(** Collisions keep the total of a quantity in every cell. *)
Definition collisions_conserve (P : params) (mass : Z -> R) (w : R -> R -> R -> R) : Prop :=
  source_enabled (pc P) = false \/
  forall t q1 q2 g, let c := pc P in
    zsum (N_species c) (fun s => mass s * integral (species_grid c s) w (fun i1 i2 i3 =>
      source c t q1 q2 g (i1 + N_p1 c * (i2 + N_p2 c * i3))%Z s)) = 0.

(** Particles of positive mass under the Lorentz force. *)
Definition lorentz_force (P : params) (mass : Z -> R) : Prop :=
  forall s, inb (N_species (pc P)) s -> 0 < mass s /\
  forall t q1 q2 p1 p2 p3 e1 e2 e3 b1 b2 b3,
    let a := nth (Z.to_nat s) (charge P) 0 / mass s in
    C_p (pc P) s t q1 q2 p1 p2 p3 e1 e2 e3 b1 b2 b3
    = (a * (e1 + p2 * b3 - p3 * b2), a * (e2 + p3 * b1 - p1 * b3), a * (e3 + p1 * b2 - p2 * b1)).

(** Kinetic plus field energy of a solver. *)
Definition plasma_energy (P : params) (mass : Z -> R) (dt : R) (s : solver) : R :=
  kinetic_energy P mass (gval (lay (pc P)) (f_of s)) + field_energy P dt (view (lay (pc P)) (yee_val (fields s))).
