(** Electrostatics on a periodic grid: the field as a sum over the charges of all
    cells, and the Vlasov-Poisson program that uses it. *)
From Coq Require Import ZArith Reals String List Bool.
From Verif Require Import Base.Prelude Base.ZSum Model.Af Model.Petsc Model.Config Model.Fvm Model.Em
  Model.Moments Model.Timestep Model.Solver
  Spec.Domain Spec.Lattice Spec.FvmProblem Spec.FvmRun Spec.Yee Spec.EmRun Spec.Waves Spec.MomentSpec Spec.SolverSpec
  Spec.VlasovMaxwell Spec.Symmetry Spec.Slide Spec.Reflect.
Import ListNotations.
Local Open Scope R_scope.

(** The field along an axis, (m, n) cells away from a unit charge: the sum over the
    waves of the grid of k / (eps |k|^2) sin (k . x), [k] the wave number along that
    axis.  No wave number zero: a neutralizing background. *)
Definition coulomb (N1 N2 : Z) (dq1 dq2 eps : R) (k : Z -> Z -> R) (m n : Z) : R :=
  zsum N1 (fun i => zsum N2 (fun j =>
    if ((i =? 0) && (j =? 0))%Z%bool then 0
    else k i j / (wavenumber N1 dq1 i ^ 2 + wavenumber N2 dq2 j ^ 2)
         * sin (2 * PI * (IZR i * IZR m / IZR N1 + IZR j * IZR n / IZR N2))))
  / (IZR N1 * IZR N2 * eps).
Definition coulomb1 (N1 N2 : Z) (dq1 dq2 eps : R) : Z -> Z -> R :=
  coulomb N1 N2 dq1 dq2 eps (fun i _ => wavenumber N1 dq1 i).
Definition coulomb2 (N1 N2 : Z) (dq1 dq2 eps : R) : Z -> Z -> R :=
  coulomb N1 N2 dq1 dq2 eps (fun _ j => wavenumber N2 dq2 j).

(** The field of a charge density: every cell contributes its charge. *)
Definition field_of (N1 N2 : Z) (K : Z -> Z -> R) (rho : grid) : grid := fun i j =>
  zsum N1 (fun a => zsum N2 (fun b => K (i - a)%Z (j - b)%Z * rho a b)).

(** The fields that act on a plasma: its own electrostatic field in the plane, and
    [bg] for the component E3 and for B. *)
Definition es_fields (P : params) (bg : lattice) (u : gstate) : lattice :=
  let L := lay (pc P) in
  let f := pf P in
  Lattice (field_of (gN1 L) (gN2 L) (coulomb1 (gN1 L) (gN2 L) (fdq1 f) (fdq2 f) (eps f)) (charge_density P u))
          (field_of (gN1 L) (gN2 L) (coulomb2 (gN1 L) (gN2 L) (fdq1 f) (fdq2 f) (eps f)) (charge_density P u))
          (E3 bg) (B1 bg) (B2 bg) (B3 bg).

(** One step of the midpoint rule: each of the two evaluations uses the field of
    the state that it acts on. *)
Definition vp_half (P : params) (k1 k2 : scheme) (bg : lattice) (t dt : R) (u : gstate) : gstate :=
  fun x s i j => u x s i j + dt / 2 * rhs (vm_problem P k1 k2 t (es_fields P bg u)) u x s i j.
Definition vp_step (P : params) (k1 k2 : scheme) (bg : lattice) (t dt : R) (u : gstate) : gstate :=
  let uh := vp_half P k1 k2 bg t dt u in
  fun x s i j => u x s i j + dt * rhs (vm_problem P k1 k2 t (es_fields P bg uh)) uh x s i j.

Fixpoint vp_run (P : params) (k1 k2 : scheme) (bg : lattice) (t : R) (h : list (method * R)) (u : gstate) : gstate :=
  match h with
  | [] => u
  | (_, dt) :: h => vp_run P k1 k2 bg (t + dt) h (vp_step P k1 k2 bg t dt u)
  end.

(** The fields that the run leaves behind: those of its last half step. *)
Fixpoint vp_fields (P : params) (k1 k2 : scheme) (bg : lattice) (t : R) (h : list (method * R)) (u : gstate)
    (C : lattice) : lattice :=
  match h with
  | [] => C
  | (_, dt) :: h => vp_fields P k1 k2 bg (t + dt) h (vp_step P k1 k2 bg t dt u)
                      (es_fields P bg (vp_half P k1 k2 bg t dt u))
  end.

(** An electrostatic run of the finite-volume solver. *)
Record electrostatic (P : params) : Prop := Electrostatic {
  el_type : fields_type P = "electrostatic"%string;
  el_solver : fields_solver (pf P) = "fft"%string;
  el_regular : regular (pf P);
  el_ghost1 : ng1 (flay (pf P)) = fN_g (pf P);
  el_ghost2 : ng2 (flay (pf P)) = fN_g (pf P);
  el_dq1 : 0 < fdq1 (pf P);
  el_dq2 : 0 < fdq2 (pf P);
  el_serial : comm_size (pf P) = 1%nat }.

(** ** Momentum *)
(** Sum over cells and species of mass times the integral of weight * f. *)
Definition total_moment (P : params) (mass : Z -> R) (w : R -> R -> R -> R) (u : gstate) : R :=
  let c := pc P in
  zsum (gN1 (lay c)) (fun i => zsum (gN2 (lay c)) (fun j => zsum (N_species c) (fun s =>
    mass s * integral (species_grid c s) w (fun i1 i2 i3 => u (i1 + N_p1 c * (i2 + N_p2 c * i3))%Z s i j)))).
Definition momentum1 (P : params) (mass : Z -> R) : gstate -> R := total_moment P mass (fun v _ _ => v).
Definition momentum2 (P : params) (mass : Z -> R) : gstate -> R := total_moment P mass (fun _ v _ => v).

(** Without a magnetic field the acceleration is charge / mass times E. *)
Definition coulomb_force (P : params) (mass : Z -> R) : Prop :=
  forall s, inb (N_species (pc P)) s -> mass s <> 0 /\
  forall t q1 q2 p1 p2 p3 e1 e2 e3,
    let a := nth (Z.to_nat s) (charge P) 0 / mass s in
    C_p (pc P) s t q1 q2 p1 p2 p3 e1 e2 e3 0 0 0 = (a * e1, a * e2, a * e3).

(** Collisions keep the momentum in the plane. *)
Definition collisions_keep (P : params) (mass : Z -> R) : Prop :=
  source_enabled (pc P) = false \/
  forall t q1 q2 g, let c := pc P in
    let lost w := zsum (N_species c) (fun s => mass s * integral (species_grid c s) w (fun i1 i2 i3 =>
                    source c t q1 q2 g (i1 + N_p1 c * (i2 + N_p2 c * i3))%Z s)) in
    lost (fun v _ _ => v) = 0 /\ lost (fun _ v _ => v) = 0.

(** Particles per unit time that leave the momentum grid at its upper end along p1
    (p2) in a cell; the code lets them in again at the lower end. *)
Definition crossing1 (p : problem) (u : gstate) (s i j : Z) : R :=
  zsum (M3 p) (fun i3 => zsum (M2 p) (fun i2 =>
    flux (kp p) (periodic (M1 p) (fun a => acc1 p (pidx p a i2 i3) s i j))
                (periodic (M1 p) (fun a => u (pidx p a i2 i3) s i j)) 0)) * (hp2 p s * hp3 p s).
Definition crossing2 (p : problem) (u : gstate) (s i j : Z) : R :=
  zsum (M3 p) (fun i3 => zsum (M1 p) (fun i1 =>
    flux (kp p) (periodic (M2 p) (fun a => acc2 p (pidx p i1 a i3) s i j))
                (periodic (M2 p) (fun a => u (pidx p i1 a i3) s i j)) 0)) * (hp1 p s * hp3 p s).

(** Sum over a cell's momentum faces of what crosses them, times the step: the
    momentum that the force hands over. *)
Definition pushed1 (p : problem) (u : gstate) (s i j : Z) : R :=
  zsum (M3 p) (fun i3 => zsum (M2 p) (fun i2 => zsum (M1 p) (fun i1 =>
    flux (kp p) (periodic (M1 p) (fun a => acc1 p (pidx p a i2 i3) s i j))
                (periodic (M1 p) (fun a => u (pidx p a i2 i3) s i j)) i1))) * (hp1 p s * hp2 p s * hp3 p s).
Definition pushed2 (p : problem) (u : gstate) (s i j : Z) : R :=
  zsum (M3 p) (fun i3 => zsum (M1 p) (fun i1 => zsum (M2 p) (fun i2 =>
    flux (kp p) (periodic (M2 p) (fun a => acc2 p (pidx p i1 a i3) s i j))
                (periodic (M2 p) (fun a => u (pidx p i1 a i3) s i j)) i2))) * (hp1 p s * hp2 p s * hp3 p s).

(** Each of them loses the width of the momentum grid. *)
Definition momentum_loss (P : params) (mass : Z -> R) (width : Z -> R) (crossing : Z -> Z -> Z -> R) : R :=
  let c := pc P in
  zsum (gN1 (lay c)) (fun i => zsum (gN2 (lay c)) (fun j => zsum (N_species c) (fun s =>
    mass s * (width s * crossing s i j)))).
Definition loss1 (P : params) (mass : Z -> R) (p : problem) (u : gstate) : R :=
  momentum_loss P mass (fun s => IZR (M1 p) * hp1 p s) (crossing1 p u).
Definition loss2 (P : params) (mass : Z -> R) (p : problem) (u : gstate) : R :=
  momentum_loss P mass (fun s => IZR (M2 p) * hp2 p s) (crossing2 p u).

(** What a run loses in this way. *)
Fixpoint vp_lost (loss : problem -> gstate -> R) (P : params) (k1 k2 : scheme) (bg : lattice) (t : R)
    (h : list (method * R)) (u : gstate) : R :=
  match h with
  | [] => 0
  | (_, dt) :: h =>
      let uh := vp_half P k1 k2 bg t dt u in
      dt * loss (vm_problem P k1 k2 t (es_fields P bg uh)) uh
      + vp_lost loss P k1 k2 bg (t + dt) h (vp_step P k1 k2 bg t dt u)
  end.

(** The outermost momentum cells along p1 (else: along p2) are empty in every half step. *)
Definition empty_edges (P : params) (first : bool) (u : gstate) : Prop :=
  let c := pc P in
  forall s i j i1 i2 i3, inb (N_species c) s -> inb (gN1 (lay c)) i -> inb (gN2 (lay c)) j ->
    inb (N_p1 c) i1 -> inb (N_p2 c) i2 -> inb (N_p3 c) i3 ->
    (if first then i1 = 0 \/ i1 = N_p1 c - 1 else i2 = 0 \/ i2 = N_p2 c - 1)%Z ->
    u (i1 + N_p1 c * (i2 + N_p2 c * i3))%Z s i j = 0.
Fixpoint vp_confined (P : params) (first : bool) (k1 k2 : scheme) (bg : lattice) (t : R) (h : list (method * R))
    (u : gstate) : Prop :=
  match h with
  | [] => True
  | (_, dt) :: h => empty_edges P first (vp_half P k1 k2 bg t dt u)
                    /\ vp_confined P first k1 k2 bg (t + dt) h (vp_step P k1 k2 bg t dt u)
  end.

(** ** Symmetries *)
(** The plasma and the cell-centred fields of [s2] are those of [s], moved by
    (d1, d2) cells. *)
Definition es_moved (P : params) (d1 d2 : Z) (s s2 : solver) : Prop :=
  let c := pc P in let L := lay c in
  (forall x sp i j, inb (N_p c) x -> inb (N_species c) sp -> inb (gN1 L) i -> inb (gN2 L) j ->
     gval L (f_of s2) x sp i j = moved c d1 d2 (gval L (f_of s)) x sp i j)
  /\ same (view L (cc_val (fields s2))) (slide d1 d2 (view L (cc_val (fields s)))).

(** They are the mirror image. *)
Definition es_mirrored (P : params) (b1 b2 : bool) (s s2 : solver) : Prop :=
  let c := pc P in let L := lay c in
  (forall x sp i j, inb (N_p c) x -> inb (N_species c) sp -> inb (gN1 L) i -> inb (gN2 L) j ->
     gval L (f_of s2) x sp i j = reflection c b1 b2 (opposite c b1 b2) (gval L (f_of s)) x sp i j)
  /\ same (view L (cc_val (fields s2))) (mirror_centre (gN1 L) (gN2 L) b1 b2 (view L (cc_val (fields s)))).
