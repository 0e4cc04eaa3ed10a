(** Configurations of the coupled solver. *)
From Coq Require Import ZArith Reals String List Bool.
From Verif Require Import Base.Prelude Model.Af Model.Petsc Model.Config Model.Fvm Model.Em
  Model.Moments Model.Solver Spec.Domain Spec.Yee Spec.EmRun.
Local Open Scope R_scope.

(** The moment module defines the moment [name]. *)
Definition has (T : moment_table) (name : string) : Prop := exists m, getattr T name = Ok m.

(** A hybrid run with semi-Lagrangian advection in q and p on a periodic domain,
    one species. *)
Record hybrid_asl (P : params) : Prop := HybridAsl {
  ha_q : solver_method_in_q (pc P) = "ASL"%string;
  ha_p : solver_method_in_p (pc P) = "ASL"%string;
  ha_on : fields_enabled (pc P) = true;
  ha_edges : forall e, in_q (pc P) e = "periodic"%string;
  ha_regular : regular (pf P);
  ha_hybrid : hybrid (pf P) = true;
  ha_fdtd : fields_solver (pf P) = "fdtd"%string;
  ha_grid : p_space_grid (pc P) = "cartesian"%string;
  ha_density : has (table P) "density";
  ha_v1 : has (table P) "mom_v1_bulk";
  ha_v2 : has (table P) "mom_v2_bulk";
  ha_v3 : has (table P) "mom_v3_bulk";
  ha_starts : List.length (p2_start (pc P)) = 1%nat /\ List.length (p3_start (pc P)) = 1%nat
              /\ List.length (dp2 (pc P)) = 1%nat /\ List.length (dp3 (pc P)) = 1%nat }.

(** ** Charge and current densities *)
From Verif Require Import Base.ZSum Base.Cplx Spec.Lattice Spec.MomentSpec Spec.Dft Spec.Waves.

(** Sum over species of charge times the integral of weight * g. *)
Definition charge_moment (P : params) (w : R -> R -> R -> R) (g : Z -> Z -> R) : R :=
  let c := pc P in
  zsum (N_species c) (fun s => nth (Z.to_nat s) (charge P) 0
    * integral (species_grid c s) w (fun i1 i2 i3 => g (i1 + N_p1 c * (i2 + N_p2 c * i3))%Z s)).
Definition charge_density (P : params) (u : gstate) (i j : Z) : R :=
  charge_moment P (fun _ _ _ => 1) (fun x s => u x s i j).

(** Cartesian momenta, the moments of the nonrelativistic Boltzmann system, one
    charge per species, and fields on the grid of f. *)
Record plasma (P : params) : Prop := Plasma {
  pl_table : table P = nonrel_moments;
  pl_grid : p_space_grid (pc P) = "cartesian"%string;
  pl_charge : Z.of_nat (List.length (charge P)) = N_species (pc P);
  pl_lay : flay (pf P) = lay (pc P);
  pl_p : solver_method_in_p (pc P) = "FVM"%string;
  pl_fp : method_in_p (pf P) = "FVM"%string;
  pl_on : fields_enabled (pc P) = true }.

(** [E] is the electrostatic field of the charge density [rho]: at every resolved
    mode i k . E = (rho - mean)^ / eps and k x E = 0, and E has no mean. *)
Definition poisson_field (N1 N2 : Z) (dq1 dq2 eps : R) (rho e1 e2 : Z -> Z -> R) : Prop :=
  let hat (x : Z -> Z -> R) := dft2 N1 N2 (fun i j => RtoC (x i j)) in
  mean2 N1 N2 e1 = 0 /\ mean2 N1 N2 e2 = 0
  /\ (forall i j, (0 <= i < N1)%Z -> (0 <= j < N2)%Z -> resolved N1 N2 i j ->
       let k1 := wavenumber N1 dq1 i in let k2 := wavenumber N2 dq2 j in
       cmul ci (cadd (cscale k1 (hat e1 i j)) (cscale k2 (hat e2 i j)))
         = cscale (/ eps) (hat (fun m n => rho m n - mean2 N1 N2 rho) i j)
       /\ csub (cscale k1 (hat e2 i j)) (cscale k2 (hat e1 i j)) = c0)
  /\ (forall i j, (0 <= i < N1)%Z -> (0 <= j < N2)%Z -> (2 * i)%Z = N1 -> hat e1 i j = c0)
  /\ (forall i j, (0 <= i < N1)%Z -> (0 <= j < N2)%Z -> (2 * j)%Z = N2 -> hat e2 i j = c0).

(** ** Vlasov-Poisson histories on the global grid: in each step the field of both
    evaluations is that of the state they act on; the components other than E1
    and E2 are [bg]. *)
From Verif Require Import Spec.FvmProblem Spec.FvmRun Model.Timestep.

Definition poisson_for (P : params) (bg : gfields) (u : gstate) (E : gfields) : Prop :=
  let L := lay (pc P) in
  poisson_field (gN1 L) (gN2 L) (fdq1 (pf P)) (fdq2 (pf P)) (eps (pf P)) (charge_density P u) (E 0%Z) (E 1%Z)
  /\ forall n i j, (2 <= n < 6)%Z -> inb (gN1 L) i -> inb (gN2 L) j -> E n i j = bg n i j.

Inductive vlasov_poisson (P : params) (k1 k2 : scheme) (bg : gfields) :
    R -> list (method * R) -> gstate -> gstate -> Prop :=
| vp_done t u : vlasov_poisson P k1 k2 bg t nil u u
| vp_step t m dt h u v E0 Eh :
    let p E := prob (pc P) k1 k2 t (E, E, E) in
    let half : gstate := fun x s g1 g2 => u x s g1 g2 + dt / 2 * rhs (p E0) u x s g1 g2 in
    poisson_for P bg u E0 -> poisson_for P bg half Eh ->
    vlasov_poisson P k1 k2 bg (t + dt) h (midpoint (p E0) (p Eh) dt u) v ->
    vlasov_poisson P k1 k2 bg t ((m, dt) :: h) u v.

(** Semi-Lagrangian advection in q and p, fields from the FFT solver, one species. *)
Record asl_fft (P : params) : Prop := AslFft {
  af_q : solver_method_in_q (pc P) = "ASL"%string;
  af_p : solver_method_in_p (pc P) = "ASL"%string;
  af_fp : method_in_p (pf P) = "ASL"%string;
  af_on : fields_enabled (pc P) = true;
  af_edges : forall e, in_q (pc P) e = "periodic"%string;
  af_fft : fields_solver (pf P) = "fft"%string;
  af_starts : List.length (p2_start (pc P)) = 1%nat /\ List.length (p3_start (pc P)) = 1%nat
              /\ List.length (dp2 (pc P)) = 1%nat /\ List.length (dp3 (pc P)) = 1%nat }.
