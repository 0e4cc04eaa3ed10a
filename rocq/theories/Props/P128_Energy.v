(** Energy in electrodynamic runs: C128-C130. *)
From Coq Require Import ZArith Reals Lra Lia String List Bool.
From Verif Require Import Base.Prelude Base.ZSum Model.Af Model.Petsc Model.Config Model.Fvm Model.Em
  Model.Moments Model.Timestep Model.Splitting Model.Solver Spec.Domain Spec.Lattice Spec.FvmProblem Spec.FvmRun
  Spec.Yee Spec.EmRun Spec.MomentSpec Spec.SolverSpec Spec.VlasovMaxwell Spec.InitFields Spec.Slide Spec.Poisson Spec.Energy
  Proofs.VmProps Proofs.EnergyField Proofs.EnergyKinetic Proofs.PoissonWitness Proofs.EnergyWitness Props.ExMaxwell.
Import ListNotations.
Local Open Scope R_scope.

(** ** C128 *)
Theorem C128_poynting P k1 k2 dt h s S :
  wf_cfg (pc P) k1 k2 -> periodic_fvm (pc P) k1 -> plasma P -> maxwell P ->
  all_steps dt h -> starts P s -> vm_holds P s S ->
  exists s', run_steps (solver_stepper P) h s = Ok (s', None)
  /\ field_energy P dt (view (lay (pc P)) (yee_val (fields s')))
     = field_energy P dt (view (lay (pc P)) (yee_val (fields s))) - vm_work P k1 k2 (time_elapsed s) h S.
Proof. intros W PF PM MX. exact (field_solver P k1 k2 W PF PM MX dt h s S). Qed.
Print Assumptions C128_poynting.
Example C128_example (dt : R) : wf_cfg (vm_cfg true) MC PPM /\ periodic_fvm (vm_cfg true) MC
  /\ plasma (vm_params true push twist) /\ maxwell (vm_params true push twist)
  /\ all_steps dt [(Strang, dt); (Lie, dt)]
  /\ exists s S, starts (vm_params true push twist) s /\ vm_holds (vm_params true push twist) s S.
Proof.
  split; [apply vm_wf|]. split; [apply vm_periodic|]. split; [apply vm_plasma|]. split; [apply vm_maxwell|].
  split; [repeat constructor|]. destruct (vm_initial true push twist even_state even_shaped) as (s&ST&F&_).
  exists s, (global_of (vm_params true push twist) s). split; [exact ST|].
  apply (starts_vm (vm_params true push twist) (vm_maxwell _ _ _) s ST).
Qed.
Example C128_does_work (dt : R) : 0 < dt < 1 -> vm_work en_params FirstOrder FirstOrder 0 [(Strang, dt)] en_state > 0.
Proof.
  intros D. rewrite en_work. assert (0 < dt ^ 2 < 1) by nra. apply Rmult_lt_0_compat; lra.
Qed.

(** ** C129: what acceleration does to the moments of f *)
Theorem C129_moments P k1 k2 mass w h s S :
  wf_cfg (pc P) k1 k2 -> periodic_fvm (pc P) k1 -> plasma P -> maxwell P ->
  velocity_periodic (pc P) -> momentum_steps (pc P) -> collisions_conserve P mass w ->
  starts P s -> vm_holds P s S ->
  exists s', run_steps (solver_stepper P) h s = Ok (s', None)
  /\ total_moment P mass w (gval (lay (pc P)) (f_of s'))
     = total_moment P mass w (gval (lay (pc P)) (f_of s)) + vm_gained P mass w k1 k2 (time_elapsed s) h S.
Proof. intros W PF PM MX VP DP CK. exact (moment_solver P k1 k2 W PF VP mass w CK DP h s S PM MX). Qed.
Print Assumptions C129_moments.
Example C129_example w : wf_cfg (pc en_params) FirstOrder FirstOrder /\ periodic_fvm (pc en_params) FirstOrder
  /\ plasma en_params /\ maxwell en_params /\ velocity_periodic (pc en_params) /\ momentum_steps (pc en_params)
  /\ collisions_conserve en_params unit_mass w /\ exists s, starts en_params s /\ vm_holds en_params s en_state.
Proof.
  split; [exact en_wf|]. split; [exact en_periodic|]. split; [exact en_plasma|]. split; [exact en_maxwell|].
  split; [exact en_velocity|]. split; [exact en_steps|]. split; [apply en_keep|].
  destruct en_initial as (s&ST&HS&_). exists s. auto.
Qed.

(** ** C130: is the energy of particles and fields together kept? *)
(** Missing: that what the particles gain is what the fields lose (refuted below). *)
Theorem C130_balance_partial P k1 k2 mass dt h s S :
  wf_cfg (pc P) k1 k2 -> periodic_fvm (pc P) k1 -> plasma P -> maxwell P ->
  velocity_periodic (pc P) -> momentum_steps (pc P) -> collisions_conserve P mass half_square ->
  all_steps dt h -> starts P s -> vm_holds P s S ->
  exists s', run_steps (solver_stepper P) h s = Ok (s', None)
  /\ plasma_energy P mass dt s' = plasma_energy P mass dt s
     + (vm_gained P mass half_square k1 k2 (time_elapsed s) h S * (dq1 (pc P) * dq2 (pc P)) - vm_work P k1 k2 (time_elapsed s) h S).
Proof. exact (balance_solver P k1 k2 mass dt h s S). Qed.
Print Assumptions C130_balance_partial.

(** A plasma at rest in a uniform field: one step of any size up to 1/2 adds at
    least 3 dt to an energy of 3/2. *)
Theorem C130_conserved_refuted :
  exists P mass, wf_cfg (pc P) FirstOrder FirstOrder /\ periodic_fvm (pc P) FirstOrder /\ plasma P /\ maxwell P
  /\ ballistic P /\ lorentz_force P mass /\ source_enabled (pc P) = false
  /\ forall dt, 0 < dt <= 1/2 -> exists s s', starts P s
     /\ run_steps (solver_stepper P) [(Strang, dt)] s = Ok (s', None)
     /\ plasma_energy P mass dt s = 3/2 /\ plasma_energy P mass dt s' >= 3/2 + 3 * dt.
Proof.
  exists en_params, unit_mass. split; [exact en_wf|]. split; [exact en_periodic|]. split; [exact en_plasma|]. split; [exact en_maxwell|].
  split; [exact en_ballistic|]. split; [exact en_lorentz|]. split; [reflexivity|]. exact en_heats.
Qed.
Print Assumptions C130_conserved_refuted.
