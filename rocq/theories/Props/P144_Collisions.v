(** Collisions: C144. *)
From Coq Require Import ZArith Reals Lra Lia String List Bool.
From Verif Require Import Base.Prelude Base.ZSum Model.Af Model.Petsc Model.Grid Model.Config Model.Fvm Model.Em Model.Moments
  Model.NonRel Model.Splitting Model.Timestep Model.Solver Spec.Domain Spec.Lattice Spec.FvmProblem Spec.FvmRun Spec.Clock Spec.MomentSpec Spec.Collisions
  Proofs.MomentLemmas Proofs.Collisions Props.ExFvm.
Import ListNotations.
Local Open Scope R_scope.

(** C144.  A homogeneous gas whose source is the BGK operator.  In a step every
    moment, whatever its weight, changes by dt/tau times the difference between the
    moment of the equilibrium that the operator returns (flag True) for the state
    half way through the step, and the moment of that state.  Missing: that the two
    agree for the weights 1, p and p^2. *)
Theorem C144_budget_partial : forall P k1 k2, let c := pc P in
  fields_enabled c = false -> wf_cfg c k1 k2 -> periodic_fvm c k1 -> velocity_uniform c -> p_space_grid c = "cartesian"%string ->
  forall mu mass k d tau, (1 <= d <= 3)%Z -> dims4 mass 1 (N_species c) 1 1 -> collides c mu mass k d tau ->
  forall m dt s a, holds c (f_of s) (homogeneous_f a) ->
  exists s' F H b, run_steps (solver_stepper P) [(m, dt)] s = Ok (s', None)
  /\ bgk_cell c mu mass k d tau true a = Ok F
  /\ (let mid := fun x sp => a x sp + dt / 2 * ((el F x sp 0 0 - a x sp) / tau) in
      bgk_cell c mu mass k d tau true mid = Ok H
      /\ holds c (f_of s') (homogeneous_f b)
      /\ forall w sp, inb (N_species c) sp ->
         moment_of_cell c w b sp = moment_of_cell c w a sp
           + dt / tau * (moment_of_cell c w (fun x sp => el H x sp 0 0) sp - moment_of_cell c w mid sp)).
Proof. exact budget. Qed.
Print Assumptions C144_budget_partial.

(** On a momentum grid that is symmetric about 0, a homogeneous gas with as many
    particles of momentum -p as of p keeps its momentum, 0, through any sequence of
    steps.  Missing: gases that move; particles and energy. *)
Theorem C144_at_rest_partial : forall P k1 k2, let c := pc P in
  fields_enabled c = false -> wf_cfg c k1 k2 -> periodic_fvm c k1 -> velocity_uniform c -> p_space_grid c = "cartesian"%string ->
  forall mu mass k d tau, (1 <= d <= 3)%Z -> dims4 mass 1 (N_species c) 1 1 -> collides c mu mass k d tau -> symmetric_momenta c ->
  forall h s a, holds c (f_of s) (homogeneous_f a) -> even_in_p c a ->
  exists s' b, run_steps (solver_stepper P) h s = Ok (s', None) /\ holds c (f_of s') (homogeneous_f b)
  /\ forall sp, inb (N_species c) sp ->
     moment_of_cell c (fun v _ _ => v) b sp = 0 /\ moment_of_cell c (fun _ v _ => v) b sp = 0 /\ moment_of_cell c (fun _ _ v => v) b sp = 0.
Proof. exact at_rest. Qed.
Print Assumptions C144_at_rest_partial.

(** The full statement fails: the sum of the Maxwellian over the momentum grid is
    not the density it is made from.  A gas at rest with the velocities -1 and 1 and
    collision time 1 loses its particles, all of them in the end, with every method
    and step size up to the collision time. *)
Theorem C144_refuted : forall m dt, 0 < dt <= 1 ->
  collides (pc two_gas) 0 one_mass 1 1 1
  /\ number_in (pc two_gas) (f_of (gas_state 1)) 0 = 48
  /\ (forall n, exists s', run_steps (solver_stepper two_gas) (repeat (m, dt) n) (gas_state 1) = Ok (s', None)
      /\ 0 <= number_in (pc two_gas) (f_of s') 0 <= 48 * (1 - dt / 2000) ^ n)
  /\ (forall e, 0 < e -> exists n s', run_steps (solver_stepper two_gas) (repeat (m, dt) n) (gas_state 1) = Ok (s', None)
      /\ 0 <= number_in (pc two_gas) (f_of s') 0 < e).
Proof. exact gas_vanishes. Qed.
Print Assumptions C144_refuted.

(** The gas with two velocities meets the hypotheses. *)
Example C144_budget_applies : forall m dt, exists s' F H b, run_steps (solver_stepper two_gas) [(m, dt)] (gas_state 1) = Ok (s', None)
  /\ bgk_cell (pc two_gas) 0 one_mass 1 1 1 true (fun _ _ => 1) = Ok F
  /\ (let mid := fun x sp => 1 + dt / 2 * ((el F x sp 0 0 - 1) / 1) in
      bgk_cell (pc two_gas) 0 one_mass 1 1 1 true mid = Ok H
      /\ holds (pc two_gas) (f_of s') (homogeneous_f b)
      /\ forall w sp, inb (N_species (pc two_gas)) sp ->
         moment_of_cell (pc two_gas) w b sp = moment_of_cell (pc two_gas) w (fun _ _ => 1) sp
           + dt / 1 * (moment_of_cell (pc two_gas) w (fun x sp => el H x sp 0 0) sp - moment_of_cell (pc two_gas) w mid sp)).
Proof.
  intros m dt. assert (DM : dims4 one_mass 1 (N_species (pc two_gas)) 1 1) by (repeat split).
  exact (budget two_gas MC MC eq_refl two_wf two_periodic two_vel eq_refl 0 one_mass 1 1 1 ltac:(lia) DM two_collides m dt (gas_state 1) _ (gas_holds 1)).
Qed.
Example C144_at_rest_applies : forall h, exists s' b, run_steps (solver_stepper two_gas) h (gas_state 1) = Ok (s', None)
  /\ holds (pc two_gas) (f_of s') (homogeneous_f b)
  /\ forall sp, inb (N_species (pc two_gas)) sp -> moment_of_cell (pc two_gas) (fun v _ _ => v) b sp = 0.
Proof.
  intros h. assert (DM : dims4 one_mass 1 (N_species (pc two_gas)) 1 1) by (repeat split).
  assert (E : even_in_p (pc two_gas) (fun _ _ => 1)) by (repeat intro; reflexivity).
  destruct (at_rest two_gas MC MC eq_refl two_wf two_periodic two_vel eq_refl 0 one_mass 1 1 1 ltac:(lia) DM two_collides two_sym h (gas_state 1) _ (gas_holds 1) E)
    as (s'&b&R1&H1&M). exists s', b. split; [exact R1|]. split; [exact H1|]. intros sp Hs. exact (proj1 (M sp Hs)).
Qed.
