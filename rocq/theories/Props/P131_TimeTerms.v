(** Terms of the equation that depend on time: C131. *)
From Coq Require Import ZArith Reals Lra Lia String List Bool.
From Verif Require Import Base.Prelude Base.ZSum Model.Af Model.Petsc Model.Config Model.Fvm Model.Em Model.Splitting
  Model.Timestep Model.Solver Spec.Domain Spec.Lattice Spec.FvmProblem Spec.FvmRun Spec.Clock Spec.Interp Spec.TimeTerms
  Proofs.InterpLemmas Proofs.TimeTerms Proofs.TimeTermsAsl Props.ExFvm Props.ExSolver Props.ExSemiLag.
Import ListNotations.
Local Open Scope R_scope.

(** C131.  Finite volumes without fields: both evaluations of every step use the
    velocities and the source at the time the step starts at. *)
Theorem C131_frozen : forall P k1 k2, let c := pc P in
  fields_enabled c = false -> wf_cfg c k1 k2 -> periodic_fvm c k1 ->
  forall h s u, holds c (f_of s) u ->
  exists s', run_steps (solver_stepper P) h s = Ok (s', None) /\ time_elapsed s' = time_elapsed s + elapsed h
  /\ holds c (f_of s') (frozen_run c k1 k2 (time_elapsed s) h u).
Proof. exact frozen. Qed.
Print Assumptions C131_frozen.

(** A uniform gas with a source that depends on time: f is the left sum of the
    source, with any method and any reconstruction. *)
Theorem C131_left_sums : forall P k1 k2, let c := pc P in
  fields_enabled c = false -> wf_cfg c k1 k2 -> periodic_fvm c k1 ->
  forall g, driven c g -> velocity_uniform c ->
  forall h s a, holds c (f_of s) (everywhere a) ->
  exists s', run_steps (solver_stepper P) h s = Ok (s', None) /\ time_elapsed s' = time_elapsed s + elapsed h
  /\ holds c (f_of s') (everywhere (fun x sp => a x sp + left_sum (fun t => g t x sp) (time_elapsed s) h)).
Proof. exact left_sums. Qed.
Print Assumptions C131_left_sums.

(** The same with semi-Lagrangian advection and the source by operator splitting. *)
Theorem C131_split_left_sums : forall P k1 k2 w ap g h s a,
  streaming P -> instantaneous P = false -> wf_cfg (pc P) k1 k2 -> interpolates w ap -> normalised w -> uses (pc P) ap ->
  driven (pc P) g -> holds (pc P) (f_of s) (everywhere a) -> reach_run (pc P) (time_elapsed s) h ->
  exists s', run_steps (solver_stepper P) h s = Ok (s', None) /\ time_elapsed s' = time_elapsed s + elapsed h
  /\ holds (pc P) (f_of s') (everywhere (fun x sp => a x sp + left_sum (fun t => g t x sp) (time_elapsed s) h)).
Proof. exact asl_left_sums. Qed.
Print Assumptions C131_split_left_sums.

(** Steps of at most b: the error at time t is at most K/2 * b * (t - t0), K a bound
    on the rate of change of the source.  Missing: an error of the order b^2. *)
Theorem C131_first_order_partial : forall P k1 k2 g K G b h s a, let c := pc P in
  fields_enabled c = false -> wf_cfg c k1 k2 -> periodic_fvm c k1 -> driven c g -> velocity_uniform c ->
  0 <= K -> (forall x sp, integral_of K (fun t => g t x sp) (fun t => G t x sp)) -> steps_within b h ->
  holds c (f_of s) (everywhere a) ->
  exists s', run_steps (solver_stepper P) h s = Ok (s', None)
  /\ forall x sp g1 g2, inb (N_p c) x -> inb (N_species c) sp -> inb (gN1 (lay c)) g1 -> inb (gN2 (lay c)) g2 ->
     Rabs (gval (lay c) (f_of s') x sp g1 g2 - (a x sp + (G (time_elapsed s') x sp - G (time_elapsed s) x sp)))
     <= K / 2 * b * elapsed h.
Proof. exact first_order. Qed.
Print Assumptions C131_first_order_partial.

(** The full statement fails.  df/dt = t from f = 0 at t = 0, so f = 1/2 at t = 1:
    with n steps the error is 1/(2n), whichever method is used. *)
Theorem C131_second_order_refuted : forall m,
  (forall t q1 q2 w x s, source (pc ramp) t q1 q2 w x s = t)
  /\ gval ex_lay (f_of (flat_state 0)) 0 0 0 0 = 0
  /\ (forall n T, (0 < n)%nat -> exists s',
       run_steps (solver_stepper ramp) (repeat (m, T / INR n) n) (flat_state 0) = Ok (s', None)
       /\ time_elapsed s' = T
       /\ gval ex_lay (f_of s') 0 0 0 0 = T ^ 2 / 2 - T ^ 2 / (2 * INR n))
  /\ ~ exists K, forall n s', (0 < n)%nat ->
       run_steps (solver_stepper ramp) (repeat (m, 1 / INR n) n) (flat_state 0) = Ok (s', None) ->
       Rabs (gval ex_lay (f_of s') 0 0 0 0 - 1 / 2) <= K / INR n ^ 2.
Proof.
  exact (fun m => conj (fun _ _ _ _ _ _ => eq_refl) (conj eq_refl (conj (fun n T => ramp_run m n T) (not_second_order m)))).
Qed.
Print Assumptions C131_second_order_refuted.

(** Nor with semi-Lagrangian advection and any splitting method. *)
Theorem C131_splitting_refuted : forall m e,
  (forall t q1 q2 w x s, source (pc sramp) t q1 q2 w x s = t)
  /\ gval sl_two (f_of (sflat e)) 0 0 0 0 = 0
  /\ ~ exists K, forall n s', (0 < n)%nat ->
       run_steps (solver_stepper sramp) (repeat (m, 1 / INR n) n) (sflat e) = Ok (s', None) ->
       Rabs (gval sl_two (f_of s') 0 0 0 0 - 1 / 2) <= K / INR n ^ 2.
Proof.
  exact (fun m e => conj (fun _ _ _ _ _ _ => eq_refl) (conj eq_refl (asl_not_second_order m e))).
Qed.
Print Assumptions C131_splitting_refuted.

(** The ramp on 2 x 2 ranks, steps of different sizes and methods: 0.1 from 0, then
    0.2 from 0.1; the integral of t up to 0.3 is 0.045. *)
Example C131_applies : exists s',
  run_steps (solver_stepper ramp) [(Strang, 1/10); (Jia, 1/5)] (flat_state 0) = Ok (s', None)
  /\ gval ex_lay (f_of s') 3 1 2 1 = 4 + 1/50
  /\ Rabs (gval ex_lay (f_of s') 3 1 2 1 - (4 + 45/1000)) <= 1/2 * (1/5) * (3/10).
Proof.
  destruct (C131_left_sums ramp MC MC eq_refl ramp_wf ramp_periodic _ ramp_driven ramp_vel
              [(Strang, 1/10); (Jia, 1/5)] (flat_state 0) _ (ramp_holds 0)) as (s'&R1&_&H).
  exists s'. split; [exact R1|].
  assert (V : gval ex_lay (f_of s') 3 1 2 1 = 4 + 1/50).
  { change ex_lay with (lay (pc ramp)). rewrite (proj2 H) by (split; [discriminate|reflexivity]).
    unfold everywhere. cbn [left_sum]. change (time_elapsed (flat_state 0)) with 0. cbn [Z.add Pos.add Pos.succ]. lra. }
  split; [exact V|]. rewrite V. unfold Rabs. destruct (Rcase_abs _); lra.
Qed.
Example C131_bound_applies : exists s',
  run_steps (solver_stepper ramp) [(Strang, 1/10); (Jia, 1/5)] (flat_state 0) = Ok (s', None)
  /\ Rabs (gval ex_lay (f_of s') 3 1 2 1 - (4 + (time_elapsed s' ^ 2 / 2 - 0 ^ 2 / 2))) <= 1/2 * (1/5) * (1/10 + (1/5 + 0)).
Proof.
  destruct (C131_first_order_partial ramp MC MC _ 1 (fun t _ _ => t ^ 2 / 2) (1/5) [(Strang, 1/10); (Jia, 1/5)] (flat_state 0)
              (fun x s => IZR (x + s)) eq_refl ramp_wf ramp_periodic ramp_driven ramp_vel) as (s'&R1&H).
  - lra.
  - apply ramp_integral.
  - repeat constructor; cbn [snd]; lra.
  - apply ramp_holds.
  - exists s'. split; [exact R1|]. specialize (H 3 1 2 1)%Z.
    assert (B := H ltac:(split; [discriminate|reflexivity]) ltac:(split; [discriminate|reflexivity])
                   ltac:(split; [discriminate|reflexivity]) ltac:(split; [discriminate|reflexivity])). clear H.
    change (lay (pc ramp)) with ex_lay in B. change (3 + 1)%Z with 4%Z in B. change (time_elapsed (flat_state 0)) with 0 in B.
    cbn [elapsed fold_right snd] in B. exact B.
Qed.
Example C131_split_applies : forall e, exists s',
  run_steps (solver_stepper sramp) [(Strang, 1); (Jia, 1/2)] (sflat e) = Ok (s', None)
  /\ gval sl_two (f_of s') 3 0 7 1 = 3 + 1/2.
Proof.
  intros e.
  destruct (C131_split_left_sums sramp PPM PPM catmull_rom spline (fun t _ _ => t) [(Strang, 1); (Jia, 1/2)] (sflat e) (fun x _ => IZR x))
    as (s'&R1&_&H).
  - apply sramp_streaming.
  - reflexivity.
  - apply sramp_wf.
  - apply spline_interpolates.
  - apply catmull_rom_normalised.
  - apply (sl_uses sl_two true).
  - apply sramp_driven.
  - apply sramp_holds.
  - apply sramp_reach. repeat constructor; cbn [snd]; apply Rabs_def1; lra.
  - exists s'. split; [exact R1|]. change sl_two with (lay (pc sramp)). rewrite (proj2 H) by (split; [discriminate|reflexivity]).
    unfold everywhere. cbn [left_sum]. change (time_elapsed (sflat e)) with 0. lra.
Qed.
