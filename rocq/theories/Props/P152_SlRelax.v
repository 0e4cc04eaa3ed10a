(** C152: in semi-Lagrangian runs the splitting shows only where advection and collisions
    both act. *)
From Coq Require Import ZArith Reals Lra Lia String List Bool.
From Verif Require Import Base.Prelude Base.ZSum Model.Af Model.Petsc Model.Config Model.Em Model.Timestep
  Model.Solver Spec.Domain Spec.Lattice Spec.FvmProblem Spec.FvmRun Spec.Symmetry Spec.Interp Spec.SlRelax
  Proofs.InterpLemmas Proofs.SemiLagProps Proofs.SlRelax Props.ExEm Props.ExSolver Props.ExSymmetry Props.ExSemiLag
  Props.P147_SlSym.
Import ListNotations.
Local Open Scope R_scope.

(** A gas that is the same everywhere stays so and relaxes as its collisions alone
    prescribe, with every splitting, even if velocities depend on the position. *)
Theorem C152_homogeneous : forall P k1 k2 w ap h s a,
  streaming P -> wf_cfg (pc P) k1 k2 -> interpolates w ap -> normalised w -> uses (pc P) ap -> same_sources P ->
  holds (pc P) (f_of s) (fun x sp _ _ => a x sp) -> reach_run (pc P) (time_elapsed s) h ->
  exists s', run_steps (solver_stepper P) h s = Ok (s', None)
  /\ holds (pc P) (f_of s') (fun x sp _ _ => relax P (time_elapsed s) h a x sp).
Proof. exact sl_homogeneous. Qed.
Print Assumptions C152_homogeneous.

(** Without collisions Lie and Swss steps are the same. *)
Theorem C152_lie_swss : forall P k1 k2 w ap h h' s,
  streaming P -> quiet P -> wf_cfg (pc P) k1 k2 -> interpolates w ap -> uses (pc P) ap ->
  same_sizes h h' -> reach_run (pc P) (time_elapsed s) h ->
  shaped (lay (pc P)) (N_p (pc P)) (N_species (pc P)) (f_of s) ->
  exists r r', run_steps (solver_stepper P) h s = Ok (r, None) /\ run_steps (solver_stepper P) h' s = Ok (r', None)
  /\ forall x sp g1 g2, inb (N_p (pc P)) x -> inb (N_species (pc P)) sp -> inb (gN1 (lay (pc P))) g1 -> inb (gN2 (lay (pc P))) g2 ->
     gval (lay (pc P)) (f_of r) x sp g1 g2 = gval (lay (pc P)) (f_of r') x sp g1 g2.
Proof. exact sl_sizes. Qed.
Print Assumptions C152_lie_swss.

(** Without collisions, in steady velocities, a Strang step is two Lie steps of half the size. *)
Theorem C152_strang_halves : forall P k1 k2 w ap h s,
  streaming P -> quiet P -> steady (pc P) -> wf_cfg (pc P) k1 k2 -> interpolates w ap -> uses (pc P) ap ->
  reach_run (pc P) (time_elapsed s) (all_strang h) ->
  shaped (lay (pc P)) (N_p (pc P)) (N_species (pc P)) (f_of s) ->
  exists r r', run_steps (solver_stepper P) (all_strang h) s = Ok (r, None) /\ run_steps (solver_stepper P) (halved h) s = Ok (r', None)
  /\ forall x sp g1 g2, inb (N_p (pc P)) x -> inb (N_species (pc P)) sp -> inb (gN1 (lay (pc P))) g1 -> inb (gN2 (lay (pc P))) g2 ->
     gval (lay (pc P)) (f_of r) x sp g1 g2 = gval (lay (pc P)) (f_of r') x sp g1 g2.
Proof. exact sl_halved. Qed.
Print Assumptions C152_strang_halves.

(** f = x at momentum x, relaxing towards the mean 3/2: after a step of size 1 half of the
    difference is left, everywhere. *)
Example C152_homogeneous_applies : forall e, exists r,
  run_steps (solver_stepper (sl sl_two true)) [(Strang, 1); (Swss, 1)] (sl_at (fun x _ _ _ => IZR x) e) = Ok (r, None)
  /\ forall x g1 g2, inb 4 x -> inb 8 g1 -> inb 4 g2 -> gval sl_two (f_of r) x 0 g1 g2 = 3/2 + (IZR x - 3/2) / 4.
Proof.
  intros e.
  destruct (C152_homogeneous (sl sl_two true) PPM PPM catmull_rom spline [(Strang, 1); (Swss, 1)]
    (sl_at (fun x _ _ _ => IZR x) e) (fun x _ => IZR x)) as (r&R&(_&V)).
  - apply sl_streaming, sl_periodic_two.
  - apply sl_wf.
  - apply spline_interpolates.
  - apply catmull_rom_normalised.
  - apply sl_uses.
  - split; reflexivity.
  - exact (state_of_holds (sl_cfg sl_two true) (fun x _ _ _ => IZR x)).
  - apply sl_reach_run; auto. repeat constructor; cbn [snd]; apply Rabs_def1; lra.
  - exists r. split; [exact R|]. intros x g1 g2 Hx H1 H2. refine (eq_trans (V x 0%Z g1 g2 Hx _ H1 H2) _).
    + split; [intros X; discriminate X|reflexivity].
    + cbn [relax relax_step]. unfold relaxed. cbn [pc sl sl_cfg source source_enabled instantaneous]. rewrite !zsum4. field.
Qed.

Example C152_lie_swss_applies : forall e, exists r r',
  run_steps (solver_stepper (sl sl_two false)) [(Lie, 1); (Swss, 3/2)] (sl_at sl_data e) = Ok (r, None)
  /\ run_steps (solver_stepper (sl sl_two false)) [(Swss, 1); (Lie, 3/2)] (sl_at sl_data e) = Ok (r', None)
  /\ gval sl_two (f_of r) 1 0 3 2 = gval sl_two (f_of r') 1 0 3 2.
Proof.
  intros e.
  destruct (C152_lie_swss (sl sl_two false) PPM PPM catmull_rom spline [(Lie, 1); (Swss, 3/2)] [(Swss, 1); (Lie, 3/2)]
    (sl_at sl_data e)) as (r&r'&R&R'&E).
  - apply sl_streaming, sl_periodic_two.
  - apply sl_quiet.
  - apply sl_wf.
  - apply spline_interpolates.
  - apply sl_uses.
  - repeat (constructor; auto).
  - apply sl_reach_run; auto. repeat constructor; cbn [snd]; apply Rabs_def1; lra.
  - exact (proj1 (state_of_holds (sl_cfg sl_two true) sl_data)).
  - exists r, r'. split; [exact R|]. split; [exact R'|].
    refine (E 1%Z 0%Z 3%Z 2%Z _ _ _ _); (split; [intros X; discriminate X|reflexivity]).
Qed.

Example C152_strang_applies : forall e, exists r r',
  run_steps (solver_stepper (sl sl_two false)) [(Strang, 1); (Strang, 3)] (sl_at sl_data e) = Ok (r, None)
  /\ run_steps (solver_stepper (sl sl_two false)) (halved [1; 3]) (sl_at sl_data e) = Ok (r', None)
  /\ gval sl_two (f_of r) 1 0 3 2 = gval sl_two (f_of r') 1 0 3 2.
Proof.
  intros e.
  destruct (C152_strang_halves (sl sl_two false) PPM PPM catmull_rom spline [1; 3] (sl_at sl_data e)) as (r&r'&R&R'&E).
  - apply sl_streaming, sl_periodic_two.
  - apply sl_quiet.
  - intros s t t' q1 q2 p1 p2 p3. reflexivity.
  - apply sl_wf.
  - apply spline_interpolates.
  - apply sl_uses.
  - apply sl_reach_run; auto. repeat constructor; cbn [snd]; apply Rabs_def1; lra.
  - exact (proj1 (state_of_holds (sl_cfg sl_two true) sl_data)).
  - exists r, r'. split; [exact R|]. split; [exact R'|].
    refine (E 1%Z 0%Z 3%Z 2%Z _ _ _ _); (split; [intros X; discriminate X|reflexivity]).
Qed.
