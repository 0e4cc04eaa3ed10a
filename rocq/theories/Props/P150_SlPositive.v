(** C150: bounds of semi-Lagrangian runs of free particles. *)
From Coq Require Import ZArith Reals Lra Lia String List Bool.
From Verif Require Import Base.Prelude Base.ZSum Model.Af Model.Petsc Model.Config Model.Em Model.Timestep
  Model.Solver Spec.Domain Spec.Lattice Spec.FvmProblem Spec.FvmRun Spec.Interp Spec.SlAccuracy
  Proofs.InterpLemmas Proofs.SemiLagProps Proofs.SlPositive Props.ExEm Props.ExSolver Props.ExSymmetry Props.ExSemiLag
  Props.P147_SlSym Props.P148_SlAccuracy.
Import ListNotations.
Local Open Scope R_scope.

(** At no time does |f| exceed the root of the initial sum of squares.  Missing: f stays
    non-negative, which is false. *)
Theorem C150_bounded_partial : forall P k1 k2 ap h s u,
  streaming P -> quiet P -> wf_cfg (pc P) k1 k2 -> interpolates catmull_rom ap -> uses (pc P) ap ->
  streams (pc P) -> reach_run (pc P) (time_elapsed s) h -> holds (pc P) (f_of s) u ->
  exists r, run_steps (solver_stepper P) h s = Ok (r, None)
  /\ forall x sp g1 g2, inb (N_p (pc P)) x -> inb (N_species (pc P)) sp -> inb (gN1 (lay (pc P))) g1 -> inb (gN2 (lay (pc P))) g2 ->
     Rabs (gval (lay (pc P)) (f_of r) x sp g1 g2)
     <= sqrt (IZR (gN1 (lay (pc P))) * IZR (gN2 (lay (pc P)))) * rms (pc P) u x sp.
Proof. exact sl_bounded. Qed.
Print Assumptions C150_bounded_partial.

(** Particles in one cell only, velocities (+-1/2, +-1/2): with every step up to one
    cell's length, f is negative in a cell afterwards. *)
Definition blob : gstate := fun _ _ i j => if ((i =? 3) && (j =? 1))%Z%bool then 1 else 0.
Lemma blob_step dt : 0 < dt < 2 -> characteristics (sl_cfg sl_two false) catmull_rom 0 dt blob 3%Z 0%Z 5%Z 2%Z < 0.
Proof.
  intros D.
  assert (M1 : moved1 (sl_cfg sl_two false) 0 dt 3 0 5 2 = dt / 2) by (unfold moved1, velocity_a; cbv -[Rplus Rmult Ropp Rdiv Rinv IZR]; lra).
  assert (M2 : moved2 (sl_cfg sl_two false) 0 dt 3 0 5 2 = dt / 2) by (unfold moved2, velocity_a; cbv -[Rplus Rmult Ropp Rdiv Rinv IZR]; lra).
  unfold characteristics. rewrite M1, M2. unfold interp2.
  destruct (frac_down 5 (dt / 2) ltac:(lra)) as (->&->). destruct (frac_down 2 (dt / 2) ltac:(lra)) as (->&->).
  change (gN1 (lay (sl_cfg sl_two false))) with 8%Z. change (gN2 (lay (sl_cfg sl_two false))) with 4%Z.
  pose proof (cr_signs (1 - dt / 2) ltac:(lra)) as N. set (h := 1 - dt / 2) in *.
  rewrite !zsum4. unfold blob.
  repeat match goal with |- context [andb ?a ?b] => let v := eval vm_compute in (andb a b) in change (andb a b) with v end. cbv iota.
  change (0 - 1)%Z with (-1)%Z. change (1 - 1)%Z with 0%Z. lra.
Qed.
Theorem C150_refuted : forall dt e, 0 < dt < 2 ->
  streaming (sl sl_two false) /\ quiet (sl sl_two false) /\ interpolates catmull_rom spline /\ uses (pc (sl sl_two false)) spline
  /\ (forall x s i j, 0 <= blob x s i j)
  /\ holds (sl_cfg sl_two false) (f_of (sl_at blob e)) blob
  /\ exists r, run_steps (solver_stepper (sl sl_two false)) [(Lie, dt)] (sl_at blob e) = Ok (r, None)
  /\ gval sl_two (f_of r) 3 0 5 2 < 0.
Proof.
  intros dt e D.
  assert (ST : streaming (sl sl_two false)) by apply sl_streaming, sl_periodic_two.
  assert (HB : holds (sl_cfg sl_two false) (f_of (sl_at blob e)) blob) by exact (state_of_holds (sl_cfg sl_two false) blob).
  split; [exact ST|]. split; [apply sl_quiet|]. split; [apply spline_interpolates|]. split; [apply sl_uses|].
  split; [intros; unfold blob; destruct (_ && _)%bool; lra|]. split; [exact HB|].
  destruct (streaming_run (sl sl_two false) PPM PPM catmull_rom spline [(Lie, dt)] (sl_at blob e) blob ST (sl_wf sl_two false)
    spline_interpolates (sl_uses sl_two false) HB) as (r&R&V&_).
  - apply sl_reach_run; auto. repeat constructor; cbn [snd]; apply Rabs_def1; lra.
  - exists r. split; [exact R|]. destruct V as (_&V).
    change (pc (sl sl_two false)) with (sl_cfg sl_two false) in V. change (lay (sl_cfg sl_two false)) with sl_two in V.
    assert (I1 : inb (N_p (sl_cfg sl_two false)) 3) by (split; [intros X; discriminate X|reflexivity]).
    assert (I2 : inb (N_species (sl_cfg sl_two false)) 0) by (split; [intros X; discriminate X|reflexivity]).
    assert (I3 : inb (gN1 sl_two) 5) by (split; [intros X; discriminate X|reflexivity]).
    assert (I4 : inb (gN2 sl_two) 2) by (split; [intros X; discriminate X|reflexivity]).
    rewrite (V 3%Z 0%Z 5%Z 2%Z I1 I2 I3 I4). cbn [transport]. unfold compose. rewrite collide_quiet by apply sl_quiet.
    exact (blob_step dt D).
Qed.
Print Assumptions C150_refuted.

(** Four steps from data that differ in every cell. *)
Example C150_applies : forall e, exists r,
  run_steps (solver_stepper (sl sl_two false)) sl_hist3 (sl_at sl_data e) = Ok (r, None)
  /\ Rabs (gval sl_two (f_of r) 2 0 7 3) <= sqrt (8 * 4) * rms (sl_cfg sl_two false) sl_data 2 0.
Proof.
  intros e. destruct (C150_bounded_partial (sl sl_two false) PPM PPM spline sl_hist3 (sl_at sl_data e) sl_data) as (r&R&B).
  - apply sl_streaming, sl_periodic_two.
  - apply sl_quiet.
  - apply sl_wf.
  - apply spline_interpolates.
  - apply sl_uses.
  - apply sl_streams.
  - apply sl_hist3_reach.
  - exact (state_of_holds (sl_cfg sl_two false) sl_data).
  - exists r. split; [exact R|].
    change (pc (sl sl_two false)) with (sl_cfg sl_two false) in B. change (lay (sl_cfg sl_two false)) with sl_two in B.
    refine (B 2%Z 0%Z 7%Z 3%Z _ _ _ _); (split; [intros X; discriminate X|reflexivity]).
Qed.
