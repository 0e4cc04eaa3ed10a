(** C145: instantaneous collisions leave the gas in equilibrium. *)
From Coq Require Import ZArith Reals Lia Lra String List Bool.
From Verif Require Import Base.Prelude Model.Af Model.Petsc Model.Config Model.Fvm Model.Em Model.Timestep Model.Solver
  Spec.Domain Spec.Lattice Spec.FvmProblem Spec.FvmRun Spec.Clock Spec.Interp Spec.Instant
  Proofs.TimeTerms Proofs.Instant Props.ExSolver Props.ExSemiLag.
Import ListNotations.
Local Open Scope R_scope.

(** Semi-Lagrangian advection in q, no fields: after any history that ends with a Lie
    step the gas is in equilibrium at every cell.  Missing: the other splitting methods
    and finite volumes, for which it fails. *)
Theorem C145_lie_partial (P : params) (h : list (method * R)) (dt : R) (s s' : solver) :
  streaming P -> instantaneous P = true -> settles P ->
  run_steps (solver_stepper P) (h ++ [(Lie, dt)]) s = Ok (s', None) -> relaxed P s'.
Proof. exact (lie_relaxes P h dt s s'). Qed.
Print Assumptions C145_lie_partial.

(** Non-vacuity: an equilibrium that is the mean over the momenta, on 2 x 1 ranks, and
    histories of any length that end with a Lie step. *)
Example C145_applies (h : list (method * R)) (dt : R) (e : em) :
  Forall (fun k => Rabs (snd k) < 4) (h ++ [(Lie, dt)]) ->
  exists s', run_steps (solver_stepper sl_inst) (h ++ [(Lie, dt)]) (sl_start sl_two e) = Ok (s', None)
  /\ relaxed sl_inst s' /\ ~ relaxed sl_inst (sl_start sl_two e).
Proof. exact (sl_inst_lie h dt e). Qed.

(** Finite volumes: runs with the setting on and with any equilibrium are the runs of
    the same parameters with the setting off. *)
Theorem C145_fvm_ignores (P : params) (on : bool) (g : R -> R -> R -> (Z -> Z -> R) -> Z -> Z -> R)
  (h : list (method * R)) (s : solver) :
  solver_method_in_q (pc P) = "FVM"%string -> solver_method_in_p (pc P) = "FVM"%string \/ fields_enabled (pc P) = false ->
  run_steps (solver_stepper (instantly P on g)) h s = run_steps (solver_stepper P) h s.
Proof. exact (ignored P on g h s). Qed.
Print Assumptions C145_fvm_ignores.

(** So after no history of finite-volume steps is this gas in equilibrium. *)
Theorem C145_fvm_refuted : exists P s, instantaneous P = true /\ settles P
  /\ solver_method_in_q (pc P) = "FVM"%string
  /\ forall h, exists s', run_steps (solver_stepper P) h s = Ok (s', None) /\ ~ relaxed P s'.
Proof. exact (ex_intro _ ramp_inst (ex_intro _ (flat_state 0) (conj eq_refl (conj ramp_inst_settles (conj eq_refl ramp_not_relaxed))))). Qed.
Print Assumptions C145_fvm_refuted.

(** A Strang step takes a gas in equilibrium to one that is not. *)
Theorem C145_strang_refuted : exists P s s', instantaneous P = true /\ settles P /\ streaming P /\ relaxed P s
  /\ run_steps (solver_stepper P) [(Strang, 4)] s = Ok (s', None) /\ ~ relaxed P s'.
Proof. exact strang_witness. Qed.
Print Assumptions C145_strang_refuted.
