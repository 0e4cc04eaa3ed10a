(** C135: which choices of methods can be advanced in time. *)
From Coq Require Import ZArith Reals Lra Lia String List Bool.
From Verif Require Import Base.Prelude Base.ZSum Model.Af Model.Petsc Model.Config Model.Fvm Model.Em
  Model.Moments Model.Splitting Model.Timestep Model.Solver Spec.Domain Spec.Lattice Spec.FvmProblem
  Spec.Yee Spec.EmRun Spec.SolverSpec Spec.Inputs Spec.Combos
  Proofs.EmLemmas Proofs.EmStep Proofs.EmInit Proofs.EmVector Proofs.EmProps Proofs.Combos Props.ExFvm Props.ExEm Props.ExSolver.
Import ListNotations.
Local Open Scope R_scope.

(** Every documented combination can be advanced by every step method.  What
    holds: a sequence of steps completes, from any state, exactly when each of
    them is of an available kind; the others raise an exception.  Missing: the
    kinds that are not [available] (refuted below). *)
Theorem C135_combinations_partial : forall P, documented P -> forall h s, wf_em (pf P) (fields s) ->
  (Forall (fun x => available P (fst x)) h <-> exists s', run_steps (solver_stepper P) h s = Ok (s', None)).
Proof. exact available_run. Qed.
Print Assumptions C135_combinations_partial.

(** Semi-Lagrangian in q, finite volumes in p, electrodynamic fields: no state
    can be advanced by any method. *)
Theorem C135_asl_q_refuted : forall P m dt s,
  solver_method_in_q (pc P) = "ASL"%string -> solver_method_in_p (pc P) = "FVM"%string ->
  method_in_p (pf P) = "FVM"%string ->
  fields_enabled (pc P) = true -> fields_type P = "electrodynamic"%string ->
  exists x, step_of (solver_stepper P) m dt s = Err x.
Proof. exact stuck_fvm. Qed.
Print Assumptions C135_asl_q_refuted.

(** Semi-Lagrangian in p with Maxwell's equations: likewise. *)
Theorem C135_asl_p_refuted : forall P m dt s,
  solver_method_in_q (pc P) = "FVM"%string \/ solver_method_in_q (pc P) = "ASL"%string ->
  solver_method_in_p (pc P) = "ASL"%string -> fields_enabled (pc P) = true ->
  fields_solver (pf P) = "fdtd"%string -> hybrid (pf P) = false ->
  exists x, step_of (solver_stepper P) m dt s = Err x.
Proof. exact stuck_fields. Qed.
Print Assumptions C135_asl_p_refuted.

(** All choices on 4 x 4 cells, one process, one species. *)
Definition combo_cfg (q p : string) (on : bool) : cfg :=
  Cfg lay43 3 2 2 1 1 0 1 0 1 (1/4) (1/4) [-1] [-1] [-1] [1] [1] [2]
    q p "ppm" "minmod" "cartesian" on true
    (fun _ _ _ _ p1 p2 _ => (p1, p2)) (fun _ _ _ _ p1 p2 _ => (p1, p2))
    (fun _ _ _ _ _ _ _ E1 E2 E3 _ _ _ => (E1, E2, E3)) (fun _ _ _ _ _ _ _ E1 E2 E3 _ _ _ => (E1, E2, E3))
    (fun _ _ _ w x s => zsum 4 (fun y => w y s) / 4 - w x s)
    (fun _ => "periodic"%string) (fun _ _ _ _ f => f) 0 0
    (fun v _ _ _ _ => v) 0.
Definition combo_em (fs p : string) (hyb : bool) : fcfg :=
  FCfg lay43 3 0 0 (1/4) (1/4) 1 1 (fun _ => "periodic"%string) (fun _ _ _ _ _ a => a)
    fs "user-defined" p hyb (Some (fun _ _ => (1, 0, 0))) None None None (Some (fun _ _ => (0, 0))).
Definition combo (q p ft fs : string) (hyb on : bool) : params :=
  Params (combo_cfg q p on) (combo_em fs p hyb) ft [1] nonrel_moments 0 1 false mean_inst (fun a _ _ => a).

Lemma combo_regular fs p hyb : regular (combo_em fs p hyb).
Proof.
  unfold regular, periodic_fields, periodic_layout, tiles; cbn.
  repeat split; try lia; try lra; repeat constructor; try lia.
Qed.
Lemma combo_ok q p ft fs hyb on : (q = "FVM" \/ q = "ASL")%string -> (p = "FVM" \/ p = "ASL")%string ->
  (ft = "electrodynamic" \/ ft = "electrostatic")%string -> solver_known ft fs ->
  documented (combo q p ft fs hyb on).
Proof.
  intros Q PP FT FS. constructor; auto; try reflexivity; try (eexists; reflexivity).
  - apply combo_regular.
  - exists PPM, MC. split; reflexivity.
Qed.
Lemma combo_start fs p hyb : exists e, fields_solver_init (combo_em fs p hyb) zeroJ = Ok e /\ wf_em (combo_em fs p hyb) e.
Proof.
  destruct (init_total (combo_em fs p hyb) zeroJ) as (_&e&_&H);
    [reflexivity|left; discriminate|right; split; [reflexivity|right; discriminate]|].
  exists e. split; [exact H|]. exact (proj1 (init_good _ _ _ (combo_regular fs p hyb) H)).
Qed.

(** Electrostatic fields with semi-Lagrangian advection in q: lie, strang and
    swss steps complete, a history with a jia step does not. *)
Example C135_applies :
  let P := combo "ASL" "FVM" "electrostatic" "fft" false true in
  exists e, fields_solver_init (pf P) zeroJ = Ok e /\ let s := Solver (one_species lay43) e 0 0 in
  (exists s', run_steps (solver_stepper P) [(Lie, 1/10); (Swss, 1/10); (Strang, 1/5)] s = Ok (s', None))
  /\ ~ (exists s', run_steps (solver_stepper P) [(Lie, 1/10); (Jia, 1/10)] s = Ok (s', None)).
Proof.
  cbv zeta. destruct (combo_start "fft" "FVM" false) as (e&I&W).
  assert (D : documented (combo "ASL" "FVM" "electrostatic" "fft" false true)).
  { apply combo_ok; auto. split; [discriminate|]. right. reflexivity. }
  exists e. split; [exact I|]. split.
  - apply (C135_combinations_partial _ D _ (Solver (one_species lay43) e 0 0) W).
    assert (A : forall m, m <> Jia -> available (combo "ASL" "FVM" "electrostatic" "fft" false true) m).
    { intros m NJ _. right. left. repeat split. exact NJ. }
    constructor; [apply A; discriminate|]. constructor; [apply A; discriminate|].
    constructor; [apply A; discriminate|constructor].
  - intros X. apply (C135_combinations_partial _ D _ (Solver (one_species lay43) e 0 0) W) in X.
    inversion X as [|a l _ Y]; subst. inversion Y as [|a l A _]; subst. cbn [fst] in A.
    destruct (A eq_refl) as [(B&_)|[(_&_&_&B)|(B&_)]]; try discriminate. apply B. reflexivity.
Qed.

(** The same problem with electrodynamic fields is documented and its field
    solver is set up, but it cannot be advanced; nor can the other one. *)
Example C135_refuted_applies :
  let P := combo "ASL" "FVM" "electrodynamic" "fdtd" false true in
  let P' := combo "ASL" "ASL" "electrodynamic" "fdtd" false true in
  documented P /\ documented P'
  /\ (exists e, fields_solver_init (pf P) zeroJ = Ok e) /\ (exists e, fields_solver_init (pf P') zeroJ = Ok e)
  /\ (forall m dt s, exists x, step_of (solver_stepper P) m dt s = Err x)
  /\ (forall m dt s, exists x, step_of (solver_stepper P') m dt s = Err x).
Proof.
  cbv zeta. split; [apply combo_ok; auto; split; [reflexivity|discriminate]|].
  split; [apply combo_ok; auto; split; [reflexivity|discriminate]|].
  split; [destruct (combo_start "fdtd" "FVM" false) as (e&I&_); exists e; exact I|].
  split; [destruct (combo_start "fdtd" "ASL" false) as (e&I&_); exists e; exact I|].
  split; intros m dt s; [apply C135_asl_q_refuted|apply C135_asl_p_refuted]; auto.
Qed.
