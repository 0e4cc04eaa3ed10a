(** Restarting coupled runs: C121, C122. *)
From Coq Require Import ZArith Reals Lra Lia String List Bool.
From Verif Require Import Base.Prelude Base.ZSum Model.Af Model.Petsc Model.Config Model.Fvm Model.Em Model.FileIO
  Model.Moments Model.Splitting Model.Timestep Model.Solver Spec.Domain Spec.Lattice Spec.FvmProblem Spec.FvmRun
  Spec.Yee Spec.EmRun Spec.MomentSpec Spec.Clock Spec.SolverSpec Spec.VlasovMaxwell Spec.Hybrid Spec.InitFields Spec.Files Spec.Restart
  Proofs.EmLemmas Proofs.EmInit Proofs.EmProps Proofs.InitFields Proofs.FileWitness Proofs.VlasovMaxwell Proofs.VmProps Proofs.HybridRun Proofs.Restart Proofs.RestartWitness
  Props.ExFvm Props.ExEm Props.ExSolver Props.ExMaxwell.
Import ListNotations.
Local Open Scope R_scope.

(** C121.  A run is stopped after [h1] and its two files are loaded into any solver
    [s2] for the same plasma on any process grid, fresh or used; the user sets its
    clock to [t].  The new run is the Vlasov-Maxwell program from the f and the
    staggered fields of the old one, with cell-centred fields their averages. *)
Theorem C121_restarted_run : forall P L' k1 k2, let P' := with_layouts P L' in
  wf_cfg (pc P) k1 k2 -> plasma P -> maxwell P -> periodic_fvm (pc P) k1 -> periodic_fvm (pc P') k1 ->
  same_grid (lay (pc P)) L' ->
  forall h0 h1 h2 s s0 s2 S t, starts P s -> vm_holds P s S ->
  starts P' s0 -> run_steps (solver_stepper P') h0 s0 = Ok (s2, None) ->
  exists m r r', run_steps (solver_stepper P) h1 s = Ok (m, None)
  /\ vm_holds P m (vm_run P k1 k2 (time_elapsed s) h1 S)
  /\ resume P' (dumps P m) t s2 = Ok r
  /\ run_steps (solver_stepper P') h2 r = Ok (r', None)
  /\ vm_holds P' r' (vm_run P k1 k2 t h2 (reloaded (vm_run P k1 k2 (time_elapsed s) h1 S))).
Proof. exact vm_restart. Qed.
Print Assumptions C121_restarted_run.

(** If the fields get_fields hands out when the run stops are the averages of the
    staggered ones, the restarted run and the uninterrupted one are the same.
    Missing from the full statement: this condition, which fails once the electric
    field has changed in a step. *)
Theorem C121_continues_partial : forall P L' k1 k2, let P' := with_layouts P L' in
  wf_cfg (pc P) k1 k2 -> plasma P -> maxwell P -> periodic_fvm (pc P) k1 -> periodic_fvm (pc P') k1 ->
  same_grid (lay (pc P)) L' ->
  forall h1 h2 s s2 S m, starts P s -> vm_holds P s S -> starts P' s2 ->
  run_steps (solver_stepper P) h1 s = Ok (m, None) ->
  same (view (lay (pc P)) (fst (get_fields (pf P) (fields m)))) (centred (view (lay (pc P)) (yee_val (fields m)))) ->
  exists r r' u T, resume P' (dumps P m) (time_elapsed m) s2 = Ok r
  /\ run_steps (solver_stepper P') h2 r = Ok (r', None)
  /\ run_steps (solver_stepper P) h2 m = Ok (u, None)
  /\ vm_holds P u T /\ vm_holds P' r' T.
Proof. exact vm_exact. Qed.
Print Assumptions C121_continues_partial.

(** A uniform plasma with a current: one step, restart, one step is not two steps. *)
Theorem C121_continues_refuted : exists P s s2 m u r r', let d := (Lie, 1/4) in
  wf_cfg (pc P) FirstOrder FirstOrder /\ plasma P /\ maxwell P /\ periodic_fvm (pc P) FirstOrder
  /\ starts P s /\ starts P s2
  /\ run_steps (solver_stepper P) [d] s = Ok (m, None) /\ run_steps (solver_stepper P) [d; d] s = Ok (u, None)
  /\ resume P (dumps P m) (time_elapsed m) s2 = Ok r /\ run_steps (solver_stepper P) [d] r = Ok (r', None)
  /\ gval (lay (pc P)) (f_of r') 0 0 0 0 <> gval (lay (pc P)) (f_of u) 0 0 0 0.
Proof. exact maxwell_restart_differs. Qed.
Print Assumptions C121_continues_refuted.

(** From four ranks to one, with the Lorentz force and a source. *)
Definition rs_steps : list (method * R) := [(Strang, 1/10); (Lie, 1/20)].
Example C121_applies : let P := vm_params true push twist in let P' := with_layouts P ex_serial in
  exists s s2 m r r', starts P s /\ starts P' s2 /\ f_of s = sf (ex_state ex_lay)
  /\ run_steps (solver_stepper P) rs_steps s = Ok (m, None) /\ resume P' (dumps P m) (3/20) s2 = Ok r
  /\ run_steps (solver_stepper P') rs_steps r = Ok (r', None).
Proof.
  intros P P'.
  destruct (vm_initial true push twist (ex_state ex_lay) (ex_shaped "minmod" true)) as (s&ST&F&_).
  assert (RG' : regular (pf P')).
  { unfold regular, periodic_fields, periodic_layout, tiles; cbn. repeat split; try lia; try lra; repeat constructor; try lia. }
  destruct (initial_EB (pf P') zeroJ push twist RG' (vm_defines _ _)) as (e2&I2&_).
  set (s2 := Solver (FState (fun r1 r2 => Arr 4 2 (n1g ex_serial r1) (n2g ex_serial r2) (fun _ _ _ _ => 0)) (fun _ _ _ => 0)) e2 0 0).
  assert (S2 : starts P' s2) by (split; [exists zeroJ; exact I2|intros r1 r2 _; repeat split]).
  pose proof (starts_vm P (vm_maxwell true push twist) s ST) as (H&_).
  destruct (C121_restarted_run P ex_serial MC PPM (vm_wf true) (vm_plasma _ _ _) (vm_maxwell _ _ _) (vm_periodic true)
    (vm_periodic_serial _ _ _) (conj eq_refl eq_refl) [] rs_steps rs_steps s s2 s2 _ (3/20) ST H S2 eq_refl) as (m&r&r'&A&_&B&C&_).
  exists s, s2, m, r, r'. auto 10.
Qed.

(** Stopped before the first step, on any process grid. *)
Lemma rs_serial w : periodic_fvm (with_layout (rs_cfg w) ex_serial) FirstOrder.
Proof. unfold periodic_fvm, periodic_layout, tiles; cbn. repeat split; try lia; repeat constructor; lia. Qed.
Example C121_partial_applies : let P := rs_params false 0 0 in
  exists s r r' u T, starts P s /\ f_of s = sf rs_f /\ resume P (dumps P s) (time_elapsed s) s = Ok r
  /\ run_steps (solver_stepper P) rs_steps r = Ok (r', None) /\ run_steps (solver_stepper P) rs_steps s = Ok (u, None)
  /\ vm_holds P u T /\ vm_holds P r' T.
Proof.
  intros P. destruct (rs_start false 0 0) as (s&ST&F&_&S&HS&FS). fold P in ST, HS.
  destruct (C121_continues_partial P (lay (pc P)) FirstOrder FirstOrder (rs_wf 0) (rs_plasma _ _ _) (rs_maxwell _ _) (rs_periodic 0)
    (rs_periodic 0) (conj eq_refl eq_refl) [] rs_steps s s S s ST HS ST eq_refl) as (r&r'&u&T&A&B&C&D&E).
  - destruct (starts_vm P (rs_maxwell 0 0) s ST) as (_&(_&AL&_)&_).
    rewrite get_fields_aliased by (auto; reflexivity). cbn [fst].
    destruct HS as (_&HY&HC). destruct FS as (_&FY&FC).
    pose proof (same_trans _ _ _ HC FC) as QC. pose proof (centred_same _ _ (same_trans _ _ _ HY FY)) as QY.
    eapply same_trans; [exact QC|]. apply same_sym. eapply same_trans; [exact QY|].
    unfold same, centred, cst; cbn [E1 E2 E3 B1 B2 B3]. repeat split; intros; lra.
  - exists s, r, r', u, T. repeat (split; [assumption|]). assumption.
Qed.

(** C122.  The same for hybrid runs (kinetic ions, fluid electrons). *)
Theorem C122_restarted_hybrid_run : forall P L' k1 k2, let P' := with_layouts P L' in
  wf_cfg (pc P) k1 k2 -> plasma P -> hybrid_fvm P -> periodic_fvm (pc P) k1 -> periodic_fvm (pc P') k1 ->
  (3 <= ng1 L')%Z -> (3 <= ng2 L')%Z -> same_grid (lay (pc P)) L' ->
  forall h0 h1 h2 s s0 s2 S t, starts P s -> vm_holds P s S ->
  starts P' s0 -> run_steps (solver_stepper P') h0 s0 = Ok (s2, None) ->
  exists m r r', run_steps (solver_stepper P) h1 s = Ok (m, None)
  /\ vm_holds P m (hyb_run P k1 k2 (time_elapsed s) h1 S)
  /\ resume P' (dumps P m) t s2 = Ok r
  /\ run_steps (solver_stepper P') h2 r = Ok (r', None)
  /\ vm_holds P' r' (hyb_run P k1 k2 t h2 (reloaded (hyb_run P k1 k2 (time_elapsed s) h1 S))).
Proof. exact hyb_restart. Qed.
Print Assumptions C122_restarted_hybrid_run.

Theorem C122_continues_partial : forall P L' k1 k2, let P' := with_layouts P L' in
  wf_cfg (pc P) k1 k2 -> plasma P -> hybrid_fvm P -> periodic_fvm (pc P) k1 -> periodic_fvm (pc P') k1 ->
  (3 <= ng1 L')%Z -> (3 <= ng2 L')%Z -> same_grid (lay (pc P)) L' ->
  forall h1 h2 s s2 S m, starts P s -> vm_holds P s S -> starts P' s2 ->
  run_steps (solver_stepper P) h1 s = Ok (m, None) ->
  same (view (lay (pc P)) (fst (get_fields (pf P) (fields m)))) (centred (view (lay (pc P)) (yee_val (fields m)))) ->
  exists r r' u T, resume P' (dumps P m) (time_elapsed m) s2 = Ok r
  /\ run_steps (solver_stepper P') h2 r = Ok (r', None)
  /\ run_steps (solver_stepper P) h2 m = Ok (u, None)
  /\ vm_holds P u T /\ vm_holds P' r' T.
Proof. exact hyb_exact. Qed.
Print Assumptions C122_continues_partial.

(** Uniform ions drifting across a magnetic field. *)
Theorem C122_continues_refuted : exists P s s2 m u r r', let d := (Lie, 1/4) in
  wf_cfg (pc P) FirstOrder FirstOrder /\ plasma P /\ hybrid_fvm P /\ periodic_fvm (pc P) FirstOrder
  /\ starts P s /\ starts P s2
  /\ run_steps (solver_stepper P) [d] s = Ok (m, None) /\ run_steps (solver_stepper P) [d; d] s = Ok (u, None)
  /\ resume P (dumps P m) (time_elapsed m) s2 = Ok r /\ run_steps (solver_stepper P) [d] r = Ok (r', None)
  /\ gval (lay (pc P)) (f_of r') 0 0 0 0 <> gval (lay (pc P)) (f_of u) 0 0 0 0.
Proof. exact hybrid_restart_differs. Qed.
Print Assumptions C122_continues_refuted.

Example C122_applies : let P := rs_params true 1 1 in let P' := with_layouts P ex_serial in
  exists s s2 m r r', starts P s /\ starts P' s2 /\ f_of s = sf rs_f
  /\ run_steps (solver_stepper P) rs_steps s = Ok (m, None) /\ resume P' (dumps P m) (3/20) s2 = Ok r
  /\ run_steps (solver_stepper P') rs_steps r = Ok (r', None).
Proof.
  intros P P'. destruct (rs_start true 1 1) as (s&ST&F&_&S&HS&_). fold P in ST, HS.
  assert (RG' : regular (pf P')).
  { unfold regular, periodic_fields, periodic_layout, tiles; cbn. repeat split; try lia; try lra; repeat constructor; try lia. }
  destruct (initial_EB (pf P') zeroJ (fun _ _ => (0, 0, 0)) (fun _ _ => (0, 0, 1)) RG') as (e2&I2&_); [repeat split|].
  set (s2 := Solver (FState (fun r1 r2 => Arr 2 1 (n1g ex_serial r1) (n2g ex_serial r2) (fun _ _ _ _ => 0)) (fun _ _ _ => 0)) e2 0 0).
  assert (S2 : starts P' s2) by (split; [exists zeroJ; exact I2|intros r1 r2 _; repeat split]).
  destruct (C122_restarted_hybrid_run P ex_serial FirstOrder FirstOrder (rs_wf 1) (rs_plasma _ _ _) (rs_hybrid _ _) (rs_periodic 1)
    (rs_serial 1) ltac:(cbn; lia) ltac:(cbn; lia) (conj eq_refl eq_refl) [] rs_steps rs_steps s s2 s2 _ (3/20) ST HS S2 eq_refl) as (m&r&r'&A&_&B&C&_).
  exists s, s2, m, r, r'. auto 10.
Qed.
Example C122_partial_applies : let P := rs_params true 1 1 in
  exists s r r' u T, starts P s /\ f_of s = sf rs_f /\ resume P (dumps P s) (time_elapsed s) s = Ok r
  /\ run_steps (solver_stepper P) rs_steps r = Ok (r', None) /\ run_steps (solver_stepper P) rs_steps s = Ok (u, None)
  /\ vm_holds P u T /\ vm_holds P r' T.
Proof.
  intros P. destruct (rs_start true 1 1) as (s&ST&F&_&S&HS&FS). fold P in ST, HS.
  destruct (C122_continues_partial P (lay (pc P)) FirstOrder FirstOrder (rs_wf 1) (rs_plasma _ _ _) (rs_hybrid _ _) (rs_periodic 1)
    (rs_periodic 1) ltac:(cbn; lia) ltac:(cbn; lia) (conj eq_refl eq_refl) [] rs_steps s s S s ST HS ST eq_refl) as (r&r'&u&T&A&B&C&D&E).
  - destruct (hyb_starts P (rs_hybrid 1 1) s ST) as (_&(_&AL&_)&_).
    rewrite get_fields_aliased by (auto; reflexivity). cbn [fst].
    destruct HS as (_&HY&HC). destruct FS as (_&FY&FC).
    pose proof (same_trans _ _ _ HC FC) as QC. pose proof (centred_same _ _ (same_trans _ _ _ HY FY)) as QY.
    eapply same_trans; [exact QC|]. apply same_sym. eapply same_trans; [exact QY|].
    unfold same, centred, cst; cbn [E1 E2 E3 B1 B2 B3]. repeat split; intros; lra.
  - exists s, r, r', u, T. repeat (split; [assumption|]). assumption.
Qed.
