(** Coupled electrodynamic runs: C87-C91. *)
From Coq Require Import ZArith Reals Lra Lia String List Bool.
From Verif Require Import Base.Prelude Base.ZSum Model.Af Model.Petsc Model.Config Model.Fvm Model.Em
  Model.Moments Model.Splitting Model.Timestep Model.Solver Spec.Domain Spec.Lattice Spec.FvmProblem Spec.FvmRun
  Spec.Yee Spec.EmRun Spec.MomentSpec Spec.Clock Spec.SolverSpec Spec.VlasovMaxwell Spec.InitFields
  Proofs.EmLemmas Proofs.EmInit Proofs.EmProps Proofs.FileWitness Proofs.InitFields Proofs.VmProps Props.ExFvm Props.ExEm Props.ExSolver Props.ExMaxwell.
Import ListNotations.
Local Open Scope R_scope.

(** C87.  From a constructed solver any sequence of time steps succeeds and computes
    the Vlasov-Maxwell program on the global grid (Spec/VlasovMaxwell.v); the clocks
    of f and of the fields advance together. *)
Theorem C87_vlasov_maxwell : forall P k1 k2, wf_cfg (pc P) k1 k2 -> periodic_fvm (pc P) k1 -> plasma P -> maxwell P ->
  forall h s S, starts P s -> vm_holds P s S ->
  exists s', run_steps (solver_stepper P) h s = Ok (s', None)
  /\ vm_holds P s' (vm_run P k1 k2 (time_elapsed s) h S)
  /\ time_elapsed s' = time_elapsed s + elapsed h /\ ftime (fields s') = elapsed h.
Proof. exact vm_refines. Qed.
Print Assumptions C87_vlasov_maxwell.

Definition ex_steps : list (method * R) := [(Strang, 1/10); (Lie, 1/20); (Swss, 1/10)].

Example C87_applies : exists s s' S, let P := vm_params true push twist in
  starts P s /\ f_of s = sf (ex_state ex_lay) /\ vm_holds P s S
  /\ run_steps (solver_stepper P) ex_steps s = Ok (s', None)
  /\ vm_holds P s' (vm_run P MC PPM 0 ex_steps S) /\ ftime (fields s') = 1/4.
Proof.
  destruct (vm_initial true push twist (ex_state ex_lay) (ex_shaped "minmod" true)) as (s&ST&F&T&_).
  set (P := vm_params true push twist) in *.
  pose proof (starts_vm P (vm_maxwell true push twist) s ST) as (H&_).
  destruct (C87_vlasov_maxwell P MC PPM (vm_wf true) (vm_periodic true) (vm_plasma _ _ _) (vm_maxwell _ _ _) ex_steps s _ ST H)
    as (s'&R&H'&_&C).
  rewrite T in H'. exists s, s', (global_of P s). cbv zeta.
  split; [exact ST|]. split; [exact F|]. split; [exact H|]. split; [exact R|]. split; [exact H'|].
  rewrite C. unfold ex_steps, elapsed; cbn. lra.
Qed.

(** C88.  The particles that the advection step carries through the cell faces are
    the current that drives the fields, so the solver's own divergence of E minus
    the charge density of f never changes, in any cell; nor does div B. *)
Theorem C88_gauss_law : forall P k1 k2, wf_cfg (pc P) k1 k2 -> periodic_fvm (pc P) k1 -> plasma P -> maxwell P ->
  forall h s, ballistic P -> source_conserves (pc P) -> starts P s ->
  exists s', run_steps (solver_stepper P) h s = Ok (s', None)
  /\ forall i j, inb (gN1 (lay (pc P))) i -> inb (gN2 (lay (pc P))) j ->
     eps (pf P) * gval (lay (pc P)) (fst (compute_divE (pf P) (fields s'))) 0 0 i j
       - charge_density P (gval (lay (pc P)) (f_of s')) i j
     = eps (pf P) * gval (lay (pc P)) (fst (compute_divE (pf P) (fields s))) 0 0 i j
       - charge_density P (gval (lay (pc P)) (f_of s)) i j.
Proof. exact gauss_solver. Qed.
Print Assumptions C88_gauss_law.

Theorem C88_no_monopoles : forall P k1 k2, wf_cfg (pc P) k1 k2 -> periodic_fvm (pc P) k1 -> plasma P -> maxwell P ->
  forall h s, starts P s ->
  exists s', run_steps (solver_stepper P) h s = Ok (s', None)
  /\ forall i j, inb (gN1 (lay (pc P))) i -> inb (gN2 (lay (pc P))) j ->
     gval (lay (pc P)) (compute_divB (pf P) (fields s')) 0 0 i j = gval (lay (pc P)) (compute_divB (pf P) (fields s)) 0 0 i j.
Proof. exact divB_solver. Qed.
Print Assumptions C88_no_monopoles.

(** The Lorentz force and the source are switched on. *)
Example C88_applies : forall h, exists s s', let P := vm_params true push twist in
  starts P s /\ f_of s = sf (ex_state ex_lay) /\ run_steps (solver_stepper P) h s = Ok (s', None)
  /\ forall i j, inb 4 i -> inb 3 j ->
     2 * gval ex_lay (fst (compute_divE (pf P) (fields s'))) 0 0 i j - charge_density P (gval ex_lay (f_of s')) i j
     = 2 * gval ex_lay (fst (compute_divE (pf P) (fields s))) 0 0 i j - charge_density P (gval ex_lay (f_of s)) i j.
Proof.
  intros h. destruct (vm_initial true push twist (ex_state ex_lay) (ex_shaped "minmod" true)) as (s&ST&F&T&_).
  set (P := vm_params true push twist) in *.
  destruct (C88_gauss_law P MC PPM (vm_wf true) (vm_periodic true) (vm_plasma _ _ _) (vm_maxwell _ _ _) h s
     (vm_ballistic _ _ _) (vm_source _) ST) as (s'&R&G).
  exists s, s'. cbv zeta. split; [exact ST|]. split; [exact F|]. split; [exact R|]. exact G.
Qed.

(** C89.  The same user-defined fields and the same f on another process grid give
    the same f and the same fields after any sequence of steps. *)
Theorem C89_any_process_grid : forall P L' k1 k2 h s s2 u, let P' := with_layouts P L' in
  wf_cfg (pc P) k1 k2 -> plasma P -> maxwell P -> user_defined (pf P) -> periodic_fvm (pc P) k1 ->
  periodic_fvm (pc P') k1 -> gN1 L' = gN1 (lay (pc P)) -> gN2 L' = gN2 (lay (pc P)) ->
  starts P s -> holds (pc P) (f_of s) u -> starts P' s2 -> holds (pc P') (f_of s2) u -> time_elapsed s2 = time_elapsed s ->
  exists r r2 T, run_steps (solver_stepper P) h s = Ok (r, None) /\ run_steps (solver_stepper P') h s2 = Ok (r2, None)
  /\ vm_holds P r T /\ vm_holds P' r2 T.
Proof. exact vm_any_ranks. Qed.
Print Assumptions C89_any_process_grid.

(** Four ranks and one. *)
Example C89_applies : forall h, let P := vm_params true push twist in let P' := with_layouts P ex_serial in
  exists s s2 r r2 T, f_of s = sf even_state /\ run_steps (solver_stepper P) h s = Ok (r, None)
  /\ run_steps (solver_stepper P') h s2 = Ok (r2, None) /\ vm_holds P r T /\ vm_holds P' r2 T.
Proof.
  intros h P P'. destruct (vm_initial true push twist even_state even_shaped) as (s&ST&F&T&_).
  assert (UD : user_defined (pf P)) by (left; exists push, twist; apply vm_defines).
  assert (RG' : regular (pf P')).
  { unfold regular, periodic_fields, periodic_layout, tiles; cbn. repeat split; try lia; try lra; repeat constructor; try lia. }
  destruct (initial_EB (pf P') zeroJ push twist RG' (vm_defines push twist)) as (e2&I2&_).
  set (f2 := FState (fun r1 r2 => Arr 4 2 (n1g ex_serial r1) (n2g ex_serial r2) (fun x s _ _ => even x s)) (fun _ _ _ => 0)).
  set (s2 := Solver f2 e2 0 0).
  assert (S2 : starts P' s2) by (split; [exists zeroJ; exact I2|intros r1 r2 _; repeat split]).
  destruct (C89_any_process_grid P ex_serial MC PPM h s s2 (fun x s _ _ => even x s) (vm_wf true) (vm_plasma _ _ _)
    (vm_maxwell _ _ _) UD (vm_periodic true) (vm_periodic_serial _ _ _) eq_refl eq_refl ST) as (r&r2&U&A&B&C&D).
  - rewrite F. apply even_holds.
  - exact S2.
  - split; [intros r1 r2 _; repeat split|]. intros; reflexivity.
  - rewrite T. reflexivity.
  - exists s, s2, r, r2, U. auto.
Qed.

(** C90.  A uniform plasma that carries no current, without fields, stays that way:
    rounding aside, noise does not come from the scheme. *)
Theorem C90_rest_state : forall P k1 k2, wf_cfg (pc P) k1 k2 -> periodic_fvm (pc P) k1 -> plasma P -> maxwell P ->
  velocity_uniform (pc P) -> source_enabled (pc P) = false -> field_driven (pc P) ->
  forall a, current_free P a -> forall h s, starts P s -> holds (pc P) (f_of s) (fun x sp _ _ => a x sp) ->
  no_fields (view (lay (pc P)) (yee_val (fields s))) -> no_fields (view (lay (pc P)) (cc_val (fields s))) ->
  exists s', run_steps (solver_stepper P) h s = Ok (s', None)
  /\ holds (pc P) (f_of s') (fun x sp _ _ => a x sp)
  /\ no_fields (view (lay (pc P)) (yee_val (fields s'))) /\ no_fields (view (lay (pc P)) (cc_val (fields s'))).
Proof. exact rest_solver. Qed.
Print Assumptions C90_rest_state.

(** f varies over momenta and species. *)
Example C90_applies : forall h, exists s s', let P := vm_params false none none in
  starts P s /\ f_of s = sf even_state /\ run_steps (solver_stepper P) h s = Ok (s', None)
  /\ holds (pc P) (f_of s') (fun x sp _ _ => even x sp).
Proof.
  intros h. destruct (vm_initial false none none even_state even_shaped) as (s&ST&F&T&HY&HC).
  set (P := vm_params false none none) in *.
  destruct (C90_rest_state P MC PPM (vm_wf false) (vm_periodic false) (vm_plasma _ _ _) (vm_maxwell _ _ _)
    (vm_uniform _) eq_refl (vm_field_driven _) even (even_current _ _ _) h s ST) as (s'&R&H&_).
  - rewrite F. apply even_holds.
  - apply (none_fields ex_lay _ (vm_em none none) eq_refl eq_refl). left. exact HY.
  - apply (none_fields ex_lay _ (vm_em none none) eq_refl eq_refl). right. exact HC.
  - exists s, s'. auto.
Qed.

(** C91.  Initial fields are the user's functions, whatever the process grid, and the
    cell-centred fields are their averages.  Missing from the full statement: E1 and
    B2 are read half a cell below their place on the Yee grid. *)
Theorem C91_initial_fields_partial : forall c rho E B, regular c -> defines_EB c E B ->
  exists s, fields_solver_init c rho = Ok s
  /\ same_on (gN1 (flay c)) (gN2 (flay c)) (view (flay c) (yee_val s)) (on_shifted_grid c E B)
  /\ same_on (gN1 (flay c)) (gN2 (flay c)) (view (flay c) (cc_val s)) (centred (on_shifted_grid c E B)).
Proof. exact initial_EB. Qed.
Print Assumptions C91_initial_fields_partial.

(** With B from A3 the in-plane field is its discrete curl, B3 is the user's. *)
Theorem C91_initial_potential_partial : forall c rho E ab, regular c -> defines_EA c E ab ->
  let Y := with_curl c ab (on_shifted_grid c E E) in
  exists s, fields_solver_init c rho = Ok s
  /\ same_on (gN1 (flay c)) (gN2 (flay c)) (view (flay c) (yee_val s)) Y
  /\ same_on (gN1 (flay c)) (gN2 (flay c)) (view (flay c) (cc_val s)) (centred Y).
Proof. exact initial_EA. Qed.
Print Assumptions C91_initial_potential_partial.

(** E1 = q2, B2 = q2: the solver holds 0 in the first cell, its place has q2 = 1/2. *)
Theorem C91_staggered_positions_refuted : exists c E B rho s, regular c /\ defines_EB c E B
  /\ fields_solver_init c rho = Ok s
  /\ E1 (view (flay c) (yee_val s)) 0%Z 0%Z <> E1 (on_yee_grid c E B) 0%Z 0%Z
  /\ B2 (view (flay c) (yee_val s)) 0%Z 0%Z <> B2 (on_yee_grid c E B) 0%Z 0%Z.
Proof.
  set (G := fun _ y : R => (y, y, 0)). set (c := vm_em G G).
  destruct (C91_initial_fields_partial c zeroJ G G (vm_regular G G) (vm_defines G G)) as (s&I&H&_).
  exists c, G, G, zeroJ, s. split; [apply vm_regular|]. split; [apply vm_defines|]. split; [exact I|].
  destruct (H 0%Z 0%Z) as (H1&_&_&_&H5&_); [unfold inb; cbn; lia|unfold inb; cbn; lia|].
  rewrite H1, H5. cbn [on_shifted_grid on_yee_grid E1 B2]. unfold placed, G, c, vm_em; cbn [fst snd fq2_start fdq2]. lra.
Qed.
Print Assumptions C91_staggered_positions_refuted.

Example C91_applies : exists s, fields_solver_init ex_em zeroJ = Ok s
  /\ gval ex_lay (yee_val s) 2 0 3 2 = 5/4 /\ gval ex_lay (cc_val s) 0 0 3 2 = 7/2.
Proof.
  destruct (C91_initial_potential_partial ex_em zeroJ (fun x y => (x, x * y, y)) (fun x y => (wave x y, 1)) ex_em_regular)
    as (s&I&HY&HC); [repeat split|].
  exists s. split; [exact I|].
  destruct (HY 3%Z 2%Z) as (_&_&H&_); [unfold inb; cbn; lia|unfold inb; cbn; lia|].
  destruct (HC 3%Z 2%Z) as (H'&_); [unfold inb; cbn; lia|unfold inb; cbn; lia|].
  change (gval ex_lay (yee_val s) 2 0 3 2) with (E3 (view (flay ex_em) (yee_val s)) 3%Z 2%Z).
  change (gval ex_lay (cc_val s) 0 0 3 2) with (E1 (view (flay ex_em) (cc_val s)) 3%Z 2%Z).
  rewrite H, H'. cbn [with_curl on_shifted_grid on_yee_grid centred E1 E3]. unfold placed, ex_em; cbn [fst snd fq1_start fq2_start fdq1 fdq2].
  change (3 + 1)%Z with 4%Z. split; lra.
Qed.
