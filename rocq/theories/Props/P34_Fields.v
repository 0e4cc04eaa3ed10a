(** The electromagnetic field solver: C34-C39, C62, C63. *)
From Coq Require Import ZArith Reals Lia Lra String List Bool.
From Verif Require Import Base.Prelude Base.ZSum Model.Af Model.Petsc Model.Config Model.Em
  Spec.Domain Spec.Yee Spec.EmRun Proofs.EmVector Proofs.EmProps Proofs.EmWitness Props.ExFvm Props.ExEm.
Import ListNotations.
Local Open Scope R_scope.

(** C34.  From the constructed field solver on, any sequence of Maxwell steps (any
    currents, any dt), field queries and checks leaves what compute_divB reports
    unchanged in every cell. *)
Theorem C34_divB_constant : forall c rho hist s0 s', regular c ->
  fields_solver_init c rho = Ok s0 -> do_events c hist s0 = Ok s' ->
  forall i j, inb (gN1 (flay c)) i -> inb (gN2 (flay c)) j ->
  gval (flay c) (compute_divB c s') 0 0 i j = gval (flay c) (compute_divB c s0) 0 0 i j.
Proof. exact divB_history. Qed.
Print Assumptions C34_divB_constant.

Example C34_run : exists s0 s', regular ex_em /\ fields_solver_init ex_em zeroJ = Ok s0 /\ do_events ex_em ex_hist s0 = Ok s'.
Proof. destruct (ex_em_run ex_hist zeroJ) as (s0&s'&A&B). exists s0, s'. split; [apply ex_em_regular|auto]. Qed.

(** C35.  [rho] is any charge density; [charge_after] moves it by the discrete
    continuity equation with the currents of the history. *)
Theorem C35_gauss_residual_constant : forall c rho_init rho hist s0 s', regular c -> hybrid c = false ->
  fields_solver_init c rho_init = Ok s0 -> do_events c hist s0 = Ok s' ->
  forall i j, inb (gN1 (flay c)) i -> inb (gN2 (flay c)) j ->
  eps c * gval (flay c) (fst (compute_divE c s')) 0 0 i j
    - charge_after (fdq1 c) (fdq2 c) rho (steps_of (flay c) hist) i j
  = eps c * gval (flay c) (fst (compute_divE c s0)) 0 0 i j - rho i j.
Proof. exact gauss_history. Qed.
Print Assumptions C35_gauss_residual_constant.

Example C35_run : exists s0 s', regular ex_em /\ hybrid ex_em = false
  /\ fields_solver_init ex_em (ex_J 3) = Ok s0 /\ do_events ex_em ex_hist s0 = Ok s'.
Proof. destruct (ex_em_run ex_hist (ex_J 3)) as (s0&s'&A&B). exists s0, s'. split; [apply ex_em_regular|auto]. Qed.
Example C35_steps : List.length (steps_of ex_lay ex_hist) = 2%nat.
Proof. reflexivity. Qed.

(** C36.  [energy before after] pairs E of [after] with B of [before] and [after];
    the pair around the first and around any later step have the same energy. *)
Theorem C36_energy_constant : forall c rho hist dt s0 s, regular c -> hybrid c = false ->
  fields_solver_init c rho = Ok s0 ->
  Forall (vacuum_event (flay c) dt) hist -> do_events c hist s0 = Ok s ->
  forall J1 J2 J3, no_current (flay c) J1 -> no_current (flay c) J2 -> no_current (flay c) J3 ->
  exists s1 s1',
    evolve_electrodynamic_fields c J1 J2 J3 dt s0 = Ok s1
    /\ evolve_electrodynamic_fields c J1 J2 J3 dt s = Ok s1'
    /\ energy (gN1 (flay c)) (gN2 (flay c)) (eps c) (mu c) (view (flay c) (yee_val s)) (view (flay c) (yee_val s1'))
       = energy (gN1 (flay c)) (gN2 (flay c)) (eps c) (mu c) (view (flay c) (yee_val s0)) (view (flay c) (yee_val s1)).
Proof. exact energy_history. Qed.
Print Assumptions C36_energy_constant.

Definition vacuum_hist : list event :=
  [GetFields; Evolve zeroJ zeroJ zeroJ (1/10); GetFields; CheckDivE; Evolve zeroJ zeroJ zeroJ (1/10)].
Example C36_run : exists s0 s, regular ex_em /\ hybrid ex_em = false /\ fields_solver_init ex_em zeroJ = Ok s0
  /\ Forall (vacuum_event ex_lay (1/10)) vacuum_hist /\ do_events ex_em vacuum_hist s0 = Ok s
  /\ no_current ex_lay zeroJ.
Proof.
  destruct (ex_em_run vacuum_hist zeroJ) as (s0&s'&A&B). exists s0, s'.
  split; [apply ex_em_regular|]. split; [reflexivity|]. split; [exact A|]. split; [|split; [exact B|apply zeroJ_none]].
  unfold vacuum_hist. repeat constructor; apply zeroJ_none.
Qed.

(** C62.  Below the Courant limit the energy norm stays bounded by the initial
    staggered energy, for any number of steps. *)
Theorem C62_stable_below_courant_limit : forall c rho hist dt s0 s, regular c -> hybrid c = false -> 0 < eps c -> 0 < mu c ->
  courant2 (fdq1 c) (fdq2 c) (eps c) (mu c) dt < 1 ->
  fields_solver_init c rho = Ok s0 ->
  Forall (vacuum_event (flay c) dt) hist -> do_events c hist s0 = Ok s ->
  forall J1 J2 J3, no_current (flay c) J1 -> no_current (flay c) J2 -> no_current (flay c) J3 ->
  exists s1 s1',
    evolve_electrodynamic_fields c J1 J2 J3 dt s0 = Ok s1
    /\ evolve_electrodynamic_fields c J1 J2 J3 dt s = Ok s1'
    /\ field_norm2 (gN1 (flay c)) (gN2 (flay c)) (eps c) (mu c) (view (flay c) (yee_val s1'))
       <= 2 / (1 - courant2 (fdq1 c) (fdq2 c) (eps c) (mu c) dt)
          * energy (gN1 (flay c)) (gN2 (flay c)) (eps c) (mu c) (view (flay c) (yee_val s0)) (view (flay c) (yee_val s1)).
Proof. exact stable_history. Qed.
Print Assumptions C62_stable_below_courant_limit.

Example C62_courant : courant2 (fdq1 ex_em) (fdq2 ex_em) (eps ex_em) (mu ex_em) (1/10) < 1.
Proof. unfold courant2; cbn. lra. Qed.

(** C63.  Over any history the staggered arrays of all ranks together follow the
    textbook Yee scheme on the global periodic lattice. *)
Theorem C63_yee_scheme : forall c rho hist s0 s', regular c -> hybrid c = false ->
  fields_solver_init c rho = Ok s0 -> do_events c hist s0 = Ok s' ->
  same (view (flay c) (yee_val s'))
       (yee_run (fdq1 c) (fdq2 c) (eps c) (mu c) (currents_of (flay c) hist) (view (flay c) (yee_val s0))).
Proof. exact yee_history. Qed.
Print Assumptions C63_yee_scheme.

(** C37.  With initialize_A3_B3 the solver's own check gives exactly zero at the
    start, for every potential; and for a potential that repeats with the box, after
    every history too. *)
Theorem C37_A3_divergence_free : forall c ab rho s, regular c -> from_A3 c ab ->
  (fields_initialize c = "user-defined"%string
   \/ fields_initialize c = "fft + user-defined magnetic fields"%string) ->
  initialize_fields c rho = Ok s ->
  forall i j, inb (gN1 (flay c)) i -> inb (gN2 (flay c)) j ->
  gval (flay c) (compute_divB c s) 0 0 i j = 0.
Proof. exact divB_initial_A3. Qed.
Print Assumptions C37_A3_divergence_free.

Theorem C37_A3_divergence_free_history : forall c ab rho hist s0 s', regular c -> from_A3 c ab ->
  periodic_potential c (fun q1 q2 => fst (ab q1 q2)) ->
  (fields_initialize c = "user-defined"%string
   \/ fields_initialize c = "fft + user-defined magnetic fields"%string) ->
  fields_solver_init c rho = Ok s0 -> do_events c hist s0 = Ok s' ->
  forall i j, inb (gN1 (flay c)) i -> inb (gN2 (flay c)) j ->
  gval (flay c) (compute_divB c s') 0 0 i j = 0.
Proof. exact divB_history_A3. Qed.
Print Assumptions C37_A3_divergence_free_history.

Example C37_A3_case : regular ex_em /\ from_A3 ex_em (fun x y => (wave x y, 1))
  /\ periodic_potential ex_em (fun q1 q2 => fst (wave q1 q2, 1))
  /\ exists s, initialize_fields ex_em (dmap asum1 zeroJ) = Ok s.
Proof.
  split; [apply ex_em_regular|]. split; [apply ex_em_from|]. split; [apply ex_em_periodic|].
  destruct (ex_em_init zeroJ) as (s&_&H&_). eauto.
Qed.

(** With initialize_A the property is false: periodic A3 = sin(2 pi x) sin(2 pi y)
    on a 4 x 4 grid gives divergence 32 in cell (1, 0). *)
Theorem C37_initialize_A_refuted : exists c A rho s, regular c /\ init_B c = None /\ init_A c = Some A
  /\ periodic_potential c (fun q1 q2 => snd (A q1 q2))
  /\ initialize_fields c rho = Ok s
  /\ gval (flay c) (compute_divB c s) 0 0 1 0 = 32.
Proof. exact divB_A_witness. Qed.
Print Assumptions C37_initialize_A_refuted.

(** C38.  The sum of every component over the domain survives both conversions, in
    every reachable state. *)
Theorem C38_averages_to_centres : forall c rho hist s0 s, regular c ->
  fields_solver_init c rho = Ok s0 -> do_events c hist s0 = Ok s ->
  forall k, inb 6 k ->
  gtotal (flay c) (cc_val (yee_grid_to_cell_centered_grid Both s)) k 0 = gtotal (flay c) (yee_val s) k 0.
Proof. exact centre_total_history. Qed.
Print Assumptions C38_averages_to_centres.

(** The other direction is used on cell-centred fields whose ghost zones have been
    communicated. *)
Theorem C38_averages_to_yee : forall c rho hist s0 s, regular c ->
  fields_solver_init c rho = Ok s0 -> do_events c hist s0 = Ok s ->
  let s1 := communicate_fields c false s in
  forall k, inb 6 k ->
  gtotal (flay c) (yee_val (cell_centered_grid_to_yee_grid Both s1)) k 0 = gtotal (flay c) (cc_val s1) k 0.
Proof. exact stagger_total_history. Qed.
Print Assumptions C38_averages_to_yee.

(** Uniform fields survive in every cell, also when only the electric or magnetic
    part is converted. *)
Theorem C38_uniform : forall w y a (u : Z -> R), d1 y = 1%Z ->
  (forall k i j, inb 6 k -> inb (d2 y) i -> inb (d3 y) j -> el y k 0 i j = u k) ->
  (w = Both \/ forall k i j, inb 6 k -> inb (d2 y) i -> inb (d3 y) j -> el a k 0 i j = u k) ->
  forall k i j, inb 6 k -> inb (d2 y) i -> inb (d3 y) j ->
  el (yee_to_cc_rank w y a) k 0 i j = u k /\ el (cc_to_yee_rank w y a) k 0 i j = u k.
Proof. exact uniform_both. Qed.
Print Assumptions C38_uniform.

(** Affine fields sampled at the staggered positions become the affine fields
    sampled at the centres, and back (away from the outermost ghost cells). *)
Theorem C38_affine_to_centres : forall w y a u0 u1 u2, d1 y = 1%Z ->
  (forall k i j, inb 6 k -> inb (d2 y) i -> inb (d3 y) j ->
     el y k 0 i j = affine u0 u1 u2 k (IZR i + fst (yee_position k)) (IZR j + snd (yee_position k))) ->
  (w = Both \/ forall k i j, inb 6 k -> inb (d2 y) i -> inb (d3 y) j ->
     el a k 0 i j = affine u0 u1 u2 k (IZR i + 1/2) (IZR j + 1/2)) ->
  forall k i j, inb 6 k -> inb (d2 y - 1) i -> inb (d3 y - 1) j ->
  el (yee_to_cc_rank w y a) k 0 i j = affine u0 u1 u2 k (IZR i + 1/2) (IZR j + 1/2).
Proof. exact affine_y2c. Qed.
Print Assumptions C38_affine_to_centres.

Theorem C38_affine_to_yee : forall w y a u0 u1 u2, d1 y = 1%Z ->
  (forall k i j, inb 6 k -> inb (d2 y) i -> inb (d3 y) j ->
     el y k 0 i j = affine u0 u1 u2 k (IZR i + 1/2) (IZR j + 1/2)) ->
  (w = Both \/ forall k i j, inb 6 k -> inb (d2 y) i -> inb (d3 y) j ->
     el a k 0 i j = affine u0 u1 u2 k (IZR i + fst (yee_position k)) (IZR j + snd (yee_position k))) ->
  forall k i j, inb 6 k -> (1 <= i < d2 y)%Z -> (1 <= j < d3 y)%Z ->
  el (cc_to_yee_rank w y a) k 0 i j
  = affine u0 u1 u2 k (IZR i + fst (yee_position k)) (IZR j + snd (yee_position k)).
Proof. exact affine_c2y. Qed.
Print Assumptions C38_affine_to_yee.

Example C38_affine_case : exists y, d1 y = 1%Z /\ forall k i j, inb 6 k -> inb (d2 y) i -> inb (d3 y) j ->
  el y k 0 i j = affine (fun k => IZR k) (fun k => 1 - IZR k) (fun _ => 2) k
                   (IZR i + fst (yee_position k)) (IZR j + snd (yee_position k)).
Proof.
  exists (Arr 6 1 5 7 (fun k _ i j => affine (fun k => IZR k) (fun k => 1 - IZR k) (fun _ => 2) k
                   (IZR i + fst (yee_position k)) (IZR j + snd (yee_position k)))). split; reflexivity.
Qed.

(** C39.  What the force is given, whatever the value of the time-level flag: B is
    the newest, E the mean of the newest and of what was given before the Maxwell
    step.  The two time levels are never distinguished, because both attributes refer
    to one array. *)
Theorem C39_fields_given_to_the_force_partial : forall c rho hist s0 s s' J1 J2 J3 dt b b',
  regular c -> fields_solver c = "fdtd"%string ->
  fields_solver_init c rho = Ok s0 -> do_events c hist s0 = Ok s ->
  evolve_electrodynamic_fields c J1 J2 J3 dt s = Ok s' ->
  same (view (flay c) (fst (get_fields c (set_at_n b' s'))))
       (EB (mid (view (flay c) (fst (get_fields c (set_at_n b s)))) (centred (view (flay c) (yee_val s'))))
           (centred (view (flay c) (yee_val s')))).
Proof. exact fields_seen. Qed.
Print Assumptions C39_fields_given_to_the_force_partial.

(** Missing from the property, and false: in the first half of the next step E at
    the new time should be given.  With unit current, eps = dt = 1 and zero initial
    fields it is -1 everywhere, but -1/2 is given. *)
Theorem C39_staggered_fields_refuted : exists c rho J1 J2 J3 dt s0 s,
  regular c /\ fields_solver c = "fdtd"%string /\ hybrid c = false /\ method_in_p c = "FVM"%string
  /\ fields_solver_init c rho = Ok s0 /\ do_events c (fvm_step J1 J2 J3 dt) s0 = Ok s /\ at_n s = true
  /\ forall i j,
     E1 (centred (view (flay c) (yee_val s))) i j = -1
     /\ E1 (view (flay c) (fst (get_fields c s))) i j = -1/2.
Proof. exact staggering_witness. Qed.
Print Assumptions C39_staggered_fields_refuted.
