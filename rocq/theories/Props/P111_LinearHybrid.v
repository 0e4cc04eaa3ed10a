(** C111-C113: the hybrid model (fluid electrons) in the linear solver. *)
From Coq Require Import ZArith Reals Lra Lia String List Bool.
From Verif Require Import Base.Prelude Base.ZSum Base.Cplx Model.Af Model.Config Model.Linear Model.LinearHybrid
  Spec.Dft Spec.Waves Spec.MomentSpec Spec.LinearSpec Spec.LinearHybrid Spec.LinearHybridStage
  Proofs.MomentLemmas Proofs.LinearLemmas Proofs.LinearWitness Proofs.LinearHybrid Proofs.LinearHybridRun Proofs.LinearHybridWitness
  Proofs.LinearHybridStage.
Import ListNotations.
Local Open Scope R_scope.

(** ** C111: Ohm's law *)

(** With cold electrons the electric field of every mode is - u x B, u being the mean
    velocity of the ions.  What is missing: warm electrons, see below. *)
Theorem C111_cold_electrons_partial : forall c fh F k l, hybrid_lin c ->
  d0 fh = N_p (ph c) -> d1 fh = N_species (ph c) -> d2 fh = lN1 c -> d3 fh = lN2 c ->
  d0 F = 6%Z -> d1 F = 1%Z -> d2 F = lN1 c -> d3 F = lN2 c -> mode_in c k l ->
  let '(E1, E2, E3) := ohm_hat c 0 fh F in (el E1 0 0 k l, el E2 0 0 k l, el E3 0 0 k l)%Z = linear_ohm c 0 fh F k l.
Proof.
  intros c fh F k l (OK&NS&_) A B C D A' B' C' D' M. exact (cold_ohm c OK NS fh F k l (conj A (conj B (conj C D))) (conj A' (conj B' (conj C' D'))) M).
Qed.
Print Assumptions C111_cold_electrons_partial.

(** After a step with warm electrons and ions at rest, which have not moved, the
    electric field is not - T_e grad n / (e n0). *)
Theorem C111_refuted : exists c b s s', linear_solver c = Ok (b, s) /\ hybrid_lin c /\ no_B c (fields_hat (fsol s))
  /\ lin_timestep_hybrid RK2_ c 1 b 1 s = Ok s'
  /\ (forall x sp i j, (0 <= x < N_p (ph c))%Z -> sp = 0%Z -> (0 <= i < lN1 c)%Z -> (0 <= j < lN2 c)%Z ->
      el (get_dist_func c (f_hat s')) x sp i j = el (init_f c) x sp i j)
  /\ E_mode (fields_hat (fsol s')) 1 0 <> linear_ohm c 1 (f_hat s') (fields_hat (fsol s')) 1 0.
Proof. exact pressure_wrong. Qed.
Print Assumptions C111_refuted.

(** What the code computes instead is invisible: on grids with odd numbers of points,
    the electric field of any distribution function is the same on the grid for every
    temperature of the electrons. *)
Theorem C111_pressure_invisible : forall c Te f F, hybrid_lin c -> Z.odd (lN1 c) = true -> Z.odd (lN2 c) = true ->
  d0 f = N_p (ph c) -> d1 f = N_species (ph c) -> d2 f = lN1 c -> d3 f = lN2 c ->
  d0 F = 6%Z -> d1 F = 1%Z -> d2 F = lN1 c -> d3 F = lN2 c ->
  let fh := to_hat c (amap RtoC f) in
  forall i j, (0 <= i < lN1 c)%Z -> (0 <= j < lN2 c)%Z ->
  let '(E1, E2, E3) := solver_E c Te fh F in let '(E1', E2', E3') := solver_E c 0 fh F in
  (el E1 0 0 i j = el E1' 0 0 i j /\ el E2 0 0 i j = el E2' 0 0 i j /\ el E3 0 0 i j = el E3' 0 0 i j)%Z.
Proof.
  intros c Te f F (OK&NS&_) O1 O2 A B C D A' B' C' D'.
  exact (pressure_invisible c OK NS Te f F O1 O2 (conj A (conj B (conj C D))) (conj A' (conj B' (conj C' D')))).
Qed.
Print Assumptions C111_pressure_invisible.

(** A plasma of three cells with a wave of B3. *)
Example C111_applies : let c := beam 1 heap wave3 in exists b s, linear_solver c = Ok (b, s)
  /\ hybrid_lin c /\ lin_state_ok c s /\ lin_fields_ok c s /\ mode_in c 1 0
  /\ Z.odd (lN1 c) = true /\ Z.odd (lN2 c) = true /\ re (el (fields_hat (fsol s)) 5 0 1 0)%Z = 1 / 2
  /\ re (number_hat c (f_hat s) 0 1 0) = 2 / 3.
Proof.
  cbv zeta. set (c := beam 1 heap wave3). destruct (beam_start 1 heap wave3) as (s&H&FH&SO&FO&_&B5). fold c in H, FH, SO, FO, B5.
  eexists _, s. split; [exact H|]. split; [apply beam_hyb|]. split; [exact SO|]. split; [exact FO|]. split; [apply in3; lia|].
  split; [reflexivity|]. split; [reflexivity|]. assert (OK : lin_ok c) by apply beam_hyb. split.
  - rewrite B5, to_hat_el by (auto; repeat split). cbn [cscale re fst]. change (lN1 c) with 3%Z. change (lN2 c) with 1%Z. rewrite dft3. cbn [on_cells el RtoC re im fst snd].
    unfold lq1, wave3. cbn [c beam ph w_ph q1_start dq1].
    replace (2 * PI * (0 + (0 + 1 / 2) * 1) / 3) with (PI / 3) by field.
    replace (2 * PI * (0 + (1 + 1 / 2) * 1) / 3) with PI by field.
    replace (2 * PI * (0 + (2 + 1 / 2) * 1) / 3) with (2 * PI - PI / 3) by field.
    rewrite cos_minus, cos_2PI, sin_2PI, cos_PI, cos_PI3. lra.
  - unfold c. rewrite beam_number. fold c. rewrite FH, to_hat_el by (auto; repeat split).
    cbn [cscale re fst]. change (lN1 c) with 3%Z. change (lN2 c) with 1%Z. rewrite dft3. cbn. lra.
Qed.

(** ** C112: the magnetic field *)

(** The divergence of B stays what it is, whatever the sequence of methods and steps. *)
Theorem C112_div_B : forall c Te b steps s s' k l, hybrid_lin c -> hybrid_lin_run c Te b steps s = Ok s' -> mode_in c k l ->
  div_B c (fields_hat (fsol s')) k l = div_B c (fields_hat (fsol s)) k l.
Proof. exact hybrid_run_div_B. Qed.
Print Assumptions C112_div_B.

(** A plasma without magnetic field never gets one: the electrons' pressure makes no
    magnetic field. *)
Theorem C112_unmagnetised : forall c Te b steps s s', hybrid_lin c -> lin_fields_ok c s -> no_B c (fields_hat (fsol s)) ->
  hybrid_lin_run c Te b steps s = Ok s' -> no_B c (fields_hat (fsol s')).
Proof. exact hybrid_run_no_B. Qed.
Print Assumptions C112_unmagnetised.

(** With one species of ions every run completes. *)
Theorem C112_runs : forall c Te b steps s, hybrid_lin c -> exists s', hybrid_lin_run c Te b steps s = Ok s'.
Proof. exact hybrid_run_ok. Qed.
Print Assumptions C112_runs.

(** With several species no step does. *)
Theorem C112_several_species : forall c Te b m dt s, N_species (ph c) <> 1%Z ->
  fields_enabled (ph c) = true -> fields_type c = "electrodynamic"%string ->
  exists e, lin_timestep_hybrid m c Te b dt s = Err e.
Proof. exact hybrid_step_species. Qed.
Print Assumptions C112_several_species.

Example C112_applies : exists c Te b s s', linear_solver c = Ok (b, s) /\ hybrid_lin c /\ lin_fields_ok c s
  /\ no_B c (fields_hat (fsol s)) /\ Te = 1 /\ hybrid_lin_run c Te b [(RK2_, 1); (RK4_, 1 / 2); (RK5_, 1)] s = Ok s'
  /\ mode_in c 1 0.
Proof.
  set (c := beam 1 heap (fun _ => 0)). destruct (beam_start 1 heap (fun _ => 0)) as (s&H&_&_&FO&B34&B5). fold c in H, FO, B34, B5.
  assert (HL : hybrid_lin c) by apply beam_hyb.
  destruct (hybrid_run_ok c 1 (make_background c (beam_f heap)) [(RK2_, 1); (RK4_, 1 / 2); (RK5_, 1)] s HL) as (s'&HR).
  exists c, 1, (make_background c (beam_f heap)), s, s'. split; [exact H|]. split; [exact HL|]. split; [exact FO|]. split.
  - intros i k l Hi (Mk&Ml). change (lN2 c) with 1%Z in Ml. assert (l = 0)%Z by lia. subst l.
    assert (Q : (i = 3 \/ i = 4 \/ i = 5)%Z) by lia. destruct (B34 k) as (B3&B4). destruct Q as [->|[->| ->]]; auto.
    rewrite B5. apply nothing. exact (proj1 HL).
  - split; [reflexivity|]. split; [exact HR|]. apply in3. lia.
Qed.

(** ** C113: the electric field after a step belongs to the state after the step *)

(** It belongs to the middle of the step: with cold electrons and RK2 it is - u x B of
    the ions and the magnetic field half an Euler step after the beginning.  What is
    missing: the end of the step, see below. *)
Theorem C113_half_step_partial : forall c b dt s s' k l, hybrid_lin c -> instantaneous c = false -> lin_state_ok c s -> lin_fields_ok c s ->
  lin_timestep_hybrid RK2_ c 0 b dt s = Ok s' -> mode_in c k l ->
  exists f F, half_way c 0 b dt s f F /\ E_mode (fields_hat (fsol s')) k l = linear_ohm c 0 f F k l.
Proof. exact RK2_cold. Qed.
Print Assumptions C113_half_step_partial.

(** With RK4 and RK5 it belongs to the last intermediate state, an estimate of the end of
    the step.  What is missing: the end of the step itself. *)
Theorem C113_RK4_partial : forall c b dt s s' k l, hybrid_lin c -> instantaneous c = false -> lin_state_ok c s -> lin_fields_ok c s ->
  lin_timestep_hybrid RK4_ c 0 b dt s = Ok s' -> mode_in c k l ->
  exists p1 p2 p3, let p0 := Point (lt s) (fsol s) (f_hat s) (fields_hat (fsol s)) in
    stage c 0 b dt s [(1/2, p0)] (p_f p1) (p_F p1)
    /\ stage c 0 b dt s [(1/2, p1)] (p_f p2) (p_F p2)
    /\ stage c 0 b dt s [(1, p2)] (p_f p3) (p_F p3)
    /\ p_time p1 = lt s + 1/2 * dt /\ p_time p2 = lt s + 1/2 * dt /\ p_time p3 = lt s + 1 * dt
    /\ E_mode (fields_hat (fsol s')) k l = linear_ohm c 0 (p_f p3) (p_F p3) k l.
Proof. exact RK4_cold. Qed.
Print Assumptions C113_RK4_partial.

Theorem C113_RK5_partial : forall c b dt s s' k l, hybrid_lin c -> instantaneous c = false -> lin_state_ok c s -> lin_fields_ok c s ->
  lin_timestep_hybrid RK5_ c 0 b dt s = Ok s' -> mode_in c k l ->
  exists p1 p2 p3 p4 p5, let p0 := Point (lt s) (fsol s) (f_hat s) (fields_hat (fsol s)) in
    stage c 0 b dt s [(1/4, p0)] (p_f p1) (p_F p1)
    /\ stage c 0 b dt s [(1/8, p0); (1/8, p1)] (p_f p2) (p_F p2)
    /\ stage c 0 b dt s [(-1/2, p1); (1, p2)] (p_f p3) (p_F p3)
    /\ stage c 0 b dt s [(3/16, p0); (9/16, p3)] (p_f p4) (p_F p4)
    /\ stage c 0 b dt s [(-3/7, p0); (2/7, p1); (12/7, p2); (-12/7, p3); (8/7, p4)] (p_f p5) (p_F p5)
    /\ p_time p1 = lt s + 1/4 * dt /\ p_time p2 = lt s + 1/4 * dt /\ p_time p3 = lt s + 1/2 * dt /\ p_time p4 = lt s + 3/4 * dt /\ p_time p5 = lt s + 1 * dt
    /\ E_mode (fields_hat (fsol s')) k l = linear_ohm c 0 (p_f p5) (p_F p5) k l.
Proof. exact RK5_cold. Qed.
Print Assumptions C113_RK5_partial.

Theorem C113_refuted : exists c b s s', linear_solver c = Ok (b, s) /\ hybrid_lin c /\ lin_state_ok c s /\ lin_fields_ok c s
  /\ lin_timestep_hybrid RK2_ c 0 b 1 s = Ok s'
  /\ E_mode (fields_hat (fsol s')) 1 0 <> linear_ohm c 0 (f_hat s') (fields_hat (fsol s')) 1 0.
Proof. exact E_late. Qed.
Print Assumptions C113_refuted.

Example C113_applies : let c := beam 1 heap wave3 in exists b s s', linear_solver c = Ok (b, s)
  /\ hybrid_lin c /\ instantaneous c = false /\ lin_state_ok c s /\ lin_fields_ok c s /\ mode_in c 1 0
  /\ lin_timestep_hybrid RK2_ c 0 b 1 s = Ok s'.
Proof.
  cbv zeta. set (c := beam 1 heap wave3). destruct (beam_start 1 heap wave3) as (s&H&FH&SO&FO&_&B5). fold c in H, SO, FO.
  assert (HL : hybrid_lin c) by apply beam_hyb. destruct (hybrid_step_ok RK2_ c 0 (make_background c (beam_f heap)) 1 s HL) as (s'&HS).
  exists (make_background c (beam_f heap)), s, s'. repeat (split; [assumption || reflexivity|]). split; [apply in3; lia|]. exact HS.
Qed.
Example C113_RK4_applies : let c := beam 1 heap wave3 in exists b s s', linear_solver c = Ok (b, s)
  /\ hybrid_lin c /\ instantaneous c = false /\ lin_state_ok c s /\ lin_fields_ok c s /\ mode_in c 1 0
  /\ lin_timestep_hybrid RK4_ c 0 b 1 s = Ok s'.
Proof.
  cbv zeta. set (c := beam 1 heap wave3). destruct (beam_start 1 heap wave3) as (s&H&FH&SO&FO&_&B5). fold c in H, SO, FO.
  assert (HL : hybrid_lin c) by apply beam_hyb. destruct (hybrid_step_ok RK4_ c 0 (make_background c (beam_f heap)) 1 s HL) as (s'&HS).
  exists (make_background c (beam_f heap)), s, s'. repeat (split; [assumption || reflexivity|]). split; [apply in3; lia|]. exact HS.
Qed.
Example C113_RK5_applies : let c := beam 1 heap wave3 in exists b s s', linear_solver c = Ok (b, s)
  /\ hybrid_lin c /\ instantaneous c = false /\ lin_state_ok c s /\ lin_fields_ok c s /\ mode_in c 1 0
  /\ lin_timestep_hybrid RK5_ c 0 b 1 s = Ok s'.
Proof.
  cbv zeta. set (c := beam 1 heap wave3). destruct (beam_start 1 heap wave3) as (s&H&FH&SO&FO&_&B5). fold c in H, SO, FO.
  assert (HL : hybrid_lin c) by apply beam_hyb. destruct (hybrid_step_ok RK5_ c 0 (make_background c (beam_f heap)) 1 s HL) as (s'&HS).
  exists (make_background c (beam_f heap)), s, s'. repeat (split; [assumption || reflexivity|]). split; [apply in3; lia|]. exact HS.
Qed.
