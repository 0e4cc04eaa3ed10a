(** Light in vacuum: C136, C137. *)
From Coq Require Import ZArith Reals Lra Lia String List Bool.
From Verif Require Import Base.Prelude Base.ZSum Model.Af Model.Petsc Model.Config Model.Em
  Spec.Domain Spec.Yee Spec.EmRun Spec.InitFields Spec.Light
  Proofs.EmLemmas Proofs.EmInit Proofs.EmProps Proofs.Light Props.ExFvm Props.ExEm Props.ExMaxwell.
Import ListNotations.
Local Open Scope R_scope.

(** C136.  A plane wave of any direction and polarisation that obeys the lattice's
    relation between frequency and wave number travels unchanged through any history
    without currents, on any process grid: E is the wave at the time reached and B
    the wave half a step later. *)
Theorem C136_light_wave : forall c dt v rho hist s0 s' t, regular c -> hybrid c = false -> dt <> 0 ->
  light c dt v -> fits c v ->
  fields_solver_init c rho = Ok s0 -> do_events c hist s0 = Ok s' -> Forall (vacuum_event (flay c) dt) hist ->
  same_on (gN1 (flay c)) (gN2 (flay c)) (view (flay c) (yee_val s0)) (leapfrog c dt t (plane_E v) (plane_B c dt v)) ->
  same_on (gN1 (flay c)) (gN2 (flay c)) (view (flay c) (yee_val s'))
    (leapfrog c dt (t + passed hist) (plane_E v) (plane_B c dt v)).
Proof. exact plane_history. Qed.
Print Assumptions C136_light_wave.

(** A user who gives E at time 0 and B at time dt/2 gets the wave, when neither E1
    nor B2 is part of it (those two are read half a cell off, C91). *)
Theorem C136_light_wave_given : forall c dt v rho hist, regular c -> hybrid c = false -> dt <> 0 -> light c dt v -> fits c v ->
  a1 v = 0 -> K1 c v * a3 v = 0 -> defines_EB c (plane_E v 0) (plane_B c dt v (dt / 2)) ->
  Forall (vacuum_event (flay c) dt) hist ->
  exists s0 s', fields_solver_init c rho = Ok s0 /\ do_events c hist s0 = Ok s'
  /\ same_on (gN1 (flay c)) (gN2 (flay c)) (view (flay c) (yee_val s')) (leapfrog c dt (passed hist) (plane_E v) (plane_B c dt v)).
Proof. exact plane_user. Qed.
Print Assumptions C136_light_wave_given.

(** Below the Courant limit such a wave exists for every wave vector, without growth
    or damping. *)
Theorem C136_every_direction : forall c dt kx ky d e1 e2 e3, regular c -> 0 < mu c * eps c -> 0 < dt ->
  courant2 (fdq1 c) (fdq2 c) (eps c) (mu c) dt <= 1 ->
  seen (fdq1 c) kx * e1 + seen (fdq2 c) ky * e2 = 0 ->
  exists om, 0 <= om * dt <= PI /\ light c dt (LWave kx ky om d e1 e2 e3).
Proof. exact every. Qed.
Print Assumptions C136_every_direction.

(** Its frequency is that of light, w^2 = k^2 / (mu eps), to second order in the time
    step and in the cell sizes. *)
Theorem C136_speed_of_light : forall c dt v, regular c -> 0 < mu c * eps c -> dt <> 0 -> light c dt v ->
  Rabs (w v ^ 2 - (k1 v ^ 2 + k2 v ^ 2) / (mu c * eps c))
  <= (w v ^ 4 * dt ^ 2 + (k1 v ^ 4 * fdq1 c ^ 2 + k2 v ^ 4 * fdq2 c ^ 2) / (mu c * eps c)) / 12.
Proof. exact speed. Qed.
Print Assumptions C136_speed_of_light.

(** A wave along q1, polarised along q2, on the 4 x 3 grid with 1/(mu eps) = 1/2. *)
Definition ray (om : R) : lwave := LWave (PI / 2) 0 om (- (PI / 4)) 0 1 0.

Lemma seen_quarter : seen 1 (PI / 2) = sqrt 2 /\ seen 1 0 = 0.
Proof.
  unfold seen. replace (PI / 2 * 1 / 2) with (PI / 4) by lra. replace (0 * 1 / 2) with 0 by lra.
  rewrite sin_0, sin_PI4. split; [|lra].
  assert (S : sqrt 2 * sqrt 2 = 2) by (apply sqrt_sqrt; lra). assert (0 < sqrt 2) by (apply sqrt_lt_R0; lra).
  apply (Rmult_eq_reg_r (sqrt 2)); [|lra]. rewrite S. field. lra.
Qed.

Lemma ray_light E B dt om : (seen dt om) ^ 2 = 1 -> light (vm_em E B) dt (ray om).
Proof.
  intros H. destruct seen_quarter as (A&Z). unfold light, W, K1, K2, ray, vm_em; cbn [fdq1 fdq2 mu eps w k1 k2 a1 a2].
  rewrite A, Z, H. assert (S : sqrt 2 * sqrt 2 = 2) by (apply sqrt_sqrt; lra). split; [|lra].
  replace (sqrt 2 ^ 2) with (sqrt 2 * sqrt 2) by ring. rewrite S. field.
Qed.

Lemma ray_fits E B om : fits (vm_em E B) (ray om).
Proof. exists 1%Z, 0%Z. unfold ray, vm_em; cbn. split; lra. Qed.

Definition dark_step (dt : R) : event := Evolve zeroJ zeroJ zeroJ dt.
Lemma dark L dt : vacuum_event L dt (dark_step dt).
Proof. repeat split; apply zeroJ_none. Qed.

Lemma passed_repeat h n : passed (repeat (dark_step h) n) = INR n * h.
Proof. induction n as [|m IH]; [cbn; ring|]. rewrite S_INR. cbn [repeat passed]. unfold dark_step at 1. rewrite IH. ring. Qed.

(** w = pi/3, three steps dt = 1: half a period, with queries in between. *)
Example C136_applies : let om := 2 * (PI / 6) in
  let c := vm_em (plane_E (ray om) 0) (plane_B (vm_em nothing nothing) 1 (ray om) (1 / 2)) in
  exists s0 s', fields_solver_init c zeroJ = Ok s0
  /\ do_events c [dark_step 1; GetFields; dark_step 1; CheckDivE; dark_step 1] s0 = Ok s'
  /\ E2 (view ex_lay (yee_val s0)) 0%Z 0%Z = 1 /\ E2 (view ex_lay (yee_val s')) 0%Z 0%Z = -1.
Proof.
  intros om c.
  assert (SN : seen 1 om ^ 2 = 1).
  { unfold seen, om. replace (2 * (PI / 6) * 1 / 2) with (PI / 6) by lra. rewrite sin_PI6. field. }
  assert (RG : regular c) by apply vm_regular.
  assert (D : defines_EB c (plane_E (ray om) 0) (plane_B c 1 (ray om) (1 / 2))) by apply vm_defines.
  assert (V : Forall (vacuum_event (flay c) 1) [dark_step 1; GetFields; dark_step 1; CheckDivE; dark_step 1]).
  { constructor; [apply dark|]. constructor; [exact I|]. constructor; [apply dark|]. constructor; [exact I|].
    constructor; [apply dark|constructor]. }
  assert (Z : K1 c (ray om) * a3 (ray om) = 0) by (unfold ray; cbn [a3]; ring).
  destruct (C136_light_wave_given c 1 (ray om) zeroJ _ RG eq_refl R1_neq_R0 (ray_light _ _ _ _ SN) (ray_fits _ _ _) eq_refl Z D V)
    as (s0&s'&I0&R&S).
  destruct (C136_light_wave_given c 1 (ray om) zeroJ [] RG eq_refl R1_neq_R0 (ray_light _ _ _ _ SN) (ray_fits _ _ _) eq_refl Z D
    (Forall_nil _)) as (s0'&s1&I1&R1&S1).
  exists s0, s'. split; [exact I0|]. split; [exact R|].
  assert (X : s1 = s0).
  { cbn [do_events] in R1. apply Ok_inj in R1. rewrite <- R1. rewrite I0 in I1. apply Ok_inj in I1. congruence. }
  rewrite X in S1.
  assert (IN : inb (gN1 (flay c)) 0 /\ inb (gN2 (flay c)) 0) by (split; split; [discriminate|reflexivity|discriminate|reflexivity]).
  destruct (S _ _ (proj1 IN) (proj2 IN)) as (_&A&_). destruct (S1 _ _ (proj1 IN) (proj2 IN)) as (_&B&_).
  change (flay c) with ex_lay in A, B. rewrite A, B.
  unfold leapfrog, on_yee_grid, plane_E, placed, angle, ray, c, vm_em; cbn [E2 fst snd passed dark_step fq1_start fq2_start fdq1 fdq2 k1 k2 w phase0 a2].
  unfold om. split.
  - replace (PI / 2 * (0 + (0 + 1 / 2) * 1) + 0 * (0 + (0 + 0) * 1) + - (PI / 4) - 2 * (PI / 6) * 0) with 0 by lra. rewrite cos_0. ring.
  - replace (PI / 2 * (0 + (0 + 1 / 2) * 1) + 0 * (0 + (0 + 0) * 1) + - (PI / 4) - 2 * (PI / 6) * (1 + (1 + (1 + 0)))) with (- PI) by lra.
    rewrite cos_neg, cos_PI. ring.
Qed.
Example C136_below_courant : courant2 1 1 2 1 1 <= 1. Proof. unfold courant2. lra. Qed.

(** C137.  Full statement: the fields a user gives for the start of the run, E and B at
    one time, are the start of the run, so that it follows them to second order in dt.
    Proved: the run follows them half a step late (and 1 / cos(w dt/2) too large):
    the B that is given counts as B at +dt/2.  For a standing wave with B = 0 at the
    start. *)
Theorem C137_half_step_late_partial : forall c dt v rho hist, regular c -> hybrid c = false -> dt <> 0 -> light c dt v -> fits c v ->
  a1 v = 0 -> cos (w v * dt / 2) <> 0 -> defines_EB c (standing_E v 0 0) nothing ->
  Forall (vacuum_event (flay c) dt) hist ->
  let v' := louder (/ cos (w v * dt / 2)) v in
  exists s0 s', fields_solver_init c rho = Ok s0 /\ do_events c hist s0 = Ok s'
  /\ same_on (gN1 (flay c)) (gN2 (flay c)) (view (flay c) (yee_val s'))
       (leapfrog c dt (passed hist) (standing_E v' (dt / 2)) (standing_B c dt v' (dt / 2))).
Proof. exact late_user. Qed.
Print Assumptions C137_half_step_late_partial.

(** There is a wave, with B = 0 at the start, that no run follows to second order. *)
Theorem C137_initial_time_refuted : exists c E, regular c /\ hybrid c = false /\ defines_EB c E nothing /\
  ~ exists C, forall dt v hist s0 s', 0 < dt -> 0 <= w v * dt <= PI -> light c dt v -> fits c v ->
    standing_E v 0 0 = E -> Forall (vacuum_event (flay c) dt) hist -> passed hist <= 2 ->
    fields_solver_init c zeroJ = Ok s0 -> do_events c hist s0 = Ok s' ->
    within (gN1 (flay c)) (gN2 (flay c)) (C * dt ^ 2) (view (flay c) (yee_val s'))
      (leapfrog c dt (passed hist) (standing_E v 0) (standing_B c dt v 0)).
Proof.
  set (E := fun x y => let u := cos (angle (ray 0) x y) * cos 0 in (0 * u, 1 * u, 0 * u)).
  set (c := vm_em E nothing). exists c, E.
  assert (RG : regular c) by apply vm_regular. assert (DF : defines_EB c E nothing) by apply vm_defines.
  split; [exact RG|]. split; [reflexivity|]. split; [exact DF|]. intros (C&H).
  set (C' := Rmax C 1). assert (C1 : 1 <= C') by apply Rmax_r. assert (CC : C <= C') by apply Rmax_l.
  (* n steps to a quarter of a period *)
  destruct (archimed (2 * PI * C')) as (AR&_). set (n := Z.to_nat (up (2 * PI * C'))).
  assert (PP := PI_RGT_0). assert (P4 := PI_4).
  assert (NB : 2 * PI * C' < INR n).
  { unfold n. rewrite INR_IZR_INZ, Z2Nat.id; [exact AR|]. apply le_IZR. nra. }
  assert (N1 : 2 < INR n) by (assert (T := PI2_3_2); nra).
  set (x := PI / (4 * INR n)). assert (X : x * INR n = PI / 4) by (unfold x; field; lra).
  assert (X0 : 0 < x) by (unfold x; apply Rdiv_lt_0_compat; lra).
  assert (X1 : x < PI / 4) by nra.
  set (dt := 2 * sin x). assert (SX : sin x < x) by (apply sin_lt_x, X0). assert (S0 : 0 < sin x) by (apply sin_gt_0; lra).
  assert (CX : 0 < cos x) by (apply cos_gt_0; lra).
  assert (D0 : 0 < dt) by (unfold dt; lra).
  set (om := 2 * x / dt). assert (OD : om * dt = 2 * x) by (unfold om; field; lra).
  set (v := ray om).
  assert (SN : seen dt om ^ 2 = 1).
  { unfold seen. rewrite OD. replace (2 * x / 2) with x by lra. unfold dt. field. lra. }
  assert (EV : standing_E v 0 0 = E).
  { unfold standing_E, E, v, ray. cbn [w a1 a2 a3]. replace (om * (0 - 0)) with 0 by ring. reflexivity. }
  set (hist := repeat (dark_step dt) n).
  assert (V : Forall (vacuum_event (flay c) dt) hist).
  { apply Forall_forall. intros e IN. apply repeat_spec in IN. rewrite IN. apply dark. }
  assert (PS : passed hist = INR n * dt).
  { apply passed_repeat. }
  assert (CW : w v * dt / 2 = x) by (unfold v, ray; cbn [w]; lra).
  assert (DF' : defines_EB c (standing_E v 0 0) nothing) by (rewrite EV; exact DF).
  assert (NC : cos (w v * dt / 2) <> 0) by (rewrite CW; lra).
  destruct (C137_half_step_late_partial c dt v zeroJ hist RG eq_refl (Rgt_not_eq _ _ D0) (ray_light _ _ _ _ SN) (ray_fits _ _ _) eq_refl NC DF' V)
    as (s0&s'&I0&R&S).
  assert (IN : inb (gN1 (flay c)) 0 /\ inb (gN2 (flay c)) 0) by (split; split; [discriminate|reflexivity|discriminate|reflexivity]).
  assert (OB : 0 <= w v * dt <= PI) by (unfold v, ray; cbn [w]; lra).
  assert (T2 : passed hist <= 2) by (rewrite PS; unfold dt; nra).
  destruct (H dt v hist s0 s' D0 OB (ray_light _ _ _ _ SN) (ray_fits _ _ _) EV V T2 I0 R _ _ (proj1 IN) (proj2 IN)) as (_&G&_).
  destruct (S _ _ (proj1 IN) (proj2 IN)) as (_&A&_). rewrite A in G. clear - G X X0 X1 SX S0 CX D0 OD CW PS NB N1 CC C1 PP P4.
  revert G. rewrite PS, CW.
  unfold leapfrog, on_yee_grid, standing_E, placed, angle, louder, v, ray, c, vm_em; cbn [E2 fst snd fq1_start fq2_start fdq1 fdq2 k1 k2 w phase0 a2].
  replace (PI / 2 * (0 + (0 + 1 / 2) * 1) + 0 * (0 + (0 + 0) * 1) + - (PI / 4)) with 0 by lra. rewrite cos_0.
  replace (om * (INR n * dt - dt / 2)) with (PI / 2 - x) by (transitivity (INR n * (om * dt) - (om * dt) / 2); [rewrite OD; lra|lra]).
  replace (om * (INR n * dt - 0)) with (PI / 2) by (transitivity (INR n * (om * dt)); [rewrite OD; lra|lra]).
  rewrite cos_PI2, cos_shift.
  replace (/ cos x * 1 * (1 * sin x) - 1 * (1 * 0)) with (sin x / cos x) by (field; lra).
  assert (Q : sin x <= sin x / cos x).
  { apply (Rmult_le_reg_r (cos x)); [exact CX|]. replace (sin x / cos x * cos x) with (sin x) by (field; lra).
    assert (Z := COS_bound x). nra. }
  rewrite Rabs_right by lra. intros G.
  assert (G' : sin x <= C' * (2 * sin x) ^ 2) by (assert (C * dt ^ 2 <= C' * dt ^ 2) by (apply Rmult_le_compat_r; [apply pow2_ge_0|exact CC]); unfold dt in *; lra).
  assert (F : 1 <= 4 * C' * sin x) by (apply (Rmult_le_reg_r (sin x)); [exact S0|]; nra).
  assert (K : 4 * C' * x < 1 / 2).
  { apply (Rmult_lt_reg_r (INR n)); [lra|]. replace (4 * C' * x * INR n) with (4 * C' * (x * INR n)) by ring. rewrite X. nra. }
  nra.
Qed.
Print Assumptions C137_initial_time_refuted.
