(** The field solver against solutions of Maxwell's equations: C138. *)
From Coq Require Import ZArith Reals Lra Lia String List Bool.
From Verif Require Import Base.Prelude Base.ZSum Model.Af Model.Petsc Model.Config Model.Em
  Spec.Domain Spec.Yee Spec.EmRun Spec.InitFields Spec.Light Spec.MaxwellLimit
  Proofs.EmLemmas Proofs.EmInit Proofs.EmProps Proofs.Light Proofs.MaxwellLimit Props.ExFvm Props.ExEm Props.ExMaxwell.
Import ListNotations.
Local Open Scope R_scope.

(** C138.  For every solution of Maxwell's equations with bounded third derivatives, with
    any currents, and every history of steps and queries on any process grid, the root mean
    square error of the staggered fields is at most that of the start plus a term
    proportional to the time and to (dt^2 + dq1^2 + dq2^2), times a factor that depends
    on the Courant number only. *)
Theorem C138_second_order : forall c dt M H, regular c -> 0 < eps c -> 0 < mu c -> 0 < dt ->
  courant2 (fdq1 c) (fdq2 c) (eps c) (mu c) dt < 1 -> obeys_maxwell (eps c) (mu c) M H -> boxed c H ->
  forall rho hist s0 s' t, hybrid c = false -> fields_solver_init c rho = Ok s0 -> do_events c hist s0 = Ok s' ->
  driven c dt H t hist ->
  rms c (view (flay c) (yee_val s')) (sampled c dt (t + passed hist) H)
  <= sqrt ((1 + courant c dt) / (1 - courant c dt))
     * (rms c (view (flay c) (yee_val s0)) (sampled c dt t H) + passed hist * error_rate c M dt).
Proof. exact converges. Qed.
Print Assumptions C138_second_order.

(** Started from the user's functions, E at 0 and B at dt/2 (without E1 and B2, see C91),
    nothing but the second-order term remains. *)
Theorem C138_second_order_given : forall c dt M H rho hist, regular c -> 0 < eps c -> 0 < mu c -> 0 < dt ->
  courant2 (fdq1 c) (fdq2 c) (eps c) (mu c) dt < 1 -> obeys_maxwell (eps c) (mu c) M H -> boxed c H -> hybrid c = false ->
  (forall x y, he1 H 0 x y = 0) -> (forall x y, hb2 H (dt / 2) x y = 0) ->
  defines_EB c (fun x y => (he1 H 0 x y, he2 H 0 x y, he3 H 0 x y)) (fun x y => (hb1 H (dt / 2) x y, hb2 H (dt / 2) x y, hb3 H (dt / 2) x y)) ->
  driven c dt H 0 hist ->
  exists s0 s', fields_solver_init c rho = Ok s0 /\ do_events c hist s0 = Ok s'
  /\ rms c (view (flay c) (yee_val s')) (sampled c dt (passed hist) H)
     <= sqrt ((1 + courant c dt) / (1 - courant c dt)) * (passed hist * error_rate c M dt).
Proof. exact converges_given. Qed.
Print Assumptions C138_second_order_given.

(** A light wave E2 = cos(k x - w t) with k = pi/2, and a uniform current along q2. *)
Definition om : R := PI / 2 / sqrt 2.
Definition lamp : history :=
  History (fun _ _ _ => 0) (fun t x _ => cos (PI / 2 * x - om * t) - t) (fun _ _ _ => 0)
          (fun _ _ _ => 0) (fun _ _ _ => 0) (fun t x _ => sqrt 2 * cos (PI / 2 * x - om * t))
          (fun _ _ _ => 0) (fun _ _ _ => 2) (fun _ _ _ => 0).

Lemma smooth_const M a : 0 <= M -> smooth1 M (fun _ => a) (fun _ => 0).
Proof.
  intros P. split; [intros; apply derivable_pt_lim_const|]. intros x s. replace (0 + 0 - 2 * 0) with 0 by ring. rewrite Rabs_R0.
  apply Rmult_le_pos; [exact P|apply pow2_ge_0].
Qed.

(** u = a cos(k x + d) + b x *)
Lemma smooth_wave M a k d b : Rabs (a * k ^ 3) <= M ->
  smooth1 M (fun x => a * cos (k * x + d) + b * x) (fun x => - (a * k) * sin (k * x + d) + b).
Proof.
  intros BM. split.
  - intros x.
    assert (L : derivable_pt_lim (fun x => k * x + d) x (k * 1 + 0)).
    { apply (derivable_pt_lim_plus (fun x => k * x) (fun _ => d)); [|apply derivable_pt_lim_const].
      apply (derivable_pt_lim_scal (fun x => x) k x 1). apply derivable_pt_lim_id. }
    replace (- (a * k) * sin (k * x + d) + b) with (a * (- sin (k * x + d) * (k * 1 + 0)) + b * 1) by ring.
    apply (derivable_pt_lim_plus (fun x => a * cos (k * x + d)) (fun x => b * x)).
    + apply (derivable_pt_lim_scal (fun x => cos (k * x + d)) a x). apply (derivable_pt_lim_comp (fun x => k * x + d) cos); [exact L|apply derivable_pt_lim_cos].
    + apply (derivable_pt_lim_scal (fun x => x) b x 1). apply derivable_pt_lim_id.
  - intros x s. replace (k * (x + s) + d) with (k * x + d + k * s) by ring. replace (k * (x - s) + d) with (k * x + d - k * s) by ring.
    rewrite sin_plus, sin_minus. set (y := k * x + d). set (z := k * s).
    replace (- (a * k) * (sin y * cos z + cos y * sin z) + b + (- (a * k) * (sin y * cos z - cos y * sin z) + b) - 2 * (- (a * k) * sin y + b))
      with (a * k * (sin y * (2 - 2 * cos z))) by ring.
    assert (C : 0 <= 2 - 2 * cos z <= z ^ 2).
    { assert (Q := sin2_between (z / 2)). replace z with (2 * (z / 2)) at 1 2 by lra. rewrite cos_2a_sin. split; [assert (Z := pow2_ge_0 (sin (z / 2))); lra|].
      replace (z ^ 2) with (4 * (z / 2) ^ 2) by field. lra. }
    rewrite !Rabs_mult. rewrite (Rabs_right (2 - 2 * cos z)) by lra.
    apply Rle_trans with (Rabs a * Rabs k * (1 * z ^ 2)).
    + apply Rmult_le_compat_l; [apply Rmult_le_pos; apply Rabs_pos|]. apply Rmult_le_compat; [apply Rabs_pos|lra| |lra].
      assert (B := SIN_bound y). apply Rabs_le. lra.
    + unfold z. rewrite <- (pow2_abs (k * s)), Rabs_mult, <- (pow2_abs s).
      replace (Rabs a * Rabs k * (1 * (Rabs k * Rabs s) ^ 2)) with (Rabs a * Rabs k ^ 3 * Rabs s ^ 2) by ring.
      apply Rmult_le_compat_r; [apply pow2_ge_0|]. rewrite RPow_abs, <- Rabs_mult. exact BM.
Qed.

Lemma smooth_ext M u v u' v' : smooth1 M u u' -> (forall x, u x = v x) -> (forall x, u' x = v' x) -> smooth1 M v v'.
Proof.
  intros (D&B) U V. split.
  - intros x. rewrite <- V. intros e E. destruct (D x e E) as (del&X). exists del. intros h H0 H1. rewrite <- !U. apply X; assumption.
  - intros. rewrite <- !V. apply B.
Qed.

(** The bound on the third derivatives: sqrt 2 (pi/2)^3 < 8. *)
Lemma lamp_maxwell : obeys_maxwell 2 1 8 lamp.
Proof.
  set (z3 := fun _ _ _ : R => 0).
  assert (S2 : sqrt 2 * sqrt 2 = 2) by (apply sqrt_sqrt; lra). assert (SP : 0 < sqrt 2) by (apply sqrt_lt_R0; lra).
  assert (SB : 1 <= sqrt 2 <= 3 / 2) by nra.
  assert (PB := PI_4). assert (PP := PI_RGT_0).
  assert (KB : 0 <= PI / 2 <= 7 / 4) by (assert (X := PI_ineq 2); cbn in X; unfold tg_alt, PI_tg in X; cbn in X; lra).
  assert (K3 : 0 <= (PI / 2) ^ 3 <= (7 / 4) ^ 3) by (split; [apply pow_le; lra|apply pow_incr; lra]).
  assert (OK : om * sqrt 2 = PI / 2) by (unfold om; field; lra).
  assert (O1 : 0 <= om <= PI / 2) by nra.
  assert (O3 : 0 <= om ^ 3 <= (7 / 4) ^ 3) by (split; [apply pow_le; lra|apply pow_incr; lra]).
  exists z3, z3, (fun t x _ => om * sin (PI / 2 * x - om * t) - 1), (fun t x _ => - (PI / 2) * sin (PI / 2 * x - om * t)),
    z3, z3, z3, z3, z3, z3, z3, (fun t x _ => sqrt 2 * om * sin (PI / 2 * x - om * t)), (fun t x _ => - (sqrt 2 * (PI / 2)) * sin (PI / 2 * x - om * t)), z3.
  assert (CT : forall u, diff_t 8 (fun _ x y => u x y) z3) by (intros u x y; apply smooth_const; lra).
  assert (CX : forall u, diff_x 8 (fun t _ y => u t y) z3) by (intros u x y; apply smooth_const; lra).
  assert (CY : forall u, diff_y 8 (fun t x _ => u t x) z3) by (intros u x y; apply smooth_const; lra).
  unfold lamp; cbn [he1 he2 he3 hb1 hb2 hb3 hj1 hj2 hj3].
  split; [apply (CT (fun _ _ => 0))|]. split; [apply (CY (fun _ _ => 0))|]. split.
  { intros x y. apply (smooth_ext 8 (fun t => 1 * cos (- om * t + PI / 2 * x) + - 1 * t) _ (fun t => - (1 * - om) * sin (- om * t + PI / 2 * x) + - 1)).
    - apply smooth_wave. replace (1 * (- om) ^ 3) with (- om ^ 3) by ring. rewrite Rabs_Ropp, Rabs_right by lra. lra.
    - intros t. replace (- om * t + PI / 2 * x) with (PI / 2 * x - om * t) by ring. ring.
    - intros t. replace (- om * t + PI / 2 * x) with (PI / 2 * x - om * t) by ring. ring. }
  split.
  { intros t y. apply (smooth_ext 8 (fun x => (1 * cos (PI / 2 * x + - (om * t)) + 0 * x) + - t) _ (fun x => - (1 * (PI / 2)) * sin (PI / 2 * x + - (om * t)) + 0)).
    - assert (W : smooth1 8 (fun x => 1 * cos (PI / 2 * x + - (om * t)) + 0 * x) (fun x => - (1 * (PI / 2)) * sin (PI / 2 * x + - (om * t)) + 0)).
      { apply smooth_wave. rewrite Rmult_1_l, Rabs_right by lra. lra. }
      destruct W as (D&B). split; [|exact B]. intros x.
      rewrite <- (Rplus_0_r (- (1 * (PI / 2)) * sin (PI / 2 * x + - (om * t)) + 0)).
      apply (derivable_pt_lim_plus (fun x => 1 * cos (PI / 2 * x + - (om * t)) + 0 * x) (fun _ => - t)); [apply D|apply derivable_pt_lim_const].
    - intros x. unfold Rminus. ring.
    - intros x. unfold Rminus. ring. }
  split; [apply (CT (fun _ _ => 0))|]. split; [apply (CX (fun _ _ => 0))|]. split; [apply (CY (fun _ _ => 0))|].
  split; [apply (CT (fun _ _ => 0))|]. split; [apply (CY (fun _ _ => 0))|]. split; [apply (CT (fun _ _ => 0))|]. split; [apply (CX (fun _ _ => 0))|].
  split.
  { intros x y. apply (smooth_ext 8 (fun t => sqrt 2 * cos (- om * t + PI / 2 * x) + 0 * t) _ (fun t => - (sqrt 2 * - om) * sin (- om * t + PI / 2 * x) + 0)).
    - apply smooth_wave. replace (sqrt 2 * (- om) ^ 3) with (- (sqrt 2 * om ^ 3)) by ring. rewrite Rabs_Ropp, Rabs_right by nra.
      replace (sqrt 2 * om ^ 3) with ((om * sqrt 2) * om ^ 2) by ring. rewrite OK. nra.
    - intros t. replace (- om * t + PI / 2 * x) with (PI / 2 * x - om * t) by ring. ring.
    - intros t. replace (- om * t + PI / 2 * x) with (PI / 2 * x - om * t) by ring. ring. }
  split.
  { intros t y. apply (smooth_ext 8 (fun x => sqrt 2 * cos (PI / 2 * x + - (om * t)) + 0 * x) _ (fun x => - (sqrt 2 * (PI / 2)) * sin (PI / 2 * x + - (om * t)) + 0)).
    - apply smooth_wave. rewrite Rabs_right by nra. nra.
    - intros x. unfold Rminus. ring.
    - intros x. unfold Rminus. ring. }
  split; [apply (CY (fun t x => sqrt 2 * cos (PI / 2 * x - om * t)))|].
  intros t x y. unfold z3. repeat split; try lra.
  - replace (PI / 2) with (om * sqrt 2) at 2. set (s := sin _).
    replace (- (- (sqrt 2 * (om * sqrt 2)) * s) / (1 * 2)) with (om * (sqrt 2 * sqrt 2) * s / 2) by field. rewrite S2. field.
  - rewrite <- OK. ring.
Qed.

Lemma lamp_boxed E B : boxed (vm_em E B) lamp.
Proof.
  intros t. assert (K : forall a b : R, periodic_potential (vm_em E B) (fun _ _ => a)) by (intros a b x y; auto).
  assert (P : forall x, cos (PI / 2 * (x + 4 * 1) - om * t) = cos (PI / 2 * x - om * t)).
  { intros x. replace (PI / 2 * (x + 4 * 1) - om * t) with (PI / 2 * x - om * t + 2 * PI) by lra. rewrite cos_plus, cos_2PI, sin_2PI. ring. }
  unfold lamp; cbn [he1 he2 he3 hb1 hb2 hb3]. repeat split; cbn; try reflexivity; rewrite P; reflexivity.
Qed.

Definition glow : dist R := fun r1 r2 => Arr 1 1 (n1g ex_lay r1) (n2g ex_lay r2) (fun _ _ _ _ => 2).
Definition glow_hist : list event := [Evolve zeroJ glow zeroJ (1/2); GetFields; Evolve zeroJ glow zeroJ (1/2); CheckDivE].

Example C138_applies : let c := vm_em (fun x y => (he1 lamp 0 x y, he2 lamp 0 x y, he3 lamp 0 x y))
    (fun x y => (hb1 lamp (1 / 2 / 2) x y, hb2 lamp (1 / 2 / 2) x y, hb3 lamp (1 / 2 / 2) x y)) in
  exists s0 s', fields_solver_init c zeroJ = Ok s0 /\ do_events c glow_hist s0 = Ok s'
  /\ rms c (view (flay c) (yee_val s')) (sampled c (1 / 2) 1 lamp)
     <= sqrt ((1 + courant c (1/2)) / (1 - courant c (1/2))) * error_rate c 8 (1/2).
Proof.
  intros c.
  assert (GJ : forall i j, grid_of ex_lay (dmap asum1 glow) i j = 2).
  { intros i j. unfold grid_of, gper, gval, dmap, glow, asum1; cbn [el d1]. rewrite zsum_1. reflexivity. }
  assert (CO : courant2 (fdq1 c) (fdq2 c) (eps c) (mu c) (1/2) < 1) by (unfold courant2, c, vm_em; cbn [fdq1 fdq2 eps mu]; lra).
  assert (D : driven c (1/2) lamp 0 glow_hist).
  { assert (X : forall (t : R) i j, inb (gN1 (flay c)) i -> inb (gN2 (flay c)) j ->
        grid_of (flay c) (dmap asum1 zeroJ) i j = placed c 0 (1/2) (hj1 lamp (t + 1 / 2 / 2)) i j
        /\ grid_of (flay c) (dmap asum1 glow) i j = placed c (1/2) 0 (hj2 lamp (t + 1 / 2 / 2)) i j
        /\ grid_of (flay c) (dmap asum1 zeroJ) i j = placed c (1/2) (1/2) (hj3 lamp (t + 1 / 2 / 2)) i j).
    { intros t i j _ _. change (flay c) with ex_lay. rewrite GJ, (zeroJ_none ex_lay i j). auto. }
    cbn [driven glow_hist]. split; [reflexivity|]. split; [exact (X 0)|]. split; [reflexivity|]. split; [exact (X (0 + 1 / 2))|]. exact I. }
  destruct (C138_second_order_given c (1/2) 8 lamp zeroJ glow_hist (vm_regular _ _) ltac:(cbn; lra) ltac:(cbn; lra) ltac:(lra) CO lamp_maxwell (lamp_boxed _ _)
    eq_refl (fun _ _ => eq_refl) (fun _ _ => eq_refl) (vm_defines _ _) D) as (s0&s'&I0&R&B).
  exists s0, s'. split; [exact I0|]. split; [exact R|].
  replace (passed glow_hist) with 1 in B by (cbn [passed glow_hist]; lra). rewrite Rmult_1_l in B. exact B.
Qed.
