(** Runs without fields, with terms that depend on time. *)
From Coq Require Import ZArith Reals Lia Lra String List Bool.
From Verif Require Import Base.Prelude Base.ZSum Model.Af Model.Petsc Model.Config Model.Boundaries
  Model.Fvm Model.Em Model.Moments Model.Integrators Model.Splitting Model.SemiLag Model.Timestep
  Model.Solver Spec.Domain Spec.Lattice Spec.FvmProblem Spec.FvmRun Spec.Clock Spec.TimeTerms
  Proofs.FvmLemmas Proofs.FvmLemmas2 Proofs.FvmConserve Proofs.EmInit Proofs.TimestepLemmas Proofs.SolverLemmas Proofs.CoupledLemmas Props.ExFvm Props.ExEm Props.ExSolver.
Import ListNotations.
Local Open Scope R_scope.

Section Run.
  Context (P : params) (k1 k2 : scheme).
  Let c := pc P.
  Let M := solver_stepper P.
  Context (Off : fields_enabled c = false) (W : wf_cfg c k1 k2) (PF : periodic_fvm c k1).

  Lemma off_fvm : p_is_fvm c = false.
  Proof using Off. unfold p_is_fvm. rewrite Off. apply andb_false_r. Qed.

  Lemma prob_fields t E E' : prob c k1 k2 t E = prob c k1 k2 t E'.
  Proof using Off. unfold prob, problem_of, problem_at. rewrite off_fvm. reflexivity. Qed.

  Lemma frozen_step m dt s u : holds c (f_of s) u ->
    exists s', step_of M m dt s = Ok (s', None) /\ time_elapsed s' = time_elapsed s + dt
    /\ holds c (f_of s') (let p := prob c k1 k2 (time_elapsed s) no_fields in midpoint p p dt u).
  Proof using Off W PF.
    intros Hu. rewrite (fvm_step_eq M m dt s (proj1 PF) (or_intror Off)). change (Timestep.op_fvm M) with (op_fvm P).
    rewrite op_fvm_off by auto.
    pose (D := fun (_ _ : nat) => (dummy, dummy, dummy)).
    assert (T1 : Forall (fun b => (0 < b)%Z) (blk1 (lay c))) by apply PF.
    assert (T2 : Forall (fun b => (0 < b)%Z) (blk2 (lay c))) by apply PF.
    pose proof (shows3_of (lay c) D T1 T2) as SE. set (E := gfields_of (lay c) D) in *.
    destruct (refinement c k1 k2 (time_elapsed s) dt D D E E (fpart s) u W PF SE SE Hu) as (x&R1&H1).
    change (time_elapsed (set_dt M dt s)) with (time_elapsed s). change (fpart (set_dt M dt s)) with (fpart s).
    fold c. fold D. rewrite R1. cbn [rbind].
    match goal with |- context [diverged M ?y] => assert (DV : diverged M y = false) by (apply finite_iff, solver_finite) end.
    rewrite DV. eexists. split; [reflexivity|]. split; [reflexivity|].
    rewrite (prob_fields _ E no_fields) in H1. exact H1.
  Qed.

  Lemma frozen h s u : holds c (f_of s) u ->
    exists s', run_steps M h s = Ok (s', None) /\ time_elapsed s' = time_elapsed s + elapsed h
    /\ holds c (f_of s') (frozen_run c k1 k2 (time_elapsed s) h u).
  Proof using Off W PF.
    revert s u. induction h as [|(m&dt) h IH]; intros s u Hu; cbn [run_steps frozen_run elapsed].
    - exists s. split; [reflexivity|]. split; [lra|exact Hu].
    - destruct (frozen_step m dt s u Hu) as (s1&R1&T1&H1). rewrite R1. cbn [rbind].
      destruct (IH s1 _ H1) as (s2&R2&T2&H2). exists s2. split; [exact R2|]. split; [rewrite T2, T1; ring|].
      rewrite T1 in H2. exact H2.
  Qed.

  Context (g : R -> Z -> Z -> R) (Dr : driven c g) (VU : velocity_uniform c).

  Lemma driven_midpoint t dt a x s g1 g2 : let p := prob c k1 k2 t no_fields in
    midpoint p p dt (everywhere a) x s g1 g2 = a x s + dt * g t x s.
  Proof using Off Dr VU.
    intros p.
    assert (Z : forall b y r i j, rhs p (everywhere b) y r i j = g t y r).
    { intros b y r i j. unfold rhs.
      assert (S : src p i j (fun x' s' => everywhere b x' s' i j) y r = g t y r).
      { unfold p, prob, problem_of, problem_at; cbn [src]. rewrite (proj1 Dr). apply (proj2 Dr). }
      rewrite S. unfold p. rewrite advect_p_off by apply off_fvm. unfold advect_q. 
      destruct (vel_uni c k1 k2 t no_fields VU) as [V1 V2].
      rewrite !(advect_const _ _ _ _ _ (b y r)); try (intros; reflexivity); [lra|apply V2|apply V1]. }
    unfold midpoint.
    match goal with |- context [rhs p ?u x s g1 g2] => change u with (fun y r i j => everywhere a y r i j + dt / 2 * rhs p (everywhere a) y r i j) end.
    assert (X : (fun y r i j => everywhere a y r i j + dt / 2 * rhs p (everywhere a) y r i j) = everywhere (fun y r => a y r + dt / 2 * g t y r)).
    { apply FunctionalExtensionality.functional_extensionality; intros y. apply FunctionalExtensionality.functional_extensionality; intros r.
      apply FunctionalExtensionality.functional_extensionality; intros i. apply FunctionalExtensionality.functional_extensionality; intros j.
      rewrite Z. reflexivity. }
    rewrite X, Z. reflexivity.
  Qed.

  Lemma left_sums h s a : holds c (f_of s) (everywhere a) ->
    exists s', run_steps M h s = Ok (s', None) /\ time_elapsed s' = time_elapsed s + elapsed h
    /\ holds c (f_of s') (everywhere (fun x sp => a x sp + left_sum (fun t => g t x sp) (time_elapsed s) h)).
  Proof using Off W PF Dr VU.
    revert s a. induction h as [|(m&dt) h IH]; intros s a Ha; cbn [run_steps left_sum elapsed].
    - exists s. split; [reflexivity|]. split; [lra|]. split; [apply Ha|]. intros. unfold everywhere. rewrite Rplus_0_r. apply Ha; auto.
    - destruct (frozen_step m dt s _ Ha) as (s1&R1&T1&H1). rewrite R1. cbn [rbind].
      destruct (IH s1 (fun x sp => a x sp + dt * g (time_elapsed s) x sp)) as (s2&R2&T2&H2).
      { split; [apply H1|]. intros x sp g1 g2 Hx Hs B1 B2. rewrite (proj2 H1) by auto. apply driven_midpoint. }
      exists s2. split; [exact R2|]. split; [rewrite T2, T1; ring|]. split; [apply H2|].
      intros x sp g1 g2 Hx Hs B1 B2. rewrite (proj2 H2) by auto. unfold everywhere. rewrite T1. ring.
  Qed.

  Lemma left_sum_error K r G b h t : 0 <= K -> integral_of K r G -> steps_within b h ->
    Rabs (left_sum r t h - (G (t + elapsed h) - G t)) <= K / 2 * b * elapsed h.
  Proof using.
    intros HK HG. revert t. induction h as [|(m&dt) h IH]; intros t SW; cbn [left_sum elapsed].
    - rewrite Rplus_0_r. replace (0 - (G t - G t)) with 0 by ring. rewrite Rabs_R0. lra.
    - apply Forall_inv in SW as S0. apply Forall_inv_tail in SW. cbn [snd] in S0.
      specialize (IH (t + dt) SW). specialize (HG t dt (proj1 S0)).
      replace (t + (dt + elapsed h)) with (t + dt + elapsed h) by ring.
      replace (dt * r t + left_sum r (t + dt) h - (G (t + dt + elapsed h) - G t))
        with ((left_sum r (t + dt) h - (G (t + dt + elapsed h) - G (t + dt))) - (G (t + dt) - G t - dt * r t)) by ring.
      eapply Rle_trans; [apply Rabs_triang|]. rewrite Rabs_Ropp.
      assert (dt ^ 2 <= b * dt). { replace (dt ^ 2) with (dt * dt) by ring. apply Rmult_le_compat_r; lra. }
      assert (K / 2 * dt ^ 2 <= K / 2 * (b * dt)) by (apply Rmult_le_compat_l; lra).
      lra.
  Qed.
End Run.

Lemma first_order P k1 k2 g K G b h s a : let c := pc P in
  fields_enabled c = false -> wf_cfg c k1 k2 -> periodic_fvm c k1 -> driven c g -> velocity_uniform c ->
  0 <= K -> (forall x sp, integral_of K (fun t => g t x sp) (fun t => G t x sp)) -> steps_within b h ->
  holds c (f_of s) (everywhere a) ->
  exists s', run_steps (solver_stepper P) h s = Ok (s', None)
  /\ forall x sp g1 g2, inb (N_p c) x -> inb (N_species c) sp -> inb (gN1 (lay c)) g1 -> inb (gN2 (lay c)) g2 ->
     Rabs (gval (lay c) (f_of s') x sp g1 g2 - (a x sp + (G (time_elapsed s') x sp - G (time_elapsed s) x sp)))
     <= K / 2 * b * elapsed h.
Proof.
  intros c Off W PF Dr VU HK HG SW Ha. destruct (left_sums P k1 k2 Off W PF g Dr VU h s a Ha) as (s'&R1&T&H).
  exists s'. split; [exact R1|]. intros x sp g1 g2 Hx Hs B1 B2. fold c in H. rewrite (proj2 H) by auto. unfold everywhere. rewrite T.
  replace (a x sp + left_sum (fun t => g t x sp) (time_elapsed s) h - (a x sp + (G (time_elapsed s + elapsed h) x sp - G (time_elapsed s) x sp)))
    with (left_sum (fun t => g t x sp) (time_elapsed s) h - (G (time_elapsed s + elapsed h) x sp - G (time_elapsed s) x sp)) by ring.
  apply (left_sum_error K _ (fun t => G t x sp)); auto.
Qed.

(** ** A source that grows with time *)
Lemma left_sum_ramp m n dt t : left_sum (fun t => t) t (repeat (m, dt) n) = INR n * dt * t + dt * dt * (INR n * (INR n - 1) / 2).
Proof.
  revert t. induction n as [|n IH]; intros t; cbn [repeat left_sum]; [cbn [INR]; lra|].
  rewrite IH, S_INR. field.
Qed.

Lemma elapsed_repeat m n dt : elapsed (repeat (m, dt) n) = INR n * dt.
Proof. induction n as [|n IH]; cbn [repeat elapsed]; [cbn [INR]; ring|]. rewrite IH, S_INR. ring. Qed.

(** Two species on 2 x 2 ranks; the source is the time. *)
Definition ramp_cfg : cfg :=
  let c := ex_cfg "minmod" false in
  Cfg (lay c) (N_ghost c) (N_p1 c) (N_p2 c) (N_p3 c) (N_species c)
    (q1_start c) (q1_end c) (q2_start c) (q2_end c) (dq1 c) (dq2 c)
    (p1_start c) (p2_start c) (p3_start c) (dp1 c) (dp2 c) (dp3 c)
    "FVM" "FVM" "minmod" "minmod" "cartesian" false true
    (C_q c) (A_q c) (C_p c) (A_p c) (fun t _ _ _ _ _ => t) (in_q c) (f_bc c) (shear_q c) (shear_omega c)
    (approx2 c) (loop_fuel c).

Definition ramp : params :=
  Params ramp_cfg ex_em "electrodynamic" [1; -2] nonrel_moments 0 1 false mean_inst (fun a _ _ => a).
Definition flat_state (t0 : R) : solver :=
  Solver (FState (fun r1 r2 => Arr 4 2 (n1g ex_lay r1) (n2g ex_lay r2) (fun x s _ _ => IZR (x + s))) (fun _ _ _ => 0)) (fresh ex_em) t0 0.

Lemma ramp_wf : wf_cfg ramp_cfg MC MC.
Proof.
  unfold wf_cfg. cbn [N_p1 N_p2 N_p3 N_species p1_start p2_start p3_start dp1 dp2 dp3 ramp_cfg ex_cfg List.length].
  repeat split; try lia; auto.
Qed.
Lemma ramp_periodic : periodic_fvm ramp_cfg MC.
Proof. exact (ex_periodic "minmod" false MC). Qed.
Lemma ramp_driven : driven ramp_cfg (fun t _ _ => t).
Proof. split; reflexivity. Qed.
Lemma ramp_vel : velocity_uniform ramp_cfg.
Proof. exact (proj2 (ex_vel "minmod" false)). Qed.
Lemma ramp_holds t : holds (pc ramp) (f_of (flat_state t)) (everywhere (fun x s => IZR (x + s))).
Proof. split; [intros r1 r2 _; repeat split|]. intros. reflexivity. Qed.
Lemma ramp_integral x sp : integral_of 1 (fun t => (fun (t : R) (_ _ : Z) => t) t x sp) (fun t => t ^ 2 / 2).
Proof.
  intros t dt H. replace ((t + dt) ^ 2 / 2 - t ^ 2 / 2 - dt * t) with (1 / 2 * dt ^ 2) by field.
  rewrite Rabs_right; [lra|]. apply Rle_ge. pose proof (pow2_ge_0 dt). lra.
Qed.

Lemma ramp_run m n T : (0 < n)%nat -> exists s',
  run_steps (solver_stepper ramp) (repeat (m, T / INR n) n) (flat_state 0) = Ok (s', None)
  /\ time_elapsed s' = T
  /\ gval ex_lay (f_of s') 0 0 0 0 = T ^ 2 / 2 - T ^ 2 / (2 * INR n).
Proof.
  intros Hn. assert (N : INR n <> 0) by (apply not_0_INR; lia).
  destruct (left_sums ramp MC MC eq_refl ramp_wf ramp_periodic _ ramp_driven ramp_vel (repeat (m, T / INR n) n) (flat_state 0) _ (ramp_holds 0))
    as (s'&R1&T1&H).
  exists s'. split; [exact R1|]. split.
  - rewrite T1, elapsed_repeat. change (time_elapsed (flat_state 0)) with 0. field; auto.
  - change ex_lay with (lay (pc ramp)). rewrite (proj2 H) by (split; [apply Z.le_refl|reflexivity]). unfold everywhere.
    rewrite left_sum_ramp. change (time_elapsed (flat_state 0)) with 0. cbn [Z.add]. field; auto.
Qed.

(** 1/(2n) is not of the order 1/n^2. *)
Lemma no_inverse_square K : ~ forall n, (0 < n)%nat -> Rabs (- (1 / (2 * INR n))) <= K / INR n ^ 2.
Proof.
  intros H.
  destruct (archimed_cor1 (/ (2 * (Rabs K + 1)))) as (n&Hn&Pn).
  { apply Rinv_0_lt_compat. pose proof (Rabs_pos K). lra. }
  specialize (H n Pn).
  assert (N : 0 < INR n) by (apply lt_0_INR; lia).
  replace (1 / (2 * INR n)) with (/ 2 * / INR n) in H by (field; lra).
  rewrite Rabs_Ropp, Rabs_right in H.
  2:{ apply Rle_ge, Rmult_le_pos; [lra|]. left. apply Rinv_0_lt_compat; lra. }
  assert (A : INR n / 2 <= K).
  { apply (Rmult_le_compat_r (INR n ^ 2)) in H; [|apply pow2_ge_0]. 
    replace (/ 2 * / INR n * INR n ^ 2) with (INR n / 2) in H by (field; lra).
    replace (K / INR n ^ 2 * INR n ^ 2) with K in H by (field; lra). exact H. }
  assert (B : 2 * (Rabs K + 1) < INR n).
  { apply Rinv_lt_contravar in Hn.
    - rewrite !Rinv_inv in Hn. exact Hn.
    - pose proof (Rabs_pos K). apply Rmult_lt_0_compat; apply Rinv_0_lt_compat; lra. }
  pose proof (Rle_abs K). lra.
Qed.

Lemma not_second_order m : ~ exists K, forall n s', (0 < n)%nat ->
  run_steps (solver_stepper ramp) (repeat (m, 1 / INR n) n) (flat_state 0) = Ok (s', None) ->
  Rabs (gval ex_lay (f_of s') 0 0 0 0 - 1 / 2) <= K / INR n ^ 2.
Proof.
  intros (K&H). apply (no_inverse_square K). intros n Hn. destruct (ramp_run m n 1 Hn) as (s'&R1&_&V).
  specialize (H n s' Hn R1). rewrite V in H.
  replace (1 ^ 2 / 2 - 1 ^ 2 / (2 * INR n) - 1 / 2) with (- (1 / (2 * INR n))) in H
    by (field; apply not_0_INR; lia). exact H.
Qed.
