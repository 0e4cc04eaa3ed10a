(** The source sub-step of semi-Lagrangian runs, with a source that depends on time. *)
From Coq Require Import ZArith Reals Lia Lra String List Bool FunctionalExtensionality.
From Verif Require Import Base.Prelude Base.ZSum Model.Af Model.Petsc Model.Config Model.Boundaries
  Model.Fvm Model.Em Model.Moments Model.Integrators Model.Splitting Model.SemiLag Model.Timestep
  Model.Solver Spec.Domain Spec.Lattice Spec.FvmProblem Spec.FvmRun Spec.Clock Spec.Interp Spec.TimeTerms
  Proofs.InterpLemmas Proofs.SemiLagProps Proofs.TimestepLemmas Proofs.TimeTerms Props.ExSemiLag Props.ExSolver.
Import ListNotations.
Local Open Scope R_scope.

Lemma asl_left_sums P k1 k2 w ap g h s a :
  streaming P -> instantaneous P = false -> wf_cfg (pc P) k1 k2 -> interpolates w ap -> normalised w -> uses (pc P) ap ->
  driven (pc P) g -> holds (pc P) (f_of s) (everywhere a) -> reach_run (pc P) (time_elapsed s) h ->
  exists s', run_steps (solver_stepper P) h s = Ok (s', None) /\ time_elapsed s' = time_elapsed s + elapsed h
  /\ holds (pc P) (f_of s') (everywhere (fun x sp => a x sp + left_sum (fun t => g t x sp) (time_elapsed s) h)).
Proof.
  intros S I W IT NW US Dr HU RE.
  destruct (streaming_run P k1 k2 w ap h s _ S W IT US HU RE) as (s'&E&H&T).
  exists s'. split; [exact E|]. split; [exact T|].
  assert (TR : forall h t a, transport P w t h (everywhere a) = everywhere (fun x sp => a x sp + left_sum (fun t => g t x sp) t h)).
  { clear - NW Dr I. induction h as [|(m&dt) h IH]; intros t a; cbn [transport left_sum].
    - do 4 (apply functional_extensionality; intro). unfold everywhere. ring.
    - assert (CC : forall t dt b, characteristics (pc P) w t dt (everywhere b) = everywhere b).
      { intros t' dt' b. do 4 (apply functional_extensionality; intro). exact (characteristics_const (pc P) w t' dt' b _ _ _ _ NW). }
      assert (CL : forall t dt b, collide P t dt (everywhere b) = everywhere (fun x sp => b x sp + dt * g t x sp)).
      { intros. do 4 (apply functional_extensionality; intro). unfold collide, everywhere. rewrite I, (proj1 Dr), (proj2 Dr). reflexivity. }
      assert (CE : compose m (characteristics (pc P) w t) (collide P t) dt (everywhere a) = everywhere (fun x sp => a x sp + dt * g t x sp)).
      { destruct m; cbn [compose]; rewrite ?CC, ?CL, ?CC, ?CL, ?CC; try reflexivity;
        do 4 (apply functional_extensionality; intro); unfold everywhere; lra. }
      rewrite CE, IH. do 4 (apply functional_extensionality; intro). unfold everywhere. ring. }
  rewrite TR in H. exact H.
Qed.

(** One species on two ranks; the source is the time. *)
Definition sramp_cfg : cfg :=
  let c := sl_cfg sl_two true in
  Cfg (lay c) (N_ghost c) (N_p1 c) (N_p2 c) (N_p3 c) (N_species c)
    (q1_start c) (q1_end c) (q2_start c) (q2_end c) (dq1 c) (dq2 c)
    (p1_start c) (p2_start c) (p3_start c) (dp1 c) (dp2 c) (dp3 c)
    "ASL" "ASL" "ppm" "ppm" "cartesian" false true
    (C_q c) (A_q c) (C_p c) (A_p c) (fun t _ _ _ _ _ => t) (in_q c) (f_bc c) (shear_q c) (shear_omega c)
    (approx2 c) (loop_fuel c).
Definition sramp : params :=
  Params sramp_cfg (sl_em sl_two) "electrostatic" [1] nonrel_moments 0 1 false mean_inst spline.
Definition sflat (e : em) : solver :=
  Solver (FState (fun r1 r2 => Arr 4 1 (n1g sl_two r1) (n2g sl_two r2) (fun x s _ _ => IZR x)) (fun _ _ _ => 0)) e 0 0.

Lemma sramp_wf : wf_cfg sramp_cfg PPM PPM.
Proof. unfold wf_cfg. cbn. repeat split; lia. Qed.
Lemma sramp_streaming : streaming sramp.
Proof.
  destruct (sl_streaming sl_two true sl_periodic_two). constructor; try assumption; try reflexivity.
Qed.
Lemma sramp_driven : driven sramp_cfg (fun t _ _ => t).
Proof. split; reflexivity. Qed.
Lemma sramp_holds e : holds (pc sramp) (f_of (sflat e)) (everywhere (fun x _ => IZR x)).
Proof. split; [intros r1 r2 _; repeat split|]. intros. reflexivity. Qed.
Lemma sramp_reach h : Forall (fun k => Rabs (snd k) < 4) h -> forall t, reach_run sramp_cfg t h.
Proof.
  intros H t. pose proof (sl_reach_run sl_two true h eq_refl eq_refl H t) as X. clear H. revert t X.
  induction h as [|(m&dt) h IH]; intros t; cbn [reach_run]; [auto|]. intros (X&Y). split; [destruct m; exact X|]. apply IH. exact Y.
Qed.

Lemma sramp_run m n e : (0 < n)%nat -> exists s',
  run_steps (solver_stepper sramp) (repeat (m, 1 / INR n) n) (sflat e) = Ok (s', None)
  /\ gval sl_two (f_of s') 0 0 0 0 = 1 / 2 - 1 / (2 * INR n).
Proof.
  intros Hn. assert (N1 : 1 <= INR n) by (apply (le_INR 1); lia).
  destruct (asl_left_sums sramp PPM PPM catmull_rom spline (fun t _ _ => t) (repeat (m, 1 / INR n) n) (sflat e) (fun x _ => IZR x))
    as (s'&R1&_&H).
  - apply sramp_streaming.
  - reflexivity.
  - apply sramp_wf.
  - apply spline_interpolates.
  - apply catmull_rom_normalised.
  - apply (sl_uses sl_two true).
  - apply sramp_driven.
  - apply sramp_holds.
  - apply sramp_reach. apply Forall_forall. intros k Hk. apply repeat_spec in Hk. subst k. cbn [snd].
    assert (0 < / INR n <= 1). { split; [apply Rinv_0_lt_compat; lra|]. rewrite <- Rinv_1. apply Rinv_le_contravar; lra. }
    apply Rabs_def1; unfold Rdiv; lra.
  - exists s'. split; [exact R1|]. change sl_two with (lay (pc sramp)). rewrite (proj2 H) by (split; [apply Z.le_refl|reflexivity]).
    unfold everywhere. rewrite left_sum_ramp. change (time_elapsed (sflat e)) with 0. field; lra.
Qed.

Lemma asl_not_second_order m e : ~ exists K, forall n s', (0 < n)%nat ->
  run_steps (solver_stepper sramp) (repeat (m, 1 / INR n) n) (sflat e) = Ok (s', None) ->
  Rabs (gval sl_two (f_of s') 0 0 0 0 - 1 / 2) <= K / INR n ^ 2.
Proof.
  intros (K&H). apply (no_inverse_square K). intros n Hn. destruct (sramp_run m n e Hn) as (s'&R1&V).
  specialize (H n s' Hn R1). rewrite V in H.
  replace (1 / 2 - 1 / (2 * INR n) - 1 / 2) with (- (1 / (2 * INR n))) in H by ring. exact H.
Qed.
