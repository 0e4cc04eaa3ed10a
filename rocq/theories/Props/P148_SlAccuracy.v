(** C148, C149: stability and accuracy of semi-Lagrangian runs of free particles, with
    the Catmull-Rom weights of ArrayFire's cubic splines. *)
From Coq Require Import ZArith Reals Lra Lia Psatz String List Bool.
From Verif Require Import Base.Prelude Base.ZSum Model.Af Model.Petsc Model.Config Model.Em Model.Timestep
  Model.Solver Spec.Domain Spec.Lattice Spec.FvmProblem Spec.FvmRun Spec.Clock Spec.Converge Spec.Interp Spec.SlAccuracy
  Proofs.InterpLemmas Proofs.FreeStream Proofs.SlAccuracy Props.ExEm Props.ExSolver Props.ExSymmetry Props.ExSemiLag Props.ExConverge
  Props.P147_SlSym.
Import ListNotations.
Local Open Scope R_scope.

(** C148.  The root mean square of f never grows, at any momentum, however large the
    displacements within the ghost zones and however many the steps. *)
Theorem C148_contracts : forall P k1 k2 ap h s u,
  streaming P -> quiet P -> wf_cfg (pc P) k1 k2 -> interpolates catmull_rom ap -> uses (pc P) ap ->
  streams (pc P) -> reach_run (pc P) (time_elapsed s) h -> holds (pc P) (f_of s) u ->
  exists r v, run_steps (solver_stepper P) h s = Ok (r, None) /\ holds (pc P) (f_of r) v
  /\ forall x sp, inb (N_p (pc P)) x -> inb (N_species (pc P)) sp -> rms (pc P) v x sp <= rms (pc P) u x sp.
Proof. exact sl_contracts. Qed.
Print Assumptions C148_contracts.

(** C149.  The run differs from the exact solution by at most a constant times the cube
    of the cell size for each interpolation, in the root mean square. *)
Theorem C149_converges : forall P k1 k2 ap h s v1 v2 phi M1 M2,
  streaming P -> quiet P -> wf_cfg (pc P) k1 k2 -> interpolates catmull_rom ap -> uses (pc P) ap ->
  streams (pc P) -> 0 < dq1 (pc P) -> 0 < dq2 (pc P) -> 0 <= M1 -> 0 <= M2 -> flies_with (pc P) v1 v2 ->
  (forall x sp, inb (N_p (pc P)) x -> inb (N_species (pc P)) sp ->
     smooth3 M1 M2 (phi x sp) /\ Converge.fits (pc P) (phi x sp)) ->
  reach_run (pc P) (time_elapsed s) h ->
  holds (pc P) (f_of s) (carried (pc P) v1 v2 phi 0) ->
  exists r v, run_steps (solver_stepper P) h s = Ok (r, None) /\ holds (pc P) (f_of r) v
  /\ forall x sp, inb (N_p (pc P)) x -> inb (N_species (pc P)) sp ->
     rms (pc P) (fun x sp i j => v x sp i j - carried (pc P) v1 v2 phi (elapsed h) x sp i j) x sp
     <= 2 * hops h * (M1 * dq1 (pc P) ^ 3 + M2 * dq2 (pc P) ^ 3).
Proof. exact sl_converges. Qed.
Print Assumptions C149_converges.

(** ** Examples: 8 x 4 cells of size 1 on 2 x 1 ranks. *)
Definition sl_hist3 := [(Lie, 1); (Strang, 3/2); (Swss, -1/3); (Jia, -1/4)].
Lemma sl_hist3_reach src : reach_run (sl_cfg sl_two src) 0 sl_hist3.
Proof. apply sl_reach_run; auto. repeat constructor; cbn [snd]; apply Rabs_def1; lra. Qed.

Example C148_applies : forall e, exists r v,
  run_steps (solver_stepper (sl sl_two false)) sl_hist3 (sl_at sl_data e) = Ok (r, None)
  /\ holds (sl_cfg sl_two false) (f_of r) v
  /\ rms (sl_cfg sl_two false) v 2 0 <= rms (sl_cfg sl_two false) sl_data 2 0.
Proof.
  intros e. destruct (C148_contracts (sl sl_two false) PPM PPM spline sl_hist3 (sl_at sl_data e) sl_data) as (r&v&R&V&B).
  - apply sl_streaming, sl_periodic_two.
  - apply sl_quiet.
  - apply sl_wf.
  - apply spline_interpolates.
  - apply sl_uses.
  - apply sl_streams.
  - apply sl_hist3_reach.
  - exact (state_of_holds (sl_cfg sl_two false) sl_data).
  - exists r, v. split; [exact R|]. split; [exact V|]. change (pc (sl sl_two false)) with (sl_cfg sl_two false) in B.
    refine (B 2%Z 0%Z _ _); (split; [intros X; discriminate X|reflexivity]).
Qed.

Lemma sin_le3 a : Rabs (sin a - a) <= Rabs a ^ 3.
Proof.
  pose proof (sin_le a) as L. destruct (Rle_dec 1 (Rabs a)) as [B|B].
  - eapply Rle_trans; [exact L|]. rewrite <- (pow2_abs a). pose proof (pow2_ge_0 (Rabs a)). nra.
  - apply Rnot_le_lt in B. clear L. apply Rabs_def2 in B as (B1&B2).
    assert (P : forall b, 0 <= b <= 1 -> - b ^ 3 <= sin b - b <= 0).
    { intros b H. destruct (sin_bounds b ltac:(lra)) as [[L _] _].
      assert (0 <= b ^ 3) by (apply pow_le; lra). split; [lra|].
      destruct (Rle_lt_or_eq_dec 0 b (proj1 H)) as [Q|Q]; [assert (X := sin_lt_x b Q); lra|rewrite <- Q, sin_0; lra]. }
    destruct (Rle_dec 0 a) as [A|A].
    + specialize (P a ltac:(lra)). rewrite (Rabs_pos_eq a) by lra. apply Rabs_le. assert (0 <= a ^ 3) by (apply pow_le; lra). lra.
    + specialize (P (- a) ltac:(lra)). rewrite sin_neg in P. rewrite (Rabs_left a) by lra. apply Rabs_le.
      assert (0 <= (- a) ^ 3) by (apply pow_le; lra). lra.
Qed.
Lemma cos_le3 a : Rabs (cos a - 1 + a ^ 2 / 2) <= Rabs a ^ 3.
Proof.
  replace (cos a) with (cos (2 * (a / 2))) by (f_equal; field). rewrite cos_2a_sin.
  replace (1 - 2 * sin (a / 2) * sin (a / 2) - 1 + a ^ 2 / 2) with (- (2 * ((sin (a / 2) - a / 2) * (sin (a / 2) + a / 2)))) by field.
  rewrite Rabs_Ropp, Rabs_mult, Rabs_mult, (Rabs_pos_eq 2) by lra.
  pose proof (sin_le (a / 2)) as L. pose proof (cos_le a) as C.
  assert (S : Rabs (sin (a / 2)) <= Rabs (a / 2)).
  { rewrite <- (sqrt_Rsqr_abs (sin (a / 2))), <- (sqrt_Rsqr_abs (a / 2)). apply sqrt_le_1_alt. unfold Rsqr.
    replace (cos a) with (cos (2 * (a / 2))) in C by (f_equal; field). rewrite cos_2a_sin in C.
    destruct (Rle_dec 0 (a / 2)) as [A|A].
    - assert (- (a / 2) <= sin (a / 2) <= a / 2); [|nra].
      destruct (Rle_lt_or_eq_dec 0 (a / 2) A) as [Q|Q]; [|rewrite <- Q, sin_0; lra]. split; [|left; apply sin_lt_x; auto].
      destruct (Rle_dec (a / 2) 1) as [D|D]; [|assert (X := SIN_bound (a / 2)); lra].
      assert (0 <= sin (a / 2)); [|lra]. apply sin_ge_0; [auto|]. assert (X := PI2_1). lra.
    - set (b := - (a / 2)). replace (a / 2) with (- b) by (unfold b; ring). rewrite sin_neg. assert (A' : 0 < b) by (unfold b; lra).
      assert (- b <= sin b <= b); [|nra]. split; [|left; apply sin_lt_x; auto].
      destruct (Rle_dec b 1) as [D|D]; [|assert (X := SIN_bound b); lra].
      assert (0 <= sin b); [|lra]. apply sin_ge_0; [lra|]. assert (X := PI2_1). lra. }
  assert (T : Rabs (sin (a / 2) + a / 2) <= Rabs a).
  { eapply Rle_trans; [apply Rabs_triang|]. replace (Rabs a) with (Rabs (a / 2) + Rabs (a / 2)); [lra|].
    unfold Rdiv. rewrite Rabs_mult, (Rabs_pos_eq (/ 2)) by lra. field. }
  apply Rle_trans with (2 * ((a / 2) ^ 2 * Rabs a)).
  - apply Rmult_le_compat_l; [lra|]. apply Rmult_le_compat; auto using Rabs_pos.
  - replace ((a / 2) ^ 2) with (a ^ 2 / 4) by field. rewrite <- (pow2_abs a).
    assert (0 <= Rabs a ^ 3) by (apply pow_le, Rabs_pos). lra.
Qed.
Lemma sine_smooth3 w : smooth3 (2 * Rabs w ^ 3) 0 (fun q1 _ => sin (w * q1)).
Proof.
  split.
  - exists (fun q1 _ => w * cos (w * q1)), (fun q1 _ => - w ^ 2 / 2 * sin (w * q1)). intros x y a.
    replace (sin (w * (x + a)) - sin (w * x) - a * (w * cos (w * x)) - a ^ 2 * (- w ^ 2 / 2 * sin (w * x)))
      with (sin (w * x) * (cos (w * a) - 1 + (w * a) ^ 2 / 2) + cos (w * x) * (sin (w * a) - w * a))
      by (rewrite (Rmult_plus_distr_l w x a), sin_plus; field).
    pose proof (cos_le3 (w * a)) as C. pose proof (sin_le3 (w * a)) as S.
    eapply Rle_trans; [apply Rabs_triang|]. rewrite !Rabs_mult.
    assert (A1 : Rabs (sin (w * x)) <= 1) by (apply Rabs_le; assert (Q := SIN_bound (w * x)); lra).
    assert (A2 : Rabs (cos (w * x)) <= 1) by (apply Rabs_le; assert (Q := COS_bound (w * x)); lra).
    replace (2 * Rabs w ^ 3 * Rabs a ^ 3) with (1 * Rabs (w * a) ^ 3 + 1 * Rabs (w * a) ^ 3) by (rewrite Rabs_mult; ring).
    apply Rplus_le_compat; apply Rmult_le_compat; auto using Rabs_pos.
  - exists (fun _ _ => 0), (fun _ _ => 0). intros x y b. replace (_ - _ - b * 0 - b ^ 2 * 0) with 0 by ring. rewrite Rabs_R0. lra.
Qed.
Definition sl_v1 (x s : Z) : R := mom1 (sl_cfg sl_two false) (1/2) x s.
Definition sl_v2 (x s : Z) : R := mom2 (sl_cfg sl_two false) (1/2) x s.
Definition sl_wave : Z -> Z -> R -> R -> R := fun x _ q1 _ => sin (PI / 4 * q1).

(** A sine wave along q1: six interpolations. *)
Example C149_applies : forall e, exists r v,
  run_steps (solver_stepper (sl sl_two false)) sl_hist3 (sl_at (carried (sl_cfg sl_two false) sl_v1 sl_v2 sl_wave 0) e) = Ok (r, None)
  /\ holds (sl_cfg sl_two false) (f_of r) v
  /\ rms (sl_cfg sl_two false) (fun x sp i j => v x sp i j - sin (PI / 4 * (IZR i + 1/2 - sl_v1 x sp * (23/12)))) 1 0
     <= 24 * (PI / 4) ^ 3.
Proof.
  intros e. destruct (C149_converges (sl sl_two false) PPM PPM spline sl_hist3
    (sl_at (carried (sl_cfg sl_two false) sl_v1 sl_v2 sl_wave 0) e) sl_v1 sl_v2 sl_wave (2 * Rabs (PI / 4) ^ 3) 0) as (r&v&R&V&B).
  - apply sl_streaming, sl_periodic_two.
  - apply sl_quiet.
  - apply sl_wf.
  - apply spline_interpolates.
  - apply sl_uses.
  - apply sl_streams.
  - cbn; lra.
  - cbn; lra.
  - apply Rmult_le_pos; [lra|apply pow_le, Rabs_pos].
  - lra.
  - intros t x s g1 g2 _ _. reflexivity.
  - intros x sp _ _. split; [apply sine_smooth3|]. intros q1 q2. split; [|reflexivity].
    change (gN1 (lay (pc (sl sl_two false)))) with 8%Z. change (dq1 (pc (sl sl_two false))) with 1. unfold sl_wave.
    replace (PI / 4 * (q1 + 8 * 1)) with (PI / 4 * q1 + 2 * PI) by field. rewrite sin_plus, sin_2PI, cos_2PI. ring.
  - apply sl_hist3_reach.
  - exact (state_of_holds (sl_cfg sl_two false) _).
  - exists r, v. split; [exact R|]. split; [exact V|].
    assert (I1 : inb (N_p (pc (sl sl_two false))) 1) by (split; [intros X; discriminate X|reflexivity]).
    assert (I2 : inb (N_species (pc (sl sl_two false))) 0) by (split; [intros X; discriminate X|reflexivity]).
    specialize (B 1%Z 0%Z I1 I2).
    unfold rms in *. change (lay (pc (sl sl_two false))) with sl_two in B. change (lay (sl_cfg sl_two false)) with sl_two.
    eapply Rle_trans; [|eapply Rle_trans; [exact B|]].
    + right. f_equal. f_equal. apply zsum_ext; intros i _. apply zsum_ext; intros j _. f_equal. f_equal. unfold carried, sl_wave.
      f_equal. f_equal. f_equal; [unfold pos1; cbn; ring|]. f_equal. unfold elapsed, sl_hist3; field.
    + right. change (dq1 (pc (sl sl_two false))) with 1. unfold hops, sl_hist3; cbn [fold_right fst].
      rewrite Rabs_pos_eq by (assert (X := PI_RGT_0); lra). ring.
Qed.
