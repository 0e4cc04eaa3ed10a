(** C97-C101: accuracy and bounds of free motion. *)
From Coq Require Import ZArith Reals Lra Lia Psatz String List Bool.
From Verif Require Import Base.Prelude Base.ZSum Base.Cplx Model.Af Model.Petsc Model.Config Model.Fvm Model.Linear
  Spec.Domain Spec.Lattice Spec.FvmProblem Spec.FvmRun Spec.Converge Spec.Waves Spec.LinearSpec Spec.FreeStream
  Proofs.Converge Proofs.Affine Proofs.Positive Proofs.FreeStream Proofs.FreeWitness Proofs.LinearWitness
  Props.ExFvm Props.ExSymmetry Props.P81_Symmetry Props.ExConverge.
Import ListNotations.
Local Open Scope R_scope.

(** C97.  With piecewise-constant reconstruction, runs of free particles converge to
    the exact solution: the error is at most a constant times time times cell size. *)
Theorem C97_first_order_converges : forall c k2, wf_cfg c FirstOrder k2 -> periodic_fvm c FirstOrder ->
  velocity_uniform c -> 0 < dq1 c -> 0 < dq2 c -> source_enabled c = false -> p_is_fvm c = false ->
  forall v1 v2 phi M, moves_with c v1 v2 -> 0 <= M ->
  (forall x s, inb (N_p c) x -> inb (N_species c) s -> smooth M (phi x s) /\ fits c (phi x s)) ->
  forall l s, (forall k, In k l -> cfl c (ct k) (cdt k)) -> holds c (sf s) (carried c v1 v2 phi 0) ->
  exists r, run_fvm c l s = Ok r
  /\ forall x sp g1 g2, inb (N_p c) x -> inb (N_species c) sp -> inb (gN1 (lay c)) g1 -> inb (gN2 (lay c)) g2 ->
     Rabs (gval (lay c) (sf r) x sp g1 g2 - carried c v1 v2 phi (duration l) x sp g1 g2)
     <= 3 * M * duration l * (Rabs (v1 x sp) * dq1 c + Rabs (v2 x sp) * dq2 c).
Proof. exact convergence. Qed.
Print Assumptions C97_first_order_converges.

(** A sine wave, two steps of 1/10. *)
Example C97_applies : forall E, let c := ex_cfg "piecewise-constant" false in
  let phi := fun _ _ : Z => fun q1 _ : R => sin (PI / 2 * q1) in
  exists r, run_fvm c [Call 0 (1/10) E E; Call (1/10) (1/10) E E] (state_of c (carried c ex_v1 ex_v2 phi 0)) = Ok r
  /\ Rabs (gval (lay c) (sf r) 3 1 2 1 - sin (PI / 2 * (5 / 2 - 1 / 5))) <= 3 * (2 * (PI / 2) ^ 2) * (1 / 5) * 2.
Proof.
  intros E c phi. set (l := [Call 0 (1/10) E E; Call (1/10) (1/10) E E]).
  assert (WF : wf_cfg c FirstOrder PPM) by (apply ex_wf; reflexivity).
  destruct (C97_first_order_converges c PPM WF (ex_periodic _ _ _) (proj2 (ex_vel _ _))) with
    (v1 := ex_v1) (v2 := ex_v2) (phi := phi) (M := 2 * (PI / 2) ^ 2) (l := l) (s := state_of c (carried c ex_v1 ex_v2 phi 0)) as (r&R&Q);
    try reflexivity; try (cbn; lra).
  - apply ex_moves.
  - assert (P := pow2_ge_0 (PI / 2)). lra.
  - intros x s _ _. split; [apply sine_smooth|apply sine_fits].
  - intros k [<-|[<-|[]]]; apply ex_cfl.
  - apply state_of_holds.
  - exists r. split; [exact R|].
    assert (V1 : ex_v1 3 1 = 1) by (cbv -[Rplus Rmult Ropp Rdiv Rinv IZR Rminus]; lra).
    assert (V2 : ex_v2 3 1 = 1) by (cbv -[Rplus Rmult Ropp Rdiv Rinv IZR Rminus]; lra).
    specialize (Q 3%Z 1%Z 2%Z 1%Z ltac:(unfold c, inb; cbn; lia) ltac:(unfold c, inb; cbn; lia) ltac:(unfold c, inb; cbn; lia) ltac:(unfold c, inb; cbn; lia)).
    unfold carried, phi in Q. rewrite V1, V2 in Q.
    assert (D : duration l = 1 / 5) by (unfold duration, l; cbn [fold_right cdt]; lra). rewrite D in Q.
    assert (X : pos1 c (1/2) 2 = 5 / 2) by (cbv -[Rplus Rmult Ropp Rdiv Rinv IZR Rminus]; lra). rewrite X in Q.
    change (dq1 c) with 1 in Q. change (dq2 c) with 1 in Q. rewrite Rabs_R1 in Q.
    replace (5 / 2 - 1 * (1 / 5)) with (5 / 2 - 1 / 5) in Q by ring. lra.
Qed.

(** C98.  Where f is linear in q, all three reconstructions carry it exactly. *)
Theorem C98_planes_are_carried_exactly : forall c k1 k2, wf_cfg c k1 k2 -> periodic_fvm c k1 ->
  dq1 c <> 0 -> dq2 c <> 0 -> source_enabled c = false -> p_is_fvm c = false ->
  forall v1 v2, moves_with c v1 v2 ->
  forall l s u x sp g1 g2 A B1 B2, inb (N_p c) x -> inb (N_species c) sp ->
  inb (gN1 (lay c)) g1 -> inb (gN2 (lay c)) g2 -> holds c (sf s) u ->
  plane_near c (2 * Z.of_nat (List.length l) * (radius k1 + 1)) u x sp g1 g2 A B1 B2 ->
  exists r, run_fvm c l s = Ok r
  /\ gval (lay c) (sf r) x sp g1 g2 = A - duration l * (v1 x sp * B1 + v2 x sp * B2).
Proof. exact plane_exact. Qed.
Print Assumptions C98_planes_are_carried_exactly.

(** f = 2 q1 + 3 q2 near the middle of a 20 x 20 grid, one step with "ppm". *)
Example C98_applies : forall E, let c := wide "ppm" false in
  let u := fun _ _ g1 g2 : Z => IZR (2 * g1 + 3 * g2) in
  exists r, run_fvm c [Call 0 (1/10) E E] (state_of c u) = Ok r
  /\ gval (lay c) (sf r) 3 1 10 10 = 50 - 1 / 10 * (1 * 2 + 1 * 3).
Proof.
  intros E c u.
  destruct (C98_planes_are_carried_exactly c PPM PPM (wide_wf "ppm" false PPM eq_refl) (wide_periodic _ _ _)) with
    (v1 := ex_v1) (v2 := ex_v2) (l := [Call 0 (1/10) E E]) (s := state_of c u) (u := u) (x := 3%Z) (sp := 1%Z)
    (g1 := 10%Z) (g2 := 10%Z) (A := 50) (B1 := 2) (B2 := 3) as (r&R&Q);
    try reflexivity; try (unfold inb; cbn; lia); try (cbn; lra).
  - intros t x s q1 q2 _ _. reflexivity.
  - apply state_of_holds.
  - intros d1 d2 D. cbn [List.length radius Z.of_nat Pos.of_succ_nat Z.mul Z.add Pos.mul Pos.add Pos.succ] in D.
    change (gN1 (lay c)) with 20%Z. change (gN2 (lay c)) with 20%Z. rewrite !Z.mod_small by lia. unfold u.
    change (dq1 c) with 1. change (dq2 c) with 1. rewrite plus_IZR, !mult_IZR, !plus_IZR. lra.
  - exists r. split; [exact R|]. rewrite Q. unfold duration; cbn [fold_right cdt].
    assert (V1 : ex_v1 3 1 = 1) by (cbv -[Rplus Rmult Ropp Rdiv Rinv IZR Rminus]; lra).
    assert (V2 : ex_v2 3 1 = 1) by (cbv -[Rplus Rmult Ropp Rdiv Rinv IZR Rminus]; lra).
    rewrite V1, V2. lra.
Qed.

(** C99.  With "minmod" and a Courant number of at most 1/2, particles that move
    along one axis keep f within its initial bounds.  Missing: motion in the plane. *)
Theorem C99_minmod_bounds_along_an_axis_partial : forall c k2, wf_cfg c MC k2 -> periodic_fvm c MC ->
  0 < dq1 c -> 0 < dq2 c -> source_enabled c = false -> p_is_fvm c = false ->
  forall v1 v2, moves_with c v1 v2 ->
  (forall x s, inb (N_p c) x -> inb (N_species c) s -> v1 x s = 0 \/ v2 x s = 0) ->
  forall l s u m M, (forall k, In k l -> 0 <= cdt k /\ forall x sp, inb (N_p c) x -> inb (N_species c) sp ->
     Rabs (v1 x sp) * cdt k / dq1 c + Rabs (v2 x sp) * cdt k / dq2 c <= 1/2) ->
  holds c (sf s) u ->
  (forall x sp g1 g2, inb (N_p c) x -> inb (N_species c) sp -> inb (gN1 (lay c)) g1 -> inb (gN2 (lay c)) g2 ->
     m x sp <= u x sp g1 g2 <= M x sp) ->
  exists r, run_fvm c l s = Ok r
  /\ forall x sp g1 g2, inb (N_p c) x -> inb (N_species c) sp -> inb (gN1 (lay c)) g1 -> inb (gN2 (lay c)) g2 ->
     m x sp <= gval (lay c) (sf r) x sp g1 g2 <= M x sp.
Proof. exact run_bounds. Qed.
Print Assumptions C99_minmod_bounds_along_an_axis_partial.

(** In the plane f can become negative however small the step. *)
Theorem C99_nonnegative_refuted : exists c u, wf_cfg c MC MC /\ periodic_fvm c MC /\ 0 < dq1 c /\ 0 < dq2 c
  /\ source_enabled c = false /\ p_is_fvm c = false /\ moves_with c (fun _ _ => 1) (fun _ _ => 1)
  /\ forall dt t A B, 0 < dt <= 1/2 ->
     (forall x s g1 g2, 0 <= u dt x s g1 g2) /\ cfl c t dt
     /\ exists s r, holds c (sf s) (u dt) /\ run_fvm c [Call t dt A B] s = Ok r /\ gval (lay c) (sf r) 0 0 5 5 < 0.
Proof.
  exists pk_cfg, pk_data.
  exact (conj pk_wf (conj pk_periodic (conj Rlt_0_1 (conj Rlt_0_1 (conj eq_refl (conj eq_refl (conj pk_moves
    (fun dt t A B H => let (P, Q) := pk_negative dt H t A B in let (Q1, Q2) := Q in
       conj P (conj Q1 (match Q2 with ex_intro _ r K => ex_intro _ (pk_state dt) (ex_intro _ r (conj (pk_holds dt) K)) end)))))))))).
Qed.
Print Assumptions C99_nonnegative_refuted.

Example C99_applies : forall E, exists r, run_fvm ax_cfg [Call 0 (1/2) E E; Call (1/2) (1/2) E E] (state_of ax_cfg sym_data) = Ok r
  /\ 0 <= gval (lay ax_cfg) (sf r) 1 0 2 1 <= 20.
Proof.
  intros E.
  destruct (C99_minmod_bounds_along_an_axis_partial ax_cfg MC ax_wf ax_periodic) with (v1 := ax_v1) (v2 := fun _ _ : Z => 0)
    (l := [Call 0 (1/2) E E; Call (1/2) (1/2) E E]) (s := state_of ax_cfg sym_data) (u := sym_data)
    (m := fun _ _ : Z => 0) (M := fun _ _ : Z => 20) as (r&R&Q); try reflexivity; try (cbn; lra).
  - exact ax_moves.
  - auto.
  - intros k K. assert (D : cdt k = 1/2) by (destruct K as [<-|[<-|[]]]; reflexivity). rewrite D. split; [lra|].
    intros x sp _ _. change (dq1 ax_cfg) with 1. change (dq2 ax_cfg) with 1. unfold ax_v1. rewrite Rabs_R0.
    destruct (x =? 0)%Z; [rewrite Rabs_left by lra|rewrite Rabs_pos_eq by lra]; lra.
  - apply state_of_holds.
  - intros x sp g1 g2 Hx Hs H1 H2. change (0 <= x < 2)%Z in Hx. change (0 <= sp < 1)%Z in Hs.
    change (0 <= g1 < 4)%Z in H1. change (0 <= g2 < 3)%Z in H2. unfold sym_data. split; apply IZR_le; nia.
  - exists r. split; [exact R|]. apply Q; unfold inb; cbn; lia.
Qed.

(** C100.  Free streaming in the linear solver only turns the phase of each mode;
    what a run with any of the methods does to the modulus. *)
Theorem C100_modulus_partial : forall c b steps x sp k l, streams_freely c -> lin_ok c -> mode_in c k l ->
  forall s s', lin_run c b steps s = Ok s' ->
  cmod2 (el (f_hat s') x sp k l)
  = fold_right (fun p g => gain2 (fst p) (omega c x sp k l * snd p) * g) 1 steps * cmod2 (el (f_hat s) x sp k l).
Proof. exact run_gain. Qed.
Print Assumptions C100_modulus_partial.
Theorem C100_stable_steps_partial : forall y,
  (gain2 RK4_ y <= 1 <-> y ^ 2 <= 8)
  /\ (gain2 RK5_ y <= 1 <-> y = 0 \/ 9 * y ^ 6 - 224 * y ^ 4 + 1920 * y ^ 2 <= 1280)
  /\ (y <> 0 -> 1 < gain2 RK2_ y).
Proof. exact (fun y => conj (gain4 y) (conj (gain5 y) (gain_2 y))). Qed.
Print Assumptions C100_stable_steps_partial.
(** RK2 makes a mode grow beyond any bound, at every step size. *)
Theorem C100_refuted : exists c b s, lin_ok c /\ streams_freely c /\ linear_solver c = Ok (b, s)
  /\ forall dt M, dt <> 0 -> exists n s', lin_run c b (repeat (RK2_, dt) n) s = Ok s' /\ M < cmod2 (el (f_hat s') 0 0 1 0).
Proof. exact rk2_blows_up. Qed.
Print Assumptions C100_refuted.

(** One RK4 step of 1/2 does not amplify the mode of the example. *)
Example C100_applies : exists b s s', linear_solver fs_c = Ok (b, s) /\ lin_run fs_c b [(RK4_, 1/2)] s = Ok s'
  /\ cmod2 (el (f_hat s) 0 0 1 0) = 4 / 9 /\ cmod2 (el (f_hat s') 0 0 1 0) <= 4 / 9.
Proof.
  destruct fs_start as (b&s&E&C). destruct (fs_steps b [(RK4_, 1/2)] s) as (s'&R).
  exists b, s, s'. split; [exact E|split; [exact R|split; [exact C|]]].
  rewrite (C100_modulus_partial fs_c b [(RK4_, 1/2)] 0 0 1 0 fs_free fs_ok ltac:(split; cbn; lia) s s' R), C.
  cbn [fold_right fst snd]. rewrite fs_omega.
  assert (G : gain2 RK4_ (- (2 * PI / 3) * (1 / 2)) <= 1).
  { apply C100_stable_steps_partial. assert (P := PI_RGT_0). assert (P4 := PI_4).
    replace ((- (2 * PI / 3) * (1 / 2)) ^ 2) with (PI * PI / 9) by field. nra. }
  lra.
Qed.

(** C101.  Runs with small RK4 and RK5 steps follow the exact phase. *)
Theorem C101_phases_are_exact_to_order : forall c b steps x sp k l, streams_freely c -> lin_ok c -> mode_in c k l ->
  (forall m dt, In (m, dt) steps -> small_step m (omega c x sp k l * dt)) ->
  forall s s', lin_run c b steps s = Ok s' ->
  cmod (csub (el (f_hat s') x sp k l) (cmul (cis (- (omega c x sp k l * lin_duration steps))) (el (f_hat s) x sp k l)))
  <= total_error (omega c x sp k l) steps * cmod (el (f_hat s) x sp k l).
Proof. exact run_accuracy. Qed.
Print Assumptions C101_phases_are_exact_to_order.

Example C101_applies : exists b s s', linear_solver fs_c = Ok (b, s)
  /\ lin_run fs_c b [(RK4_, 1/2); (RK5_, 1/10)] s = Ok s'
  /\ cmod2 (el (f_hat s) 0 0 1 0) = 4 / 9
  /\ cmod (csub (el (f_hat s') 0 0 1 0) (cmul (cis (2 * PI / 5)) (el (f_hat s) 0 0 1 0)))
     <= total_error (- (2 * PI / 3)) [(RK4_, 1/2); (RK5_, 1/10)] * cmod (el (f_hat s) 0 0 1 0).
Proof.
  destruct fs_start as (b&s&E&C). destruct (fs_steps b [(RK4_, 1/2); (RK5_, 1/10)] s) as (s'&R).
  exists b, s, s'. split; [exact E|split; [exact R|split; [exact C|]]].
  assert (P := PI_RGT_0). assert (P4 := PI_4).
  pose proof (C101_phases_are_exact_to_order fs_c b [(RK4_, 1/2); (RK5_, 1/10)] 0 0 1 0 fs_free fs_ok ltac:(split; cbn; lia)) as Q.
  rewrite fs_omega in Q.
  assert (SM : forall m dt, In (m, dt) [(RK4_, 1/2); (RK5_, 1/10)] -> small_step m (- (2 * PI / 3) * dt)).
  { intros m dt [H|[H|[]]]; inversion H; subst; cbn [small_step].
    - replace (- (2 * PI / 3) * (1 / 2)) with (- (PI / 3)) by field. rewrite Rabs_Ropp, Rabs_pos_eq; lra.
    - replace ((- (2 * PI / 3) * (1 / 10)) ^ 2) with (PI * PI / 225) by field. nra. }
  specialize (Q SM s s' R). unfold lin_duration in Q. cbn [fold_right snd] in Q.
  replace (- (- (2 * PI / 3) * (1 / 2 + (1 / 10 + 0)))) with (2 * PI / 5) in Q by field. exact Q.
Qed.
