(** Semi-Lagrangian advection: C42 and C76-C80. *)
From Coq Require Import ZArith Reals Lra Lia String List Bool.
From Verif Require Import Base.Prelude Base.ZSum Model.Af Model.Petsc Model.Config Model.Fvm Model.Em
  Model.Splitting Model.SemiLag Model.Timestep Model.Solver Spec.Domain Spec.Lattice Spec.FvmProblem Spec.FvmRun Spec.Clock
  Spec.Interp Proofs.AfLemmas Proofs.InterpLemmas Proofs.SemiLagProps Proofs.SemiLagMore Props.ExSemiLag.
Import ListNotations.
Local Open Scope R_scope.

(** C42.  The advection sub-step on any periodic process grid: the new value in
    every cell is the old one, interpolated with the given weights on the global
    grid, at the foot of the characteristic through the cell's centre. *)
Theorem C42_characteristics : forall P k1 k2 w ap dt s u,
  wf_cfg (pc P) k1 k2 -> interpolates w ap -> uses (pc P) ap ->
  periodic_layout (lay (pc P)) -> (forall e, in_q (pc P) e = "periodic"%string) ->
  dq1 (pc P) <> 0 -> dq2 (pc P) <> 0 ->
  holds (pc P) (f_of s) u -> reach (pc P) (time_elapsed s) dt ->
  exists s', op_advect_q P dt s = Ok s'
  /\ holds (pc P) (f_of s') (characteristics (pc P) w (time_elapsed s) dt u)
  /\ fields s' = fields s /\ time_elapsed s' = time_elapsed s.
Proof. exact follow_characteristics. Qed.
Print Assumptions C42_characteristics.

(** dt = 1 on two ranks: half a cell.  The particles of momentum (-1/2, -1/2) in
    cell (3, 1), the last of the first rank, come from the point (3.5, 1.5). *)
Example C42_characteristics_applies : forall e, exists s',
  op_advect_q (sl sl_two false) 1 (sl_start sl_two e) = Ok s'
  /\ gval sl_two (f_of s') 0 0 3 1
     = interp2 catmull_rom (fun a b => sl_data 0%Z 0%Z (a mod 8)%Z (b mod 4)%Z) (7/2) (3/2).
Proof.
  intros e.
  destruct (C42_characteristics (sl sl_two false) PPM PPM catmull_rom spline 1 (sl_start sl_two e) sl_data)
    as (s'&H&V&_).
  - apply sl_wf.
  - apply spline_interpolates.
  - apply sl_uses.
  - apply sl_periodic_two.
  - reflexivity.
  - cbn; lra.
  - cbn; lra.
  - apply sl_holds.
  - apply sl_reach; auto. rewrite Rabs_R1. lra.
  - exists s'. split; [exact H|]. destruct V as (_&V).
    specialize (V 0%Z 0%Z 3%Z 1%Z).
    change (lay (pc (sl sl_two false))) with sl_two in V. rewrite V by (split; reflexivity || discriminate).
    unfold characteristics. cbn [lay pc sl sl_cfg gN1 gN2 sl_two].
    f_equal; unfold moved1, moved2, velocity_a; cbv -[Rplus Rmult Ropp Rdiv Rinv IZR Rminus]; lra.
Qed.

(** Histories of steps: each is the splitting method's combination of transport
    along characteristics and collisions, computed cell by cell on the global grid. *)
Theorem C42_history : forall P k1 k2 w ap h s u,
  streaming P -> wf_cfg (pc P) k1 k2 -> interpolates w ap -> uses (pc P) ap ->
  holds (pc P) (f_of s) u -> reach_run (pc P) (time_elapsed s) h ->
  exists s', run_steps (solver_stepper P) h s = Ok (s', None)
  /\ holds (pc P) (f_of s') (transport P w (time_elapsed s) h u)
  /\ time_elapsed s' = time_elapsed s + elapsed h.
Proof. exact streaming_run. Qed.
Print Assumptions C42_history.

(** Three methods in a row, with collisions. *)
Example C42_history_applies : forall e, exists s',
  let h := [(Strang, 1); (Lie, 3/2); (Jia, -1/4)] in
  run_steps (solver_stepper (sl sl_two true)) h (sl_start sl_two e) = Ok (s', None)
  /\ holds (sl_cfg sl_two true) (f_of s') (transport (sl sl_two true) catmull_rom 0 h sl_data).
Proof.
  intros e.
  destruct (C42_history (sl sl_two true) PPM PPM catmull_rom spline [(Strang, 1); (Lie, 3/2); (Jia, -1/4)]
    (sl_start sl_two e) sl_data) as (s'&H&V&_).
  - apply sl_streaming, sl_periodic_two.
  - apply sl_wf.
  - apply spline_interpolates.
  - apply sl_uses.
  - apply sl_holds.
  - apply sl_reach_run; auto. repeat constructor; cbn [snd]; apply Rabs_def1; lra.
  - exists s'. split; [exact H|exact V].
Qed.

(** Displacements by a whole number of cells, up to the width of the ghost zones:
    n steps shift by n times as much, exactly, round the periodic domain. *)
Theorem C42_exact_shift : forall P k1 k2 w ap d1 d2 dt h s u,
  streaming P -> quiet P -> wf_cfg (pc P) k1 k2 -> interpolates w ap -> uses (pc P) ap ->
  (forall t x sp g1 g2, inb (N_p (pc P)) x -> inb (N_species (pc P)) sp ->
     inb (gN1 (lay (pc P))) g1 -> inb (gN2 (lay (pc P))) g2 ->
     moved1 (pc P) t dt x sp g1 g2 = IZR (d1 x sp) /\ moved2 (pc P) t dt x sp g1 g2 = IZR (d2 x sp)
     /\ (Z.abs (d1 x sp) <= ng1 (lay (pc P)))%Z /\ (Z.abs (d2 x sp) <= ng2 (lay (pc P)))%Z) ->
  Forall (fun k => (fst k = Lie \/ fst k = Swss) /\ snd k = dt) h ->
  holds (pc P) (f_of s) u ->
  let n := Z.of_nat (List.length h) in
  exists s', run_steps (solver_stepper P) h s = Ok (s', None)
  /\ holds (pc P) (f_of s') (fun x sp g1 g2 =>
       u x sp ((g1 - n * d1 x sp) mod gN1 (lay (pc P)))%Z ((g2 - n * d2 x sp) mod gN2 (lay (pc P)))%Z).
Proof. exact exact_shift_run. Qed.
Print Assumptions C42_exact_shift.

(** dt = 2: one cell per step to the left or right, up or down.  After five steps
    momentum (1/2, -1/2) in cell (3, 1) has what was in cell (-2, 6) = (6, 2). *)
Example C42_exact_shift_applies : forall e, exists s',
  run_steps (solver_stepper (sl sl_two false)) (repeat (Lie, 2) 5) (sl_start sl_two e) = Ok (s', None)
  /\ gval sl_two (f_of s') 1 0 3 1 = sl_data 1%Z 0%Z 6%Z 2%Z.
Proof.
  intros e.
  destruct (C42_exact_shift (sl sl_two false) PPM PPM catmull_rom spline
    (fun x _ => 2 * (x mod 2) - 1)%Z (fun x _ => 2 * (x / 2) - 1)%Z 2 (repeat (Lie, 2) 5) (sl_start sl_two e) sl_data)
    as (s'&H&V).
  - apply sl_streaming, sl_periodic_two.
  - apply sl_quiet.
  - apply sl_wf.
  - apply spline_interpolates.
  - apply sl_uses.
  - intros t x sp g1 g2 Hx Hs _ _. change (inb 4 x) in Hx. change (inb 1 sp) in Hs.
    assert (sp = 0%Z) as -> by (unfold inb in Hs; lia).
    assert (x = 0 \/ x = 1 \/ x = 2 \/ x = 3)%Z as HH by (unfold inb in Hx; lia).
    destruct HH as [-> |[-> |[-> | ->]]]; unfold moved1, moved2, velocity_a;
    (split; [|split; [|split; cbn; lia]]); cbv -[Rplus Rmult Ropp Rdiv Rinv IZR]; lra.
  - repeat constructor.
  - apply sl_holds.
  - exists s'. split; [exact H|]. destruct V as (_&V).
    specialize (V 1%Z 0%Z 3%Z 1%Z). change (lay (pc (sl sl_two false))) with sl_two in V.
    rewrite V by (split; reflexivity || discriminate). reflexivity.
Qed.

(** The momentum sub-step with one species, in one cell of space with fields E2,
    E3: along p2 and p3 the new value is the old one at the foot of the
    characteristic, and 0 when the foot is off the momentum grid.  Missing: p1. *)
Theorem C42_momentum_partial : forall c k1 k2 w ap,
  wf_cfg c k1 k2 -> interpolates w ap -> N_species c = 1%Z ->
  forall r1 r2 t dt, (0 < n1g (lay c) r1)%Z -> (0 < n2g (lay c) r2)%Z ->
  nth 0 (dp2 c) 0 <> 0 /\ nth 0 (dp3 c) 0 <> 0 ->
  forall E2 E3 f, on_rank c r1 r2 f ->
  exists f', f_interp_p_3d c ap r1 r2 t dt E2 E3 f = Ok f' /\ on_rank c r1 r2 f'
  /\ forall i1 i2 i3 s i j, inb (N_p1 c) i1 -> inb (N_p2 c) i2 -> inb (N_p3 c) i3 ->
     inb (N_species c) s -> inb (n1g (lay c) r1) i -> inb (n2g (lay c) r2) j ->
     let row i1 i2 i3 := (i1 + N_p1 c * (i2 + N_p2 c * i3))%Z in
     let g1 := (off (blk1 (lay c)) r1 + i - ng1 (lay c))%Z in
     let g2 := (off (blk2 (lay c)) r2 + j - ng2 (lay c))%Z in
     let X := IZR i2 - moved_p2 c t dt (fun n => el E2 n 0 i j) g1 g2 (row i1 i2 i3) s in
     let Y := IZR i3 - moved_p3 c t dt (fun n => el E3 n 0 i j) g1 g2 (row i1 i2 i3) s in
     (fits (N_p2 c) X -> fits (N_p3 c) Y ->
      el f' (row i1 i2 i3) s i j = interp2 w (fun a b => el f (row i1 a b) s i j) X Y)
     /\ (off_table (N_p2 c) X \/ off_table (N_p3 c) Y -> el f' (row i1 i2 i3) s i j = 0).
Proof. exact interp_p. Qed.
Print Assumptions C42_momentum_partial.

(** Force 1/3 along p2, dt = 1: cell 2 takes the value at 5/3; cell 0 the value
    off the grid. *)
Example C42_momentum_applies : forall E,
  let f := Arr 10 1 14 10 (fun x _ i j => IZR (1 + x * x + i * j)) in
  exists f', f_interp_p_3d sp_cfg spline 0 0 0 1 E E f = Ok f'
  /\ el f' 5 0 4 4 = interp2 catmull_rom (fun a b => el f (1 + 2 * (a + 5 * b)) 0 4 4) (5/3) 0
  /\ el f' 1 0 4 4 = 0.
Proof.
  intros E f.
  destruct (C42_momentum_partial sp_cfg PPM PPM catmull_rom spline sp_wf spline_interpolates eq_refl 0 0 0 1
    eq_refl eq_refl ltac:(cbn; lra) E E f) as (f'&H&_&V).
  - repeat split.
  - exists f'. split; [exact H|].
    assert (M2 : forall g1 g2 x, moved_p2 sp_cfg 0 1 (fun n => el E n 0 4 4) g1 g2 x 0 = 1/3).
    { intros. unfold moved_p2. cbn. lra. }
    assert (M3 : forall g1 g2 x, moved_p3 sp_cfg 0 1 (fun n => el E n 0 4 4) g1 g2 x 0 = 0).
    { intros. unfold moved_p3. cbn. lra. }
    split.
    + specialize (V 1%Z 2%Z 0%Z 0%Z 4%Z 4%Z). cbv zeta in V. rewrite M2, M3 in V.
      replace (2 - 1/3) with (5/3) in V by lra. rewrite Rminus_0_r in V.
      destruct V as (V&_); try (split; reflexivity || discriminate).
      apply V.
      * left. rewrite (Int_part_unique (5/3) 1) by lra. cbn. lia.
      * right. rewrite Int_part_Z, frac_part_Z. cbn. split; [reflexivity|lia].
    + specialize (V 1%Z 0%Z 0%Z 0%Z 4%Z 4%Z). cbv zeta in V. rewrite M2, M3 in V.
      destruct V as (_&V); try (split; reflexivity || discriminate).
      apply V. left. left. lra.
Qed.

(** The full statement fails: whatever the force along p1, the momentum sub-step
    of a run whose forces along p2 and p3 vanish leaves f as it was, with every
    field solver. *)
Theorem C42_p1_refuted : forall P k1 k2 w dt s s',
  wf_cfg (pc P) k1 k2 -> interpolates w (approx_p P) -> N_species (pc P) = 1%Z ->
  periodic_layout (lay (pc P)) -> nth 0 (dp2 (pc P)) 0 <> 0 -> nth 0 (dp3 (pc P)) 0 <> 0 ->
  (forall s t q1 q2 p1 p2 p3 E1 E2 E3 B1 B2 B3, exists a,
     A_p (pc P) s t q1 q2 p1 p2 p3 E1 E2 E3 B1 B2 B3 = (a, 0, 0)) ->
  shaped (lay (pc P)) (N_p (pc P)) (N_species (pc P)) (f_of s) ->
  op_fields P dt s = Ok s' ->
  forall r1 r2, rank_ok (lay (pc P)) r1 r2 -> aeq (f_of s' r1 r2) (f_of s r1 r2).
Proof. exact p1_op. Qed.
Print Assumptions C42_p1_refuted.

(** A force of at least 1 along p1 and data that increase along p1: nothing moves. *)
Example C42_p1_applies : forall e dt,
  (forall E1, 1 <= fst (fst (A_p (sl_cfg sl_two false) 0 0 0 0 0 0 0 E1 0 0 0 0 0)))
  /\ exists s', op_fields (sl sl_two false) dt (sl_start sl_two e) = Ok s'
  /\ gval sl_two (f_of s') 1 0 3 1 = 5 /\ gval sl_two (f_of s') 0 0 3 1 = 4.
Proof.
  intros e dt.
  assert (FP : forall s t q1 q2 p1 p2 p3 E1 E2 E3 B1 B2 B3, exists a,
     A_p (pc (sl sl_two false)) s t q1 q2 p1 p2 p3 E1 E2 E3 B1 B2 B3 = (a, 0, 0)) by (intros; eexists; reflexivity).
  split; [intros; cbn; nra|].
  destruct (p1_op_total (sl sl_two false) PPM PPM catmull_rom dt (sl_start sl_two e)) as (s'&H); auto.
  - apply sl_wf.
  - apply spline_interpolates.
  - apply sl_periodic_two.
  - cbn; lra.
  - cbn; lra.
  - cbn; discriminate.
  - cbn; discriminate.
  - apply sl_shaped.
  - exists s'. split; [exact H|].
    pose proof (C42_p1_refuted (sl sl_two false) PPM PPM catmull_rom dt (sl_start sl_two e) s') as K.
    specialize (K (sl_wf _ _) spline_interpolates eq_refl sl_periodic_two).
    assert (RK : rank_ok sl_two 0 0) by (split; cbn; lia).
    specialize (K ltac:(cbn; lra) ltac:(cbn; lra) FP (sl_shaped _ _) H 0%nat 0%nat RK).
    destruct K as ((D0&D1&D2&D3)&V).
    assert (VE : forall x s g1 g2, inb 4 x -> inb 1 s -> inb 4 g1 -> inb 4 g2 ->
       gval sl_two (f_of s') x s g1 g2 = sl_data x s g1 g2).
    { intros x s g1 g2 Hx Hs H1 H2. unfold gval.
      replace (owner (blk1 sl_two) g1) with 0%nat.
      2:{ cbn. destruct (Z.ltb_spec g1 4); [reflexivity|unfold inb in H1; lia]. }
      replace (owner (blk2 sl_two) g2) with 0%nat.
      2:{ cbn. destruct (Z.ltb_spec g2 4); [reflexivity|unfold inb in H2; lia]. }
      rewrite V.
      - unfold f_of, sl_start, sl_state; cbn [fpart sf el]. unfold sl_data. f_equal. cbn [blk1 blk2 ng1 ng2 sl_two]. unfold off. cbn [firstn zlsum]. ring.
      - unfold inside. rewrite D0, D1, D2, D3. change (off (blk1 sl_two) 0) with 0%Z. change (off (blk2 sl_two) 0) with 0%Z.
        change (ng1 sl_two) with 3%Z. change (ng2 sl_two) with 3%Z.
        change (inb 4 x /\ inb 1 s /\ inb 10 (3 + (g1 - 0)) /\ inb 10 (3 + (g2 - 0))). unfold inb in *. lia. }
    rewrite !VE by (split; reflexivity || discriminate). split; unfold sl_data; f_equal; reflexivity.
Qed.

(** C76.  Velocities independent of the position, no source: the number of
    particles of every momentum and species is the same after any steps. *)
Theorem C76_number : forall P k1 k2 w ap h s,
  streaming P -> quiet P -> wf_cfg (pc P) k1 k2 -> interpolates w ap -> normalised w -> uses (pc P) ap ->
  streams (pc P) -> shaped (lay (pc P)) (N_p (pc P)) (N_species (pc P)) (f_of s) ->
  reach_run (pc P) (time_elapsed s) h ->
  exists s', run_steps (solver_stepper P) h s = Ok (s', None)
  /\ forall x sp, inb (N_p (pc P)) x -> inb (N_species (pc P)) sp ->
     gtotal (lay (pc P)) (f_of s') x sp = gtotal (lay (pc P)) (f_of s) x sp.
Proof. exact streaming_number. Qed.
Print Assumptions C76_number.

(** With collisions that conserve particles: that of every species. *)
Theorem C76_total : forall P k1 k2 w ap h s,
  streaming P -> wf_cfg (pc P) k1 k2 -> interpolates w ap -> normalised w -> uses (pc P) ap ->
  streams (pc P) -> source_conserves (pc P) ->
  (instantaneous P = true -> forall t q1 q2 v sp,
     zsum (N_p (pc P)) (fun x => source_inst P t q1 q2 v x sp) = zsum (N_p (pc P)) (fun x => v x sp)) ->
  shaped (lay (pc P)) (N_p (pc P)) (N_species (pc P)) (f_of s) ->
  reach_run (pc P) (time_elapsed s) h ->
  exists s', run_steps (solver_stepper P) h s = Ok (s', None)
  /\ forall sp, inb (N_species (pc P)) sp ->
     zsum (N_p (pc P)) (fun x => gtotal (lay (pc P)) (f_of s') x sp)
     = zsum (N_p (pc P)) (fun x => gtotal (lay (pc P)) (f_of s) x sp).
Proof. exact streaming_total. Qed.
Print Assumptions C76_total.

Example C76_applies : forall e,
  (exists s', run_steps (solver_stepper (sl sl_two false)) [(Strang, 1); (Lie, 3/2); (Jia, -1/4)] (sl_start sl_two e) = Ok (s', None)
   /\ gtotal sl_two (f_of s') 3 0 = gtotal sl_two (sf (sl_state sl_two)) 3 0)
  /\ (exists s', run_steps (solver_stepper (sl sl_two true)) [(Strang, 1); (Lie, 3/2); (Jia, -1/4)] (sl_start sl_two e) = Ok (s', None)
   /\ zsum 4 (fun x => gtotal sl_two (f_of s') x 0) = zsum 4 (fun x => gtotal sl_two (sf (sl_state sl_two)) x 0)).
Proof.
  intros e. split.
  - destruct (C76_number (sl sl_two false) PPM PPM catmull_rom spline [(Strang, 1); (Lie, 3/2); (Jia, -1/4)]
      (sl_start sl_two e)) as (s'&H&V).
    + apply sl_streaming, sl_periodic_two.
    + apply sl_quiet.
    + apply sl_wf.
    + apply spline_interpolates.
    + apply catmull_rom_normalised.
    + apply sl_uses.
    + apply sl_streams.
    + apply sl_shaped.
    + apply sl_reach_run; auto. repeat constructor; cbn [snd]; apply Rabs_def1; lra.
    + exists s'. split; [exact H|]. apply (V 3%Z 0%Z); split; reflexivity || discriminate.
  - destruct (C76_total (sl sl_two true) PPM PPM catmull_rom spline [(Strang, 1); (Lie, 3/2); (Jia, -1/4)]
      (sl_start sl_two e)) as (s'&H&V).
    + apply sl_streaming, sl_periodic_two.
    + apply sl_wf.
    + apply spline_interpolates.
    + apply catmull_rom_normalised.
    + apply sl_uses.
    + apply sl_streams.
    + right. intros t q1 q2 w s. change (N_p (pc (sl sl_two true))) with 4%Z.
      cbn [source pc sl sl_cfg]. rewrite !zsum4. lra.
    + discriminate.
    + apply sl_shaped.
    + apply sl_reach_run; auto. repeat constructor; cbn [snd]; apply Rabs_def1; lra.
    + exists s'. split; [exact H|]. apply (V 0%Z); split; reflexivity || discriminate.
Qed.

(** C77.  The same global data on two process grids: after any steps the data are
    the same again. *)
Theorem C77_layouts : forall P L' k1 k2 w ap h s s' u,
  streaming P -> streaming (on_layout P L') -> wf_cfg (pc P) k1 k2 -> interpolates w ap -> uses (pc P) ap ->
  gN1 L' = gN1 (lay (pc P)) -> gN2 L' = gN2 (lay (pc P)) ->
  reach_run (pc P) (time_elapsed s) h -> reach_run (with_layout (pc P) L') (time_elapsed s) h ->
  time_elapsed s' = time_elapsed s ->
  holds (pc P) (f_of s) u -> holds (with_layout (pc P) L') (f_of s') u ->
  exists r r' v, run_steps (solver_stepper P) h s = Ok (r, None)
  /\ run_steps (solver_stepper (on_layout P L')) h s' = Ok (r', None)
  /\ holds (pc P) (f_of r) v /\ holds (with_layout (pc P) L') (f_of r') v.
Proof. exact streaming_layouts. Qed.
Print Assumptions C77_layouts.

Example C77_applies : forall e e', exists r r' v,
  let h := [(Strang, 1); (Lie, 3/2); (Jia, -1/4)] in
  run_steps (solver_stepper (sl sl_two true)) h (sl_start sl_two e) = Ok (r, None)
  /\ run_steps (solver_stepper (on_layout (sl sl_two true) sl_one)) h (sl_start sl_one e') = Ok (r', None)
  /\ holds (sl_cfg sl_two true) (f_of r) v /\ holds (sl_cfg sl_one true) (f_of r') v.
Proof.
  intros e e'.
  apply (C77_layouts (sl sl_two true) sl_one PPM PPM catmull_rom spline) with (u := sl_data); auto.
  - apply sl_streaming, sl_periodic_two.
  - destruct (sl_streaming sl_one true sl_periodic_one). constructor; auto.
  - apply sl_wf.
  - apply spline_interpolates.
  - apply sl_uses.
  - apply sl_reach_run; auto. repeat constructor; cbn [snd]; apply Rabs_def1; lra.
  - apply (sl_reach_run sl_one true); auto. repeat constructor; cbn [snd]; apply Rabs_def1; lra.
  - apply sl_holds.
  - apply (sl_holds sl_one true).
Qed.

(** C78.  A state that does not depend on the position stays as it is, whatever
    the velocities. *)
Theorem C78_uniform : forall P k1 k2 w ap h s a,
  streaming P -> quiet P -> wf_cfg (pc P) k1 k2 -> interpolates w ap -> normalised w -> uses (pc P) ap ->
  holds (pc P) (f_of s) (fun x sp _ _ => a x sp) -> reach_run (pc P) (time_elapsed s) h ->
  exists s', run_steps (solver_stepper P) h s = Ok (s', None) /\ holds (pc P) (f_of s') (fun x sp _ _ => a x sp).
Proof. exact streaming_uniform. Qed.
Print Assumptions C78_uniform.

Example C78_applies : forall e,
  let s := Solver (FState (fun r1 r2 => Arr 4 1 (n1g sl_two r1) (n2g sl_two r2) (fun x _ _ _ => IZR (x + 7))) (fun _ _ _ => 0)) e 0 0 in
  exists s', run_steps (solver_stepper (sl sl_two false)) [(Strang, 1); (Lie, 3/2); (Jia, -1/4)] s = Ok (s', None)
  /\ holds (sl_cfg sl_two false) (f_of s') (fun x _ _ _ => IZR (x + 7)).
Proof.
  intros e s.
  apply (C78_uniform (sl sl_two false) PPM PPM catmull_rom spline [(Strang, 1); (Lie, 3/2); (Jia, -1/4)] s).
  - apply sl_streaming, sl_periodic_two.
  - apply sl_quiet.
  - apply sl_wf.
  - apply spline_interpolates.
  - apply catmull_rom_normalised.
  - apply sl_uses.
  - split; [intros r1 r2 _; cbn; auto|]. intros. reflexivity.
  - apply sl_reach_run; auto. repeat constructor; cbn [snd]; apply Rabs_def1; lra.
Qed.

(** C79.  A displacement larger than the distance to the far end of the ghost
    zones is not reported: the particles are gone. *)
Theorem C79_beyond_reach_refuted : forall P k1 k2 w ap dt s,
  wf_cfg (pc P) k1 k2 -> interpolates w ap -> uses (pc P) ap ->
  periodic_layout (lay (pc P)) -> (forall e, in_q (pc P) e = "periodic"%string) ->
  dq1 (pc P) <> 0 -> dq2 (pc P) <> 0 -> shaped (lay (pc P)) (N_p (pc P)) (N_species (pc P)) (f_of s) ->
  let c := pc P in let L := lay c in
  exists s', op_advect_q P dt s = Ok s' /\ forall x sp g1 g2,
    inb (N_p c) x -> inb (N_species c) sp -> inb (gN1 L) g1 -> inb (gN2 L) g2 ->
    IZR (g1 - off (blk1 L) (owner (blk1 L) g1) + ng1 L) < moved1 c (time_elapsed s) dt x sp g1 g2 ->
    gval L (f_of s') x sp g1 g2 = 0.
Proof. exact beyond_reach. Qed.
Print Assumptions C79_beyond_reach_refuted.

(** dt = 8: four cells, ghost zones three wide.  Cells 0 and 4, the first of each
    rank, lose the particles that move right. *)
Example C79_applies : forall e, exists s',
  op_advect_q (sl sl_two false) 8 (sl_start sl_two e) = Ok s'
  /\ gval sl_two (f_of s') 1 0 0 1 = 0 /\ gval sl_two (f_of s') 1 0 4 1 = 0
  /\ sl_data 1%Z 0%Z 0%Z 1%Z = 2 /\ sl_data 1%Z 0%Z 4%Z 1%Z = 6.
Proof.
  intros e.
  destruct (C79_beyond_reach_refuted (sl sl_two false) PPM PPM catmull_rom spline 8 (sl_start sl_two e)) as (s'&H&V).
  - apply sl_wf.
  - apply spline_interpolates.
  - apply sl_uses.
  - apply sl_periodic_two.
  - reflexivity.
  - cbn; lra.
  - cbn; lra.
  - apply sl_shaped.
  - exists s'. split; [exact H|]. change (lay (pc (sl sl_two false))) with sl_two in V.
    assert (M : forall g1, moved1 (pc (sl sl_two false)) (time_elapsed (sl_start sl_two e)) 8 1 0 g1 1 = 4).
    { intros. unfold moved1, velocity_a. cbv -[Rplus Rmult Ropp Rdiv Rinv IZR]. lra. }
    split; [|split; [|split; reflexivity]];
    (apply V; [split; reflexivity || discriminate..|]); rewrite M; cbn; lra.
Qed.

(** C80.  Several species: the momentum sub-step fails on every data unless there
    are as many species as cells along p2, or one such cell. *)
Theorem C80_species_refuted : forall P dt s s',
  (1 < N_species (pc P))%Z -> N_p2 (pc P) <> N_species (pc P) -> N_p2 (pc P) <> 1%Z ->
  Z.of_nat (List.length (p2_start (pc P))) = N_species (pc P) ->
  Z.of_nat (List.length (dp2 (pc P))) = N_species (pc P) ->
  rank_ok (lay (pc P)) 0 0 -> op_fields P dt s <> Ok s'.
Proof. exact species_op. Qed.
Print Assumptions C80_species_refuted.

(** As many species as cells along p2: cell i2 of every species is placed on the
    grid of species i2.  Without any force along p2, particles whose momentum is
    below that grid are wiped out. *)
Theorem C80_mixed_refuted : forall c k1 k2 w ap r1 r2 t dt E2 E3 f,
  wf_cfg c k1 k2 -> interpolates w ap -> N_p2 c = N_species c ->
  (0 < n1g (lay c) r1)%Z -> (0 < n2g (lay c) r2)%Z ->
  (forall s t q1 q2 p1 p2 p3 E1 E2 E3 B1 B2 B3, exists a b,
     A_p c s t q1 q2 p1 p2 p3 E1 E2 E3 B1 B2 B3 = (a, 0, b)) ->
  on_rank c r1 r2 f ->
  exists f', f_interp_p_3d c ap r1 r2 t dt E2 E3 f = Ok f' /\ forall x s i j,
    inb (N_p c) x -> inb (N_species c) s -> inb (n1g (lay c) r1) i -> inb (n2g (lay c) r2) j ->
    let i2 := Z.to_nat ((x / N_p1 c) mod N_p2 c) in
    0 < nth i2 (dp2 c) 0 ->
    mom2 c (1/2) x s < nth i2 (p2_start c) 0 + 1/2 * nth i2 (dp2 c) 0 ->
    el f' x s i j = 0.
Proof. exact species_mixed. Qed.
Print Assumptions C80_mixed_refuted.

(** Grids [-1, 1] and [-2, 2] for two species: with three cells along p2 no step
    is possible, with two the lower half of the second species goes. *)
Example C80_applies : forall e dt E,
  (forall s', op_fields (ss 3) dt (sl_start sl_one e) <> Ok s')
  /\ let f := Arr 4 2 14 10 (fun _ _ _ _ => 1) in
  exists f', f_interp_p_3d (ss_cfg 2) spline 0 0 0 dt E E f = Ok f' /\ el f' 0 1 4 4 = 0 /\ el f' 1 1 4 4 = 0.
Proof.
  intros e dt E. split.
  - intros s'. apply C80_species_refuted; try reflexivity; try discriminate. split; cbn; lia.
  - intros f. destruct (C80_mixed_refuted (ss_cfg 2) PPM PPM catmull_rom spline 0 0 0 dt E E f) as (f'&H&V).
    + apply ss_wf. lia.
    + apply spline_interpolates.
    + reflexivity.
    + reflexivity.
    + reflexivity.
    + intros. do 2 eexists. reflexivity.
    + repeat split.
    + exists f'. split; [exact H|].
      split; (apply V; [split; reflexivity || discriminate..| |]); cbv -[Rplus Rmult Ropp Rdiv Rinv IZR Rlt]; lra.
Qed.
