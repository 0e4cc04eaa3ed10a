(** Instantaneous collisions. *)
From Coq Require Import ZArith Reals Lia Lra String List Bool.
From Verif Require Import Base.Prelude Base.ZSum Model.Af Model.Petsc Model.Config Model.Boundaries
  Model.Fvm Model.Em Model.Moments Model.Integrators Model.Splitting Model.SemiLag Model.Timestep
  Model.Solver Spec.Domain Spec.Lattice Spec.FvmProblem Spec.FvmRun Spec.Clock Spec.Interp Spec.TimeTerms Spec.Instant
  Proofs.TimestepLemmas Proofs.SolverLemmas Proofs.SourceLemmas Proofs.TimeTerms Proofs.InterpLemmas Proofs.SemiLagProps Props.ExFvm Props.ExEm Props.ExSolver Props.ExSemiLag.
Import ListNotations.
Local Open Scope R_scope.

Lemma op_fvm_instantly P on g : op_fvm (instantly P on g) = op_fvm P.
Proof. destruct P. reflexivity. Qed.

Lemma ignored P on g h s : solver_method_in_q (pc P) = "FVM"%string ->
  solver_method_in_p (pc P) = "FVM"%string \/ fields_enabled (pc P) = false ->
  run_steps (solver_stepper (instantly P on g)) h s = run_steps (solver_stepper P) h s.
Proof.
  intros Hq Hp. revert s. induction h as [|(m&dt) h IH]; intros s; [reflexivity|]. cbn [run_steps].
  rewrite (fvm_step_eq (solver_stepper (instantly P on g)) m dt s Hq Hp), (fvm_step_eq (solver_stepper P) m dt s Hq Hp).
  change (Timestep.op_fvm (solver_stepper (instantly P on g))) with (op_fvm (instantly P on g)). rewrite op_fvm_instantly.
  change (Timestep.op_fvm (solver_stepper P)) with (op_fvm P).
  change (set_dt (solver_stepper (instantly P on g)) dt s) with (set_dt (solver_stepper P) dt s).
  destruct (op_fvm P dt (set_dt (solver_stepper P) dt s)) as [s1|]; [|reflexivity]. cbn [rbind].
  change (diverged (solver_stepper (instantly P on g)) s1) with (diverged (solver_stepper P) s1).
  destruct (diverged (solver_stepper P) s1); [reflexivity|]. cbn [rbind]. apply IH.
Qed.

Lemma run_app P h g s s' : run_steps (solver_stepper P) (h ++ g) s = Ok (s', None) ->
  exists s1, run_steps (solver_stepper P) h s = Ok (s1, None) /\ run_steps (solver_stepper P) g s1 = Ok (s', None).
Proof.
  revert s. induction h as [|(m&dt) h IH]; intros s H; [exists s; auto|]. cbn [app run_steps] in H |- *.
  destruct (step_of (solver_stepper P) m dt s) as [(y&o)|]; [|discriminate]. cbn [rbind] in *. destruct o; [discriminate|]. auto.
Qed.

Lemma lie_relaxes P h dt s s' : streaming P -> instantaneous P = true -> settles P ->
  run_steps (solver_stepper P) (h ++ [(Lie, dt)]) s = Ok (s', None) -> relaxed P s'.
Proof.
  intros ST IN SE H. destruct (run_app P h _ s s' H) as (s1&_&H1). clear H. cbn [run_steps] in H1.
  destruct (step_of (solver_stepper P) Lie dt s1) as [(y&o)|] eqn:Q; [|discriminate]. cbn [rbind] in H1.
  destruct o; [discriminate|]. injection H1 as ->.
  unfold step_of, lie_step, step, advance in Q.
  change (method_q (solver_stepper P)) with (solver_method_in_q (pc P)) in Q. rewrite (st_q P ST) in Q. cbn [String.eqb Ascii.eqb Bool.eqb] in Q.
  change (with_fields (solver_stepper P)) with (fields_enabled (pc P)) in Q. rewrite (st_off P ST) in Q. cbn [lie] in Q.
  unfold lie in Q. change (Timestep.op_advect_q (solver_stepper P)) with (op_advect_q P) in Q. change (Timestep.op_solve_src (solver_stepper P)) with (op_solve_src P) in Q.
  destruct (op_advect_q P dt (set_dt (solver_stepper P) dt s1)) as [s2|]; [|discriminate]. cbn [rbind] in Q.
  pose proof (st_layout P ST) as (T1&T2&G1&G2&_).
  destruct (source_step P dt s2) as (s3&R3&_&TE&V); auto; try lia.
  rewrite R3 in Q. cbn [rbind] in Q. destruct (diverged (solver_stepper P) s3); [discriminate|]. injection Q as Q. subst s'.
  cbv zeta in V. rewrite IN in V. intros x sp i j Hx Hs Hi Hj.
  change (f_of (set_clock (solver_stepper P) (clock (solver_stepper P) s3 + dt) s3)) with (f_of s3).
  rewrite V by auto. set (w := fun y r => gval (lay (pc P)) (f_of s2) y r i j).
  match goal with |- source_inst P ?t ?q1 ?q2 _ _ _ = source_inst P ?t' _ _ _ _ _ =>
    rewrite <- (proj2 (SE t t' q1 q2 w) x sp (conj Hx Hs)); apply (proj1 (SE t t' q1 q2 _)); auto end.
  intros y r (Hy&Hr). symmetry. apply V; auto.
Qed.

(** ** Finite volumes *)
Definition ramp_inst : params := instantly ramp true mean_inst.
Lemma ramp_not_relaxed h : exists s', run_steps (solver_stepper ramp_inst) h (flat_state 0) = Ok (s', None) /\ ~ relaxed ramp_inst s'.
Proof.
  destruct (left_sums ramp MC MC eq_refl ramp_wf ramp_periodic _ ramp_driven ramp_vel h (flat_state 0) _ (ramp_holds 0)) as (s'&R1&_&H).
  exists s'. split; [unfold ramp_inst; rewrite ignored; auto|].
  intros RX. assert (I0 : inb 4 0) by (unfold inb; lia). assert (I1 : inb 4 1) by (unfold inb; lia). assert (Is : inb 2 0) by (unfold inb; lia).
  assert (Ig : inb 3 0) by (unfold inb; lia).
  pose proof (RX 0 0 0 0 I0 Is I0 Ig)%Z as A. pose proof (RX 1 0 0 0 I1 Is I0 Ig)%Z as B.
  set (m := mean_inst 0 0 0 (fun y r => gval (lay (pc ramp)) (f_of s') y r 0%Z 0%Z) 0%Z 0%Z).
  assert (A' : gval (lay (pc ramp)) (f_of s') 0 0 0 0 = m) by exact A.
  assert (B' : gval (lay (pc ramp)) (f_of s') 1 0 0 0 = m) by exact B. clear A B.
  rewrite (proj2 H 0 0 0 0 I0 Is I0 Ig)%Z in A'. rewrite (proj2 H 1 0 0 0 I1 Is I0 Ig)%Z in B'. unfold everywhere in A', B'.
  rewrite <- A' in B'. change (0 + 0)%Z with 0%Z in B'. change (1 + 0)%Z with 1%Z in B'. lra.
Qed.

(** ** Splitting: half a step of transport after the collisions *)
Definition sl_inst : params := instantly (sl sl_two true) true mean_inst.
Lemma sl_inst_streaming : streaming sl_inst.
Proof.
  pose proof (sl_streaming sl_two true sl_periodic_two) as S. constructor; try (exact (st_edges _ S)); try reflexivity.
  - exact sl_periodic_two.
  - exact (st_dq _ S).
  - intros _ t q1 q2 w w' H x s Hx Hs. assert (s = 0)%Z as -> by (unfold inb in Hs; change (N_species (pc sl_inst)) with 1%Z in Hs; lia).
    change (zsum 4 (fun y => w y 0%Z) / 4 = zsum 4 (fun y => w' y 0%Z) / 4). f_equal. apply zsum_ext. intros y Hy. apply H; auto.
Qed.
Lemma sl_inst_settles : settles sl_inst.
Proof.
  intros t t' q1 q2 w. split.
  - intros w' H x s (Hx&Hs). change (zsum 4 (fun y => w y s) / 4 = zsum 4 (fun y => w' y s) / 4). f_equal. apply zsum_ext. intros y Hy. apply H; auto.
  - intros x s _. change (zsum 4 (fun y => zsum 4 (fun z => w z s) / 4) / 4 = zsum 4 (fun z => w z s) / 4). rewrite zsum_const by lia. field.
Qed.

Definition pulse : gstate := fun _ _ g1 _ => if Z.eqb g1 0 then 1 else 0.
Definition pulse_start (e : em) : solver := Solver (FState (fun r1 r2 => Arr 4 1 (n1g sl_two r1) (n2g sl_two r2)
     (fun x s i j => pulse x s (off (blk1 sl_two) r1 + i - ng1 sl_two)%Z (off (blk2 sl_two) r2 + j - ng2 sl_two)%Z)) (fun _ _ _ => 0)) e 0 0.
Lemma pulse_holds e : holds (pc sl_inst) (f_of (pulse_start e)) pulse.
Proof.
  split; [intros r1 r2 _; cbn; auto|]. intros x s g1 g2 _ _ _ _. unfold gval. change (lay (pc sl_inst)) with sl_two.
  unfold f_of, pulse_start; cbn [sf el fpart]. f_equal; lia.
Qed.

Definition goes (b : bool) : Z := if b then 1%Z else (-1)%Z.
Lemma sl_moves t x g1 g2 : inb 4 x ->
  moved1 (pc sl_inst) t (1/2 * 4) x 0%Z g1 g2 = IZR (goes (Z.odd x)) /\ moved2 (pc sl_inst) t (1/2 * 4) x 0%Z g1 g2 = IZR (goes (2 <=? x)%Z).
Proof.
  intros Hx. assert (x = 0 \/ x = 1 \/ x = 2 \/ x = 3)%Z as HH by (unfold inb in Hx; lia).
  destruct HH as [-> |[-> |[-> | ->]]]; unfold moved1, moved2, velocity_a;
  cbv -[Rplus Rmult Ropp Rdiv Rinv IZR]; split; lra.
Qed.
Lemma sl_char t u x g1 g2 : inb 4 x -> characteristics (pc sl_inst) catmull_rom t (1/2 * 4) u x 0%Z g1 g2
  = u x 0%Z ((g1 - goes (Z.odd x)) mod 8)%Z ((g2 - goes (2 <=? x)%Z) mod 4)%Z.
Proof. intros Hx. destruct (sl_moves t x g1 g2 Hx) as (A&B). exact (characteristics_node (pc sl_inst) _ t _ u x 0%Z g1 g2 _ _ catmull_rom_nodal A B). Qed.

Lemma pulse_relaxed e : relaxed sl_inst (pulse_start e).
Proof.
  intros x sp i j Hx Hs Hi Hj. rewrite (proj2 (pulse_holds e) x sp i j Hx Hs Hi Hj).
  change (pulse x sp i j = zsum 4 (fun y => gval (lay (pc sl_inst)) (f_of (pulse_start e)) y sp i j) / 4).
  rewrite (zsum_ext 4 _ (fun _ => pulse x sp i j)).
  - rewrite zsum_const by lia. field.
  - intros y Hy. exact (proj2 (pulse_holds e) y sp i j Hy Hs Hi Hj).
Qed.

Lemma strang_unsettles e : exists s', run_steps (solver_stepper sl_inst) [(Strang, 4)] (pulse_start e) = Ok (s', None) /\ ~ relaxed sl_inst s'.
Proof.
  assert (RR : reach_run (pc sl_inst) (time_elapsed (pulse_start e)) [(Strang, 4)]).
  { cbn [reach_run]. split; [|exact I]. apply (sl_reach sl_two true); auto. apply Rabs_def1; lra. }
  destruct (streaming_run sl_inst PPM PPM catmull_rom spline _ _ _ sl_inst_streaming (sl_wf sl_two true) spline_interpolates (sl_uses sl_two true) (pulse_holds e) RR) as (s'&R1&H&_).
  exists s'. split; [exact R1|]. intros RX.
  assert (I0 : inb 4 0) by (unfold inb; lia). assert (I1 : inb 4 1) by (unfold inb; lia). assert (Is : inb 1 0) by (unfold inb; lia).
  assert (Ig : inb 8 2) by (unfold inb; lia).
  pose proof (RX 0 0 2 0 I0 Is Ig I0)%Z as A. pose proof (RX 1 0 2 0 I1 Is Ig I0)%Z as B.
  set (m := mean_inst 0 0 0 (fun y r => gval (lay (pc sl_inst)) (f_of s') y r 2%Z 0%Z) 0%Z 0%Z).
  assert (A' : gval (lay (pc sl_inst)) (f_of s') 0 0 2 0 = m) by exact A.
  assert (B' : gval (lay (pc sl_inst)) (f_of s') 1 0 2 0 = m) by exact B. clear A B.
  rewrite (proj2 H 0 0 2 0 I0 Is Ig I0)%Z in A'. rewrite (proj2 H 1 0 2 0 I1 Is Ig I0)%Z in B'. rewrite <- A' in B'. clear A' m RX H R1.
  cbn [transport compose] in B'. rewrite !sl_char in B' by auto.
  change (zsum 4 (fun y => characteristics (pc sl_inst) catmull_rom (time_elapsed (pulse_start e)) (1/2*4) pulse y 0%Z 1%Z 1%Z) / 4
     = zsum 4 (fun y => characteristics (pc sl_inst) catmull_rom (time_elapsed (pulse_start e)) (1/2*4) pulse y 0%Z 3%Z 1%Z) / 4) in B'.
  rewrite !(zsum_ext 4 (fun y => characteristics _ _ _ _ _ y _ _ _) _ (fun y Hy => sl_char _ _ _ _ _ Hy)) in B'.
  rewrite !InterpLemmas.zsum4 in B'. cbv -[Rplus Rmult Ropp Rdiv Rinv IZR] in B'. lra.
Qed.

Lemma strang_witness : exists P s s', instantaneous P = true /\ settles P /\ streaming P /\ relaxed P s
  /\ run_steps (solver_stepper P) [(Strang, 4)] s = Ok (s', None) /\ ~ relaxed P s'.
Proof.
  set (e := fields (flat_state 0)).
  destruct (strang_unsettles e) as (s'&A&B).
  exists sl_inst, (pulse_start e), s'. repeat (split; auto using sl_inst_settles, sl_inst_streaming, pulse_relaxed).
Qed.

Lemma ramp_inst_settles : settles ramp_inst.
Proof.
  intros t t' q1 q2 w. split.
  - intros w' H x s (Hx&Hs). change (zsum 4 (fun y => w y s) / 4 = zsum 4 (fun y => w' y s) / 4). f_equal. apply zsum_ext. intros y Hy. apply H; auto.
  - intros x s _. change (zsum 4 (fun y => zsum 4 (fun z => w z s) / 4) / 4 = zsum 4 (fun z => w z s) / 4). rewrite zsum_const by lia. field.
Qed.

(** ** A gas that a Lie step brings to equilibrium *)
Lemma sl_data_not_relaxed e : ~ relaxed sl_inst (sl_start sl_two e).
Proof.
  intros RX. assert (I0 : inb 4 0) by (unfold inb; lia). assert (I1 : inb 4 1) by (unfold inb; lia). assert (Is : inb 1 0) by (unfold inb; lia).
  assert (Ig : inb 8 0) by (unfold inb; lia).
  pose proof (RX 0 0 0 0 I0 Is Ig I0)%Z as A. pose proof (RX 1 0 0 0 I1 Is Ig I0)%Z as B.
  set (m := mean_inst 0 0 0 (fun y r => gval (lay (pc sl_inst)) (f_of (sl_start sl_two e)) y r 0%Z 0%Z) 0%Z 0%Z).
  assert (A' : gval (lay (pc sl_inst)) (f_of (sl_start sl_two e)) 0 0 0 0 = m) by exact A.
  assert (B' : gval (lay (pc sl_inst)) (f_of (sl_start sl_two e)) 1 0 0 0 = m) by exact B. clear A B.
  pose proof (sl_holds sl_two true) as H.
  assert (A2 : m = sl_data 0%Z 0%Z 0%Z 0%Z) by (rewrite <- A'; exact (proj2 H 0 0 0 0 I0 Is Ig I0)%Z).
  assert (B2 : m = sl_data 1%Z 0%Z 0%Z 0%Z) by (rewrite <- B'; exact (proj2 H 1 0 0 0 I1 Is Ig I0)%Z).
  rewrite A2 in B2. unfold sl_data in B2. apply eq_IZR in B2. discriminate.
Qed.
Lemma sl_inst_lie h dt e : Forall (fun k => Rabs (snd k) < 4) (h ++ [(Lie, dt)]) ->
  exists s', run_steps (solver_stepper sl_inst) (h ++ [(Lie, dt)]) (sl_start sl_two e) = Ok (s', None)
  /\ relaxed sl_inst s' /\ ~ relaxed sl_inst (sl_start sl_two e).
Proof.
  intros F.
  destruct (streaming_run sl_inst PPM PPM catmull_rom spline _ (sl_start sl_two e) sl_data sl_inst_streaming (sl_wf sl_two true) spline_interpolates (sl_uses sl_two true)
    (sl_holds sl_two true) (sl_reach_run sl_two true _ eq_refl eq_refl F 0)) as (s'&R1&_).
  exists s'. split; [exact R1|]. split; [|apply sl_data_not_relaxed].
  exact (lie_relaxes sl_inst h dt _ s' sl_inst_streaming eq_refl sl_inst_settles R1).
Qed.
