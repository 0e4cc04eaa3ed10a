(** C147: the symmetries of semi-Lagrangian runs.  [transport] in the proofs is the
    run's value on the global grid (C42); here the statements are about two or three
    runs and their distribution functions only. *)
From Coq Require Import ZArith Reals Lra Lia String List Bool.
From Verif Require Import Base.Prelude Base.ZSum Model.Af Model.Petsc Model.Config Model.Em Model.Timestep
  Model.Solver Spec.Domain Spec.Lattice Spec.FvmProblem Spec.FvmRun Spec.Symmetry Spec.Interp Spec.SlSym
  Proofs.InterpLemmas Proofs.SlSym Props.ExEm Props.ExSolver Props.ExSymmetry Props.ExSemiLag.
Import ListNotations.
Local Open Scope R_scope.

(** Moving the initial data by any number of cells moves the results by as many. *)
Theorem C147_translation : forall P k1 k2 w ap h s s' u d1 d2,
  streaming P -> wf_cfg (pc P) k1 k2 -> interpolates w ap -> uses (pc P) ap ->
  sl_everywhere P -> reach_run (pc P) (time_elapsed s) h -> time_elapsed s' = time_elapsed s ->
  holds (pc P) (f_of s) u -> holds (pc P) (f_of s') (moved (pc P) d1 d2 u) ->
  exists r r' v, run_steps (solver_stepper P) h s = Ok (r, None) /\ run_steps (solver_stepper P) h s' = Ok (r', None)
  /\ holds (pc P) (f_of r) v /\ holds (pc P) (f_of r') (moved (pc P) d1 d2 v).
Proof. exact sl_translation. Qed.
Print Assumptions C147_translation.

(** A combination of two initial states evolves into that combination of their results. *)
Theorem C147_superposition : forall P k1 k2 w ap h s1 s2 s3 u v a b,
  streaming P -> wf_cfg (pc P) k1 k2 -> interpolates w ap -> uses (pc P) ap ->
  sl_linear P -> reach_run (pc P) (time_elapsed s1) h -> time_elapsed s2 = time_elapsed s1 -> time_elapsed s3 = time_elapsed s1 ->
  holds (pc P) (f_of s1) u -> holds (pc P) (f_of s2) v ->
  holds (pc P) (f_of s3) (fun x s i j => a * u x s i j + b * v x s i j) ->
  exists r1 r2 r3 u' v', run_steps (solver_stepper P) h s1 = Ok (r1, None) /\ run_steps (solver_stepper P) h s2 = Ok (r2, None)
  /\ run_steps (solver_stepper P) h s3 = Ok (r3, None)
  /\ holds (pc P) (f_of r1) u' /\ holds (pc P) (f_of r2) v'
  /\ holds (pc P) (f_of r3) (fun x s i j => a * u' x s i j + b * v' x s i j).
Proof. exact sl_superposition. Qed.
Print Assumptions C147_superposition.

(** The mirror image of the initial data, in space and momentum, evolves into the mirror
    image, with collisions that treat both alike (or none). *)
Theorem C147_reflection : forall P k1 k2 w ap h s s' u b1 b2 rho,
  streaming P -> wf_cfg (pc P) k1 k2 -> interpolates w ap -> uses (pc P) ap ->
  even_weights w -> pairs_advection (pc P) b1 b2 rho -> pairs_sources P b1 b2 rho ->
  reach_run (pc P) (time_elapsed s) h -> time_elapsed s' = time_elapsed s ->
  holds (pc P) (f_of s) u -> holds (pc P) (f_of s') (reflection (pc P) b1 b2 rho u) ->
  exists r r' v, run_steps (solver_stepper P) h s = Ok (r, None) /\ run_steps (solver_stepper P) h s' = Ok (r', None)
  /\ holds (pc P) (f_of r) v /\ holds (pc P) (f_of r') (reflection (pc P) b1 b2 rho v).
Proof. exact sl_reflection. Qed.
Print Assumptions C147_reflection.

(** ** Examples: a cubic interpolation, 8 x 4 cells on 2 x 1 ranks. *)
Definition sl_at (u : gstate) (e : em) : solver := Solver (state_of (sl_cfg sl_two true) u) e 0 0.
Definition sl_hist := [(Strang, 1); (Lie, 3/2); (Jia, -1/4); (Swss, 1/3)].
Lemma sl_hist_reach src : reach_run (sl_cfg sl_two src) 0 sl_hist.
Proof. apply sl_reach_run; auto. repeat constructor; cbn [snd]; apply Rabs_def1; lra. Qed.
Lemma sl_everywhere_ex : sl_everywhere (sl sl_two true).
Proof. split; [apply sl_streams|split; reflexivity]. Qed.
Lemma sl_linear_ex : sl_linear (sl sl_two true).
Proof. split; intros; cbn [pc sl sl_cfg source source_inst]; unfold mean_inst; rewrite !zsum4; field. Qed.

(** Moved by (3, -1) cells; then what was in cell (0, 3) is in cell (3, 2). *)
Example C147_translation_applies : forall e e', exists r r',
  run_steps (solver_stepper (sl sl_two true)) sl_hist (sl_at sl_data e) = Ok (r, None)
  /\ run_steps (solver_stepper (sl sl_two true)) sl_hist (sl_at (moved (sl_cfg sl_two true) 3 (-1) sl_data) e') = Ok (r', None)
  /\ gval sl_two (f_of r') 1 0 3 2 = gval sl_two (f_of r) 1 0 0 3.
Proof.
  intros e e'.
  destruct (C147_translation (sl sl_two true) PPM PPM catmull_rom spline sl_hist (sl_at sl_data e)
    (sl_at (moved (sl_cfg sl_two true) 3 (-1) sl_data) e') sl_data 3 (-1)) as (r&r'&v&R&R'&V&V').
  - apply sl_streaming, sl_periodic_two.
  - apply sl_wf.
  - apply spline_interpolates.
  - apply sl_uses.
  - apply sl_everywhere_ex.
  - apply sl_hist_reach.
  - reflexivity.
  - exact (state_of_holds (sl_cfg sl_two true) sl_data).
  - exact (state_of_holds (sl_cfg sl_two true) _).
  - exists r, r'. split; [exact R|]. split; [exact R'|]. destruct V as (_&V), V' as (_&V').
    specialize (V 1%Z 0%Z 0%Z 3%Z). specialize (V' 1%Z 0%Z 3%Z 2%Z).
    change (lay (pc (sl sl_two true))) with sl_two in *.
    rewrite V, V' by (split; reflexivity || discriminate). reflexivity.
Qed.

(** Twice one state less another, with collisions. *)
Example C147_superposition_applies : forall e, let v := fun x s g1 g2 : Z => IZR (g1 - 3 * x) in exists r1 r2 r3,
  run_steps (solver_stepper (sl sl_two true)) sl_hist (sl_at sl_data e) = Ok (r1, None)
  /\ run_steps (solver_stepper (sl sl_two true)) sl_hist (sl_at v e) = Ok (r2, None)
  /\ run_steps (solver_stepper (sl sl_two true)) sl_hist
       (sl_at (fun x s i j => 2 * sl_data x s i j + (-1) * v x s i j) e) = Ok (r3, None)
  /\ gval sl_two (f_of r3) 1 0 3 2 = 2 * gval sl_two (f_of r1) 1 0 3 2 + (-1) * gval sl_two (f_of r2) 1 0 3 2.
Proof.
  intros e v.
  destruct (C147_superposition (sl sl_two true) PPM PPM catmull_rom spline sl_hist (sl_at sl_data e) (sl_at v e)
    (sl_at (fun x s i j => 2 * sl_data x s i j + (-1) * v x s i j) e) sl_data v 2 (-1)) as (r1&r2&r3&u'&v'&R1&R2&R3&V1&V2&V3).
  - apply sl_streaming, sl_periodic_two.
  - apply sl_wf.
  - apply spline_interpolates.
  - apply sl_uses.
  - apply sl_linear_ex.
  - apply sl_hist_reach.
  - reflexivity.
  - reflexivity.
  - exact (state_of_holds (sl_cfg sl_two true) sl_data).
  - exact (state_of_holds (sl_cfg sl_two true) v).
  - exact (state_of_holds (sl_cfg sl_two true) _).
  - exists r1, r2, r3. split; [exact R1|]. split; [exact R2|]. split; [exact R3|].
    destruct V1 as (_&V1), V2 as (_&V2), V3 as (_&V3).
    specialize (V1 1%Z 0%Z 3%Z 2%Z). specialize (V2 1%Z 0%Z 3%Z 2%Z). specialize (V3 1%Z 0%Z 3%Z 2%Z).
    change (lay (pc (sl sl_two true))) with sl_two in *.
    rewrite V1, V2, V3 by (split; reflexivity || discriminate). reflexivity.
Qed.

(** Mirrored along q1, momenta (p1, p2) paired with (-p1, p2), with collisions. *)
Definition sl_rho (x : Z) : Z := (x + 1 - 2 * (x mod 2))%Z.
Lemma sl_pairs src : pairs_advection (sl_cfg sl_two src) true false sl_rho.
Proof.
  intros t x s g1 g2 Hx Hs. change (inb 4 x) in Hx. change (inb 1 s) in Hs.
  assert (s = 0%Z) as -> by (unfold inb in Hs; lia).
  assert (x = 0 \/ x = 1 \/ x = 2 \/ x = 3)%Z as HH by (unfold inb in Hx; lia).
  split; [change (inb 4 (sl_rho x)); destruct HH as [-> |[-> |[-> | ->]]]; split; discriminate || reflexivity|].
  destruct HH as [-> |[-> |[-> | ->]]]; unfold velocity_a, turn;
  cbv -[Rplus Rmult Ropp Rdiv Rinv IZR]; f_equal; lra.
Qed.
Lemma catmull_rom_even : even_weights catmull_rom.
Proof.
  intros h a _.
  destruct (Z.eq_dec a (-1)) as [->|A]; [cbn -[pow]; field|]. destruct (Z.eq_dec a 0) as [->|B]; [cbn -[pow]; field|].
  destruct (Z.eq_dec a 1) as [->|C]; [cbn -[pow]; field|]. destruct (Z.eq_dec a 2) as [->|D]; [cbn -[pow]; field|].
  assert (O : forall k b, b <> (-1)%Z -> b <> 0%Z -> b <> 1%Z -> b <> 2%Z -> catmull_rom k b = 0).
  { intros k b X0 X1 X2 X3. unfold catmull_rom. destruct b as [|[p|[p|p|]|]|[p|p|]]; try reflexivity; congruence. }
  rewrite !O by lia. reflexivity.
Qed.
Lemma sl_pairs_sources src : pairs_sources (sl sl_two src) true false sl_rho.
Proof.
  intros t g1 g2 w w' E x s Hx Hs. cbn [pc sl sl_cfg source source_inst] in *. unfold mean_inst. rewrite !zsum4.
  assert (K : forall y, inb 4 y -> w' y s = w (sl_rho y) s) by (intros y Hy; apply E; [exact Hy|exact Hs]).
  rewrite (K x Hx), !K by (split; [intros X; discriminate X|reflexivity]).
  change (sl_rho 0) with 1%Z. change (sl_rho 1) with 0%Z. change (sl_rho 2) with 3%Z. change (sl_rho 3) with 2%Z.
  split; intros _; field.
Qed.
Example C147_reflection_applies : forall e, exists r r',
  run_steps (solver_stepper (sl sl_two true)) sl_hist (sl_at sl_data e) = Ok (r, None)
  /\ run_steps (solver_stepper (sl sl_two true)) sl_hist
       (sl_at (reflection (sl_cfg sl_two true) true false sl_rho sl_data) e) = Ok (r', None)
  /\ gval sl_two (f_of r') 1 0 3 2 = gval sl_two (f_of r) 0 0 4 2.
Proof.
  intros e.
  destruct (C147_reflection (sl sl_two true) PPM PPM catmull_rom spline sl_hist (sl_at sl_data e)
    (sl_at (reflection (sl_cfg sl_two true) true false sl_rho sl_data) e) sl_data true false sl_rho) as (r&r'&v&R&R'&V&V').
  - apply sl_streaming, sl_periodic_two.
  - apply sl_wf.
  - apply spline_interpolates.
  - apply sl_uses.
  - apply catmull_rom_even.
  - apply sl_pairs.
  - apply sl_pairs_sources.
  - apply sl_hist_reach.
  - reflexivity.
  - exact (state_of_holds (sl_cfg sl_two true) sl_data).
  - exact (state_of_holds (sl_cfg sl_two true) _).
  - exists r, r'. split; [exact R|]. split; [exact R'|]. destruct V as (_&V), V' as (_&V').
    specialize (V 0%Z 0%Z 4%Z 2%Z). specialize (V' 1%Z 0%Z 3%Z 2%Z).
    change (lay (pc (sl sl_two true))) with sl_two in *.
    rewrite V, V' by (split; reflexivity || discriminate). reflexivity.
Qed.
