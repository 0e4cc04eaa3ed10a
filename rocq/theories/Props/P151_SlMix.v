(** C151: what the value of a cell depends on in semi-Lagrangian runs. *)
From Coq Require Import ZArith Reals Lra Lia String List Bool.
From Verif Require Import Base.Prelude Base.ZSum Model.Af Model.Petsc Model.Config Model.Em Model.Moments Model.Timestep
  Model.Solver Spec.Domain Spec.Lattice Spec.FvmProblem Spec.FvmRun Spec.Symmetry Spec.Interp Spec.SlSym
  Proofs.InterpLemmas Proofs.SemiLagProps Proofs.SlMix Props.ExEm Props.ExSolver Props.ExSymmetry Props.ExSemiLag
  Props.P147_SlSym.
Import ListNotations.
Local Open Scope R_scope.

(** Without collisions the particles of one momentum and species never feel the others. *)
Theorem C151_momenta_apart : forall P k1 k2 w ap h s s' x sp,
  streaming P -> quiet P -> wf_cfg (pc P) k1 k2 -> interpolates w ap -> uses (pc P) ap ->
  reach_run (pc P) (time_elapsed s) h -> time_elapsed s' = time_elapsed s ->
  shaped (lay (pc P)) (N_p (pc P)) (N_species (pc P)) (f_of s) -> shaped (lay (pc P)) (N_p (pc P)) (N_species (pc P)) (f_of s') ->
  inb (N_p (pc P)) x -> inb (N_species (pc P)) sp ->
  (forall g1 g2, inb (gN1 (lay (pc P))) g1 -> inb (gN2 (lay (pc P))) g2 ->
     gval (lay (pc P)) (f_of s) x sp g1 g2 = gval (lay (pc P)) (f_of s') x sp g1 g2) ->
  exists r r', run_steps (solver_stepper P) h s = Ok (r, None) /\ run_steps (solver_stepper P) h s' = Ok (r', None)
  /\ forall g1 g2, inb (gN1 (lay (pc P))) g1 -> inb (gN2 (lay (pc P))) g2 ->
     gval (lay (pc P)) (f_of r) x sp g1 g2 = gval (lay (pc P)) (f_of r') x sp g1 g2.
Proof. exact sl_alike. Qed.
Print Assumptions C151_momenta_apart.

(** With any sources: after n steps a cell depends only on the cells within
    2 n (N_g1 + N_g2 + 4) steps of it. *)
Theorem C151_domain_of_dependence : forall P k1 k2 w ap h s s' u u' g1 g2,
  streaming P -> wf_cfg (pc P) k1 k2 -> interpolates w ap -> uses (pc P) ap ->
  reach_run (pc P) (time_elapsed s) h -> time_elapsed s' = time_elapsed s ->
  inb (gN1 (lay (pc P))) g1 -> inb (gN2 (lay (pc P))) g2 -> holds (pc P) (f_of s) u -> holds (pc P) (f_of s') u' ->
  agree_near (pc P) (fun _ _ => True) (2 * Z.of_nat (List.length h) * (ng1 (lay (pc P)) + ng2 (lay (pc P)) + 4)) u u' g1 g2 ->
  exists r r', run_steps (solver_stepper P) h s = Ok (r, None) /\ run_steps (solver_stepper P) h s' = Ok (r', None)
  /\ forall x sp, inb (N_p (pc P)) x -> inb (N_species (pc P)) sp ->
     gval (lay (pc P)) (f_of r) x sp g1 g2 = gval (lay (pc P)) (f_of r') x sp g1 g2.
Proof. exact sl_near. Qed.
Print Assumptions C151_domain_of_dependence.

(** With sources that look at their own species, one species never feels another. *)
Theorem C151_species_apart : forall P k1 k2 w ap h s s' u u' sp,
  streaming P -> wf_cfg (pc P) k1 k2 -> interpolates w ap -> uses (pc P) ap ->
  sl_own_species P -> reach_run (pc P) (time_elapsed s) h -> time_elapsed s' = time_elapsed s ->
  holds (pc P) (f_of s) u -> holds (pc P) (f_of s') u' -> inb (N_species (pc P)) sp ->
  (forall x g1 g2, inb (N_p (pc P)) x -> inb (gN1 (lay (pc P))) g1 -> inb (gN2 (lay (pc P))) g2 -> u x sp g1 g2 = u' x sp g1 g2) ->
  exists r r', run_steps (solver_stepper P) h s = Ok (r, None) /\ run_steps (solver_stepper P) h s' = Ok (r', None)
  /\ forall x g1 g2, inb (N_p (pc P)) x -> inb (gN1 (lay (pc P))) g1 -> inb (gN2 (lay (pc P))) g2 ->
     gval (lay (pc P)) (f_of r) x sp g1 g2 = gval (lay (pc P)) (f_of r') x sp g1 g2.
Proof. exact sl_species. Qed.
Print Assumptions C151_species_apart.

(** Changing f at momentum 2 does not change it at momentum 1. *)
Example C151_momenta_applies : forall e, exists r r',
  run_steps (solver_stepper (sl sl_two false)) sl_hist (sl_at sl_data e) = Ok (r, None)
  /\ run_steps (solver_stepper (sl sl_two false)) sl_hist
       (sl_at (fun x s g1 g2 => if (x =? 2)%Z then 5 else sl_data x s g1 g2) e) = Ok (r', None)
  /\ gval sl_two (f_of r) 1 0 3 2 = gval sl_two (f_of r') 1 0 3 2.
Proof.
  intros e. set (d := fun x s g1 g2 : Z => if (x =? 2)%Z then 5 else sl_data x s g1 g2).
  assert (I1 : inb 4 1) by (split; [intros X; discriminate X|reflexivity]).
  assert (I2 : inb 1 0) by (split; [intros X; discriminate X|reflexivity]).
  pose proof (state_of_holds (sl_cfg sl_two false) sl_data) as (S1&V1).
  pose proof (state_of_holds (sl_cfg sl_two false) d) as (S2&V2).
  destruct (C151_momenta_apart (sl sl_two false) PPM PPM catmull_rom spline sl_hist (sl_at sl_data e) (sl_at d e) 1 0) as (r&r'&R&R'&E).
  - apply sl_streaming, sl_periodic_two.
  - apply sl_quiet.
  - apply sl_wf.
  - apply spline_interpolates.
  - apply sl_uses.
  - apply sl_hist_reach.
  - reflexivity.
  - exact S1.
  - exact S2.
  - exact I1.
  - exact I2.
  - intros g1 g2 H1 H2. exact (eq_trans (V1 1%Z 0%Z g1 g2 I1 I2 H1 H2) (eq_sym (V2 1%Z 0%Z g1 g2 I1 I2 H1 H2))).
  - exists r, r'. split; [exact R|]. split; [exact R'|].
    refine (E 3%Z 2%Z _ _); (split; [intros X; discriminate X|reflexivity]).
Qed.

(** On 60 x 4 cells a change 30 cells away is not felt in one step, with collisions. *)
Definition sl_wide : layout := Layout 60 4 [30;30]%Z [4]%Z 3 3 PPeriodic PPeriodic.
Lemma sl_periodic_wide : periodic_layout sl_wide.
Proof. unfold periodic_layout, tiles; cbn. repeat split; try lia; repeat constructor; lia. Qed.
Definition sl_wide_at (u : gstate) (e : em) : solver := Solver (state_of (sl_cfg sl_wide true) u) e 0 0.
Example C151_domain_applies : forall e, exists r r',
  run_steps (solver_stepper (sl sl_wide true)) [(Strang, 3/2)] (sl_wide_at sl_data e) = Ok (r, None)
  /\ run_steps (solver_stepper (sl sl_wide true)) [(Strang, 3/2)]
       (sl_wide_at (fun x s g1 g2 => if (g1 =? 40)%Z then 1000 else sl_data x s g1 g2) e) = Ok (r', None)
  /\ gval sl_wide (f_of r) 1 0 10 2 = gval sl_wide (f_of r') 1 0 10 2.
Proof.
  intros e. set (d := fun x s g1 g2 : Z => if (g1 =? 40)%Z then 1000 else sl_data x s g1 g2).
  destruct (C151_domain_of_dependence (sl sl_wide true) PPM PPM catmull_rom spline [(Strang, 3/2)]
    (sl_wide_at sl_data e) (sl_wide_at d e) sl_data d 10 2) as (r&r'&R&R'&E).
  - apply sl_streaming, sl_periodic_wide.
  - apply sl_wf.
  - apply spline_interpolates.
  - apply sl_uses.
  - apply sl_reach_run; auto. repeat constructor; cbn [snd]; apply Rabs_def1; lra.
  - reflexivity.
  - split; [intros X; discriminate X|reflexivity].
  - split; [intros X; discriminate X|reflexivity].
  - exact (state_of_holds (sl_cfg sl_wide true) sl_data).
  - exact (state_of_holds (sl_cfg sl_wide true) d).
  - intros x s d1 d2 _ _ _ D. change (gN1 (lay (pc (sl sl_wide true)))) with 60%Z. change (Z.abs d1 + Z.abs d2 <= 20)%Z in D.
    unfold d. destruct (Z.eqb_spec ((10 + d1) mod 60) 40) as [X|X]; [|reflexivity].
    exfalso. pose proof (Z.div_mod (10 + d1) 60 ltac:(lia)) as Y. rewrite X in Y. lia.
  - exists r, r'. split; [exact R|]. split; [exact R'|].
    refine (E 1%Z 0%Z _ _); (split; [intros X; discriminate X|reflexivity]).
Qed.

(** Two species with different momentum grids, with collisions: changing the first does
    not change the second. *)
Definition sl_pair_cfg : cfg :=
  Cfg sl_two 3 2 2 1 2 0 8 0 4 1 1 [-1;-1] [-1;-1] [-1;-1] [1;1/2] [1;1/2] [2;2]
    "ASL" "ASL" "ppm" "ppm" "cartesian" false true
    (fun _ _ _ _ p1 p2 _ => (p1, p2)) (fun _ _ _ _ p1 p2 _ => (p1, p2))
    (fun _ _ _ _ _ _ _ E1 _ _ _ _ _ => (1 + E1 ^ 2, 0, 0)) (fun _ _ _ _ _ _ _ E1 _ _ _ _ _ => (1 + E1 ^ 2, 0, 0))
    (fun _ _ _ w x s => zsum 4 (fun y => w y s) / 4 - w x s)
    (fun _ => "periodic"%string) (fun _ _ _ _ f => f) 0 0
    (in_cells spline) 0.
Definition sl_pair : params :=
  Params sl_pair_cfg (sl_em sl_two) "electrostatic" [1;1] nonrel_moments 0 1 false mean_inst spline.
Definition sl_pair_at (u : gstate) (e : em) : solver := Solver (state_of sl_pair_cfg u) e 0 0.
Lemma sl_pair_wf : wf_cfg sl_pair_cfg PPM PPM.
Proof.
  unfold wf_cfg. cbn -[zsum]. repeat split; try lia. intros. rewrite H by auto. rewrite !zsum4.
  rewrite !H by (auto; unfold inb; lia). reflexivity.
Qed.
Lemma sl_pair_reach t dt : Rabs dt < 2 -> reach sl_pair_cfg t dt.
Proof.
  intros Hd x s g1 g2 Hx Hs _ _. change (inb 4 x) in Hx. change (inb 2 s) in Hs. change (ng1 (lay sl_pair_cfg)) with 3%Z. change (ng2 (lay sl_pair_cfg)) with 3%Z.
  assert (s = 0 \/ s = 1)%Z as HS by (unfold inb in Hs; lia).
  assert (x = 0 \/ x = 1 \/ x = 2 \/ x = 3)%Z as HH by (unfold inb in Hx; lia).
  apply Rabs_def2 in Hd.
  destruct HS as [-> | ->]; destruct HH as [-> |[-> |[-> | ->]]]; unfold moved1, moved2, velocity_a;
  cbv -[Rplus Rmult Ropp Rdiv Rinv IZR served Rlt]; split; left; apply Rabs_def1; change (3 - 1)%Z with 2%Z; lra.
Qed.
Example C151_species_applies : forall e, exists r r',
  run_steps (solver_stepper sl_pair) [(Strang, 1); (Jia, 3/2)] (sl_pair_at sl_data e) = Ok (r, None)
  /\ run_steps (solver_stepper sl_pair) [(Strang, 1); (Jia, 3/2)]
       (sl_pair_at (fun x s g1 g2 => if (s =? 0)%Z then 5 else sl_data x s g1 g2) e) = Ok (r', None)
  /\ gval sl_two (f_of r) 1 1 3 2 = gval sl_two (f_of r') 1 1 3 2.
Proof.
  intros e. set (d := fun x s g1 g2 : Z => if (s =? 0)%Z then 5 else sl_data x s g1 g2).
  destruct (C151_species_apart sl_pair PPM PPM catmull_rom spline [(Strang, 1); (Jia, 3/2)]
    (sl_pair_at sl_data e) (sl_pair_at d e) sl_data d 1) as (r&r'&R&R'&E).
  - constructor; try reflexivity; [apply sl_periodic_two|cbn; split; lra|intros X; discriminate X].
  - apply sl_pair_wf.
  - apply spline_interpolates.
  - intros v x y xp yp. reflexivity.
  - split; intros t q1 q2 w w' s _ H x Hx; cbn [pc sl_pair sl_pair_cfg source source_inst]; unfold mean_inst; rewrite !zsum4;
      rewrite ?(H x Hx), !H by (split; [intros X; discriminate X|reflexivity]); reflexivity.
  - cbn [reach_run reach_step]. split; [|split; [split|exact I]]; apply sl_pair_reach; apply Rabs_def1; lra.
  - reflexivity.
  - exact (state_of_holds sl_pair_cfg sl_data).
  - exact (state_of_holds sl_pair_cfg d).
  - split; [intros X; discriminate X|reflexivity].
  - intros x g1 g2 _ _ _. reflexivity.
  - exists r, r'. split; [exact R|]. split; [exact R'|].
    refine (E 1%Z 3%Z 2%Z _ _ _); (split; [intros X; discriminate X|reflexivity]).
Qed.
