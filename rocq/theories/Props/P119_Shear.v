(** Shearing boxes. *)
From Coq Require Import ZArith Reals Lra Lia String List Bool.
From Verif Require Import Base.Prelude Base.ZSum Model.Af Model.Petsc Model.Config Model.Fvm
  Spec.Domain Spec.Lattice Spec.FvmProblem Spec.FvmRun Spec.Interp Spec.Shear
  Proofs.ShearProps Proofs.ShearWitness.
Import ListNotations.
Local Open Scope R_scope.

(** C119: between sheared sides the solver computes the textbook method on the
    displaced and interpolated images, for every history. *)
Theorem C119_shearing_box : forall c w ap lr k1 k2,
  wf_cfg c k1 k2 -> shear_fvm c lr k1 -> interpolates_layers w ap -> uses c ap ->
  forall l,
  (forall k E0 Eh, In (k, E0, Eh) l ->
     in_time c lr (ct k) /\ shows3 (lay c) (cE0 k) E0 /\ shows3 (lay c) (cEh k) Eh) ->
  forall s u, holds c (sf s) u ->
  exists s', run_fvm c (map (fun x => fst (fst x)) l) s = Ok s' /\ holds c (sf s') (run_shear c w lr k1 k2 l u).
Proof. exact refinement_shear. Qed.
Print Assumptions C119_shearing_box.

(** Whenever the images have slid by whole boxes, and so without shear, the sides
    are periodic. *)
Theorem C119_whole_boxes : forall c w ap lr k1 k2,
  wf_cfg c k1 k2 -> shear_fvm c lr k1 -> interpolates_layers w ap -> uses c ap ->
  forall l,
  (forall k E0 Eh, In (k, E0, Eh) l ->
     in_time c lr (ct k) /\ whole_boxes c lr (ct k) /\ shows3 (lay c) (cE0 k) E0 /\ shows3 (lay c) (cEh k) Eh) ->
  forall s u, holds c (sf s) u ->
  exists s', run_fvm c (map (fun x => fst (fst x)) l) s = Ok s' /\ holds c (sf s') (run_global c k1 k2 l u).
Proof. exact refinement_whole. Qed.
Print Assumptions C119_whole_boxes.

(** The process grid across the shear does not matter. *)
Theorem C119_process_grid : forall c L' w ap lr k1 k2 l l' s s' u,
  wf_cfg c k1 k2 -> shear_fvm c lr k1 -> shear_fvm (with_layout c L') lr k1 ->
  interpolates_layers w ap -> uses c ap ->
  gN1 L' = gN1 (lay c) -> gN2 L' = gN2 (lay c) ->
  (forall k E0 Eh, In (k, E0, Eh) l ->
     in_time c lr (ct k) /\ shows3 (lay c) (cE0 k) E0 /\ shows3 (lay c) (cEh k) Eh) ->
  Forall2 (fun a b => ct (fst (fst b)) = ct (fst (fst a)) /\ cdt (fst (fst b)) = cdt (fst (fst a))
    /\ snd (fst b) = snd (fst a) /\ snd b = snd a
    /\ shows3 L' (cE0 (fst (fst b))) (snd (fst a)) /\ shows3 L' (cEh (fst (fst b))) (snd a)) l l' ->
  holds c (sf s) u -> holds (with_layout c L') (sf s') u ->
  exists r r' v, run_fvm c (map (fun x => fst (fst x)) l) s = Ok r
    /\ run_fvm (with_layout c L') (map (fun x => fst (fst x)) l') s' = Ok r'
    /\ holds c (sf r) v /\ holds (with_layout c L') (sf r') v.
Proof. exact shear_parallel. Qed.
Print Assumptions C119_process_grid.

(** An example: 4 x 4 cells of unit size, momenta -1 and 1 along p1, C_q = (p1, p2),
    images sliding by 4 cells per unit of time, either pair of sides, on one rank
    or on two. *)
Definition sb_two (lr : bool) : layout :=
  if lr then Layout 4 4 [2;2]%Z [4]%Z 2 2 PPeriodic PPeriodic else Layout 4 4 [4]%Z [2;2]%Z 2 2 PPeriodic PPeriodic.
Definition sb_one : layout := Layout 4 4 [4]%Z [4]%Z 2 2 PPeriodic PPeriodic.
Definition sb_cfg (lr : bool) (L : layout) (rc : string) : cfg :=
  Cfg L 2 2 1 1 1 0 4 0 4 1 1 [-2] [0] [0] [2] [1] [1]
    "FVM" "FVM" rc "minmod" "cartesian" true true
    (fun _ _ _ _ p1 p2 _ => (p1, p2)) (fun _ _ _ _ p1 p2 _ => (p1, p2))
    (fun _ _ _ _ _ _ _ E1 _ _ _ _ _ => (E1, 0, 0)) (fun _ _ _ _ _ _ _ E1 _ _ _ _ _ => (E1, 0, 0))
    (fun _ _ _ w x s => if Z.eqb x 0 then w 1%Z s - w 0%Z s else if Z.eqb x 1 then w 0%Z s - w 1%Z s else 0)
    (sheared_sides lr) (fun _ _ _ _ f => f) 1 1
    (in_cells layered) 100.
Definition sb_data : gstate := fun x s g1 g2 => IZR (1 + x + g1 * (g2 + 1) * (g2 + 1)).
Definition sb_state (L : layout) : fstate :=
  FState (fun r1 r2 => Arr 2 1 (n1g L r1) (n2g L r2)
     (fun x s i j => sb_data x s (off (blk1 L) r1 + i - ng1 L)%Z (off (blk2 L) r2 + j - ng2 L)%Z)) (fun _ _ _ => 0).

Lemma sb_wf lr L rc k : scheme_of_name rc = Some k -> wf_cfg (sb_cfg lr L rc) k MC.
Proof.
  intros H. unfold wf_cfg. cbn -[scheme_of_name]. repeat split; try lia; auto.
  intros; rewrite !H0; auto; unfold inb; lia.
Qed.
Lemma sb_two_shear lr : shear_fvm (sb_cfg lr (sb_two lr) "minmod") lr MC.
Proof. destruct lr; constructor; cbn; try reflexivity; try lia; try lra; repeat constructor; lia. Qed.
Lemma sb_one_shear lr rc k : (radius k < 2)%Z -> shear_fvm (sb_cfg lr sb_one rc) lr k.
Proof. intros H. destruct lr; constructor; cbn; try reflexivity; try lia; try lra; try assumption; repeat constructor; lia. Qed.
Lemma sb_uses lr L rc : uses (sb_cfg lr L rc) layered.
Proof. intros v x y xp yp. reflexivity. Qed.
Lemma sb_drift lr L rc t : drift (sb_cfg lr L rc) lr t = 4 * t.
Proof. unfold drift; destruct lr; cbn; field. Qed.
Lemma sb_time lr L rc t : gN1 L = 4%Z -> gN2 L = 4%Z -> Rabs t <= 99 -> in_time (sb_cfg lr L rc) lr t.
Proof.
  intros G1 G2 H. unfold in_time. rewrite sb_drift. rewrite Rabs_mult, (Rabs_right 4) by lra.
  change (lay (sb_cfg lr L rc)) with L. change (loop_fuel (sb_cfg lr L rc)) with 100%nat. change (N_ghost (sb_cfg lr L rc)) with 2%Z.
  rewrite G1, G2. replace (INR 100) with 100 by (rewrite INR_IZR_INZ; reflexivity). destruct lr; lra.
Qed.
Lemma sb_holds lr L rc : gN1 L = 4%Z -> holds (sb_cfg lr L rc) (sf (sb_state L)) sb_data.
Proof.
  intros _. split; [intros r1 r2 _; cbn; auto|]. intros x s g1 g2 _ _ _ _. unfold gval, sb_state; cbn [sf el lay sb_cfg].
  f_equal; lia.
Qed.
Lemma sb_velocity lr L rc : velocity_sheared (sb_cfg lr L rc) lr.
Proof. intros s t q1 q2 q1' q2' p1 p2 p3. destruct lr; cbn; auto. Qed.
Lemma sb_source lr L rc : source_conserves (sb_cfg lr L rc).
Proof.
  right. intros t q1 q2 v s. change (N_p (sb_cfg lr L rc)) with 2%Z.
  change 2%Z with (1 + 1)%Z. rewrite zsum_succ, zsum_1 by lia. cbn. ring.
Qed.
Lemma sb_shaped lr L rc : shaped L (N_p (sb_cfg lr L rc)) (N_species (sb_cfg lr L rc)) (sf (sb_state L)).
Proof. intros r1 r2 _. cbn. auto. Qed.

(** Any history at times up to 99, in any fields, on one rank or two: the two
    agree. *)
Example C119_applies : forall lr l l',
  (forall k E0 Eh, In (k, E0, Eh) l ->
     Rabs (ct k) <= 99 /\ shows3 (sb_two lr) (cE0 k) E0 /\ shows3 (sb_two lr) (cEh k) Eh) ->
  Forall2 (fun a b => ct (fst (fst b)) = ct (fst (fst a)) /\ cdt (fst (fst b)) = cdt (fst (fst a))
    /\ snd (fst b) = snd (fst a) /\ snd b = snd a
    /\ shows3 sb_one (cE0 (fst (fst b))) (snd (fst a)) /\ shows3 sb_one (cEh (fst (fst b))) (snd a)) l l' ->
  (exists r, run_fvm (sb_cfg lr (sb_two lr) "minmod") (map (fun x => fst (fst x)) l) (sb_state (sb_two lr)) = Ok r
    /\ holds (sb_cfg lr (sb_two lr) "minmod") (sf r)
         (run_shear (sb_cfg lr (sb_two lr) "minmod") catmull_rom lr MC MC l sb_data))
  /\ exists r r' v, run_fvm (sb_cfg lr (sb_two lr) "minmod") (map (fun x => fst (fst x)) l) (sb_state (sb_two lr)) = Ok r
    /\ run_fvm (sb_cfg lr sb_one "minmod") (map (fun x => fst (fst x)) l') (sb_state sb_one) = Ok r'
    /\ holds (sb_cfg lr (sb_two lr) "minmod") (sf r) v /\ holds (sb_cfg lr sb_one "minmod") (sf r') v.
Proof.
  intros lr l l' HL SAME.
  assert (HT : forall k E0 Eh, In (k, E0, Eh) l -> in_time (sb_cfg lr (sb_two lr) "minmod") lr (ct k)
     /\ shows3 (sb_two lr) (cE0 k) E0 /\ shows3 (sb_two lr) (cEh k) Eh).
  { intros k E0 Eh I. destruct (HL k E0 Eh I) as (A&B&C). split; [|auto]. apply sb_time; auto; destruct lr; reflexivity. }
  split.
  - apply (C119_shearing_box _ catmull_rom layered lr MC MC (sb_wf lr _ "minmod" MC eq_refl) (sb_two_shear lr) layered_interpolates
      (sb_uses _ _ _) l HT). apply sb_holds. destruct lr; reflexivity.
  - apply (C119_process_grid (sb_cfg lr (sb_two lr) "minmod") sb_one catmull_rom layered lr MC MC l l' _ _ sb_data
      (sb_wf lr _ "minmod" MC eq_refl) (sb_two_shear lr) (sb_one_shear lr "minmod" MC eq_refl) layered_interpolates
      (sb_uses _ _ _)); auto; try (destruct lr; reflexivity).
    + apply sb_holds. destruct lr; reflexivity.
    + apply (sb_holds lr sb_one "minmod"). reflexivity.
Qed.
(** Time 3: the images have slid by three boxes. *)
Example C119_whole_applies : forall lr dt A,
  shows3 (sb_two lr) A (fun _ _ _ => 0, fun _ _ _ => 0, fun _ _ _ => 0) ->
  exists s', run_fvm (sb_cfg lr (sb_two lr) "minmod") [Call 3 dt A A] (sb_state (sb_two lr)) = Ok s'.
Proof.
  intros lr dt A SA.
  destruct (C119_whole_boxes _ catmull_rom layered lr MC MC (sb_wf lr _ "minmod" MC eq_refl) (sb_two_shear lr) layered_interpolates
      (sb_uses lr _ _) [(Call 3 dt A A, (fun _ _ _ => 0, fun _ _ _ => 0, fun _ _ _ => 0), (fun _ _ _ => 0, fun _ _ _ => 0, fun _ _ _ => 0))])
    with (s := sb_state (sb_two lr)) (u := sb_data) as (s'&R&_).
  - intros k E0 Eh [I|[]]. injection I as <- <- <-. split; [|split; [|auto]].
    + apply sb_time; try (destruct lr; reflexivity). cbn [ct]. rewrite Rabs_right; lra.
    + exists 3%Z. rewrite sb_drift. cbn [ct]. destruct lr; cbn; lra.
  - apply sb_holds. destruct lr; reflexivity.
  - exists s'. exact R.
Qed.

(** C120: particles are conserved while the images are displaced by whole numbers
    of cells, and by first-order reconstruction always ... *)
Theorem C120_conserved_partial : forall c w ap lr k1 k2,
  wf_cfg c k1 k2 -> shear_fvm c lr k1 -> interpolates_layers w ap -> uses c ap ->
  forall l s,
  (forall k, In k l -> in_time c lr (ct k) /\ (whole_cells c lr (ct k) \/ (k1 = FirstOrder /\ normalised w))) ->
  velocity_sheared c lr -> source_conserves c -> shaped (lay c) (N_p c) (N_species c) (sf s) ->
  exists s', run_fvm c l s = Ok s' /\ shaped (lay c) (N_p c) (N_species c) (sf s')
  /\ forall sp, inb (N_species c) sp ->
     zsum (N_p c) (fun x => gtotal (lay c) (sf s') x sp) = zsum (N_p c) (fun x => gtotal (lay c) (sf s) x sp).
Proof. exact conserve_shear. Qed.
Print Assumptions C120_conserved_partial.

Example C120_applies :
  (forall l, (forall k, In k l -> exists m, ct k = IZR m / 4 /\ (-396 <= m <= 396)%Z) -> forall lr,
   exists s', run_fvm (sb_cfg lr (sb_two lr) "minmod") l (sb_state (sb_two lr)) = Ok s'
   /\ zsum 2 (fun x => gtotal (sb_two lr) (sf s') x 0) = zsum 2 (fun x => gtotal (sb_two lr) (sf (sb_state (sb_two lr))) x 0))
  /\ (forall l, (forall k, In k l -> Rabs (ct k) <= 99) -> forall lr,
   exists s', run_fvm (sb_cfg lr sb_one "piecewise-constant") l (sb_state sb_one) = Ok s'
   /\ zsum 2 (fun x => gtotal sb_one (sf s') x 0) = zsum 2 (fun x => gtotal sb_one (sf (sb_state sb_one)) x 0)).
Proof.
  split; intros l HL lr.
  - destruct (C120_conserved_partial _ catmull_rom layered lr MC MC (sb_wf lr _ "minmod" MC eq_refl) (sb_two_shear lr) layered_interpolates
      (sb_uses lr _ _) l (sb_state (sb_two lr))) as (s'&R&_&Q).
    + intros k I. destruct (HL k I) as (m&E&B). split.
      * apply sb_time; try (destruct lr; reflexivity). rewrite E. destruct B as (B1&B2). apply IZR_le in B1, B2.
        apply Rabs_le. lra.
      * left. exists m. rewrite sb_drift, E. field.
    + apply sb_velocity.
    + apply sb_source.
    + apply (sb_shaped lr (sb_two lr) "minmod").
    + exists s'. split; [exact R|]. apply (Q 0%Z). unfold inb; cbn; lia.
  - destruct (C120_conserved_partial _ catmull_rom layered lr FirstOrder MC (sb_wf lr _ "piecewise-constant" FirstOrder eq_refl)
      (sb_one_shear lr "piecewise-constant" FirstOrder eq_refl) layered_interpolates
      (sb_uses lr _ _) l (sb_state sb_one)) as (s'&R&_&Q).
    + intros k I. split; [apply sb_time; auto|]. right. split; [reflexivity|exact rom_normalised].
    + apply sb_velocity.
    + apply sb_source.
    + apply (sb_shaped lr sb_one "piecewise-constant").
    + exists s'. split; [exact R|]. apply (Q 0%Z). unfold inb; cbn; lia.
Qed.

(** ... but not with a limiter and half a cell of displacement: in one step at the
    Courant limit 11 particles become 10 3/4. *)
Theorem C120_conserved_refuted :
  wf_cfg sw_cfg MC MC /\ shear_fvm sw_cfg true MC /\ interpolates_layers catmull_rom layered /\ normalised catmull_rom
  /\ uses sw_cfg layered /\ velocity_sheared sw_cfg true /\ source_conserves sw_cfg /\ in_time sw_cfg true (ct sw_call)
  /\ cfl sw_cfg (ct sw_call) (cdt sw_call)
  /\ exists s', run_fvm sw_cfg [sw_call] sw_state = Ok s'
     /\ gtotal sw_lay (sf sw_state) 0 0 = 11 /\ gtotal sw_lay (sf s') 0 0 = 43/4.
Proof.
  split; [exact sw_wf|]. split; [exact sw_shear|]. split; [exact layered_interpolates|]. split; [exact rom_normalised|].
  split; [exact sw_uses|]. split; [intros s t q1 q2 q1' q2' p1 p2 p3; cbn; auto|]. split; [left; reflexivity|].
  split; [exact sw_time|]. split; [|exact sw_loses].
  split; [cbn; lra|]. intros. unfold velocity; cbn. rewrite Rabs_right, Rabs_R0 by lra. lra.
Qed.
Print Assumptions C120_conserved_refuted.
