(** Boxes with mirror walls: C14 (conservation), C73 (decompositions and stale
    ghosts), C74 (gas at rest), C75 (first-order bounds). *)
From Coq Require Import ZArith Reals Lra Lia String List Bool.
From Verif Require Import Base.Prelude Base.ZSum Model.Af Model.Petsc Model.Config Model.Fvm
  Spec.Domain Spec.Lattice Spec.Mirror Spec.FvmProblem Spec.FvmRun Spec.Walls Spec.Box
  Proofs.FvmConserve Proofs.BoxConserve Proofs.BoxMore Props.ExBox.
Import ListNotations.
Local Open Scope R_scope.

(** C14.  In a closed box the number of particles of every species, summed over
    the grid and over momentum, is the same after any history of steps. *)
Theorem C14_closed_box : forall c k1 k2 l s, wf_cfg c k1 k2 -> box_fvm c k1 -> closed_box c ->
  velocity_fits c -> source_conserves c -> shaped (lay c) (N_p c) (N_species c) (sf s) ->
  exists s', run_fvm c l s = Ok s' /\ shaped (lay c) (N_p c) (N_species c) (sf s')
  /\ forall sp, inb (N_species c) sp ->
     zsum (N_p c) (fun x => gtotal (lay c) (sf s') x sp) = zsum (N_p c) (fun x => gtotal (lay c) (sf s) x sp).
Proof. exact conserve_box. Qed.
Print Assumptions C14_closed_box.

(** The velocity condition holds on a momentum grid symmetric about zero ... *)
Theorem C14_symmetric_grid : forall c k1 k2, wf_cfg c k1 k2 -> box_fvm c k1 ->
  symmetric_grid c -> velocity_odd c -> velocity_fits c.
Proof. exact symmetric_fits. Qed.
Print Assumptions C14_symmetric_grid.

(** ... and on a polar grid with angles over the full circle. *)
Theorem C14_polar_grid : forall c k1 k2 v, wf_cfg c k1 k2 -> box_fvm c k1 ->
  polar_circle c v -> velocity_fits c.
Proof. exact polar_fits. Qed.
Print Assumptions C14_polar_grid.

Example C14_applies : forall l,
  (exists s', run_fvm (bx_cfg bx_two all_mirrors "minmod" true) l (bx_state bx_two) = Ok s'
     /\ zsum 4 (fun x => gtotal bx_two (sf s') x 1) = zsum 4 (fun x => gtotal bx_two (sf (bx_state bx_two)) x 1))
  /\ (exists s', run_fvm (bx_cfg bx_channel channel "minmod" true) l (bx_state bx_channel) = Ok s'
     /\ zsum 4 (fun x => gtotal bx_channel (sf s') x 1) = zsum 4 (fun x => gtotal bx_channel (sf (bx_state bx_channel)) x 1)).
Proof.
  intros l. split.
  - destruct (C14_closed_box (bx_cfg bx_two all_mirrors "minmod" true) MC MC l (bx_state bx_two)) as (s'&R&_&Q).
    + apply bx_wf; reflexivity.
    + apply mirrors_box; [auto|reflexivity|reflexivity].
    + intros e. discriminate.
    + apply C14_symmetric_grid with (k1 := MC) (k2 := MC); [apply bx_wf; reflexivity| |apply bx_symmetric|apply bx_odd].
      apply mirrors_box; [auto|reflexivity|reflexivity].
    + apply bx_source.
    + apply bx_shaped.
    + exists s'. split; [exact R|]. apply (Q 1%Z). split; reflexivity || discriminate.
  - destruct (C14_closed_box (bx_cfg bx_channel channel "minmod" true) MC MC l (bx_state bx_channel)) as (s'&R&_&Q).
    + apply bx_wf; reflexivity.
    + apply channel_box; reflexivity.
    + intros e. destruct e; discriminate.
    + apply C14_symmetric_grid with (k1 := MC) (k2 := MC); [apply bx_wf; reflexivity| |apply bx_symmetric|apply bx_odd].
      apply channel_box; reflexivity.
    + apply bx_source.
    + apply bx_shaped.
    + exists s'. split; [exact R|]. apply (Q 1%Z). split; reflexivity || discriminate.
Qed.

Example C14_polar_applies : forall l,
  exists s', run_fvm bx_polar l (FState (fun r1 r2 => Arr 4 1 (n1g bx_two r1) (n2g bx_two r2) (fun x _ i j => IZR (x + i * j))) (fun _ _ _ => 0)) = Ok s'
  /\ zsum 4 (fun x => gtotal bx_two (sf s') x 0)
     = zsum 4 (fun x => gtotal bx_two (fun r1 r2 => Arr 4 1 (n1g bx_two r1) (n2g bx_two r2) (fun x _ i j => IZR (x + i * j))) x 0).
Proof.
  intros l.
  destruct (C14_closed_box bx_polar MC MC l (FState (fun r1 r2 => Arr 4 1 (n1g bx_two r1) (n2g bx_two r2) (fun x _ i j => IZR (x + i * j))) (fun _ _ _ => 0))) as (s'&R&_&Q).
  - exact polar_wf.
  - exact polar_box.
  - intros e; discriminate.
  - exact (C14_polar_grid _ MC MC _ polar_wf polar_box polar_full).
  - left; reflexivity.
  - intros r1 r2 _; cbn; auto.
  - exists s'. split; [exact R|]. apply (Q 0%Z). split; reflexivity || discriminate.
Qed.

(** C73.  Any history on a box whose sides are periodic, 'mirror' or
    'mirror+dirichlet' is the textbook method on the global grid ... *)
Theorem C73_box_scheme : forall c bv k1 k2 l, wf_cfg c k1 k2 -> box_fvm c k1 -> prescribes c bv ->
  (forall k E0 Eh, In (k, E0, Eh) l -> shows3 (lay c) (cE0 k) E0 /\ shows3 (lay c) (cEh k) Eh) ->
  forall s u, holds c (sf s) u ->
  exists s', run_fvm c (map (fun x => fst (fst x)) l) s = Ok s' /\ holds c (sf s') (run_box c bv k1 k2 l u).
Proof. exact refinement_run_box. Qed.
Print Assumptions C73_box_scheme.

(** ... so two decompositions agree at every global cell ... *)
Theorem C73_decomposition_independent : forall c L' bv k1 k2 l l' E s s' u, wf_cfg c k1 k2 ->
  box_fvm c k1 -> box_fvm (with_layout c L') k1 -> prescribes c bv -> prescribes (with_layout c L') bv ->
  gN1 L' = gN1 (lay c) -> gN2 L' = gN2 (lay c) ->
  Forall2 (fun k e => shows3 (lay c) (cE0 k) (fst e) /\ shows3 (lay c) (cEh k) (snd e)) l E ->
  Forall2 (fun k e => shows3 L' (cE0 k) (fst e) /\ shows3 L' (cEh k) (snd e)) l' E ->
  Forall2 (fun k k' => ct k = ct k' /\ cdt k = cdt k') l l' ->
  holds c (sf s) u -> holds (with_layout c L') (sf s') u ->
  exists r r' v, run_fvm c l s = Ok r /\ run_fvm (with_layout c L') l' s' = Ok r'
    /\ holds c (sf r) v /\ holds (with_layout c L') (sf r') v.
Proof. exact decompositions_agree_box. Qed.
Print Assumptions C73_decomposition_independent.

(** ... and old ghost values play no part. *)
Theorem C73_stale_ghosts : forall c bv k1 k2 l s s2,
  wf_cfg c k1 k2 -> box_fvm c k1 -> prescribes c bv ->
  shaped (lay c) (N_p c) (N_species c) (sf s) -> shaped (lay c) (N_p c) (N_species c) (sf s2) ->
  (forall r1 r2 x sp i j, rank_ok (lay c) r1 r2 -> inb (N_p c) x -> inb (N_species c) sp ->
     inb (bsize (blk1 (lay c)) r1) i -> inb (bsize (blk2 (lay c)) r2) j ->
     el (sf s r1 r2) x sp (ng1 (lay c) + i)%Z (ng2 (lay c) + j)%Z
     = el (sf s2 r1 r2) x sp (ng1 (lay c) + i)%Z (ng2 (lay c) + j)%Z) ->
  exists r r', run_fvm c l s = Ok r /\ run_fvm c l s2 = Ok r'
  /\ forall r1 r2 x sp i j, rank_ok (lay c) r1 r2 -> inb (N_p c) x -> inb (N_species c) sp ->
     inb (bsize (blk1 (lay c)) r1) i -> inb (bsize (blk2 (lay c)) r2) j ->
     el (sf r r1 r2) x sp (ng1 (lay c) + i)%Z (ng2 (lay c) + j)%Z
     = el (sf r' r1 r2) x sp (ng1 (lay c) + i)%Z (ng2 (lay c) + j)%Z.
Proof. exact ghosts_irrelevant_box. Qed.
Print Assumptions C73_stale_ghosts.

(** An emitter at the left wall: two ranks and one rank agree over any history
    without fields. *)
Example C73_applies : forall (td : list (R * R)) s' u,
  let l := map (fun q => Call (fst q) (snd q)
    (fun _ _ => (Arr 6 1 6 8 (fun _ _ _ _ => 0), Arr 6 1 6 8 (fun _ _ _ _ => 0), Arr 6 1 6 8 (fun _ _ _ _ => 0)))
    (fun _ _ => (Arr 6 1 6 8 (fun _ _ _ _ => 0), Arr 6 1 6 8 (fun _ _ _ _ => 0), Arr 6 1 6 8 (fun _ _ _ _ => 0)))) td in
  holds (bx_open bx_two "minmod") (sf (bx_state bx_two)) u ->
  holds (with_layout (bx_open bx_two "minmod") bx_one) (sf s') u ->
  exists r r' v, run_fvm (bx_open bx_two "minmod") l (bx_state bx_two) = Ok r
    /\ run_fvm (with_layout (bx_open bx_two "minmod") bx_one) l s' = Ok r'
    /\ holds (bx_open bx_two "minmod") (sf r) v /\ holds (with_layout (bx_open bx_two "minmod") bx_one) (sf r') v.
Proof.
  intros td s' u l H H'.
  set (z := ((fun _ _ _ => 0, fun _ _ _ => 0, fun _ _ _ => 0) : fields3)).
  apply (C73_decomposition_independent (bx_open bx_two "minmod") bx_one bx_inflow MC MC l l (map (fun _ => (z, z)) td) (bx_state bx_two) s' u);
    auto.
  - apply bo_wf. reflexivity.
  - apply emitter_box; auto; reflexivity.
  - change (with_layout (bx_open bx_two "minmod") bx_one) with (bx_open bx_one "minmod").
    apply emitter_box; auto; reflexivity.
  - apply emitter_prescribes.
  - change (with_layout (bx_open bx_two "minmod") bx_one) with (bx_open bx_one "minmod"). apply emitter_prescribes.
  - unfold l. clear. induction td; cbn [map]; constructor; auto. repeat split; repeat intro; reflexivity.
  - unfold l. clear. induction td; cbn [map]; constructor; auto. repeat split; repeat intro; reflexivity.
  - unfold l. clear. induction td; cbn [map]; constructor; auto.
Qed.

(** C74.  A distribution that does not depend on position and looks the same in
    the mirrors stays as it is. *)
Theorem C74_gas_at_rest : forall c bv k1 k2 l s (a : Z -> Z -> R), wf_cfg c k1 k2 -> box_fvm c k1 -> prescribes c bv ->
  velocity_uniform c -> source_enabled c = false -> p_is_fvm c = false -> at_rest c bv a ->
  holds c (sf s) (fun x sp _ _ => a x sp) ->
  exists s', run_fvm c l s = Ok s' /\ holds c (sf s') (fun x sp _ _ => a x sp).
Proof. exact rest_kept. Qed.
Print Assumptions C74_gas_at_rest.

Example C74_applies : forall l, exists s',
  run_fvm (bx_cfg bx_two all_mirrors "minmod" false) l
     (FState (fun r1 r2 => Arr 4 2 (n1g bx_two r1) (n2g bx_two r2) (fun x s _ _ => IZR (7 - s))) (fun _ _ _ => 0)) = Ok s'
  /\ gval bx_two (sf s') 3 1 2 1 = 6.
Proof.
  intros l. destruct (C74_gas_at_rest (bx_cfg bx_two all_mirrors "minmod" false) (fun _ _ _ _ _ _ => 0) MC MC l
     (FState (fun r1 r2 => Arr 4 2 (n1g bx_two r1) (n2g bx_two r2) (fun x s _ _ => IZR (7 - s))) (fun _ _ _ => 0))
     (fun _ s => IZR (7 - s))) as (s'&R&_&V).
  - apply bx_wf; reflexivity.
  - apply mirrors_box; auto; reflexivity.
  - intros e t r1 r2 f Q. discriminate.
  - repeat intro. reflexivity.
  - reflexivity.
  - reflexivity.
  - intros e x s _ _ _. split; [reflexivity|discriminate].
  - split; [intros r1 r2 _; cbn; auto|]. intros. reflexivity.
  - exists s'. split; [exact R|]. apply (V 3%Z 1%Z 2%Z 1%Z); split; reflexivity || discriminate.
Qed.

(** C75.  First-order reconstruction keeps the data within bounds that look the
    same in the mirrors and hold for the prescribed inflow. *)
Theorem C75_bounds : forall c bv k2 l s (m M : Z -> Z -> R),
  wf_cfg c FirstOrder k2 -> box_fvm c FirstOrder -> prescribes c bv -> velocity_uniform c -> speed_reflects c ->
  bounds_fit c bv m M -> 0 < dq1 c -> 0 < dq2 c ->
  source_enabled c = false -> p_is_fvm c = false ->
  (forall k, In k l -> cfl c (ct k) (cdt k)) ->
  shaped (lay c) (N_p c) (N_species c) (sf s) ->
  (forall x sp g1 g2, inb (N_p c) x -> inb (N_species c) sp -> inb (gN1 (lay c)) g1 -> inb (gN2 (lay c)) g2 ->
     m x sp <= gval (lay c) (sf s) x sp g1 g2 <= M x sp) ->
  exists s', run_fvm c l s = Ok s' /\ shaped (lay c) (N_p c) (N_species c) (sf s') /\
  (forall x sp g1 g2, inb (N_p c) x -> inb (N_species c) sp -> inb (gN1 (lay c)) g1 -> inb (gN2 (lay c)) g2 ->
     m x sp <= gval (lay c) (sf s') x sp g1 g2 <= M x sp).
Proof. exact max_principle_box. Qed.
Print Assumptions C75_bounds.

(** The emitter with dt = 1/4: |p| <= 1/2 and 1 for the two species.  Data between
    0 and 5 stay there for any number of steps. *)
Example C75_applies : forall E n,
  let s := FState (fun r1 r2 => Arr 4 2 (n1g bx_two r1) (n2g bx_two r2) (fun x s i j => IZR ((x + i * j) mod 6))) (fun _ _ _ => 0) in
  exists s', run_fvm (bx_open bx_two "piecewise-constant") (repeat (Call 0 (1/4) E E) n) s = Ok s'
  /\ 0 <= gval bx_two (sf s') 2 1 0 3 <= 5.
Proof.
  intros E n s.
  destruct (C75_bounds (bx_open bx_two "piecewise-constant") bx_inflow MC (repeat (Call 0 (1/4) E E) n) s
    (fun _ _ => 0) (fun _ _ => 5)) as (s'&R&_&V).
  - apply bo_wf; reflexivity.
  - apply emitter_box; auto; reflexivity.
  - apply emitter_prescribes.
  - apply bo_uniform.
  - apply bo_speeds.
  - apply bo_bounds.
  - cbn; lra.
  - cbn; lra.
  - reflexivity.
  - reflexivity.
  - intros k Hk. apply repeat_spec in Hk. subst k. split; [cbn; lra|].
    intros x sp q1 q2 Hx Hs. change (inb 4 x) in Hx. change (inb 2 sp) in Hs.
    assert (A : forall v : R, v = 1/2 \/ v = -1/2 \/ v = 1 \/ v = -1 -> Rabs v * (1/4) / 1 <= 1/2).
    { intros v Hv. unfold Rabs. destruct (Rcase_abs v); lra. }
    pose proof (A (fst (velocity (bx_open bx_two "piecewise-constant") 0 x sp q1 q2))).
    pose proof (A (snd (velocity (bx_open bx_two "piecewise-constant") 0 x sp q1 q2))).
    assert (V1 : let v := velocity (bx_open bx_two "piecewise-constant") 0 x sp q1 q2 in
      (fst v = 1/2 \/ fst v = -1/2 \/ fst v = 1 \/ fst v = -1) /\ (snd v = 1/2 \/ snd v = -1/2 \/ snd v = 1 \/ snd v = -1)).
    { destruct (four_momenta x Hx) as [-> |[-> |[-> | ->]]]; destruct (two_species sp Hs) as [-> | ->];
      cbv -[Rplus Rmult Ropp Rdiv Rinv IZR]; split; lra. }
    destruct V1 as [V1 V2]. specialize (H V1). specialize (H0 V2). cbn [dq1 dq2 bx_open ct cdt]. lra.
  - intros r1 r2 _. cbn; auto.
  - intros x sp g1 g2 _ _ _ _. unfold gval. cbn [sf s el].
    match goal with |- context [IZR (?z mod 6)] => pose proof (Z.mod_pos_bound z 6) end.
    split; apply IZR_le; lia.
  - exists s'. split; [exact R|]. apply (V 2%Z 1%Z 0%Z 3%Z); split; reflexivity || discriminate.
Qed.
