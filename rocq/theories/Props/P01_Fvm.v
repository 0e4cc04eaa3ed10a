(** C01-C04, C09-C12: the distributed finite-volume step. *)
From Coq Require Import ZArith Reals Lra Lia String List Bool.
From Verif Require Import Base.Prelude Base.ZSum Model.Af Model.Petsc Model.Config Model.Fvm
  Spec.Domain Spec.Lattice Spec.FvmProblem Spec.FvmRun
  Proofs.ConvLemmas Proofs.FvmConserve Proofs.FvmMore Proofs.GhostWitness Props.ExFvm.
Import ListNotations.
Local Open Scope R_scope.

(** C01.  Any number of steps, any decomposition: without source and forces the
    total of f over the grid is unchanged for each momentum and species ... *)
Theorem C01_mass_each_momentum : forall c k1 k2, wf_cfg c k1 k2 -> periodic_fvm c k1 ->
  forall l s, velocity_periodic c -> source_enabled c = false -> p_is_fvm c = false ->
  shaped (lay c) (N_p c) (N_species c) (sf s) ->
  exists s', run_fvm c l s = Ok s' /\ shaped (lay c) (N_p c) (N_species c) (sf s')
  /\ forall x sp, inb (N_p c) x -> inb (N_species c) sp ->
     gtotal (lay c) (sf s') x sp = gtotal (lay c) (sf s) x sp.
Proof. exact conserve_each. Qed.
Print Assumptions C01_mass_each_momentum.

(** ... and with forces and a source that only moves particles between momenta,
    the total over the grid and momenta is unchanged for each species. *)
Theorem C01_mass_with_forces : forall c k1 k2, wf_cfg c k1 k2 -> periodic_fvm c k1 ->
  forall l s, velocity_periodic c -> source_conserves c ->
  shaped (lay c) (N_p c) (N_species c) (sf s) ->
  exists s', run_fvm c l s = Ok s' /\ shaped (lay c) (N_p c) (N_species c) (sf s')
  /\ forall sp, inb (N_species c) sp ->
     zsum (N_p c) (fun x => gtotal (lay c) (sf s') x sp) = zsum (N_p c) (fun x => gtotal (lay c) (sf s) x sp).
Proof. exact conserve_species. Qed.
Print Assumptions C01_mass_with_forces.

Example C01_applies : forall l,
  (exists s', run_fvm (ex_cfg "minmod" false) l (ex_state ex_lay) = Ok s'
     /\ gtotal ex_lay (sf s') 1 1 = gtotal ex_lay (sf (ex_state ex_lay)) 1 1)
  /\ (exists s', run_fvm (ex_cfg "ppm" true) l (ex_state ex_lay) = Ok s'
     /\ zsum 4 (fun x => gtotal ex_lay (sf s') x 1) = zsum 4 (fun x => gtotal ex_lay (sf (ex_state ex_lay)) x 1)).
Proof.
  intros l. split.
  - destruct (C01_mass_each_momentum (ex_cfg "minmod" false) MC PPM (ex_wf "minmod" _ MC eq_refl) (ex_periodic _ _ _) l (ex_state ex_lay)
      (proj1 (ex_vel _ _)) eq_refl eq_refl (ex_shaped _ _)) as (s'&R&_&T).
    exists s'. split; auto. apply T; unfold inb; cbn; lia.
  - destruct (C01_mass_with_forces (ex_cfg "ppm" true) PPM PPM (ex_wf "ppm" _ PPM eq_refl) (ex_periodic _ _ _) l (ex_state ex_lay)
      (proj1 (ex_vel _ _)) (ex_source _ _) (ex_shaped _ _)) as (s'&R&_&T).
    exists s'. split; auto. apply T; unfold inb; cbn; lia.
Qed.

(** C02.  The distributed run computes the global scheme, for every process grid
    and ghost width, over whole histories ... *)
Theorem C02_global_scheme : forall c k1 k2 l, wf_cfg c k1 k2 -> periodic_fvm c k1 ->
  (forall k E0 Eh, In (k, E0, Eh) l -> shows3 (lay c) (cE0 k) E0 /\ shows3 (lay c) (cEh k) Eh) ->
  forall s u, holds c (sf s) u ->
  exists s', run_fvm c (map (fun x => fst (fst x)) l) s = Ok s' /\ holds c (sf s') (run_global c k1 k2 l u).
Proof. exact refinement_run. Qed.
Print Assumptions C02_global_scheme.

(** ... so two decompositions agree at every global cell. *)
Theorem C02_decomposition_independent : forall c L' k1 k2 t dt A0 Ah A0' Ah' E0 Eh s s' u,
  wf_cfg c k1 k2 -> periodic_fvm c k1 -> periodic_fvm (with_layout c L') k1 ->
  gN1 L' = gN1 (lay c) -> gN2 L' = gN2 (lay c) ->
  shows3 (lay c) A0 E0 -> shows3 (lay c) Ah Eh -> shows3 L' A0' E0 -> shows3 L' Ah' Eh ->
  holds c (sf s) u -> holds (with_layout c L') (sf s') u ->
  exists r r' v, timestep_fvm c t dt A0 Ah s = Ok r
    /\ timestep_fvm (with_layout c L') t dt A0' Ah' s' = Ok r'
    /\ holds c (sf r) v /\ holds (with_layout c L') (sf r') v.
Proof. exact serial_parallel. Qed.
Print Assumptions C02_decomposition_independent.

(** The global scheme is the textbook one when C_q[0] does not depend on q2 ... *)
Theorem C02_textbook : forall c k1 k2 t dt A0 Ah E0 Eh s u,
  wf_cfg c k1 k2 -> periodic_fvm c k1 -> velocity1_indep_q2 c ->
  shows3 (lay c) A0 E0 -> shows3 (lay c) Ah Eh ->
  holds c (sf s) u ->
  exists s', timestep_fvm c t dt A0 Ah s = Ok s'
  /\ holds c (sf s')
       (midpoint (textbook_problem c k1 k2 t (fst (fst E0)) (snd (fst E0)) (snd E0))
                 (textbook_problem c k1 k2 t (fst (fst Eh)) (snd (fst Eh)) (snd Eh)) dt u).
Proof. exact textbook_refinement. Qed.
Print Assumptions C02_textbook.

(** ... but not for a shear flow C_q = (q2, 0): the velocity through left faces
    is taken at the lower corner of the face. *)
Theorem C02_textbook_refuted :
  wf_cfg sh_cfg FirstOrder MC /\ periodic_fvm sh_cfg FirstOrder /\ velocity_periodic sh_cfg
  /\ holds sh_cfg (sf sh_state) (fun _ _ g1 _ => sh_init g1)
  /\ exists s', timestep_fvm sh_cfg 0 (1/2) zA zA sh_state = Ok s'
  /\ gval (lay sh_cfg) (sf s') 0 0 0 0 = 1
  /\ midpoint (textbook_problem sh_cfg FirstOrder MC 0 (fun _ _ _ => 0) (fun _ _ _ => 0) (fun _ _ _ => 0))
              (textbook_problem sh_cfg FirstOrder MC 0 (fun _ _ _ => 0) (fun _ _ _ => 0) (fun _ _ _ => 0))
              (1/2) (fun _ _ g1 _ => sh_init g1) 0%Z 0%Z 0%Z 0%Z = 3/4.
Proof. exact (conj sh_wf (conj sh_per (conj sh_vel (conj sh_holds shear_witness)))). Qed.
Print Assumptions C02_textbook_refuted.

Example C02_applies : forall A0 Ah E0 Eh A0' Ah' s' u,
  shows3 ex_lay A0 E0 -> shows3 ex_lay Ah Eh -> shows3 ex_serial A0' E0 -> shows3 ex_serial Ah' Eh ->
  holds (ex_cfg "ppm" true) (sf (ex_state ex_lay)) u -> holds (with_layout (ex_cfg "ppm" true) ex_serial) (sf s') u ->
  exists r r' v, timestep_fvm (ex_cfg "ppm" true) 0 1 A0 Ah (ex_state ex_lay) = Ok r
    /\ timestep_fvm (with_layout (ex_cfg "ppm" true) ex_serial) 0 1 A0' Ah' s' = Ok r'
    /\ holds (ex_cfg "ppm" true) (sf r) v /\ holds (with_layout (ex_cfg "ppm" true) ex_serial) (sf r') v.
Proof.
  intros. eapply (C02_decomposition_independent (ex_cfg "ppm" true) ex_serial PPM PPM); eauto.
  apply ex_wf; auto. apply ex_periodic. apply ex_periodic_serial.
Qed.

(** C03 *)
Theorem C03_uniform_states : forall c k1 k2, wf_cfg c k1 k2 -> periodic_fvm c k1 ->
  forall l s (a : Z -> Z -> R), velocity_uniform c -> source_enabled c = false -> p_is_fvm c = false ->
  holds c (sf s) (fun x sp _ _ => a x sp) ->
  exists s', run_fvm c l s = Ok s' /\ holds c (sf s') (fun x sp _ _ => a x sp).
Proof. exact uniform_kept. Qed.
Print Assumptions C03_uniform_states.

Example C03_applies : forall l, exists s',
  run_fvm (ex_cfg "ppm" false) l (FState (fun r1 r2 => Arr 4 2 (n1g ex_lay r1) (n2g ex_lay r2)
     (fun x s _ _ => IZR (x - s))) (fun _ _ _ => 0)) = Ok s'
  /\ gval ex_lay (sf s') 3 1 2 1 = 2.
Proof.
  intros l. destruct (C03_uniform_states (ex_cfg "ppm" false) PPM PPM (ex_wf "ppm" _ PPM eq_refl) (ex_periodic _ _ _) l
   (FState (fun r1 r2 => Arr 4 2 (n1g ex_lay r1) (n2g ex_lay r2)
     (fun x s _ _ => IZR (x - s))) (fun _ _ _ => 0)) (fun x s => IZR (x - s)) (proj2 (ex_vel _ _)) eq_refl eq_refl)
   as (s'&R&[_ V]).
  - split; [intros r1 r2 _; repeat split|]. intros; reflexivity.
  - exists s'. split; auto. change ex_lay with (lay (ex_cfg "ppm" false)). rewrite V by (unfold inb; cbn; lia). reflexivity.
Qed.

(** C04 *)
Theorem C04_maximum_principle : forall c k2 l s (m M : Z -> Z -> R),
  wf_cfg c FirstOrder k2 -> periodic_fvm c FirstOrder -> velocity_uniform c ->
  0 < dq1 c -> 0 < dq2 c ->
  source_enabled c = false -> p_is_fvm c = false ->
  (forall k, In k l -> cfl c (ct k) (cdt k)) ->
  shaped (lay c) (N_p c) (N_species c) (sf s) ->
  (forall x sp g1 g2, inb (N_p c) x -> inb (N_species c) sp -> inb (gN1 (lay c)) g1 -> inb (gN2 (lay c)) g2 ->
     m x sp <= gval (lay c) (sf s) x sp g1 g2 <= M x sp) ->
  exists s', run_fvm c l s = Ok s' /\ shaped (lay c) (N_p c) (N_species c) (sf s') /\
  (forall x sp g1 g2, inb (N_p c) x -> inb (N_species c) sp -> inb (gN1 (lay c)) g1 -> inb (gN2 (lay c)) g2 ->
     m x sp <= gval (lay c) (sf s') x sp g1 g2 <= M x sp).
Proof. exact max_principle. Qed.
Print Assumptions C04_maximum_principle.

(** dt = 1/10 meets the Courant condition: |p| <= 1 and 2 for the two species. *)
Example C04_applies : cfl (ex_cfg "piecewise-constant" false) 0 (1/10).
Proof.
  split; [lra|]. intros x s q1 q2 Hx Hs. change (N_p (ex_cfg "piecewise-constant" false)) with 4%Z in Hx.
  change (N_species (ex_cfg "piecewise-constant" false)) with 2%Z in Hs. unfold inb in *.
  assert (X : (x = 0 \/ x = 1 \/ x = 2 \/ x = 3)%Z) by lia. assert (S : (s = 0 \/ s = 1)%Z) by lia.
  unfold velocity, mom1, mom2, mom3.
  cbn [C_q ex_cfg fst snd p1_start p2_start dp1 dp2 N_p1 N_p2 dq1 dq2].
  destruct X as [->|[->|[->| ->]]], S as [->| ->]; cbn -[Rabs]; change (Pos.to_nat 1) with 1%nat; cbn [nth]; unfold Rabs; repeat destruct (Rcase_abs _); lra.
Qed.

(** C09 *)
Theorem C09_momentum_fluxes : forall c k1 k r1 r2 C1 C2 C3 f,
  wf_cfg c k1 k -> scheme_of_name (reconstruction_method_in_p c) = Some k ->
  (0 < n1g (lay c) r1)%Z -> (0 < n2g (lay c) r2)%Z ->
  q_shaped c r1 r2 C1 -> q_shaped c r1 r2 C2 -> q_shaped c r1 r2 C3 -> q_shaped c r1 r2 f ->
  exists d, df_dt_p c r1 r2 C1 C2 C3 f = Ok d /\
  forall s i j, inb (N_species c) s -> inb (n1g (lay c) r1) i -> inb (n2g (lay c) r2) j ->
  zsum (N_p c) (fun x => el d x s i j) = 0.
Proof. exact momentum_flux_total. Qed.
Print Assumptions C09_momentum_fluxes.

Example C09_applies : forall C1 C2 C3, let f := sf (ex_state ex_lay) 1%nat 0%nat in
  q_shaped (ex_cfg "ppm" true) 1 0 C1 -> q_shaped (ex_cfg "ppm" true) 1 0 C2 -> q_shaped (ex_cfg "ppm" true) 1 0 C3 ->
  exists d, df_dt_p (ex_cfg "ppm" true) 1 0 C1 C2 C3 f = Ok d /\ zsum 4 (fun x => el d x 1 4 3) = 0.
Proof.
  intros C1 C2 C3 f H1 H2 H3.
  destruct (C09_momentum_fluxes (ex_cfg "ppm" true) PPM PPM 1 0 C1 C2 C3 f (ex_wf "ppm" _ PPM eq_refl) eq_refl) as (d&Q&T); auto.
  - cbn; lia.
  - cbn; lia.
  - repeat split.
  - exists d. split; auto. apply T; unfold inb; cbn; lia.
Qed.

(** C10.  N_ghost = 1 is accepted together with minmod, and the step is then not
    the global scheme: cell 0 gets 3/4 instead of 1/2. *)
Theorem C10_every_accepted_ghost_width_refuted :
  wf_cfg w_cfg MC MC /\ periodic_layout (lay w_cfg)
  /\ holds w_cfg (sf w_state) (fun _ _ g1 _ => w_init g1)
  /\ exists s', timestep_fvm w_cfg 0 1 w_E w_E w_state = Ok s'
     /\ gval (lay w_cfg) (sf s') 0 0 0 0 = 3/4
     /\ midpoint (prob w_cfg MC MC 0 no_fields) (prob w_cfg MC MC 0 no_fields) 1
          (fun _ _ g1 _ => w_init g1) 0%Z 0%Z 0%Z 0%Z = 1/2.
Proof. exact ghost_witness. Qed.
Print Assumptions C10_every_accepted_ghost_width_refuted.

(** C11 *)
Theorem C11_stale_ghosts : forall c k1 k2 t dt A0 Ah s s2,
  wf_cfg c k1 k2 -> periodic_fvm c k1 ->
  shaped (lay c) (N_p c) (N_species c) (sf s) -> shaped (lay c) (N_p c) (N_species c) (sf s2) ->
  (forall r1 r2 x sp i j, rank_ok (lay c) r1 r2 -> inb (N_p c) x -> inb (N_species c) sp ->
     inb (bsize (blk1 (lay c)) r1) i -> inb (bsize (blk2 (lay c)) r2) j ->
     el (sf s r1 r2) x sp (ng1 (lay c) + i)%Z (ng2 (lay c) + j)%Z
     = el (sf s2 r1 r2) x sp (ng1 (lay c) + i)%Z (ng2 (lay c) + j)%Z) ->
  exists r r', timestep_fvm c t dt A0 Ah s = Ok r /\ timestep_fvm c t dt A0 Ah s2 = Ok r'
  /\ forall r1 r2 x sp i j, rank_ok (lay c) r1 r2 -> inb (N_p c) x -> inb (N_species c) sp ->
     inb (bsize (blk1 (lay c)) r1) i -> inb (bsize (blk2 (lay c)) r2) j ->
     el (sf r r1 r2) x sp (ng1 (lay c) + i)%Z (ng2 (lay c) + j)%Z
     = el (sf r' r1 r2) x sp (ng1 (lay c) + i)%Z (ng2 (lay c) + j)%Z.
Proof. exact ghosts_irrelevant. Qed.
Print Assumptions C11_stale_ghosts.

(** Two states that differ in the ghost zones only. *)
Example C11_applies :
  let s := ex_state ex_lay in
  let s2 := FState (fun r1 r2 => let a := sf s r1 r2 in
     Arr (d0 a) (d1 a) (d2 a) (d3 a) (fun x p i j => if (i <? 3)%Z then 99 else el a x p i j)) (fun _ _ _ => 5) in
  shaped ex_lay 4 2 (sf s) /\ shaped ex_lay 4 2 (sf s2) /\ el (sf s 0%nat 0%nat) 0 0 0 3 <> el (sf s2 0%nat 0%nat) 0 0 0 3
  /\ forall r1 r2 x p i j, (0 <= i)%Z -> el (sf s r1 r2) x p (3 + i)%Z j = el (sf s2 r1 r2) x p (3 + i)%Z j.
Proof.
  repeat split. 
  - cbn. lra.
  - intros. cbn [sf el]. destruct (Z.ltb_spec (3 + i) 3); [lia|reflexivity].
Qed.

(** C12.  After the exchange every cell of every rank, ghosts and corners
    included, holds the periodic global value; interior cells are unchanged; a
    second exchange changes nothing. *)
Theorem C12_ghost_exchange : forall c s,
  periodic_layout (lay c) -> shaped (lay c) (N_p c) (N_species c) (sf s) ->
  let L := lay c in let s' := communicate_f c s in
  forall r1 r2 x sp i j, rank_ok L r1 r2 -> inb (N_p c) x -> inb (N_species c) sp ->
  inb (n1g L r1) i -> inb (n2g L r2) j ->
  el (sf s' r1 r2) x sp i j
    = gval L (sf s) x sp ((off (blk1 L) r1 + i - ng1 L) mod gN1 L) ((off (blk2 L) r2 + j - ng2 L) mod gN2 L)
  /\ ((ng1 L <= i < ng1 L + bsize (blk1 L) r1)%Z -> (ng2 L <= j < ng2 L + bsize (blk2 L) r2)%Z ->
      el (sf s' r1 r2) x sp i j = el (sf s r1 r2) x sp i j)
  /\ el (sf (communicate_f c s') r1 r2) x sp i j = el (sf s' r1 r2) x sp i j.
Proof. exact exchange. Qed.
Print Assumptions C12_ghost_exchange.

(** Corner ghost (0, 0) of rank (0, 0) shows global cell (1, 0). *)
Example C12_applies : let s := ex_state ex_lay in
  el (sf (communicate_f (ex_cfg "ppm" true) s) 0%nat 0%nat) 3 1 0 0 = gval ex_lay (sf s) 3 1 1 0
  /\ gval ex_lay (sf s) 3 1 1 0 = 17.
Proof.
  intros s. split; [|cbn; lra].
  pose proof (C12_ghost_exchange (ex_cfg "ppm" true) s (proj1 (proj2 (proj2 (ex_periodic _ _ PPM)))) (ex_shaped _ _)
    0%nat 0%nat 3%Z 1%Z 0%Z 0%Z) as H. cbv zeta in H.
  rewrite (proj1 (H ltac:(split; cbn; lia) ltac:(split; reflexivity || discriminate)
     ltac:(split; reflexivity || discriminate) ltac:(split; reflexivity || discriminate) ltac:(split; reflexivity || discriminate))).
  reflexivity.
Qed.
