(** Electrostatic runs: C123-C127. *)
From Coq Require Import ZArith Reals Lra Lia String List Bool.
From Verif Require Import Base.Prelude Base.ZSum Model.Af Model.Petsc Model.Config Model.Fvm Model.Em
  Model.Moments Model.Splitting Model.Timestep Model.Solver Spec.Domain Spec.Lattice Spec.FvmProblem Spec.FvmRun
  Spec.Yee Spec.EmRun Spec.MomentSpec Spec.Clock Spec.SolverSpec Spec.VlasovMaxwell Spec.Symmetry Spec.Slide Spec.Reflect
  Spec.Poisson
  Proofs.EmLemmas Proofs.EmStep Proofs.EmInit Proofs.EmProps Proofs.InitFields Proofs.Electrostatic Proofs.PoissonRun Proofs.PoissonMomentum
  Proofs.PoissonSym Proofs.PoissonProps Proofs.RestartWitness Proofs.PoissonWitness.
Import ListNotations.
Local Open Scope R_scope.

(** C123.  Every sequence of steps succeeds and is the explicit Vlasov-Poisson
    program: in each of the two evaluations of a step the force comes from the
    Coulomb sum over the charges of the state it acts on.  The fields handed out
    are those of the program as well. *)
Theorem C123_vlasov_poisson : forall P k1 k2, let L := lay (pc P) in
  wf_cfg (pc P) k1 k2 -> periodic_fvm (pc P) k1 -> plasma P -> electrostatic P ->
  forall h s u, starts P s -> holds (pc P) (f_of s) u ->
  let C s := view L (fst (get_fields (pf P) (fields s))) in
  exists s', run_steps (solver_stepper P) h s = Ok (s', None) /\ time_elapsed s' = time_elapsed s + elapsed h
  /\ holds (pc P) (f_of s') (vp_run P k1 k2 (C s) (time_elapsed s) h u)
  /\ same (C s') (vp_fields P k1 k2 (C s) (time_elapsed s) h u (C s)).
Proof. exact vp_program. Qed.
Print Assumptions C123_vlasov_poisson.

Example C123_applies : forall h, exists s s' C, let P := tri_params 6 "minmod" in
  starts P s /\ holds (pc P) (f_of s) mixed /\ run_steps (solver_stepper P) h s = Ok (s', None)
  /\ holds (pc P) (f_of s') (vp_run P FirstOrder MC C 0 h mixed)
  /\ same (view tri_lay (fst (get_fields (pf P) (fields s')))) (vp_fields P FirstOrder MC C 0 h mixed C).
Proof.
  intros h. destruct (tri_initial 6 "minmod" mixed) as (s&ST&HU&T0&_).
  destruct (C123_vlasov_poisson (tri_params 6 "minmod") FirstOrder MC (tri_wf 6 "minmod" MC ltac:(lia) eq_refl) (tri_periodic _ _) (tri_plasma _ _)
              (tri_electrostatic _ _) h s mixed ST HU) as (s'&R&_&H&F).
  rewrite T0 in H, F. exists s, s', (view tri_lay (fst (get_fields (pf (tri_params 6 "minmod")) (fields s)))). cbv zeta.
  split; [exact ST|]. split; [exact HU|]. split; [exact R|]. split; [exact H|exact F].
Qed.

(** C124.  The field computed for a charge density is the sum over its charges, and
    the total force it exerts on them is zero: a plasma cannot push itself. *)
Theorem C124_no_self_force : forall c rho s, electrostatic_ok c -> wf_em c s -> shaped (flay c) 1 1 (dmap asum1 rho) ->
  let L := flay c in let r := gval L (dmap asum1 rho) 0 0 in
  exists s', compute_electrostatic_fields c rho s = Ok s'
  /\ let E n := gval L (fst (get_fields c s')) n 0 in
     (forall i j, inb (gN1 L) i -> inb (gN2 L) j ->
        E 0%Z i j = field_of (gN1 L) (gN2 L) (coulomb1 (gN1 L) (gN2 L) (fdq1 c) (fdq2 c) (eps c)) r i j
        /\ E 1%Z i j = field_of (gN1 L) (gN2 L) (coulomb2 (gN1 L) (gN2 L) (fdq1 c) (fdq2 c) (eps c)) r i j)
     /\ zsum (gN1 L) (fun i => zsum (gN2 L) (fun j => r i j * E 0%Z i j)) = 0
     /\ zsum (gN1 L) (fun i => zsum (gN2 L) (fun j => r i j * E 1%Z i j)) = 0.
Proof. exact solver_no_force. Qed.
Print Assumptions C124_no_self_force.

(** A charge in the first of three cells pushes away its neighbours. *)
Definition one_charge : dist R := fun r1 r2 => Arr 1 1 (n1g tri_lay r1) (n2g tri_lay r2) (fun _ _ i _ => if (i =? 1)%Z then 1 else 0).
Lemma tri_em_ok : electrostatic_ok tri_em.
Proof. split; [exact tri_regular|]. cbn. repeat split; lra. Qed.
Example C124_applies : exists e s', fields_solver_init tri_em zeroJ = Ok e
  /\ compute_electrostatic_fields tri_em one_charge e = Ok s'
  /\ let E n := gval tri_lay (fst (get_fields tri_em s')) n 0 in
     E 0%Z 0%Z 0%Z = 0 /\ E 0%Z 1%Z 0%Z = 1 /\ E 0%Z 2%Z 0%Z = -1.
Proof.
  destruct (initial_EB tri_em zeroJ (fun _ _ => (0, 0, 0)) (fun _ _ => (0, 0, 0)) tri_regular) as (e&H&_); [repeat split|].
  pose proof (proj1 (init_good _ _ _ tri_regular H)) as We.
  destruct (C124_no_self_force tri_em one_charge e tri_em_ok We) as (s'&R&K&_).
  { intros r1 r2 _. repeat split. }
  exists e, s'. split; [exact H|]. split; [exact R|].
  cbv zeta in K |- *. change (flay tri_em) with tri_lay in K.
  assert (Q : forall i, inb 3 i -> gval tri_lay (fst (get_fields tri_em s')) 0 0 i 0%Z = coulomb1 3 1 1 1 tri_eps i 0).
  { intros i Hi. destruct (K i 0%Z Hi ltac:(split; reflexivity || discriminate)) as (A&_). rewrite A. unfold field_of.
    change (gN1 tri_lay) with 3%Z. change (gN2 tri_lay) with 1%Z. change (fdq1 tri_em) with 1. change (fdq2 tri_em) with 1. change (eps tri_em) with tri_eps.
    change (zsum 3) with (zsum (1 + 1 + 1)%Z). rewrite !zsum_succ by lia. rewrite !zsum_1.
    change (gval tri_lay (dmap asum1 one_charge) 0 0 0 0) with (zsum 1 (fun _ => 1)).
    change (gval tri_lay (dmap asum1 one_charge) 0 0 1 0) with (zsum 1 (fun _ => 0)).
    change (gval tri_lay (dmap asum1 one_charge) 0 0 (1 + 1) 0) with (zsum 1 (fun _ => 0)).
    rewrite !zsum_1. rewrite !Z.sub_0_r. ring. }
  destruct (tri_K 0) as (K0&_&_&K2).
  rewrite !Q by (split; reflexivity || discriminate). rewrite K0, K2, tri_K1. auto.
Qed.

(** C125, what holds: first order in momentum space, no magnetic field, force charge
    / mass * E, collisions that keep momentum.  The momentum changes only by what
    leaves the momentum grid at one end and comes back at the other.  Missing: that
    loss, and the limited schemes (both refuted below). *)
Theorem C125_balance_partial : forall P k1 mass, let L := lay (pc P) in
  wf_cfg (pc P) k1 FirstOrder -> periodic_fvm (pc P) k1 -> plasma P -> electrostatic P ->
  velocity_periodic (pc P) -> collisions_keep P mass -> coulomb_force P mass ->
  (forall s, inb (N_species (pc P)) s -> nth (Z.to_nat s) (dp1 (pc P)) 0 <> 0 /\ nth (Z.to_nat s) (dp2 (pc P)) 0 <> 0) ->
  forall h s u, starts P s -> holds (pc P) (f_of s) u ->
  let C := view L (fst (get_fields (pf P) (fields s))) in unmagnetised C ->
  exists s', run_steps (solver_stepper P) h s = Ok (s', None)
  /\ momentum1 P mass (gval L (f_of s')) = momentum1 P mass (gval L (f_of s))
       - vp_lost (loss1 P mass) P k1 FirstOrder C (time_elapsed s) h u
  /\ momentum2 P mass (gval L (f_of s')) = momentum2 P mass (gval L (f_of s))
       - vp_lost (loss2 P mass) P k1 FirstOrder C (time_elapsed s) h u.
Proof. exact momentum_balance. Qed.
Print Assumptions C125_balance_partial.

(** So it is constant while the outermost momentum cells stay empty. *)
Theorem C125_kept_partial : forall P k1 mass, let L := lay (pc P) in
  wf_cfg (pc P) k1 FirstOrder -> periodic_fvm (pc P) k1 -> plasma P -> electrostatic P ->
  velocity_periodic (pc P) -> collisions_keep P mass -> coulomb_force P mass ->
  (forall s, inb (N_species (pc P)) s -> nth (Z.to_nat s) (dp1 (pc P)) 0 <> 0 /\ nth (Z.to_nat s) (dp2 (pc P)) 0 <> 0) ->
  forall h s u, starts P s -> holds (pc P) (f_of s) u ->
  let C := view L (fst (get_fields (pf P) (fields s))) in unmagnetised C ->
  exists s', run_steps (solver_stepper P) h s = Ok (s', None)
  /\ (vp_confined P true k1 FirstOrder C (time_elapsed s) h u ->
      momentum1 P mass (gval L (f_of s')) = momentum1 P mass (gval L (f_of s)))
  /\ (vp_confined P false k1 FirstOrder C (time_elapsed s) h u ->
      momentum2 P mass (gval L (f_of s')) = momentum2 P mass (gval L (f_of s))).
Proof. exact momentum_kept. Qed.
Print Assumptions C125_kept_partial.

Example C125_applies : forall dt, exists s s', let P := tri_params 6 "piecewise-constant" in
  starts P s /\ holds (pc P) (f_of s) mixed
  /\ run_steps (solver_stepper P) [(Strang, dt)] s = Ok (s', None)
  /\ momentum1 P unit_mass (gval tri_lay (f_of s')) = momentum1 P unit_mass (gval tri_lay (f_of s)).
Proof.
  intros dt. destruct (tri_initial 6 "piecewise-constant" mixed) as (s&ST&HU&T0&NF).
  destruct (C125_kept_partial (tri_params 6 "piecewise-constant") FirstOrder unit_mass (tri_wf 6 "piecewise-constant" FirstOrder ltac:(lia) eq_refl)
     (tri_periodic _ _) (tri_plasma _ _) (tri_electrostatic _ _) (tri_velocity _ _) (tri_keep _ _) (tri_force _ _) (tri_steps _ _)
     [(Strang, dt)] s mixed ST HU) as (s'&R&M&_).
  { destruct NF as (_&_&_&N4&N5&N6). split; [exact N4|]. split; [exact N5|exact N6]. }
  exists s, s'. cbv zeta. split; [exact ST|]. split; [exact HU|]. split; [exact R|]. apply M. rewrite T0. apply mixed_confined.
Qed.

(** Two momentum cells: what the field pushes past the largest momentum comes back
    with the smallest. *)
Theorem C125_edges_refuted : exists P mass s r, let L := lay (pc P) in
  wf_cfg (pc P) FirstOrder FirstOrder /\ periodic_fvm (pc P) FirstOrder /\ plasma P /\ electrostatic P
  /\ velocity_periodic (pc P) /\ collisions_keep P mass /\ coulomb_force P mass /\ starts P s
  /\ no_fields (view L (fst (get_fields (pf P) (fields s))))
  /\ run_steps (solver_stepper P) [(Strang, 1)] s = Ok (r, None)
  /\ momentum1 P mass (gval L (f_of s)) = 2 /\ momentum1 P mass (gval L (f_of r)) = 0.
Proof. exact edges_break. Qed.
Print Assumptions C125_edges_refuted.

(** Limited slopes along p: with empty edges the plasma still pushes itself, because
    the flux through a face is not the mean of its two cells. *)
Theorem C125_limiters_refuted : exists P mass s r u, let L := lay (pc P) in let C := view L (fst (get_fields (pf P) (fields s))) in
  wf_cfg (pc P) FirstOrder MC /\ periodic_fvm (pc P) FirstOrder /\ plasma P /\ electrostatic P
  /\ velocity_periodic (pc P) /\ collisions_keep P mass /\ coulomb_force P mass /\ starts P s /\ holds (pc P) (f_of s) u
  /\ no_fields C /\ vp_confined P true FirstOrder MC C (time_elapsed s) [(Strang, 2)] u
  /\ run_steps (solver_stepper P) [(Strang, 2)] s = Ok (r, None)
  /\ momentum1 P mass (gval L (f_of r)) = momentum1 P mass (gval L (f_of s)) + 7/2.
Proof. exact limiter_breaks. Qed.
Print Assumptions C125_limiters_refuted.

(** C126.  No cell is special: moved initial data give the moved run. *)
Theorem C126_translation : forall P c' k1 k2 d1 d2 h s s2, let P' := with_fields_from P c' in
  wf_cfg (pc P) k1 k2 -> periodic_fvm (pc P) k1 -> plasma P -> electrostatic P ->
  velocity_uniform (pc P) -> same_everywhere (pc P) ->
  starts P s -> starts P' s2 -> time_elapsed s2 = time_elapsed s -> es_moved P d1 d2 s s2 ->
  exists r r2, run_steps (solver_stepper P) h s = Ok (r, None) /\ run_steps (solver_stepper P') h s2 = Ok (r2, None)
  /\ es_moved P d1 d2 r r2.
Proof. exact es_translation. Qed.
Print Assumptions C126_translation.

(** Left and right are equivalent. *)
Theorem C126_mirror_images : forall P c' k1 k2 b1 b2 h s s2, let P' := with_fields_from P c' in
  wf_cfg (pc P) k1 k2 -> periodic_fvm (pc P) k1 -> plasma P -> electrostatic P ->
  ballistic P -> same_everywhere (pc P) -> mirror_law (pc P) b1 b2 ->
  starts P s -> starts P' s2 -> time_elapsed s2 = time_elapsed s -> es_mirrored P b1 b2 s s2 ->
  exists r r2, run_steps (solver_stepper P) h s = Ok (r, None) /\ run_steps (solver_stepper P') h s2 = Ok (r2, None)
  /\ es_mirrored P b1 b2 r r2.
Proof. exact es_mirror_images. Qed.
Print Assumptions C126_mirror_images.

(** A uniform plasma, whatever its momenta and charges, stays as it is. *)
Theorem C126_uniform_rest : forall P k1 k2,
  wf_cfg (pc P) k1 k2 -> periodic_fvm (pc P) k1 -> plasma P -> electrostatic P ->
  velocity_uniform (pc P) -> source_enabled (pc P) = false -> field_driven (pc P) ->
  forall (a : Z -> Z -> R) h s, starts P s -> holds (pc P) (f_of s) (fun x sp _ _ => a x sp) ->
  no_fields (view (lay (pc P)) (cc_val (fields s))) ->
  exists r, run_steps (solver_stepper P) h s = Ok (r, None) /\ holds (pc P) (f_of r) (fun x sp _ _ => a x sp)
  /\ no_fields (view (lay (pc P)) (cc_val (fields r))).
Proof. exact es_rest. Qed.
Print Assumptions C126_uniform_rest.

Lemma tri_same n rec : same_everywhere (tri_cfg n rec).
Proof. split; reflexivity. Qed.
Lemma tri_ballistic n rec : ballistic (tri_params n rec).
Proof. constructor; reflexivity. Qed.
Lemma tri_mirror n rec : mirror_law (tri_cfg n rec) true false.
Proof.
  constructor; try discriminate.
  - intros _ s Hs. assert (s = 0)%Z as -> by (unfold inb in Hs; cbn in Hs; lia). cbn [p1_start dp1 N_p1 tri_cfg nth Z.to_nat]. lra.
  - intros. cbn [C_p tri_cfg]. unfold rs_force. cbn [turn xorb]. f_equal; [f_equal|]; ring.
  - intros. reflexivity.
  - left; reflexivity.
Qed.
Lemma tri_pair n rec u v : exists s s2, let P := tri_params n rec in
  starts P s /\ starts P s2 /\ time_elapsed s2 = time_elapsed s
  /\ holds (pc P) (f_of s) u /\ holds (pc P) (f_of s2) v
  /\ no_fields (view tri_lay (cc_val (fields s))) /\ no_fields (view tri_lay (cc_val (fields s2))).
Proof.
  destruct (tri_initial n rec u) as (s&A&B&C&D). destruct (tri_initial n rec v) as (s2&A2&B2&C2&D2).
  exists s, s2. cbv zeta. rewrite C, C2. auto 8.
Qed.
Lemma same_zero Y Z : no_fields Y -> no_fields Z -> same Y Z.
Proof. intros (A1&A2&A3&A4&A5&A6) (B1&B2&B3&B4&B5&B6). repeat split; intros i j; congruence. Qed.

(** [lone] moved to the next cell; its mirror image moves the other way. *)
Example C126_applies : forall h, let P := tri_params 2 "piecewise-constant" in
  (exists s s2 r r2, holds (pc P) (f_of s) lone /\ holds (pc P) (f_of s2) (moved (pc P) 1 0 lone)
    /\ run_steps (solver_stepper P) h s = Ok (r, None) /\ run_steps (solver_stepper P) h s2 = Ok (r2, None) /\ es_moved P 1 0 r r2)
  /\ (exists s s2 r r2, holds (pc P) (f_of s) lone /\ holds (pc P) (f_of s2) (reflection (pc P) true false (opposite (pc P) true false) lone)
    /\ run_steps (solver_stepper P) h s = Ok (r, None) /\ run_steps (solver_stepper P) h s2 = Ok (r2, None) /\ es_mirrored P true false r r2).
Proof.
  intros h P. split.
  - destruct (tri_pair 2 "piecewise-constant" lone (moved (pc P) 1 0 lone)) as (s&s2&ST&ST2&T&H&H2&NF&NF2). fold P in ST, ST2, H, H2.
    destruct (C126_translation P (pf P) FirstOrder FirstOrder 1 0 h s s2 (tri_wf 2 "piecewise-constant" FirstOrder ltac:(lia) eq_refl)
      (tri_periodic _ _) (tri_plasma _ _) (tri_electrostatic _ _) (tri_uniform _ _) (tri_same _ _) ST ST2 T) as (r&r2&R&R2&M).
    { split.
      - intros x sp i j Hx Hs Hi Hj. rewrite (proj2 H2) by auto. unfold moved. rewrite (proj2 H); auto; apply Z.mod_pos_bound; reflexivity.
      - change (lay (pc P)) with tri_lay. apply same_zero; [exact NF2|]. destruct NF as (A1&A2&A3&A4&A5&A6).
        repeat split; intros i j; cbn [slide Yee.E1 Yee.E2 Yee.E3 Yee.B1 Yee.B2 Yee.B3]; unfold slid; rewrite ?A1, ?A2, ?A3, ?A4, ?A5, ?A6; reflexivity. }
    exists s, s2, r, r2. auto.
  - destruct (tri_pair 2 "piecewise-constant" lone (reflection (pc P) true false (opposite (pc P) true false) lone)) as (s&s2&ST&ST2&T&H&H2&NF&NF2).
    fold P in ST, ST2, H, H2.
    destruct (C126_mirror_images P (pf P) FirstOrder FirstOrder true false h s s2 (tri_wf 2 "piecewise-constant" FirstOrder ltac:(lia) eq_refl)
      (tri_periodic _ _) (tri_plasma _ _) (tri_electrostatic _ _) (tri_ballistic _ _) (tri_same _ _) (tri_mirror _ _) ST ST2 T) as (r&r2&R&R2&M).
    { split.
      - intros x sp i j Hx Hs Hi Hj. rewrite (proj2 H2) by auto. unfold reflection.
        change (gN1 (lay (pc P))) with 3%Z in *. change (gN2 (lay (pc P))) with 1%Z in *. cbn [flip].
        rewrite (proj2 H); auto.
        + change (N_p (pc P)) with 2%Z in *. unfold opposite. change (N_p1 (pc P)) with 2%Z. change (N_p2 (pc P)) with 1%Z.
          assert (x = 0 \/ x = 1)%Z as [->| ->] by (unfold inb in Hx; lia); cbn; unfold inb; lia.
        + change (gN1 (lay (pc P))) with 3%Z. unfold inb in *. lia.
      - change (lay (pc P)) with tri_lay. apply same_zero; [exact NF2|]. destruct NF as (A1&A2&A3&A4&A5&A6).
        repeat split; intros i j; cbn [mirror_centre Yee.E1 Yee.E2 Yee.E3 Yee.B1 Yee.B2 Yee.B3 turn xorb];
          rewrite ?A1, ?A2, ?A3, ?A4, ?A5, ?A6; try reflexivity; cbn [turn Yee.E1 Yee.E2 Yee.E3 Yee.B1 Yee.B2 Yee.B3]; ring. }
    exists s, s2, r, r2. auto.
Qed.
Example C126_rest_applies : forall h, exists s r, let P := tri_params 6 "minmod" in
  starts P s /\ run_steps (solver_stepper P) h s = Ok (r, None) /\ holds (pc P) (f_of r) (fun x _ _ _ => IZR (x * x)).
Proof.
  intros h. destruct (tri_initial 6 "minmod" (fun x _ _ _ => IZR (x * x))) as (s&ST&HU&_&NF).
  destruct (C126_uniform_rest (tri_params 6 "minmod") FirstOrder MC (tri_wf 6 "minmod" MC ltac:(lia) eq_refl) (tri_periodic _ _) (tri_plasma _ _)
     (tri_electrostatic _ _) (tri_uniform _ _) eq_refl) with (a := fun x (_ : Z) => IZR (x * x)) (h := h) (s := s) as (r&R&H&_); auto.
  { intros sp t q1 q2 p1 p2 p3. cbn [C_p tri_params tri_cfg pc]. unfold rs_force. f_equal; [f_equal|]; ring. }
  exists s, r. auto.
Qed.

(** C127, what holds: after a run of any length the fields handed out are those of
    the half-step state of its last step.  Missing: they are not those of f. *)
Theorem C127_half_step_partial : forall P k1 k2, let L := lay (pc P) in
  wf_cfg (pc P) k1 k2 -> periodic_fvm (pc P) k1 -> plasma P -> electrostatic P ->
  let C s := view L (fst (get_fields (pf P) (fields s))) in
  forall h m dt s u, starts P s -> holds (pc P) (f_of s) u ->
  exists r r', run_steps (solver_stepper P) h s = Ok (r, None) /\ run_steps (solver_stepper P) (h ++ [(m, dt)]) s = Ok (r', None)
  /\ exists v, holds (pc P) (f_of r) v
  /\ same (C r') (es_fields P (C s) (vp_half P k1 k2 (C s) (time_elapsed r) dt v)).
Proof. exact half_step_fields. Qed.
Print Assumptions C127_half_step_partial.

Theorem C127_refuted : exists P s r, let L := lay (pc P) in let C s := view L (fst (get_fields (pf P) (fields s))) in
  wf_cfg (pc P) FirstOrder FirstOrder /\ periodic_fvm (pc P) FirstOrder /\ plasma P /\ electrostatic P
  /\ starts P s /\ run_steps (solver_stepper P) [(Strang, 1)] s = Ok (r, None)
  /\ Yee.E1 (C r) 0%Z 0%Z = -1
  /\ Yee.E1 (es_fields P (C s) (gval L (f_of r))) 0%Z 0%Z = 1.
Proof. exact field_is_late. Qed.
Print Assumptions C127_refuted.

Example C127_applies : exists s r v, let P := tri_params 6 "minmod" in
  starts P s /\ run_steps (solver_stepper P) [(Lie, 1/4); (Strang, 1/2)] s = Ok (r, None)
  /\ same (view tri_lay (fst (get_fields (pf P) (fields r))))
          (es_fields P (view tri_lay (fst (get_fields (pf P) (fields s)))) v).
Proof.
  destruct (tri_initial 6 "minmod" mixed) as (s&ST&HU&T0&_).
  destruct (C127_half_step_partial (tri_params 6 "minmod") FirstOrder MC (tri_wf 6 "minmod" MC ltac:(lia) eq_refl) (tri_periodic _ _) (tri_plasma _ _)
              (tri_electrostatic _ _) [(Lie, 1/4)] Strang (1/2) s mixed ST HU) as (r&r'&_&R&v&_&F).
  exists s, r', (vp_half (tri_params 6 "minmod") FirstOrder MC (view tri_lay (fst (get_fields (pf (tri_params 6 "minmod")) (fields s)))) (time_elapsed r) (1/2) v).
  cbv zeta. split; [exact ST|]. split; [exact R|exact F].
Qed.
