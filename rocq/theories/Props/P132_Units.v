(** Systems of units and signs of charges: C132, C133. *)
From Coq Require Import ZArith Reals Lra Lia String List Bool.
From Verif Require Import Base.Prelude Base.ZSum Model.Af Model.Petsc Model.Config Model.Fvm Model.Em
  Model.Moments Model.Splitting Model.Timestep Model.Solver Spec.Domain Spec.Lattice Spec.FvmProblem Spec.FvmRun
  Spec.Yee Spec.EmRun Spec.MomentSpec Spec.Clock Spec.SolverSpec Spec.VlasovMaxwell Spec.InitFields Spec.Poisson Spec.Rescale
  Proofs.EmLemmas Proofs.EmStep Proofs.EmInit Proofs.EmProps Proofs.InitFields Proofs.VmProps Proofs.PoissonWitness Proofs.RescaleRun
  Props.ExFvm Props.ExEm Props.ExSolver Props.ExMaxwell.
Import ListNotations.
Local Open Scope R_scope.

(** C132.  A problem written in other units of length, time, f, charge and field,
    and run with the same steps in those units, has the same result in those units:
    with electrodynamics, with electrostatics and without fields. *)
Theorem C132_electrodynamic : forall U P k1 k2 h s s2 u, let P' := convert U P in
  proper U -> wf_cfg (pc P) k1 k2 -> periodic_fvm (pc P) k1 -> plasma P -> maxwell P -> user_defined (pf P) ->
  starts P s -> holds (pc P) (f_of s) u -> starts P' s2 -> holds (pc P') (f_of s2) (convert_f U u) ->
  time_elapsed s2 = u_time U * time_elapsed s ->
  exists r r2 S, run_steps (solver_stepper P) h s = Ok (r, None)
  /\ run_steps (solver_stepper P') (convert_steps U h) s2 = Ok (r2, None)
  /\ vm_holds P r S /\ vm_holds P' r2 (convert_vm U S) /\ time_elapsed r2 = u_time U * time_elapsed r.
Proof. intros U P k1 k2 h s s2 u P' UP. exact (vm_units U UP P k1 k2 h s s2 u). Qed.
Print Assumptions C132_electrodynamic.

Theorem C132_electrostatic : forall U P k1 k2 h s s2 u, let P' := convert U P in let L := lay (pc P) in
  proper U -> wf_cfg (pc P) k1 k2 -> periodic_fvm (pc P) k1 -> plasma P -> electrostatic P -> user_defined (pf P) ->
  starts P s -> holds (pc P) (f_of s) u -> starts P' s2 -> holds (pc P') (f_of s2) (convert_f U u) ->
  time_elapsed s2 = u_time U * time_elapsed s ->
  exists r r2 v, run_steps (solver_stepper P) h s = Ok (r, None)
  /\ run_steps (solver_stepper P') (convert_steps U h) s2 = Ok (r2, None)
  /\ holds (pc P) (f_of r) v /\ holds (pc P') (f_of r2) (convert_f U v)
  /\ same (view L (fst (get_fields (pf P') (fields r2)))) (convert_fields U (view L (fst (get_fields (pf P) (fields r))))).
Proof. intros U P k1 k2 h s s2 u P' L UP. exact (es_run_units U UP P k1 k2 h s s2 u). Qed.
Print Assumptions C132_electrostatic.

Theorem C132_no_fields : forall U P k1 k2 h s s2 u, let P' := convert U P in
  proper U -> wf_cfg (pc P) k1 k2 -> periodic_fvm (pc P) k1 -> fields_enabled (pc P) = false ->
  holds (pc P) (f_of s) u -> holds (pc P') (f_of s2) (convert_f U u) -> time_elapsed s2 = u_time U * time_elapsed s ->
  exists r r2 v, run_steps (solver_stepper P) h s = Ok (r, None)
  /\ run_steps (solver_stepper P') (convert_steps U h) s2 = Ok (r2, None)
  /\ holds (pc P) (f_of r) v /\ holds (pc P') (f_of r2) (convert_f U v).
Proof. intros U P k1 k2 h s s2 u P' UP. exact (free_units U UP P k1 k2 h s s2 u). Qed.
Print Assumptions C132_no_fields.

(** Lengths in half units, times in quarter units, and so on. *)
Definition ex_units : units := Units 2 4 3 5 7.
Lemma ex_proper : proper ex_units.
Proof. unfold proper, ex_units; cbn [u_len u_time u_f u_charge u_E]. lra. Qed.
Definition scaled_even (a : R) : fstate :=
  FState (fun r1 r2 => Arr 4 2 (n1g ex_lay r1) (n2g ex_lay r2) (fun x s _ _ => a * even x s)) (fun _ _ _ => 0).

Lemma triple (a b c x y z : R) : a = x -> b = y -> c = z -> (a, b, c) = (x, y, z).
Proof. intros; subst; reflexivity. Qed.

(** The new problem, written out: a 8 x 6 box, light slower by half, fields in the
    new units at the new places. *)
Example C132_converted : let P := convert ex_units (vm_params true push twist) in
  q1_end (pc P) = 8 /\ dq2 (pc P) = 2 /\ dp1 (pc P) = [1/2 * 1; 1/2 * 2] /\ charge P = [5 * 1; 5 * -2]
  /\ C_q (pc P) 1 0 0 0 (1/4) 3 0 = (1/4, 3)
  /\ (forall E1 B3, C_p (pc P) 0 0 0 0 0 (1/2) 0 E1 0 0 0 0 B3 = (1 / 56 * E1 + 1/8 * (B3 / 14), 0, 0))
  /\ mu (pf P) * eps (pf P) = 4 * (mu (vm_em push twist) * eps (vm_em push twist))
  /\ exists g, init_E (pf P) = Some g /\ g 2 4 = (7, 14, -7).
Proof.
  assert (V : u_vel ex_units = 1/2) by (unfold u_vel; cbn [ex_units u_len u_time]; lra).
  assert (BB : u_B ex_units = 14) by (unfold u_B; rewrite V; cbn [ex_units u_E]; lra).
  assert (EE : u_eps ex_units = 15 / 28) by (unfold u_eps; rewrite V; cbn [ex_units u_charge u_f u_len u_E]; field).
  assert (MM : u_mu ex_units = 112 / 15) by (unfold u_mu; rewrite EE, V; field).
  cbn [convert pc pf charge vm_params convert_cfg vm_cfg q1_end dq2 dp1 C_q C_p convert_fcfg vm_em mu eps init_E option_map map].
  rewrite V, EE, MM. cbv zeta. unfold in_units, at_len, lorentz, push, times2, times3. rewrite V, BB. cbn [ex_units u_len u_time u_E u_charge fst snd Z.eqb].
  split; [lra|]. split; [lra|]. split; [reflexivity|]. split; [reflexivity|]. split; [f_equal; lra|].
  split; [intros; apply triple; lra|]. split; [lra|].
  eexists. split; [reflexivity|]. apply triple; lra.
Qed.

Lemma user_vm src E B : user_defined (pf (vm_params src E B)).
Proof. left. exists E, B. apply vm_defines. Qed.
Lemma converted_start src E B U (UP : proper U) (f : fstate) : shaped ex_lay 4 2 (sf f) ->
  exists s, starts (convert U (vm_params src E B)) s /\ f_of s = sf f /\ time_elapsed s = 0.
Proof.
  intros SH. set (P := vm_params src E B).
  assert (D : defines_EB (pf (convert U P)) (fun q1 q2 => times3 (u_E U) (at_len U E q1 q2)) (fun q1 q2 => times3 (u_B U) (at_len U B q1 q2)))
    by (repeat split).
  destruct (initial_EB (pf (convert U P)) zeroJ _ _ (regular_units U UP P (vm_regular E B)) D) as (e&H&_).
  exists (Solver f e 0 0). split; [split; [exists zeroJ; exact H|exact SH]|]. split; reflexivity.
Qed.

Example C132_applies : forall h, let P := vm_params true push twist in let P' := convert ex_units P in
  exists s s2 r r2 S, starts P s /\ f_of s = sf even_state /\ starts P' s2 /\ f_of s2 = sf (scaled_even 3)
  /\ run_steps (solver_stepper P) h s = Ok (r, None) /\ run_steps (solver_stepper P') (convert_steps ex_units h) s2 = Ok (r2, None)
  /\ vm_holds P r S /\ vm_holds P' r2 (convert_vm ex_units S).
Proof.
  intros h P P'. destruct (vm_initial true push twist even_state even_shaped) as (s&ST&F&T&_).
  destruct (converted_start true push twist ex_units ex_proper (scaled_even 3)) as (s2&ST2&F2&T2); [intros r1 r2 _; repeat split|].
  assert (HU : holds (pc P) (f_of s) (fun x s _ _ => even x s)) by (rewrite F; apply (even_holds true)).
  assert (HU2 : holds (pc P') (f_of s2) (convert_f ex_units (fun x s _ _ => even x s))).
  { rewrite F2. split; [intros r1 r2 _; repeat split|]. intros. reflexivity. }
  destruct (C132_electrodynamic ex_units P MC PPM h s s2 _ ex_proper (vm_wf true) (vm_periodic true) (vm_plasma true push twist)
     (vm_maxwell true push twist) (user_vm true push twist) ST HU ST2 HU2) as (r&r2&S&R1&R2&V1&V2&_).
  - rewrite T, T2. ring.
  - exists s, s2, r, r2, S. auto 10.
Qed.

Lemma tri_user n rec : user_defined (pf (tri_params n rec)).
Proof. left. do 2 eexists. repeat split. Qed.
Lemma tri_converted n rec U (UP : proper U) u :
  exists s, starts (convert U (tri_params n rec)) s /\ holds (pc (convert U (tri_params n rec))) (f_of s) (convert_f U u) /\ time_elapsed s = 0.
Proof.
  set (P := tri_params n rec).
  assert (D : defines_EB (pf (convert U P)) (fun q1 q2 => times3 (u_E U) (at_len U (fun _ _ => (0, 0, 0)) q1 q2))
     (fun q1 q2 => times3 (u_B U) (at_len U (fun _ _ => (0, 0, 0)) q1 q2))) by (repeat split).
  destruct (initial_EB (pf (convert U P)) zeroJ _ _ (regular_units U UP P tri_regular) D) as (e&H&_).
  exists (Solver (tri_state n (convert_f U u)) e 0 0).
  split; [split; [exists zeroJ; exact H|exact (tri_shaped n (convert_f U u) rec)]|].
  split; [exact (tri_holds n (convert_f U u) rec)|reflexivity].
Qed.
(** Charges in one of three cells. *)
Example C132_electrostatic_applies : forall h, let P := tri_params 6 "minmod" in let P' := convert ex_units P in
  exists s s2 r r2 v, holds (pc P) (f_of s) mixed /\ holds (pc P') (f_of s2) (convert_f ex_units mixed)
  /\ run_steps (solver_stepper P) h s = Ok (r, None) /\ run_steps (solver_stepper P') (convert_steps ex_units h) s2 = Ok (r2, None)
  /\ holds (pc P) (f_of r) v /\ holds (pc P') (f_of r2) (convert_f ex_units v).
Proof.
  intros h P P'. destruct (tri_initial 6 "minmod" mixed) as (s&ST&HU&T&_). destruct (tri_converted 6 "minmod" ex_units ex_proper mixed) as (s2&ST2&HU2&T2).
  destruct (C132_electrostatic ex_units P FirstOrder MC h s s2 mixed ex_proper (tri_wf 6 "minmod" MC ltac:(lia) eq_refl) (tri_periodic _ _)
    (tri_plasma _ _) (tri_electrostatic _ _) (tri_user _ _) ST HU ST2 HU2) as (r&r2&v&R1&R2&V1&V2&_).
  - rewrite T, T2. ring.
  - exists s, s2, r, r2, v. auto 10.
Qed.

(** C133.  Opposite charges in opposite initial fields: f is the same and every
    field is reversed, after any sequence of steps. *)
Theorem C133_electrodynamic : forall P k1 k2 h s s2 u, let P' := reversed P in
  wf_cfg (pc P) k1 k2 -> periodic_fvm (pc P) k1 -> plasma P -> maxwell P -> user_defined (pf P) ->
  starts P s -> holds (pc P) (f_of s) u -> starts P' s2 -> holds (pc P) (f_of s2) u -> time_elapsed s2 = time_elapsed s ->
  exists r r2 S, run_steps (solver_stepper P) h s = Ok (r, None) /\ run_steps (solver_stepper P') h s2 = Ok (r2, None)
  /\ vm_holds P r S /\ vm_holds P' r2 (VM (vm_f S) (reversed_fields (vm_yee S)) (reversed_fields (vm_cc S))).
Proof. exact vm_reversed. Qed.
Print Assumptions C133_electrodynamic.

Theorem C133_electrostatic : forall P k1 k2 h s s2 u, let L := lay (pc P) in let P' := reversed P in
  wf_cfg (pc P) k1 k2 -> periodic_fvm (pc P) k1 -> plasma P -> electrostatic P -> user_defined (pf P) ->
  starts P s -> holds (pc P) (f_of s) u -> starts P' s2 -> holds (pc P) (f_of s2) u -> time_elapsed s2 = time_elapsed s ->
  exists r r2 v, run_steps (solver_stepper P) h s = Ok (r, None) /\ run_steps (solver_stepper P') h s2 = Ok (r2, None)
  /\ holds (pc P) (f_of r) v /\ holds (pc P) (f_of r2) v
  /\ same (view L (fst (get_fields (pf P') (fields r2)))) (reversed_fields (view L (fst (get_fields (pf P) (fields r))))).
Proof. exact es_reversed. Qed.
Print Assumptions C133_electrostatic.

(** Reversing the charges of the example reverses q/m in the Lorentz force. *)
Example C133_lorentz : forall s t q1 q2 p1 p2 p3 E1 E2 E3 B1 B2 B3,
  C_p (pc (reversed (vm_params true push twist))) s t q1 q2 p1 p2 p3 E1 E2 E3 B1 B2 B3
  = minus3 (C_p (vm_cfg true) s t q1 q2 p1 p2 p3 E1 E2 E3 B1 B2 B3).
Proof.
  intros. cbn [reversed pc reversed_cfg vm_params vm_cfg C_p]. unfold lorentz, minus3. cbn [fst snd]. apply triple; ring.
Qed.
Example C133_applies : forall h, let P := vm_params true push twist in
  exists s s2 r r2 S, starts P s /\ starts (reversed P) s2 /\ f_of s = sf even_state /\ f_of s2 = sf even_state
  /\ run_steps (solver_stepper P) h s = Ok (r, None) /\ run_steps (solver_stepper (reversed P)) h s2 = Ok (r2, None)
  /\ vm_holds P r S /\ vm_holds (reversed P) r2 (VM (vm_f S) (reversed_fields (vm_yee S)) (reversed_fields (vm_cc S))).
Proof.
  intros h P. destruct (vm_initial true push twist even_state even_shaped) as (s&ST&F&T&_).
  destruct (converted_start true push twist opposite opposite_proper even_state even_shaped) as (s2&ST2&F2&T2).
  rewrite opposite_params in ST2.
  assert (HU : holds (pc P) (f_of s) (fun x s _ _ => even x s)) by (rewrite F; apply (even_holds true)).
  assert (HU2 : holds (pc P) (f_of s2) (fun x s _ _ => even x s)) by (rewrite F2; apply (even_holds true)).
  destruct (C133_electrodynamic P MC PPM h s s2 _ (vm_wf true) (vm_periodic true) (vm_plasma true push twist)
     (vm_maxwell true push twist) (user_vm true push twist) ST HU ST2 HU2) as (r&r2&S&R1&R2&V1&V2).
  - rewrite T, T2. reflexivity.
  - exists s, s2, r, r2, S. auto 10.
Qed.
