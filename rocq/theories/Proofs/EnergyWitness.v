(** A uniform plasma at rest in a uniform electric field: it gains more than the
    field loses. *)
From Coq Require Import ZArith Reals Lia Lra String List Bool.
From Verif Require Import Proofs.FvmConserve Base.Prelude Base.ZSum Model.Af Model.Petsc Model.Config Model.Fvm Model.Em
  Model.Moments Model.Splitting Model.Timestep Model.Solver Spec.Domain Spec.Limiters Spec.Lattice Spec.FvmProblem Spec.FvmRun
  Spec.Yee Spec.EmRun Spec.Waves Spec.MomentSpec Spec.Clock Spec.SolverSpec Spec.VlasovMaxwell Spec.InitFields Spec.Slide Spec.Poisson Spec.Energy
  Proofs.EmInit Proofs.EmEnergy Proofs.EmProps Proofs.InitFields Proofs.VmProps Proofs.RestartWitness Proofs.PoissonWitness Proofs.EnergyField Proofs.EnergyKinetic.
Import ListNotations.
Local Open Scope R_scope.

Definition along1 (_ _ : R) : R * R * R := (1, 0, 0).
Definition nil3 (_ _ : R) : R * R * R := (0, 0, 0).
Definition en_em : fcfg :=
  FCfg tri_lay 1 0 0 1 1 1 1 (fun _ => "periodic"%string) (fun _ _ _ _ _ a => a)
    "fdtd" "user-defined" "FVM" false (Some along1) None (Some nil3) None None.
Notation F3 := "piecewise-constant"%string.
Definition en_params : params :=
  Params (tri_cfg 3 F3) en_em "electrodynamic" [1] nonrel_moments 0 1 false (fun _ _ _ _ _ _ => 0) (fun a _ _ => a).

Lemma en_regular : regular en_em.
Proof.
  unfold regular, periodic_fields, periodic_layout, tiles; cbn.
  repeat split; try lia; try lra; repeat constructor; try lia.
Qed.
Lemma en_maxwell : maxwell en_params.
Proof. constructor; try reflexivity. apply en_regular. Qed.
Lemma en_plasma : plasma en_params.
Proof. constructor; reflexivity. Qed.
Lemma en_wf : wf_cfg (pc en_params) FirstOrder FirstOrder.
Proof. apply (tri_wf 3 F3 FirstOrder); [lia|reflexivity]. Qed.
Lemma en_periodic : periodic_fvm (pc en_params) FirstOrder.
Proof. apply tri_periodic. Qed.
Lemma en_velocity : velocity_periodic (pc en_params).
Proof. apply (tri_velocity 3 F3). Qed.
Lemma en_ballistic : ballistic en_params.
Proof. constructor; reflexivity. Qed.
Lemma en_steps : momentum_steps (pc en_params).
Proof.
  intros s Hs. assert (s = 0%Z) by (unfold inb in Hs; cbn in Hs; lia). subst s. cbn. lra.
Qed.
Lemma en_keep w : collisions_conserve en_params unit_mass w.
Proof. left. reflexivity. Qed.

(** All particles at momentum 0; E = (1, 0, 0). *)
Definition at_rest : gstate := fun x _ _ _ => if (x =? 1)%Z then 1 else 0.
Definition uniform_E (e : R) : lattice :=
  Lattice (fun _ _ => e) (fun _ _ => 0) (fun _ _ => 0) (fun _ _ => 0) (fun _ _ => 0) (fun _ _ => 0).
Definition en_state : vm_state := VM at_rest (uniform_E 1) (uniform_E 1).

Lemma en_initial : exists s, starts en_params s /\ vm_holds en_params s en_state /\ time_elapsed s = 0.
Proof.
  destruct (initial_EB en_em zeroJ along1 nil3 en_regular) as (e&H&HY&HC); [repeat split|].
  exists (Solver (tri_state 3 at_rest) e 0 0). split; [split; [exists zeroJ; exact H|apply (tri_shaped 3 at_rest F3)]|].
  split; [|reflexivity]. split; [apply (tri_holds 3 at_rest F3)|].
  assert (Q : forall (F : dist R) k i j, gper tri_lay F k 0 i j = gper tri_lay F k 0 (i mod 3) (j mod 1)).
  { intros F0 k i j. unfold gper. cbn [gN1 gN2 tri_lay]. rewrite !Zmod_mod. reflexivity. }
  assert (M : forall i j, inb 3 (i mod 3) /\ inb 1 (j mod 1)) by (intros; unfold inb; split; apply Z.mod_pos_bound; lia).
  split; unfold same; cbn [view en_state vm_yee vm_cc uniform_E E1 E2 E3 B1 B2 B3 fields];
    change (lay (pc en_params)) with tri_lay; repeat split; intros i j; rewrite Q; destruct (M i j) as (X&Y).
  all: first [destruct (HY _ _ X Y) as (A1&A2&A3&A4&A5&A6) | idtac].
  all: cbn [view E1 E2 E3 B1 B2 B3 on_shifted_grid on_yee_grid] in *; unfold placed, along1, nil3 in *; cbn [fst snd] in *;
       change (flay en_em) with tri_lay in *.
  all: first [assumption|idtac].
  all: destruct (HC _ _ X Y) as (D1&D2&D3&D4&D5&D6);
    cbn [view E1 E2 E3 B1 B2 B3 centred on_shifted_grid on_yee_grid] in D1, D2, D3, D4, D5, D6;
    unfold placed, along1, nil3 in D1, D2, D3, D4, D5, D6; cbn [fst snd] in D1, D2, D3, D4, D5, D6; lra.
Qed.

(** Data that do not depend on the cell: only the force acts. *)
Lemma en_rhs t e a x i : 0 < e -> inb 3 x ->
  rhs (vm_problem en_params FirstOrder FirstOrder t (uniform_E e)) (fun x _ _ _ => a x) x 0%Z i 0%Z
  = e * (a ((x - 1) mod 3)%Z - a x) / 2.
Proof.
  intros He Hx. set (p := vm_problem en_params FirstOrder FirstOrder t (uniform_E e)). unfold rhs.
  assert (A : advect_q p (fun x _ _ _ => a x) x 0%Z i 0%Z = 0).
  { unfold advect_q. rewrite !(advect_const _ _ _ _ _ (a x)); [lra|reflexivity|reflexivity|reflexivity|reflexivity]. }
  rewrite A. change (src p i 0%Z (fun x' s' => a x') x 0%Z) with 0.
  unfold advect_p. change (M1 p) with 3%Z. change (M2 p) with 1%Z. change (M3 p) with 1%Z. rewrite !one_cell.
  rewrite (Z.mod_small x 3) by exact Hx.
  unfold advect, flux, upwind. change (kp p) with FirstOrder. cbn [cell_faces fst snd]. change (hp1 p 0%Z) with 2.
  assert (V : forall z, acc1 p z 0%Z i 0%Z = e).
  { intros z. unfold p, vm_problem, prob, problem_of, problem_at. cbn [acc1].
    change (p_is_fvm (pc en_params)) with true. cbv iota. unfold accel, components, uniform_E.
    cbn [C_p en_params pc tri_cfg rs_force Z.eqb Pos.eqb E1 E2 E3 B1 B2 B3 fst snd]. ring. }
  unfold periodic. rewrite !V. destruct (Rlt_dec 0 e); [|lra].
  unfold pidx. change (M1 p) with 3%Z. change (M2 p) with 1%Z.
  assert (C : (x = 0 \/ x = 1 \/ x = 2)%Z) by (unfold inb in Hx; lia).
  destruct C as [->|[->| ->]]; closed_Z; field.
Qed.

Definition en_dist (d : R) (x : Z) : R := if (x =? 1)%Z then 1 - d else if (x =? 2)%Z then d else 0.
Lemma en_half t dt x i j : inb 3 x -> inb 1 j -> vm_half en_params FirstOrder FirstOrder t dt en_state x 0%Z i j = en_dist (dt / 4) x.
Proof.
  intros Hx Hj. assert (j = 0%Z) by (unfold inb in Hj; lia). subst j. unfold vm_half. cbn [vm_f vm_cc en_state].
  change (at_rest) with (fun x (_ _ _ : Z) => if (x =? 1)%Z then 1 else 0) at 2.
  rewrite (en_rhs t 1 (fun x => if (x =? 1)%Z then 1 else 0) x i) by (auto; lra).
  unfold at_rest, en_dist. assert (C : (x = 0 \/ x = 1 \/ x = 2)%Z) by (unfold inb in Hx; lia).
  destruct C as [->|[->| ->]]; closed_Z; cbn [Z.eqb Pos.eqb]; field.
Qed.
Ltac three := change 3%Z with (1 + 1 + 1)%Z; rewrite !zsum_succ by lia; rewrite !zsum_1; change (1 + 1)%Z with 2%Z.

Lemma en_currents t dt i j : let p := vm_problem en_params FirstOrder FirstOrder t (vm_cc en_state) in
  let uh := vm_half en_params FirstOrder FirstOrder t dt en_state in
  current1 en_params p uh i j = dt /\ current2 en_params p uh i j = 0 /\ current3 en_params p uh i j = 0.
Proof.
  intros p uh.
  assert (J0 : forall z, (z mod 1 = 0)%Z) by apply Z.mod_1_r.
  assert (U : forall x z, inb 3 x -> uh x 0%Z z 0%Z = en_dist (dt / 4) x).
  { intros. apply en_half; auto. unfold inb; lia. }
  assert (CM : forall w g, charge_moment en_params w g = (w (-2) 0 0 * g 0%Z 0%Z + w 0 0 0 * g 1%Z 0%Z + w 2 0 0 * g 2%Z 0%Z) * 2).
  { intros w g. unfold charge_moment, integral, v_of.
    cbn [en_params pc tri_cfg lay N_species species_grid mn1 mn2 mn3 w1 w2 w3 lo1 lo2 lo3 dp1 dp2 dp3 p1_start p2_start p3_start N_p1 N_p2 N_p3 charge].
    rewrite (zsum_1 (fun s => nth (Z.to_nat s) [1] 0 * _)). cbn [Z.to_nat nth].
    rewrite !zsum_1. three. closed_Z.
    replace (- (3) + (1 / 2 + 0) * 2) with (-2) by field. replace (- (3) + (1 / 2 + 1) * 2) with 0 by field.
    replace (- (3) + (1 / 2 + 2) * 2) with 2 by field. replace (-1 / 2 + (1 / 2 + 0) * 1) with 0 by field. ring. }
  unfold current1, current2, current3. change (n1 p) with 3%Z. change (n2 p) with 1%Z. rewrite !CM, !J0.
  assert (T1 : forall x, inb 3 x -> through1 p uh x 0%Z (i mod 3)%Z 0%Z = en_dist (dt / 4) x).
  { intros x Hx. unfold through1, upwind. change (kq p) with FirstOrder. cbn [cell_faces fst snd]. unfold periodic.
    rewrite !U by auto. destruct (Rlt_dec _ _); reflexivity. }
  rewrite !T1 by (unfold inb; lia). unfold en_dist. cbn [Z.eqb Pos.eqb]. repeat split; field.
Qed.

Lemma en_step t dt : let S := vm_step en_params FirstOrder FirstOrder t dt en_state in
  same (vm_yee S) (uniform_E (1 - dt ^ 2)) /\ same (vm_cc S) (uniform_E (1 - dt ^ 2 / 2)).
Proof.
  intros S.
  assert (Y : same (vm_yee S) (uniform_E (1 - dt ^ 2))).
  { unfold S, vm_step. cbn [vm_yee].
    change (fun x s i j => vm_f en_state x s i j + dt / 2 * rhs (vm_problem en_params FirstOrder FirstOrder t (vm_cc en_state)) (vm_f en_state) x s i j)
      with (vm_half en_params FirstOrder FirstOrder t dt en_state).
    set (p := vm_problem en_params FirstOrder FirstOrder t (vm_cc en_state)). set (uh := vm_half en_params FirstOrder FirstOrder t dt en_state).
    assert (Q : forall i j, current1 en_params p uh i j = dt /\ current2 en_params p uh i j = 0 /\ current3 en_params p uh i j = 0)
      by (intros; apply (en_currents t dt)).
    unfold yee_step, faraday, ampere, same, uniform_E, fwd1, fwd2, bwd1, bwd2.
    cbn [E1 E2 E3 B1 B2 B3 en_state vm_yee vm_cc uniform_E pf en_params en_em eps mu fdq1 fdq2].
    repeat split; intros i j; rewrite ?(proj1 (Q _ _)), ?(proj1 (proj2 (Q _ _))), ?(proj2 (proj2 (Q _ _))); field. }
  split; [exact Y|].
  assert (C : vm_cc S = EB (mid (vm_cc en_state) (centred (vm_yee S))) (centred (vm_yee S))) by reflexivity.
  rewrite C. destruct Y as (A1&A2&A3&A4&A5&A6). unfold same, EB, mid, centred. cbn [E1 E2 E3 B1 B2 B3 en_state vm_cc uniform_E].
  cbn [E1 E2 E3 B1 B2 B3 uniform_E] in A1, A2, A3, A4, A5, A6.
  repeat split; intros i j; rewrite ?A1, ?A2, ?A3, ?A4, ?A5, ?A6; field.
Qed.

Lemma en_work dt : vm_work en_params FirstOrder FirstOrder 0 [(Strang, dt)] en_state = 3 * dt ^ 2 * (1 - dt ^ 2 / 2).
Proof.
  cbn [vm_work]. unfold joule. set (p := vm_problem en_params FirstOrder FirstOrder 0 (vm_cc en_state)).
  set (uh := vm_half en_params FirstOrder FirstOrder 0 dt en_state).
  destruct (en_step 0 dt) as ((A1&A2&A3&_)&_). cbn [uniform_E E1 E2 E3] in A1, A2, A3.
  change (flay (pf en_params)) with tri_lay. change (gN1 tri_lay) with 3%Z. change (gN2 tri_lay) with 1%Z.
  change (fdq1 (pf en_params)) with 1. change (fdq2 (pf en_params)) with 1. cbv zeta.
  rewrite (total_ext 3 1 _ (fun _ _ => dt * (1 - dt ^ 2 / 2))).
  - unfold total. rewrite (zsum_ext 3 _ (fun _ => dt * (1 - dt ^ 2 / 2))) by (intros; apply zsum_1).
    rewrite zsum_const by lia. ring.
  - intros i j. pose proof (en_currents 0 dt i j) as Q. cbv zeta in Q. fold p uh in Q. destruct Q as (->&->&->). cbn [mid E1 E2 E3 en_state vm_yee uniform_E].
    rewrite A1, A2, A3. field.
Qed.

Lemma en_gained dt : 0 < dt < 1 ->
  vm_gained en_params unit_mass half_square FirstOrder FirstOrder 0 [(Strang, dt)] en_state = 6 * dt * (1 - dt ^ 2 / 2) * (1 - dt / 4).
Proof.
  intros D. cbn [vm_gained]. destruct (en_step 0 dt) as (_&(A1&A2&A3&A4&A5&A6)). cbn [uniform_E E1 E2 E3 B1 B2 B3] in A1, A2, A3, A4, A5, A6.
  unfold vm_forced. set (C := vm_cc (vm_step en_params FirstOrder FirstOrder 0 dt en_state)) in *.
  set (p := vm_problem en_params FirstOrder FirstOrder 0 C). set (uh := vm_half en_params FirstOrder FirstOrder 0 dt en_state).
  assert (E0 : 0 < 1 - dt ^ 2 / 2) by nra. set (e := 1 - dt ^ 2 / 2) in *.
  assert (V : forall z i, acc1 p z 0%Z i 0%Z = e).
  { intros z i. unfold p, vm_problem, prob, problem_of, problem_at. cbn [acc1].
    change (p_is_fvm (pc en_params)) with true. cbv iota. unfold accel, components.
    cbn [C_p en_params pc tri_cfg rs_force Z.eqb Pos.eqb fst snd]. rewrite A1, A5, A6. ring. }
  assert (U : forall x z, inb 3 x -> uh x 0%Z z 0%Z = en_dist (dt / 4) x).
  { intros. apply en_half; auto. unfold inb; lia. }
  assert (G : forall i, gained (pc en_params) p half_square uh 0%Z i 0%Z = 2 * e * (1 - dt / 4)).
  { intros i. unfold gained. cbv zeta. change (M1 p) with 3%Z. change (M2 p) with 1%Z. change (M3 p) with 1%Z.
    change (hp1 p 0%Z) with 2. change (hp2 p 0%Z) with 1. change (hp3 p 0%Z) with 1. change (kp p) with FirstOrder.
    assert (ONE : forall (f : Z -> R) (g : Z -> R), zsum 1 (fun i2 => f i2 * (g i2 - g ((i2 - 1) mod 1)%Z)) = 0).
    { intros f g. rewrite zsum_1. rewrite Z.mod_1_r. ring. }
    rewrite (zsum_ext 1 (fun i3 => zsum 3 (fun i1 => zsum 1 _)) (fun _ => 0)).
    2:{ intros i3 _. rewrite (zsum_ext 3 _ (fun _ => 0)); [apply zsum_zero|]. intros i1 _.
        apply (ONE _ (fun i2 => weight (pc en_params) half_square 0 (pidx p i1 i2 i3))). }
    rewrite (zsum_ext 1 (fun i2 => zsum 3 (fun i1 => zsum 1 _)) (fun _ => 0)).
    2:{ intros i2 _. rewrite (zsum_ext 3 _ (fun _ => 0)); [apply zsum_zero|]. intros i1 _.
        apply (ONE _ (fun i3 => weight (pc en_params) half_square 0 (pidx p i1 i2 i3))). }
    rewrite zsum_zero. rewrite !zsum_1. three.
    unfold flux, upwind. cbn [cell_faces fst snd]. unfold periodic. rewrite !V. destruct (Rlt_dec 0 e); [|lra].
    unfold pidx. change (M1 p) with 3%Z. change (M2 p) with 1%Z. closed_Z.
    rewrite !U by (unfold inb; lia). unfold en_dist. cbn [Z.eqb Pos.eqb].
    unfold weight, half_square, mom1, mom2, mom3.
    cbn [en_params pc tri_cfg p1_start p2_start p3_start dp1 dp2 dp3 N_p1 N_p2 N_p3 Z.to_nat nth]. closed_Z. field. }
  unfold total_gained. change (gN1 (lay (pc en_params))) with 3%Z. change (gN2 (lay (pc en_params))) with 1%Z. change (N_species (pc en_params)) with 1%Z.
  rewrite (zsum_ext 3 _ (fun _ => 2 * e * (1 - dt / 4))).
  - rewrite zsum_const by lia. ring.
  - intros i _. rewrite !zsum_1. rewrite G. unfold unit_mass. ring.
Qed.

Lemma en_run dt : 0 < dt < 1 -> exists s s', starts en_params s /\ vm_holds en_params s en_state
  /\ run_steps (solver_stepper en_params) [(Strang, dt)] s = Ok (s', None)
  /\ let L := lay (pc en_params) in
     let energy x := kinetic_energy en_params unit_mass (gval L (f_of x)) + field_energy en_params dt (view L (yee_val (fields x))) in
     energy s = 3/2 /\ energy s' = 3/2 + 3 * dt * (1 - dt ^ 2 / 2) * (2 - 3 / 2 * dt).
Proof.
  intros D. destruct en_initial as (s&ST&HS&T0).
  destruct (field_solver en_params FirstOrder FirstOrder en_wf en_periodic en_plasma en_maxwell dt [(Strang, dt)] s en_state) as (s'&R&FE); auto.
  { repeat constructor. }
  destruct (moment_solver en_params FirstOrder FirstOrder en_wf en_periodic en_velocity unit_mass half_square (en_keep _) en_steps
     [(Strang, dt)] s en_state en_plasma en_maxwell ST HS) as (s2&R2&KE).
  assert (s2 = s') by congruence. subst s2. rewrite T0 in *. rewrite en_work in FE. rewrite en_gained in KE by auto.
  exists s, s'. split; [exact ST|]. split; [exact HS|]. split; [exact R|]. cbv zeta. unfold kinetic_energy.
  rewrite KE, FE. change (dq1 (pc en_params)) with 1. change (dq2 (pc en_params)) with 1.
  assert (K0 : total_moment en_params unit_mass half_square (gval (lay (pc en_params)) (f_of s)) = 0).
  { destruct HS as ((_&HF)&_). rewrite (total_moment_ext en_params FirstOrder FirstOrder en_wf _ _ _ (vm_f en_state) HF).
    unfold total_moment, integral, v_of, unit_mass, half_square.
    cbn [en_params pc tri_cfg lay tri_lay gN1 gN2 N_species species_grid mn1 mn2 mn3 w1 w2 w3 lo1 lo2 lo3 dp1 dp2 dp3 p1_start p2_start p3_start N_p1 N_p2 N_p3].
    rewrite (zsum_ext 3 _ (fun _ => 0)); [apply zsum_zero|]. intros i _. rewrite !zsum_1. cbn [Z.to_nat nth].
    three. cbn [vm_f en_state]. unfold at_rest. closed_Z. cbn [Z.eqb Pos.eqb]. field. }
  assert (F0 : field_energy en_params dt (view (lay (pc en_params)) (yee_val (fields s))) = 3/2).
  { destruct HS as (_&HY&_). rewrite (field_energy_same en_params dt _ _ HY). cbn [vm_yee en_state].
    unfold field_energy, energy, faraday, bwd1, bwd2. cbn [E1 E2 E3 B1 B2 B3 uniform_E].
    change (flay (pf en_params)) with tri_lay. change (gN1 tri_lay) with 3%Z. change (gN2 tri_lay) with 1%Z.
    cbn [pf en_params en_em eps mu fdq1 fdq2].
    rewrite (total_ext 3 1 _ (fun _ _ => 1)) by (intros; field). unfold total.
    rewrite (zsum_ext 3 _ (fun _ => 1)) by (intros; apply zsum_1). rewrite zsum_const by lia. field. }
  rewrite K0, F0. split; field.
Qed.

Lemma en_lorentz : lorentz_force en_params unit_mass.
Proof.
  intros s Hs. unfold unit_mass. split; [lra|]. intros. cbn [C_p en_params tri_cfg pc charge].
  assert (s = 0%Z) by (unfold inb in Hs; cbn in Hs; lia). subst s. cbn [nth Z.to_nat]. unfold rs_force.
  f_equal; [f_equal|]; field.
Qed.
Lemma en_heats dt : 0 < dt <= 1/2 -> exists s s', starts en_params s
  /\ run_steps (solver_stepper en_params) [(Strang, dt)] s = Ok (s', None)
  /\ plasma_energy en_params unit_mass dt s = 3/2 /\ plasma_energy en_params unit_mass dt s' >= 3/2 + 3 * dt.
Proof.
  intros D. destruct (en_run dt) as (s&s'&ST&_&R&E0&E1); [lra|]. exists s, s'. split; [exact ST|]. split; [exact R|].
  unfold plasma_energy. split; [exact E0|]. rewrite E1. nra.
Qed.

Lemma balance_solver P k1 k2 mass dt h s S : wf_cfg (pc P) k1 k2 -> periodic_fvm (pc P) k1 -> plasma P -> maxwell P ->
  velocity_periodic (pc P) -> momentum_steps (pc P) -> collisions_conserve P mass half_square ->
  all_steps dt h -> starts P s -> vm_holds P s S ->
  exists s', run_steps (solver_stepper P) h s = Ok (s', None)
  /\ plasma_energy P mass dt s' = plasma_energy P mass dt s
     + (vm_gained P mass half_square k1 k2 (time_elapsed s) h S * (dq1 (pc P) * dq2 (pc P)) - vm_work P k1 k2 (time_elapsed s) h S).
Proof.
  intros W PF PM MX VP DP CK AS ST HS.
  destruct (field_solver P k1 k2 W PF PM MX dt h s S AS ST HS) as (s'&R&FE).
  destruct (moment_solver P k1 k2 W PF VP mass half_square CK DP h s S PM MX ST HS) as (s2&R2&KE).
  assert (s2 = s') by congruence. subst s2. exists s'. split; [exact R|].
  unfold plasma_energy, kinetic_energy. rewrite FE, KE. ring.
Qed.
