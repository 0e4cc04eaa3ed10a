(** Three cells in a row, for electrostatic runs. *)
From Coq Require Import ZArith Reals Lia Lra String List Bool.
From Verif Require Import Base.Prelude Base.ZSum Model.Af Model.Petsc Model.Config Model.Fvm Model.Em
  Model.Moments Model.Splitting Model.Timestep Model.Solver Spec.Domain Spec.Limiters Spec.Lattice Spec.FvmProblem Spec.FvmRun
  Spec.Yee Spec.EmRun Spec.Waves Spec.MomentSpec Spec.Clock Spec.SolverSpec Spec.VlasovMaxwell Spec.InitFields Spec.Slide Spec.Poisson
  Proofs.FvmConserve Proofs.EmInit Proofs.EmProps Proofs.InitFields Proofs.VmProps Proofs.PoissonKernel Proofs.PoissonRun Proofs.PoissonMomentum
  Proofs.PoissonSym Proofs.RestartWitness.
Import ListNotations.
Local Open Scope R_scope.

Definition tri_lay : layout := Layout 3 1 [3]%Z [1]%Z 1 1 PPeriodic PPeriodic.

(** [n] momentum cells of width 2, centred on 0. *)
Definition tri_cfg (n : Z) (rec : string) : cfg :=
  Cfg tri_lay 1 n 1 1 1 0 3 0 1 1 1 [- IZR n] [-1/2] [-1/2] [2] [1] [1]
    "FVM" "FVM" "piecewise-constant" rec "cartesian" true false
    (fun _ _ _ _ p1 p2 _ => (p1, p2)) (fun _ _ _ _ p1 p2 _ => (p1, p2)) rs_force rs_force
    (fun _ _ _ _ _ _ => 0)
    (fun _ => "periodic"%string) (fun _ _ _ _ f => f) 0 0
    (fun v _ _ _ _ => v) 0.
(** This permittivity makes the force between neighbours 1. *)
Definition tri_eps : R := sqrt 3 / (2 * PI).
Definition tri_em : fcfg :=
  FCfg tri_lay 1 0 0 1 1 tri_eps 1 (fun _ => "periodic"%string) (fun _ _ _ _ _ a => a)
    "fft" "user-defined" "FVM" false (Some (fun _ _ => (0, 0, 0))) None (Some (fun _ _ => (0, 0, 0))) None None.
Definition tri_params (n : Z) (rec : string) : params :=
  Params (tri_cfg n rec) tri_em "electrostatic" [1] nonrel_moments 0 1 false (fun _ _ _ _ _ _ => 0) (fun a _ _ => a).

Lemma sqrt3_pos : 0 < sqrt 3. Proof. apply sqrt_lt_R0; lra. Qed.
Lemma tri_eps_pos : 0 < tri_eps.
Proof. unfold tri_eps. pose proof sqrt3_pos. pose proof PI_RGT_0. apply Rdiv_lt_0_compat; lra. Qed.
Lemma tri_regular : regular tri_em.
Proof.
  pose proof tri_eps_pos. unfold regular, periodic_fields, periodic_layout, tiles; cbn.
  repeat split; try lia; try lra; repeat constructor; try lia.
Qed.
Lemma tri_electrostatic n rec : electrostatic (tri_params n rec).
Proof. constructor; try reflexivity; try (cbn; lra). apply tri_regular. Qed.
Lemma tri_wf n rec k : (0 < n)%Z -> scheme_of_name rec = Some k -> wf_cfg (tri_cfg n rec) FirstOrder k.
Proof.
  intros H R. unfold wf_cfg. cbn [N_p1 N_p2 N_p3 N_species p1_start p2_start p3_start dp1 dp2 dp3 tri_cfg List.length].
  repeat split; try lia; auto.
Qed.
Lemma tri_periodic n rec : periodic_fvm (tri_cfg n rec) FirstOrder.
Proof. unfold periodic_fvm, periodic_layout, tiles; cbn. repeat split; try lia; repeat constructor; lia. Qed.
Lemma tri_plasma n rec : plasma (tri_params n rec).
Proof. constructor; reflexivity. Qed.
Lemma tri_uniform n rec : velocity_uniform (tri_cfg n rec).
Proof. repeat intro; cbn; auto. Qed.
Lemma tri_velocity n rec : velocity_periodic (tri_cfg n rec).
Proof. repeat intro; cbn; auto. Qed.
Definition unit_mass (_ : Z) : R := 1.
Lemma tri_force n rec : coulomb_force (tri_params n rec) unit_mass.
Proof.
  intros s Hs. unfold unit_mass. split; [lra|]. intros. cbn [C_p tri_params tri_cfg pc charge].
  assert (s = 0%Z) by (unfold inb in Hs; cbn in Hs; lia). subst s. cbn [nth Z.to_nat]. unfold rs_force.
  f_equal; [f_equal|]; field.
Qed.
Lemma tri_steps n rec s : inb (N_species (tri_cfg n rec)) s ->
  nth (Z.to_nat s) (dp1 (tri_cfg n rec)) 0 <> 0 /\ nth (Z.to_nat s) (dp2 (tri_cfg n rec)) 0 <> 0.
Proof.
  intros Hs. assert (s = 0%Z) by (unfold inb in Hs; cbn in Hs; lia). subst s. cbn. lra.
Qed.

(** A state holding any data, without fields. *)
Definition tri_state (n : Z) (u : gstate) : fstate :=
  FState (fun r1 r2 => Arr n 1 (n1g tri_lay r1) (n2g tri_lay r2)
    (fun x s i j => u x s (off (blk1 tri_lay) r1 + i - 1)%Z (off (blk2 tri_lay) r2 + j - 1)%Z)) (fun _ _ _ => 0).
Lemma tri_shaped n u rec : shaped tri_lay (N_p (tri_cfg n rec)) (N_species (tri_cfg n rec)) (sf (tri_state n u)).
Proof. intros r1 r2 _. unfold N_p. cbn [tri_cfg N_p1 N_p2 N_p3 N_species sf tri_state]. rewrite !Z.mul_1_r. repeat split. Qed.
Lemma tri_holds n u rec : holds (tri_cfg n rec) (sf (tri_state n u)) u.
Proof.
  split; [apply tri_shaped|]. intros x s i j _ _ Hi Hj. unfold inb in *. cbn [lay tri_cfg gN1 gN2 tri_lay] in *.
  assert (C : (i = 0 \/ i = 1 \/ i = 2)%Z) by lia. assert (j = 0)%Z by lia. subst j.
  destruct C as [->|[->| ->]]; reflexivity.
Qed.
Lemma tri_initial n rec u : exists s, starts (tri_params n rec) s /\ holds (tri_cfg n rec) (f_of s) u /\ time_elapsed s = 0
  /\ no_fields (view tri_lay (cc_val (fields s))).
Proof.
  destruct (initial_EB tri_em zeroJ (fun _ _ => (0, 0, 0)) (fun _ _ => (0, 0, 0)) tri_regular) as (e&H&_&HC);
    [repeat split|].
  exists (Solver (tri_state n u) e 0 0). split; [split; [exists zeroJ; exact H|apply tri_shaped]|].
  split; [apply tri_holds|]. split; [reflexivity|].
  assert (Q : forall k i j, gper tri_lay (cc_val e) k 0 i j = gper tri_lay (cc_val e) k 0 (i mod 3) (j mod 1)).
  { intros k i j. unfold gper. cbn [gN1 gN2 tri_lay]. rewrite !Zmod_mod. reflexivity. }
  assert (HC' : forall i j, let Y := centred (on_shifted_grid tri_em (fun _ _ => (0, 0, 0)) (fun _ _ => (0, 0, 0))) in
     _) by (intros i j; exact (HC (i mod 3)%Z (j mod 1)%Z ltac:(apply Z.mod_pos_bound; reflexivity) ltac:(apply Z.mod_pos_bound; reflexivity))).
  unfold centred, on_shifted_grid, on_yee_grid, placed in HC'. cbn [view E1 E2 E3 B1 B2 B3 fst snd fields] in *.
  unfold no_fields, same. cbn [view E1 E2 E3 B1 B2 B3]. repeat split; intros i j; rewrite Q; destruct (HC' i j) as (A1&A2&A3&A4&A5&A6);
    change (flay tri_em) with tri_lay in *; rewrite ?A1, ?A2, ?A3, ?A4, ?A5, ?A6; lra.
Qed.

(** ** The force between the cells *)
Notation KT := (coulomb1 3 1 1 1 tri_eps).
Lemma tri_K1 n : KT 1%Z n = 1.
Proof.
  unfold coulomb1, coulomb. change 3%Z with (1 + 1 + 1)%Z. rewrite !zsum_succ by lia. rewrite !zsum_1.
  change (1 + 1 + 1)%Z with 3%Z. change (1 + 1)%Z with 2%Z. cbn [Z.eqb Pos.eqb andb].
  unfold wavenumber, signed_mode. cbn [Z.ltb Z.mul Z.compare Pos.compare Pos.compare_cont Pos.mul Z.sub Z.add Z.opp Z.pos_sub].
  cbn.
  replace (2 * PI * (1 * 1 / 3 + 0 * IZR n / 1)) with (2 * (PI / 3)) by field.
  replace (2 * PI * (2 * 1 / 3 + 0 * IZR n / 1)) with (PI / 3 + PI) by field.
  rewrite neg_sin, sin_2PI3, sin_PI3. unfold tri_eps. pose proof sqrt3_pos. pose proof PI_RGT_0.
  field. split; lra.
Qed.
Lemma tri_K n : KT 0%Z n = 0 /\ KT (-1)%Z n = -1 /\ KT (-2)%Z n = 1 /\ KT 2%Z n = -1.
Proof.
  assert (O : forall m k, KT (- m)%Z k = - KT m k).
  { intros m k. pose proof (coulomb1_parity 3 1 ltac:(lia) ltac:(lia) 1 1 tri_eps m k true false) as H. exact H. }
  assert (M : KT (-2)%Z n = 1).
  { pose proof (coulomb_period1 3 1 ltac:(lia) 1 1 tri_eps (fun i _ => wavenumber 3 1 i) (-2) n 1) as H.
    transitivity (KT 1%Z n); [symmetry; exact H|apply tri_K1]. }
  repeat split.
  - pose proof (O 0%Z n) as H. cbn [Z.opp] in H. lra.
  - pose proof (O 1%Z n) as H. rewrite tri_K1 in H. exact H.
  - exact M.
  - pose proof (O (-2)%Z n) as H. rewrite M in H. exact H.
Qed.

Section Tri.
  Context (n : Z) (rec : string).
  Let P := tri_params n rec.
  Lemma tri_E bg u : let r i := charge_density P u i 0 in
    Yee.E1 (es_fields P bg u) 0%Z 0%Z = r 2%Z - r 1%Z /\ Yee.E1 (es_fields P bg u) 1%Z 0%Z = r 0%Z - r 2%Z
    /\ Yee.E1 (es_fields P bg u) 2%Z 0%Z = r 1%Z - r 0%Z.
  Proof using.
    intros r. destruct (tri_K 0) as (K0&Km1&Km2&K2). pose proof (tri_K1 0) as K1.
    assert (F : forall i, Yee.E1 (es_fields P bg u) i 0%Z = KT i 0%Z * r 0%Z + KT (i - 1)%Z 0%Z * r 1%Z + KT (i - 2)%Z 0%Z * r 2%Z).
    { intros i. cbn [es_fields Yee.E1]. unfold field_of.
      change (gN1 (lay (pc P))) with (1 + 1 + 1)%Z. change (gN2 (lay (pc P))) with 1%Z. rewrite !zsum_succ by lia. rewrite !zsum_1.
      rewrite Z.sub_0_r. reflexivity. }
    rewrite !F. cbn [Z.sub Z.add Z.opp Z.pos_sub Pos.pred_double Z.double]. rewrite K0, K1, K2, Km1, Km2. repeat split; ring.
  Qed.

  (** Densities. *)
  Lemma tri_density u i : charge_density P u i 0 = 2 * zsum n (fun x => u x 0%Z i 0%Z).
  Proof using.
    unfold charge_density, charge_moment, integral.
    cbn [P tri_params pc tri_cfg N_species species_grid mn1 mn2 mn3 w1 w2 w3 dp1 dp2 dp3 N_p1 N_p2 N_p3 charge Z.to_nat nth].
    rewrite !zsum_1. cbn [Z.to_nat nth]. rewrite (zsum_ext n _ (fun x => u x 0%Z i 0%Z)).
    - ring.
    - intros x _. rewrite Rmult_1_l. f_equal. ring.
  Qed.
  (** Rates where the momentum distribution is known: motion along q1. *)
  Lemma tri_drift k t C u x i : let v := - IZR n + (1/2 + IZR (x mod n)) * 2 in let v2 := -1/2 + (1/2 + IZR ((x / n) mod 1)) * 1 in
    advect_q (vm_problem P FirstOrder k t C) u x 0%Z i 0%Z
    = v * (if Rlt_dec 0 v then u x 0%Z ((i - 1) mod 3)%Z 0%Z - u x 0%Z (i mod 3)%Z 0%Z else u x 0%Z (i mod 3)%Z 0%Z - u x 0%Z ((i + 1) mod 3)%Z 0%Z).
  Proof using.
    intros v v2. unfold advect_q, advect, flux, upwind, vm_problem, prob, problem_of, problem_at, periodic, mom1, mom2.
    cbn [vel1 vel2 n1 n2 h1 h2 kq cell_faces fst snd lay tri_cfg pc P tri_params gN1 gN2 tri_lay dq1 dq2 C_q p1_start dp1 p2_start dp2 N_p1 N_p2 Z.to_nat nth].
    rewrite !Z.mod_1_r. fold v v2. replace (i + 1 - 1)%Z with i by ring.
    destruct (Rlt_dec 0 v), (Rlt_dec 0 v2); field.
  Qed.
End Tri.

(** ** Two momenta, first order *)
Notation P2 := (tri_params 2 "piecewise-constant").
Lemma two_push t C u i : unmagnetised C ->
  let p := vm_problem P2 FirstOrder FirstOrder t C in
  let r := advect_p p i 0%Z (fun x' s' => u x' s' i 0%Z) in let e := Yee.E1 C i 0%Z in
  r 0%Z 0%Z = Rabs e * (u 1%Z 0%Z i 0%Z - u 0%Z 0%Z i 0%Z) / 2 /\ r 1%Z 0%Z = Rabs e * (u 0%Z 0%Z i 0%Z - u 1%Z 0%Z i 0%Z) / 2.
Proof.
  intros (Z4&Z5&Z6) p r e. unfold r, p, advect_p, vm_problem, prob, problem_of, problem_at, periodic, pidx, advect, flux, upwind.
  cbn [acc1 acc2 acc3 M1 M2 M3 kp hp1 hp2 hp3 fst snd N_p1 N_p2 N_p3 tri_cfg pc tri_params cell_faces].
  change (p_is_fvm (tri_cfg 2 "piecewise-constant")) with true. cbv iota.
  unfold accel, components, mom1, mom2, mom3. cbn [C_p tri_cfg rs_force Z.eqb Pos.eqb fst snd].
  rewrite Z4, Z5, Z6.
  cbn [dp1 dp2 dp3 nth Z.to_nat p1_start p2_start p3_start tri_cfg N_p1 N_p2 N_p3].
  closed_Z. fold e.
  replace (e + (-1 / 2 + (1 / 2 + 0) * 1) * 0 - (-1 / 2 + (1 / 2 + 0) * 1) * 0) with e by lra.
  clearbody e. unfold Rabs. split; destruct (Rlt_dec 0 e), (Rcase_abs e); try lra; repeat destruct (Rlt_dec _ _); try lra;
    assert (F0 : e = 0) by lra; rewrite F0; lra.
Qed.

Definition six (u : gstate) (a0 a1 a2 b0 b1 b2 : R) : Prop :=
  u 0%Z 0%Z 0%Z 0%Z = a0 /\ u 0%Z 0%Z 1%Z 0%Z = a1 /\ u 0%Z 0%Z 2%Z 0%Z = a2
  /\ u 1%Z 0%Z 0%Z 0%Z = b0 /\ u 1%Z 0%Z 1%Z 0%Z = b1 /\ u 1%Z 0%Z 2%Z 0%Z = b2.

Lemma six_E bg u a0 a1 a2 b0 b1 b2 : six u a0 a1 a2 b0 b1 b2 -> let E := es_fields P2 bg u in
  Yee.E1 E 0%Z 0%Z = 2 * (a2 + b2) - 2 * (a1 + b1) /\ Yee.E1 E 1%Z 0%Z = 2 * (a0 + b0) - 2 * (a2 + b2)
  /\ Yee.E1 E 2%Z 0%Z = 2 * (a1 + b1) - 2 * (a0 + b0).
Proof.
  intros (A0&A1&A2&B0&B1&B2) E. destruct (tri_E 2 "piecewise-constant" bg u) as (X&Y&Z). unfold E. rewrite X, Y, Z.
  rewrite !tri_density. change 2%Z with (1 + 1)%Z. rewrite !zsum_succ by lia. rewrite !zsum_1. change (1 + 1)%Z with 2%Z.
  rewrite A0, A1, A2, B0, B1, B2. auto.
Qed.

(** The rates in all six cells. *)
Lemma six_rhs t C u a0 a1 a2 b0 b1 b2 e0 e1 e2 : six u a0 a1 a2 b0 b1 b2 -> unmagnetised C ->
  Yee.E1 C 0%Z 0%Z = e0 -> Yee.E1 C 1%Z 0%Z = e1 -> Yee.E1 C 2%Z 0%Z = e2 ->
  six (rhs (vm_problem P2 FirstOrder FirstOrder t C) u)
    (a1 - a0 + Rabs e0 * (b0 - a0) / 2) (a2 - a1 + Rabs e1 * (b1 - a1) / 2) (a0 - a2 + Rabs e2 * (b2 - a2) / 2)
    (b2 - b0 + Rabs e0 * (a0 - b0) / 2) (b0 - b1 + Rabs e1 * (a1 - b1) / 2) (b1 - b2 + Rabs e2 * (a2 - b2) / 2).
Proof.
  intros (A0&A1&A2&B0&B1&B2) UB H0 H1 H2.
  assert (SRC : forall i w x, src (vm_problem P2 FirstOrder FirstOrder t C) i 0%Z w x 0%Z = 0) by reflexivity.
  assert (V : forall x i, (x = 0 \/ x = 1)%Z ->
    advect_q (vm_problem P2 FirstOrder FirstOrder t C) u x 0%Z i 0%Z
    = if (x =? 0)%Z then u x 0%Z ((i + 1) mod 3)%Z 0%Z - u x 0%Z (i mod 3)%Z 0%Z else u x 0%Z ((i - 1) mod 3)%Z 0%Z - u x 0%Z (i mod 3)%Z 0%Z).
  { intros x i [->| ->]; rewrite tri_drift; closed_Z; cbn [Z.eqb]; destruct (Rlt_dec _ _); lra. }
  unfold six, rhs. rewrite !V by auto. rewrite !SRC. cbn [Z.eqb]. closed_Z.
  destruct (two_push t C u 0 UB) as (-> & ->). destruct (two_push t C u 1 UB) as (-> & ->). destruct (two_push t C u 2 UB) as (-> & ->).
  rewrite A0, A1, A2, B0, B1, B2, H0, H1, H2. repeat split; lra.
Qed.

(** One particle at momentum 1 in cell 0. *)
Definition lone : gstate := fun x _ i _ => if ((x =? 1) && (i =? 0))%Z%bool then 1 else 0.
Lemma lone_six : six lone 0 0 0 1 0 0. Proof. repeat split. Qed.
Lemma lone_half bg : unmagnetised bg -> six (vp_half P2 FirstOrder FirstOrder bg 0 1 lone) 0 0 0 (1/2) (1/2) 0.
Proof.
  intros UB. destruct (six_E bg lone _ _ _ _ _ _ lone_six) as (X&Y&Z).
  destruct (six_rhs 0 (es_fields P2 bg lone) lone _ _ _ _ _ _ _ _ _ lone_six UB X Y Z) as (R0&R1&R2&S0&S1&S2).
  destruct lone_six as (A0&A1&A2&B0&B1&B2).
  unfold six, vp_half. rewrite R0, R1, R2, S0, S1, S2, A0, A1, A2, B0, B1, B2.
  replace (2 * (0 + 0) - 2 * (0 + 0)) with 0 by ring. rewrite Rabs_R0. repeat split; lra.
Qed.
Lemma lone_step bg : unmagnetised bg ->
  six (vp_step P2 FirstOrder FirstOrder bg 0 1 lone) (1/4) (1/4) 0 (1/4) (-1/4) (1/2).
Proof.
  intros UB. pose proof (lone_half bg UB) as HH. set (uh := vp_half P2 FirstOrder FirstOrder bg 0 1 lone) in *.
  destruct (six_E bg uh _ _ _ _ _ _ HH) as (X&Y&Z).
  destruct (six_rhs 0 (es_fields P2 bg uh) uh _ _ _ _ _ _ _ _ _ HH UB X Y Z) as (R0&R1&R2&S0&S1&S2).
  destruct lone_six as (A0&A1&A2&B0&B1&B2).
  unfold six, vp_step. fold uh. rewrite R0, R1, R2, S0, S1, S2, A0, A1, A2, B0, B1, B2.
  replace (2 * (0 + 0) - 2 * (0 + 1 / 2)) with (-1) by field. replace (2 * (0 + 1 / 2) - 2 * (0 + 0)) with 1 by field.
  replace (2 * (0 + 1 / 2) - 2 * (0 + 1 / 2)) with 0 by field.
  rewrite Rabs_R0, Rabs_R1. replace (Rabs (-1)) with 1 by (rewrite Rabs_left; lra). repeat split; lra.
Qed.

Lemma two_momentum u a0 a1 a2 b0 b1 b2 : six u a0 a1 a2 b0 b1 b2 ->
  momentum1 P2 unit_mass u = 2 * (b0 + b1 + b2 - (a0 + a1 + a2)).
Proof.
  intros (A0&A1&A2&B0&B1&B2). unfold momentum1, total_moment, integral, unit_mass.
  cbn [tri_params pc tri_cfg lay tri_lay gN1 gN2 N_species species_grid mn1 mn2 mn3 w1 w2 w3 lo1 lo2 lo3 dp1 dp2 dp3 p1_start p2_start p3_start N_p1 N_p2 N_p3].
  change 3%Z with (1 + 1 + 1)%Z. rewrite !zsum_succ by lia. rewrite !zsum_1. change (zsum 2) with (zsum (1 + 1)%Z). rewrite !zsum_succ by lia. rewrite !zsum_1.
  cbn [Z.to_nat nth]. closed_Z. rewrite A0, A1, A2, B0, B1, B2. unfold v_of. lra.
Qed.

(** In the solver. *)
Lemma six_of (g u : gstate) a0 a1 a2 b0 b1 b2 :
  (forall x s i j, inb 2 x -> inb 1 s -> inb 3 i -> inb 1 j -> g x s i j = u x s i j) -> six u a0 a1 a2 b0 b1 b2 -> six g a0 a1 a2 b0 b1 b2.
Proof.
  intros H (A0&A1&A2&B0&B1&B2). unfold six. rewrite !H by (unfold inb; lia). auto 6.
Qed.
Lemma lone_run : exists s r, starts P2 s /\ holds (pc P2) (f_of s) lone /\ no_fields (view tri_lay (cc_val (fields s)))
  /\ run_steps (solver_stepper P2) [(Strang, 1)] s = Ok (r, None)
  /\ momentum1 P2 unit_mass (gval tri_lay (f_of s)) = 2 /\ momentum1 P2 unit_mass (gval tri_lay (f_of r)) = 0
  /\ Yee.E1 (view tri_lay (cc_val (fields r))) 0%Z 0%Z = -1
  /\ Yee.E1 (es_fields P2 (view tri_lay (cc_val (fields s))) (gval tri_lay (f_of r))) 0%Z 0%Z = 1.
Proof.
  destruct (tri_initial 2 "piecewise-constant" lone) as (s&ST&HU&T0&NF).
  destruct (vp_refines P2 FirstOrder FirstOrder (tri_wf 2 "piecewise-constant" FirstOrder ltac:(lia) eq_refl) (tri_periodic _ _) (tri_plasma _ _)
              (tri_electrostatic _ _) [(Strang, 1)] s lone ST HU) as (r&R&_&(_&H)&F).
  rewrite T0 in H, F. cbn [vp_run vp_fields] in H, F.
  set (bg := view (lay (pc P2)) (cc_val (fields s))) in *. change (lay (pc P2)) with tri_lay in *.
  assert (UB : unmagnetised bg) by (destruct NF as (_&_&_&N4&N5&N6); split; [exact N4|]; split; [exact N5|exact N6]).
  pose proof (lone_half bg UB) as HH. pose proof (lone_step bg UB) as HS.
  exists s, r. split; [exact ST|]. split; [exact HU|]. split; [exact NF|]. split; [exact R|].
  assert (S0 : six (gval tri_lay (f_of s)) 0 0 0 1 0 0) by (eapply six_of; [exact (proj2 HU)|exact lone_six]).
  assert (S1 : six (gval tri_lay (f_of r)) (1/4) (1/4) 0 (1/4) (-1/4) (1/2)) by (eapply six_of; [exact H|exact HS]).
  split; [rewrite (two_momentum _ _ _ _ _ _ _ S0); lra|]. split; [rewrite (two_momentum _ _ _ _ _ _ _ S1); lra|].
  split.
  - destruct (six_E bg _ _ _ _ _ _ _ HH) as (X&_). cbn [view Yee.E1]. unfold gper. cbn [gN1 gN2 tri_lay Z.modulo Z.div_eucl snd].
    transitivity (components (es_fields P2 bg (vp_half P2 FirstOrder FirstOrder bg 0 1 lone)) 0%Z 0%Z 0%Z).
    + apply F; unfold inb; cbn; lia.
    + cbn [components Z.eqb]. unfold components. cbn [Z.eqb]. rewrite X. lra.
  - destruct (six_E bg _ _ _ _ _ _ _ S1) as (X&_). unfold bg in X. rewrite X. lra.
Qed.

(** ** Six momenta, limited slopes *)
Notation P6 := (tri_params 6 "minmod").
(** Momenta -1 and 1 in each cell, the others empty. *)
Definition pairs (u : gstate) (a0 a1 a2 b0 b1 b2 : R) : Prop := forall x, inb 6 x ->
  let v a b := if (x =? 2)%Z then a else if (x =? 3)%Z then b else 0 in
  u x 0%Z 0%Z 0%Z = v a0 b0 /\ u x 0%Z 1%Z 0%Z = v a1 b1 /\ u x 0%Z 2%Z 0%Z = v a2 b2.

Lemma pairs_E bg u a0 a1 a2 b0 b1 b2 : pairs u a0 a1 a2 b0 b1 b2 -> let E := es_fields P6 bg u in
  Yee.E1 E 0%Z 0%Z = 2 * (a2 + b2) - 2 * (a1 + b1) /\ Yee.E1 E 1%Z 0%Z = 2 * (a0 + b0) - 2 * (a2 + b2)
  /\ Yee.E1 E 2%Z 0%Z = 2 * (a1 + b1) - 2 * (a0 + b0).
Proof.
  intros H E. destruct (tri_E 6 "minmod" bg u) as (X&Y&Z). unfold E. rewrite X, Y, Z.
  assert (S : forall i a b, (forall x, inb 6 x -> u x 0%Z i 0%Z = (if (x =? 2)%Z then a else if (x =? 3)%Z then b else 0)) ->
     zsum 6 (fun x => u x 0%Z i 0%Z) = a + b).
  { intros i a b Q. rewrite (zsum_ext 6 _ (fun x => if (x =? 2)%Z then a else if (x =? 3)%Z then b else 0) Q).
    change 6%Z with (1 + 1 + 1 + 1 + 1 + 1)%Z. rewrite !zsum_succ by lia. rewrite zsum_1. cbn. ring. }
  rewrite !tri_density. rewrite (S 0%Z a0 b0), (S 1%Z a1 b1), (S 2%Z a2 b2) by (intros x Hx; apply H; auto). auto.
Qed.

Lemma one_cell k h v u i : advect k h (periodic 1 v) (periodic 1 u) i = 0.
Proof. apply (advect_const k h _ _ i (u 0%Z)); intros; unfold periodic; rewrite ?Z.mod_1_r; reflexivity. Qed.

Lemma pairs_still t C u x i : Yee.E1 C i 0%Z = 0 -> unmagnetised C -> inb 6 x ->
  advect_p (vm_problem P6 FirstOrder MC t C) i 0%Z (fun x' s' => u x' s' i 0%Z) x 0%Z = 0.
Proof.
  intros E0 UB Hx. unfold advect_p. change (M1 (vm_problem P6 FirstOrder MC t C)) with 6%Z.
  change (M2 (vm_problem P6 FirstOrder MC t C)) with 1%Z. change (M3 (vm_problem P6 FirstOrder MC t C)) with 1%Z.
  rewrite !one_cell. unfold advect, flux.
  assert (A : forall y, acc1 (vm_problem P6 FirstOrder MC t C) y 0%Z i 0%Z = 0).
  { intros y. destruct (acc_is P6 FirstOrder MC (tri_plasma _ _) unit_mass (tri_force _ _) t C UB y 0%Z i 0%Z) as (Q&_).
    - unfold inb; cbn; lia.
    - rewrite Q, E0. ring. }
  unfold periodic. rewrite !A. lra.
Qed.

Lemma pairs_drift t C u x i : (x = 2 \/ x = 3)%Z ->
    advect_q (vm_problem P6 FirstOrder MC t C) u x 0%Z i 0%Z
    = if (x =? 2)%Z then u x 0%Z ((i + 1) mod 3)%Z 0%Z - u x 0%Z (i mod 3)%Z 0%Z else u x 0%Z ((i - 1) mod 3)%Z 0%Z - u x 0%Z (i mod 3)%Z 0%Z.
Proof. intros [->| ->]; rewrite tri_drift; closed_Z; cbn [Z.eqb Pos.eqb]; destruct (Rlt_dec _ _); lra. Qed.
Lemma pairs_empty t C u x i : (forall z, u x 0%Z (z mod 3)%Z 0%Z = 0) -> advect_q (vm_problem P6 FirstOrder MC t C) u x 0%Z i 0%Z = 0.
Proof. intros H. rewrite tri_drift. rewrite !H. destruct (Rlt_dec _ _); lra. Qed.

(** The same density everywhere, but not the same momenta. *)
Definition mixed : gstate := fun x _ i _ =>
  if (x =? 2)%Z then (if (i =? 0)%Z then 1 else 3/2) else if (x =? 3)%Z then (if (i =? 0)%Z then 2 else 3/2) else 0.
Lemma mixed_pairs : pairs mixed 1 (3/2) (3/2) 2 (3/2) (3/2).
Proof. intros x Hx. repeat split. Qed.
Lemma mixed_half bg : unmagnetised bg -> pairs (vp_half P6 FirstOrder MC bg 0 2 mixed) (3/2) (3/2) 1 (3/2) 2 (3/2).
Proof.
  intros UB. destruct (pairs_E bg mixed _ _ _ _ _ _ mixed_pairs) as (X&Y&Z).
  set (C := es_fields P6 bg mixed) in *. assert (UC : unmagnetised C) by exact UB.
  assert (X' : Yee.E1 C 0%Z 0%Z = 0) by (rewrite X; lra). assert (Y' : Yee.E1 C 1%Z 0%Z = 0) by (rewrite Y; lra).
  assert (Z' : Yee.E1 C 2%Z 0%Z = 0) by (rewrite Z; lra).
  assert (SRC : forall i w x, src (vm_problem P6 FirstOrder MC 0 C) i 0%Z w x 0%Z = 0) by reflexivity.
  intros x Hx v. unfold vp_half, rhs. fold C. rewrite !SRC, !pairs_still by auto.
  destruct (Z.eq_dec x 2) as [->|N2]; [|destruct (Z.eq_dec x 3) as [->|N3]].
  - rewrite !pairs_drift by auto. cbn [v Z.eqb Pos.eqb]. closed_Z. unfold mixed. cbn [Z.eqb Pos.eqb]. unfold v. cbn [Z.eqb Pos.eqb]. lra.
  - rewrite !pairs_drift by auto. cbn [v Z.eqb Pos.eqb]. closed_Z. unfold mixed. cbn [Z.eqb Pos.eqb]. unfold v. cbn [Z.eqb Pos.eqb]. lra.
  - assert (M0 : forall i, mixed x 0%Z i 0%Z = 0).
    { intros i. unfold mixed. destruct (Z.eqb_spec x 2), (Z.eqb_spec x 3); try lia; reflexivity. }
    rewrite !pairs_empty by (intros; apply M0). rewrite !M0. unfold v. destruct (Z.eqb_spec x 2), (Z.eqb_spec x 3); try lia. lra.
Qed.

(** What crosses the faces of a pair. *)
Lemma pair_flux t C u i a b e z : unmagnetised C -> Yee.E1 C i 0%Z = e ->
  (forall x, inb 6 x -> u x 0%Z i 0%Z = (if (x =? 2)%Z then a else if (x =? 3)%Z then b else 0)) ->
  let p := vm_problem P6 FirstOrder MC t C in
  flux (kp p) (periodic (M1 p) (fun y => acc1 p (pidx p y 0 0) 0%Z i 0%Z)) (periodic (M1 p) (fun y => u (pidx p y 0 0) 0%Z i 0%Z)) z
  = flux MC (fun _ => e) (periodic 6 (fun x => if (x =? 2)%Z then a else if (x =? 3)%Z then b else 0)) z.
Proof.
  intros UB E Q p. change (M1 p) with 6%Z. change (kp p) with MC.
  apply FluxLemmas.flux_ext.
  - unfold periodic. destruct (acc_is P6 FirstOrder MC (tri_plasma _ _) unit_mass (tri_force _ _) t C UB (pidx p (z mod 6) 0 0)%Z 0%Z i 0%Z) as (A&_).
    + unfold inb; cbn; lia.
    + fold p in A. rewrite A, E. unfold unit_mass. cbn [tri_params charge nth Z.to_nat]. field.
  - intros y _. unfold periodic. assert (inb 6 (y mod 6)) by (apply Z.mod_pos_bound; lia).
    replace (pidx p (y mod 6) 0 0)%Z with (y mod 6)%Z by (unfold pidx; lia). apply Q; auto.
Qed.
Ltac slopes := repeat (destruct (Rlt_dec _ _); try lra).
Lemma pair_sums e a b : let F z := flux MC (fun _ => e) (periodic 6 (fun x => if (x =? 2)%Z then a else if (x =? 3)%Z then b else 0)) z in
  F 0%Z = 0
  /\ (0 < e -> 0 < a < b -> zsum 6 F = e * (a + b + Rmin (b / 2) (Rmin (2 * a) (2 * (b - a))) / 2))
  /\ (e < 0 -> 0 < a -> a = b -> zsum 6 F = e * (a + b)).
Proof.
  intros F. split; [|split].
  - unfold F, flux, upwind, cell_faces, periodic. closed_Z. cbn [Z.eqb Pos.eqb fst snd]. unfold mc_slope.
    destruct (Rlt_dec 0 e); slopes.
  - intros He (Ha&Hb). change 6%Z with (1 + 1 + 1 + 1 + 1 + 1)%Z. rewrite !zsum_succ by lia. rewrite zsum_1.
    unfold F, flux, upwind, cell_faces, periodic. closed_Z. cbn [Z.eqb Pos.eqb fst snd]. unfold mc_slope.
    destruct (Rlt_dec 0 e); [|lra]. slopes. replace ((b - 0) / 2) with (b / 2) by lra. replace (2 * (a - 0)) with (2 * a) by lra. field.
  - intros He Ha <-. change 6%Z with (1 + 1 + 1 + 1 + 1 + 1)%Z. rewrite !zsum_succ by lia. rewrite zsum_1.
    unfold F, flux, upwind, cell_faces, periodic. closed_Z. cbn [Z.eqb Pos.eqb fst snd]. unfold mc_slope.
    destruct (Rlt_dec 0 e); [lra|]. slopes.
Qed.

Lemma mixed_pushed t bg u : unmagnetised bg -> pairs u (3/2) (3/2) 1 (3/2) 2 (3/2) ->
  let p := vm_problem P6 FirstOrder MC t (es_fields P6 bg u) in
  total_pushed P6 unit_mass pushed1 p u = 7/4 /\ loss1 P6 unit_mass p u = 0.
Proof.
  intros UB H p. destruct (pairs_E bg u _ _ _ _ _ _ H) as (X&Y&Z).
  set (E := es_fields P6 bg u) in *. assert (UE : unmagnetised E) by exact UB.
  assert (F0 := fun z => pair_flux t E u 0%Z (3/2) (3/2) (-2) z UE ltac:(rewrite X; lra) (fun x Hx => proj1 (H x Hx))).
  assert (F1 := fun z => pair_flux t E u 1%Z (3/2) 2 1 z UE ltac:(rewrite Y; lra) (fun x Hx => proj1 (proj2 (H x Hx)))).
  assert (F2 := fun z => pair_flux t E u 2%Z 1 (3/2) 1 z UE ltac:(rewrite Z; lra) (fun x Hx => proj2 (proj2 (H x Hx)))).
  cbv zeta in F0, F1, F2. fold p in F0, F1, F2.
  destruct (pair_sums (-2) (3/2) (3/2)) as (Z0&_&S0). destruct (pair_sums 1 (3/2) 2) as (Z1&S1&_). destruct (pair_sums 1 1 (3/2)) as (Z2&S2&_).
  specialize (S0 ltac:(lra) ltac:(lra) eq_refl). specialize (S1 ltac:(lra) ltac:(lra)). specialize (S2 ltac:(lra) ltac:(lra)).
  assert (Q1 : Rmin (2 / 2) (Rmin (2 * (3 / 2)) (2 * (2 - 3 / 2))) = 1) by (unfold Rmin; repeat destruct (Rle_dec _ _); lra).
  assert (Q2 : Rmin (3 / 2 / 2) (Rmin (2 * 1) (2 * (3 / 2 - 1))) = 3/4) by (unfold Rmin; repeat destruct (Rle_dec _ _); lra).
  rewrite Q1 in S1. rewrite Q2 in S2.
  split.
  - unfold total_pushed, pushed1. change (gN1 (lay (pc P6))) with (1 + 1 + 1)%Z. change (gN2 (lay (pc P6))) with 1%Z.
    change (N_species (pc P6)) with 1%Z. rewrite !zsum_succ by lia. rewrite !zsum_1. change (M3 p) with 1%Z. change (M2 p) with 1%Z.
    rewrite ?zsum_1. change (0 + 1)%Z with 1%Z. change (1 + 1)%Z with 2%Z.
    match goal with |- context [zsum ?n ?f] => replace (zsum n f) with (-2 * (3/2 + 3/2)) by (rewrite <- S0; apply zsum_ext; intros z _; symmetry; exact (F0 z)) end.
    match goal with |- context [zsum ?n ?f] => replace (zsum n f) with (1 * (3/2 + 2 + 1/2)) by (rewrite <- S1; apply zsum_ext; intros z _; symmetry; exact (F1 z)) end.
    match goal with |- context [zsum ?n ?f] => replace (zsum n f) with (1 * (1 + 3/2 + 3/4/2)) by (rewrite <- S2; apply zsum_ext; intros z _; symmetry; exact (F2 z)) end.
    change (hp1 p 0%Z) with 2. change (hp2 p 0%Z) with 1. change (hp3 p 0%Z) with 1. unfold unit_mass. lra.
  - unfold loss1, momentum_loss, crossing1. change (gN1 (lay (pc P6))) with (1 + 1 + 1)%Z. change (gN2 (lay (pc P6))) with 1%Z.
    change (N_species (pc P6)) with 1%Z. rewrite !zsum_succ by lia. rewrite !zsum_1. change (M3 p) with 1%Z. change (M2 p) with 1%Z.
    rewrite ?zsum_1. change (0 + 1)%Z with 1%Z. change (1 + 1)%Z with 2%Z. rewrite F0, F1, F2, Z0, Z1, Z2. ring.
Qed.

Lemma six_keep : collisions_keep P6 unit_mass.
Proof. left; reflexivity. Qed.
Lemma mixed_step bg : unmagnetised bg ->
  momentum1 P6 unit_mass (vp_step P6 FirstOrder MC bg 0 2 mixed) = momentum1 P6 unit_mass mixed + 7/2.
Proof.
  intros UB. unfold vp_step. set (uh := vp_half P6 FirstOrder MC bg 0 2 mixed).
  unfold momentum1. rewrite (total_linear P6 FirstOrder MC (tri_wf 6 "minmod" MC ltac:(lia) eq_refl) unit_mass). fold (momentum1 P6 unit_mass).
  destruct (rate_any P6 FirstOrder MC (tri_wf 6 "minmod" MC ltac:(lia) eq_refl) (tri_periodic _ _) (tri_velocity _ _) unit_mass six_keep
     (tri_steps _ _) 0 (es_fields P6 bg uh) uh) as (Q&_).
  destruct (mixed_pushed 0 bg uh UB (mixed_half bg UB)) as (A&B).
  rewrite Q, A, B. lra.
Qed.

Lemma mixed_run : exists s r, starts P6 s /\ holds (pc P6) (f_of s) mixed /\ no_fields (view tri_lay (cc_val (fields s)))
  /\ run_steps (solver_stepper P6) [(Strang, 2)] s = Ok (r, None) /\ time_elapsed s = 0
  /\ vp_lost (loss1 P6 unit_mass) P6 FirstOrder MC (view tri_lay (cc_val (fields s))) 0 [(Strang, 2)] mixed = 0
  /\ momentum1 P6 unit_mass (gval tri_lay (f_of r)) = momentum1 P6 unit_mass (gval tri_lay (f_of s)) + 7/2.
Proof.
  destruct (tri_initial 6 "minmod" mixed) as (s&ST&HU&T0&NF).
  destruct (vp_refines P6 FirstOrder MC (tri_wf 6 "minmod" MC ltac:(lia) eq_refl) (tri_periodic _ _) (tri_plasma _ _)
              (tri_electrostatic _ _) [(Strang, 2)] s mixed ST HU) as (r&R&_&(_&H)&F).
  rewrite T0 in H, F. cbn [vp_run vp_fields] in H, F.
  set (bg := view (lay (pc P6)) (cc_val (fields s))) in *. change (lay (pc P6)) with tri_lay in *.
  assert (UB : unmagnetised bg) by (destruct NF as (_&_&_&N4&N5&N6); split; [exact N4|]; split; [exact N5|exact N6]).
  exists s, r. split; [exact ST|]. split; [exact HU|]. split; [exact NF|]. split; [exact R|]. split; [exact T0|].
  assert (EXT : forall g u : gstate, (forall x s i j, inb 6 x -> inb 1 s -> inb 3 i -> inb 1 j -> g x s i j = u x s i j) -> momentum1 P6 unit_mass g = momentum1 P6 unit_mass u).
  { intros g u Q. unfold momentum1, total_moment, integral. apply zsum_ext; intros i Hi. apply zsum_ext; intros j Hj. apply zsum_ext; intros sp Hs.
    f_equal. f_equal. apply zsum_ext; intros i3 H3. apply zsum_ext; intros i2 H2. apply zsum_ext; intros i1 H1. f_equal.
    change (mn1 (species_grid (pc P6) sp)) with 6%Z in H1. change (mn2 (species_grid (pc P6) sp)) with 1%Z in H2.
    change (mn3 (species_grid (pc P6) sp)) with 1%Z in H3. change (N_p1 (pc P6)) with 6%Z. change (N_p2 (pc P6)) with 1%Z.
    apply Q; auto. unfold inb in *. lia. }
  split.
  - cbn [vp_lost]. destruct (mixed_pushed 0 bg _ UB (mixed_half bg UB)) as (_&B). fold bg. rewrite B. ring.
  - rewrite (EXT _ _ H). pose proof (EXT _ _ (proj2 HU)) as Q. cbn [lay tri_cfg] in Q. rewrite Q. apply mixed_step; auto.
Qed.

(** ** The refutations, with all that the theorems assume *)
Lemma tri_keep n rec : collisions_keep (tri_params n rec) unit_mass.
Proof. left; reflexivity. Qed.
Lemma handed_tri n rec s : view tri_lay (fst (get_fields (pf (tri_params n rec)) (fields s))) = view tri_lay (cc_val (fields s)).
Proof. reflexivity. Qed.

Lemma edges_break : exists P mass s r, let L := lay (pc P) in
  wf_cfg (pc P) FirstOrder FirstOrder /\ periodic_fvm (pc P) FirstOrder /\ plasma P /\ electrostatic P
  /\ velocity_periodic (pc P) /\ collisions_keep P mass /\ coulomb_force P mass /\ starts P s
  /\ no_fields (view L (fst (get_fields (pf P) (fields s))))
  /\ run_steps (solver_stepper P) [(Strang, 1)] s = Ok (r, None)
  /\ momentum1 P mass (gval L (f_of s)) = 2 /\ momentum1 P mass (gval L (f_of r)) = 0.
Proof.
  destruct lone_run as (s&r&ST&HU&NF&R&A&B&_). exists P2, unit_mass, s, r. cbv zeta.
  split; [exact (tri_wf 2 "piecewise-constant" FirstOrder ltac:(lia) eq_refl)|]. split; [apply tri_periodic|]. split; [apply tri_plasma|].
  split; [apply tri_electrostatic|]. split; [apply tri_velocity|]. split; [apply tri_keep|]. split; [apply tri_force|].
  split; [exact ST|]. split; [exact NF|]. split; [exact R|]. split; [exact A|exact B].
Qed.

Lemma pairs_edges u a0 a1 a2 b0 b1 b2 : pairs u a0 a1 a2 b0 b1 b2 -> empty_edges P6 true u.
Proof.
  intros H s i j i1 i2 i3 Hs Hi Hj H1 H2 H3 E. unfold inb in *. cbn [pc tri_params tri_cfg lay tri_lay gN1 gN2 N_species N_p1 N_p2 N_p3] in *.
  assert (s = 0 /\ j = 0 /\ i2 = 0 /\ i3 = 0)%Z as (->&->&->&->) by lia.
  replace (i1 + 6 * (0 + 1 * 0))%Z with i1 by lia.
  destruct (H i1) as (X&Y&Z); [unfold inb; lia|].
  assert (N2 : (i1 =? 2)%Z = false) by lia. assert (N3 : (i1 =? 3)%Z = false) by lia. rewrite N2, N3 in X, Y, Z.
  assert (i = 0 \/ i = 1 \/ i = 2)%Z as [->|[->| ->]] by lia; auto.
Qed.
Lemma limiter_breaks : exists P mass s r u, let L := lay (pc P) in let C := view L (fst (get_fields (pf P) (fields s))) in
  wf_cfg (pc P) FirstOrder MC /\ periodic_fvm (pc P) FirstOrder /\ plasma P /\ electrostatic P
  /\ velocity_periodic (pc P) /\ collisions_keep P mass /\ coulomb_force P mass /\ starts P s /\ holds (pc P) (f_of s) u
  /\ no_fields C /\ vp_confined P true FirstOrder MC C (time_elapsed s) [(Strang, 2)] u
  /\ run_steps (solver_stepper P) [(Strang, 2)] s = Ok (r, None)
  /\ momentum1 P mass (gval L (f_of r)) = momentum1 P mass (gval L (f_of s)) + 7/2.
Proof.
  destruct mixed_run as (s&r&ST&HU&NF&R&T0&_&A). exists P6, unit_mass, s, r, mixed. cbv zeta.
  change (lay (pc P6)) with tri_lay. rewrite handed_tri.
  split; [exact (tri_wf 6 "minmod" MC ltac:(lia) eq_refl)|]. split; [apply tri_periodic|]. split; [apply tri_plasma|].
  split; [apply tri_electrostatic|]. split; [apply tri_velocity|]. split; [apply tri_keep|]. split; [apply tri_force|].
  split; [exact ST|]. split; [exact HU|]. split; [exact NF|]. split; [|split; [exact R|exact A]].
  rewrite T0. cbn [vp_confined]. split; [|exact I]. eapply pairs_edges. apply mixed_half.
  destruct NF as (_&_&_&N4&N5&N6). split; [exact N4|]. split; [exact N5|exact N6].
Qed.

Lemma field_is_late : exists P s r, let L := lay (pc P) in let C s := view L (fst (get_fields (pf P) (fields s))) in
  wf_cfg (pc P) FirstOrder FirstOrder /\ periodic_fvm (pc P) FirstOrder /\ plasma P /\ electrostatic P
  /\ starts P s /\ run_steps (solver_stepper P) [(Strang, 1)] s = Ok (r, None)
  /\ Yee.E1 (C r) 0%Z 0%Z = -1
  /\ Yee.E1 (es_fields P (C s) (gval L (f_of r))) 0%Z 0%Z = 1.
Proof.
  destruct lone_run as (s&r&ST&HU&NF&R&_&_&A&B). exists P2, s, r. cbv zeta.
  split; [exact (tri_wf 2 "piecewise-constant" FirstOrder ltac:(lia) eq_refl)|]. split; [apply tri_periodic|]. split; [apply tri_plasma|].
  split; [apply tri_electrostatic|]. split; [exact ST|]. split; [exact R|]. split; [exact A|exact B].
Qed.

(** ** A run that keeps its momentum *)
Notation P6c := (tri_params 6 "piecewise-constant").
Lemma first_edge t C u x i : (x = 0 \/ x = 5)%Z -> (forall y, inb 6 y -> y <> 2%Z -> y <> 3%Z -> u y 0%Z i 0%Z = 0) ->
  advect_p (vm_problem P6c FirstOrder FirstOrder t C) i 0%Z (fun x' s' => u x' s' i 0%Z) x 0%Z = 0.
Proof.
  intros Hx U. unfold advect_p. change (M1 (vm_problem P6c FirstOrder FirstOrder t C)) with 6%Z.
  change (M2 (vm_problem P6c FirstOrder FirstOrder t C)) with 1%Z. change (M3 (vm_problem P6c FirstOrder FirstOrder t C)) with 1%Z.
  rewrite !one_cell. unfold advect, flux, upwind. change (kp (vm_problem P6c FirstOrder FirstOrder t C)) with FirstOrder.
  unfold cell_faces. cbn [fst snd]. unfold periodic, pidx.
  change (M1 (vm_problem P6c FirstOrder FirstOrder t C)) with 6%Z. change (M2 (vm_problem P6c FirstOrder FirstOrder t C)) with 1%Z.
  destruct Hx as [->| ->]; closed_Z;
    repeat match goal with |- context [u ?k 0%Z i 0%Z] => rewrite (U k) by (unfold inb; lia) end;
    repeat (destruct (Rlt_dec _ _)); lra.
Qed.
Lemma mixed_confined bg dt : vp_confined P6c true FirstOrder FirstOrder bg 0 [(Strang, dt)] mixed.
Proof.
  cbn [vp_confined]. split; [|exact I].
  intros s i j i1 i2 i3 Hs Hi Hj H1 H2 H3 E. unfold inb in *. cbn [pc tri_params tri_cfg lay tri_lay gN1 gN2 N_species N_p1 N_p2 N_p3] in *.
  assert (s = 0 /\ j = 0 /\ i2 = 0 /\ i3 = 0)%Z as (->&->&->&->) by lia.
  replace (i1 + 6 * (0 + 1 * 0))%Z with i1 by lia.
  assert (M0 : forall y k, y <> 2%Z -> y <> 3%Z -> mixed y 0%Z k 0%Z = 0).
  { intros y k A B. unfold mixed. destruct (Z.eqb_spec y 2), (Z.eqb_spec y 3); try lia; reflexivity. }
  cbv iota in E. unfold vp_half, rhs. rewrite first_edge by (try lia; intros; apply M0; auto).
  rewrite tri_drift. rewrite !(M0 i1) by lia.
  change (src (vm_problem P6c FirstOrder FirstOrder 0 (es_fields P6c bg mixed)) i 0 (fun x' s' => mixed x' s' i 0%Z) i1 0) with 0.
  destruct (Rlt_dec _ _); lra.
Qed.
