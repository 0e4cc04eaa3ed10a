(** Uniform plasmas with two momenta, for restarts. *)
From Coq Require Import ZArith Reals Lia Lra String List Bool.
From Verif Require Import Base.Prelude Base.ZSum Model.Af Model.Petsc Model.Config Model.Fvm Model.Em Model.FileIO
  Model.Moments Model.Splitting Model.Timestep Model.Solver Spec.Domain Spec.Lattice Spec.FvmProblem Spec.FvmRun
  Spec.Yee Spec.EmRun Spec.MomentSpec Spec.Clock Spec.SolverSpec Spec.VlasovMaxwell Spec.Hybrid Spec.InitFields Spec.Files Spec.Restart
  Proofs.FvmConserve Proofs.EmInit Proofs.InitFields Proofs.VmProps Proofs.HybridRun Proofs.Restart.
Import ListNotations.
Local Open Scope R_scope.

Definition rs_lay : layout := Layout 4 3 [1; 3]%Z [2; 1]%Z 3 3 PPeriodic PPeriodic.

(** E + v x B. *)
Definition rs_force (_ : Z) (_ _ _ p1 p2 p3 E1 E2 E3 B1 B2 B3 : R) : R * R * R :=
  (E1 + p2 * B3 - p3 * B2, E2 + p3 * B1 - p1 * B3, E3 + p1 * B2 - p2 * B1).

(** Momenta (-1, w, 0) and (1, w, 0). *)
Definition rs_cfg (w : R) : cfg :=
  Cfg rs_lay 3 2 1 1 1 0 4 0 3 1 1 [-2] [w - 1/2] [-1/2] [2] [1] [1]
    "FVM" "FVM" "piecewise-constant" "piecewise-constant" "cartesian" true false
    (fun _ _ _ _ p1 p2 _ => (p1, p2)) (fun _ _ _ _ p1 p2 _ => (p1, p2)) rs_force rs_force
    (fun _ _ _ _ _ _ => 0)
    (fun _ => "periodic"%string) (fun _ _ _ _ f => f) 0 0
    (fun v _ _ _ _ => v) 0.

Definition rs_em (hy : bool) (b : R) : fcfg :=
  FCfg rs_lay 3 0 0 1 1 1 1 (fun _ => "periodic"%string) (fun _ _ _ _ _ a => a)
    "fdtd" "user-defined" "FVM" hy (Some (fun _ _ => (0, 0, 0))) None (Some (fun _ _ => (0, 0, b))) None None.

Definition rs_params (hy : bool) (w b : R) : params :=
  Params (rs_cfg w) (rs_em hy b) "electrodynamic" [1] nonrel_moments 0 1 false (fun _ _ _ _ _ _ => 0) (fun a _ _ => a).

Lemma rs_regular hy b : regular (rs_em hy b).
Proof.
  unfold regular, periodic_fields, periodic_layout, tiles; cbn.
  repeat split; try lia; try lra; repeat constructor; try lia.
Qed.
Lemma rs_wf w : wf_cfg (rs_cfg w) FirstOrder FirstOrder.
Proof.
  unfold wf_cfg. cbn [N_p1 N_p2 N_p3 N_species p1_start p2_start p3_start dp1 dp2 dp3 rs_cfg List.length].
  repeat split; try lia; auto.
Qed.
Lemma rs_periodic w : periodic_fvm (rs_cfg w) FirstOrder.
Proof. unfold periodic_fvm, periodic_layout, tiles; cbn. repeat split; try lia; repeat constructor; lia. Qed.
Lemma rs_plasma hy w b : plasma (rs_params hy w b).
Proof. constructor; reflexivity. Qed.
Lemma rs_maxwell w b : maxwell (rs_params false w b).
Proof. constructor; try reflexivity. apply rs_regular. Qed.
Lemma rs_hybrid w b : hybrid_fvm (rs_params true w b).
Proof. constructor; try reflexivity; [cbn; lia|apply rs_regular]. Qed.

Definition cst (e1 e2 b3 : R) : lattice :=
  Lattice (fun _ _ => e1) (fun _ _ => e2) (fun _ _ => 0) (fun _ _ => 0) (fun _ _ => 0) (fun _ _ => b3).

(** f is a at momentum 0 and b at momentum 1, in every cell. *)
Definition two (u : gstate) (a b : R) : Prop :=
  forall i j, inb 4 i -> inb 3 j -> u 0%Z 0%Z i j = a /\ u 1%Z 0%Z i j = b.
Definition flat_state (S : vm_state) (a b e e2 ec ec2 b3 : R) : Prop :=
  two (vm_f S) a b /\ same (vm_yee S) (cst e e2 b3) /\ same (vm_cc S) (cst ec ec2 b3).

Ltac closed_Z := repeat match goal with
  | |- context [ (?a mod ?b)%Z ] => let v := eval vm_compute in (a mod b)%Z in change (a mod b)%Z with v
  | |- context [ (?a / ?b)%Z ] => let v := eval vm_compute in (a / b)%Z in change (a / b)%Z with v
  | |- context [ (?a + ?b)%Z ] => let v := eval vm_compute in (a + b)%Z in change (a + b)%Z with v
  | |- context [ (?a * ?b)%Z ] => let v := eval vm_compute in (a * b)%Z in change (a * b)%Z with v
  | |- context [ (?a - ?b)%Z ] => let v := eval vm_compute in (a - b)%Z in change (a - b)%Z with v
  end.

Section Flat.
  Context (hy : bool) (w b3 : R).
  Let P := rs_params hy w b3.

  Lemma two_periodic u a b : two u a b -> forall i j, u 0%Z 0%Z (i mod 4)%Z (j mod 3)%Z = a /\ u 1%Z 0%Z (i mod 4)%Z (j mod 3)%Z = b.
  Proof using. intros H i j. apply H; apply Z.mod_pos_bound; lia. Qed.

  Lemma flat_rhs t C u a b ec ec2 i j : two u a b -> same C (cst ec ec2 b3) -> inb 4 i -> inb 3 j ->
    rhs (vm_problem P FirstOrder FirstOrder t C) u 0%Z 0%Z i j = Rabs (ec + w * b3) * (b - a) / 2
    /\ rhs (vm_problem P FirstOrder FirstOrder t C) u 1%Z 0%Z i j = Rabs (ec + w * b3) * (a - b) / 2.
  Proof using.
    intros HU (Z1&Z2&Z3&Z4&Z5&Z6) Hi Hj. cbn [E1 E2 E3 B1 B2 B3 cst] in *.
    assert (AQ : forall x, x = 0%Z \/ x = 1%Z -> advect_q (vm_problem P FirstOrder FirstOrder t C) u x 0%Z i j = 0).
    { intros x Hx. unfold advect_q, advect, flux, upwind, vm_problem, prob, problem_of, problem_at, periodic.
      cbn [vel1 vel2 n1 n2 h1 h2 kq cell_faces fst snd lay rs_cfg pc P rs_params gN1 gN2 rs_lay dq1 dq2 C_q].
      assert (V : forall z, u x 0%Z (z mod 4)%Z j = u x 0%Z 0%Z 0%Z).
      { intros z. assert (inb 4 (z mod 4)) by (apply Z.mod_pos_bound; lia).
        destruct (HU (z mod 4)%Z j) as (A&B); auto. destruct (HU 0%Z 0%Z) as (A'&B'); [unfold inb; lia..|].
        destruct Hx as [->| ->]; congruence. }
      assert (V' : forall z, u x 0%Z i (z mod 3)%Z = u x 0%Z 0%Z 0%Z).
      { intros z. assert (inb 3 (z mod 3)) by (apply Z.mod_pos_bound; lia).
        destruct (HU i (z mod 3)%Z) as (A&B); auto. destruct (HU 0%Z 0%Z) as (A'&B'); [unfold inb; lia..|].
        destruct Hx as [->| ->]; congruence. }
      rewrite !V, !V'. repeat destruct (Rlt_dec _ _); try lra; assert (F0 : F = 0) by lra; rewrite F0; lra. }
    destruct (HU i j Hi Hj) as (A&B).
    assert (AP : advect_p (vm_problem P FirstOrder FirstOrder t C) i j (fun x' s' => u x' s' i j) 0%Z 0%Z = Rabs (ec + w * b3) * (b - a) / 2
      /\ advect_p (vm_problem P FirstOrder FirstOrder t C) i j (fun x' s' => u x' s' i j) 1%Z 0%Z = Rabs (ec + w * b3) * (a - b) / 2).
    { unfold advect_p, vm_problem, prob, problem_of, problem_at, periodic, pidx, advect, flux, upwind.
      cbn [acc1 acc2 acc3 M1 M2 M3 kp hp1 hp2 hp3 fst snd N_p1 N_p2 N_p3 rs_cfg pc P rs_params cell_faces].
      change (p_is_fvm (rs_cfg w)) with true. cbv iota.
      unfold accel, components, mom1, mom2, mom3. cbn [C_p rs_cfg rs_force Z.eqb Pos.eqb fst snd].
      rewrite Z1, Z2, Z3, Z4, Z5, Z6.
      cbn [dp1 dp2 dp3 nth Z.to_nat p1_start p2_start p3_start rs_cfg N_p1 N_p2 N_p3].
      closed_Z.
      rewrite A, B.
      replace (ec + (w - 1 / 2 + (1 / 2 + 0) * 1) * b3 - (-1 / 2 + (1 / 2 + 0) * 1) * 0) with (ec + w * b3) by lra.
      set (F := ec + w * b3). clearbody F.
      unfold Rabs. split; destruct (Rlt_dec 0 F), (Rcase_abs F); try lra; repeat destruct (Rlt_dec _ _); try lra; assert (F0 : F = 0) by lra; rewrite F0; lra. }
    unfold rhs. rewrite !AQ by auto. destruct AP as (-> & ->).
    change (src (vm_problem P FirstOrder FirstOrder t C)) with (fun (_ _ : Z) (_ : Z -> Z -> R) (_ _ : Z) => 0). cbv beta. lra.
  Qed.
  Definition half_a (dt a b ec : R) : R := a + dt / 2 * (Rabs (ec + w * b3) * (b - a) / 2).
  Definition half_b (dt a b ec : R) : R := b + dt / 2 * (Rabs (ec + w * b3) * (a - b) / 2).
  Definition full_a (dt a b ec ec' : R) : R :=
    a + dt * (Rabs (ec' + w * b3) * (half_b dt a b ec - half_a dt a b ec) / 2).
  Definition full_b (dt a b ec ec' : R) : R :=
    b + dt * (Rabs (ec' + w * b3) * (half_a dt a b ec - half_b dt a b ec) / 2).

  Lemma flat_half t dt C u a b ec ec2 : two u a b -> same C (cst ec ec2 b3) ->
    two (fun x s i j => u x s i j + dt / 2 * rhs (vm_problem P FirstOrder FirstOrder t C) u x s i j)
        (half_a dt a b ec) (half_b dt a b ec).
  Proof using.
    intros HU HC i j Hi Hj. destruct (flat_rhs t C u a b ec ec2 i j HU HC Hi Hj) as (-> & ->).
    destruct (HU i j Hi Hj) as (-> & ->). split; reflexivity.
  Qed.

  Lemma flat_midpoint t dt C C' u a b ec ec2 ec' ec2' : two u a b -> same C (cst ec ec2 b3) -> same C' (cst ec' ec2' b3) ->
    two (midpoint (vm_problem P FirstOrder FirstOrder t C) (vm_problem P FirstOrder FirstOrder t C') dt u)
        (full_a dt a b ec ec') (full_b dt a b ec ec').
  Proof using.
    intros HU HC HC' i j Hi Hj. pose proof (flat_half t dt C u a b ec ec2 HU HC) as HH.
    unfold midpoint. destruct (flat_rhs t C' _ _ _ ec' ec2' i j HH HC' Hi Hj) as (-> & ->).
    destruct (HU i j Hi Hj) as (-> & ->). split; reflexivity.
  Qed.

  Lemma flat_next t dt S Y a b ec ec2 e' e2' : two (vm_f S) a b -> same (vm_cc S) (cst ec ec2 b3) -> same Y (cst e' e2' b3) ->
    let C := EB (mid (vm_cc S) (centred Y)) (centred Y) in
    flat_state (VM (midpoint (vm_problem P FirstOrder FirstOrder t (vm_cc S)) (vm_problem P FirstOrder FirstOrder t C) dt (vm_f S)) Y C)
      (full_a dt a b ec ((ec + e') / 2)) (full_b dt a b ec ((ec + e') / 2)) e' e2' ((ec + e') / 2) ((ec2 + e2') / 2) b3.
  Proof using.
    intros HU HC HY C.
    assert (CC : same C (cst ((ec + e') / 2) ((ec2 + e2') / 2) b3)).
    { destruct HC as (Z1&Z2&Z3&Z4&Z5&Z6). destruct HY as (Y1&Y2&Y3&Y4&Y5&Y6). cbn [cst E1 E2 E3 B1 B2 B3] in *.
      unfold C, same, EB, mid, centred; cbn [cst E1 E2 E3 B1 B2 B3].
      repeat split; intros; rewrite ?Z1, ?Z2, ?Z3, ?Y1, ?Y2, ?Y3, ?Y4, ?Y5, ?Y6; lra. }
    split; [|split]; cbn [vm_f vm_yee vm_cc]; auto. eapply flat_midpoint; eauto.
  Qed.

  Lemma flat_reload S a b e e2 ec ec2 : flat_state S a b e e2 ec ec2 b3 -> flat_state (reloaded S) a b e e2 e e2 b3.
  Proof using.
    intros (HU&HY&HC). split; [exact HU|]. split; [exact HY|]. cbn [reloaded vm_cc].
    destruct HY as (Y1&Y2&Y3&Y4&Y5&Y6). cbn [cst E1 E2 E3 B1 B2 B3] in *.
    unfold same, centred; cbn [cst E1 E2 E3 B1 B2 B3].
    repeat split; intros; rewrite ?Y1, ?Y2, ?Y3, ?Y4, ?Y5, ?Y6; lra.
  Qed.

  Lemma through1_flat t C u a b : two u a b -> forall i j,
    through1 (vm_problem P FirstOrder FirstOrder t C) u 0%Z 0%Z i (j mod 3)%Z = a
    /\ through1 (vm_problem P FirstOrder FirstOrder t C) u 1%Z 0%Z i (j mod 3)%Z = b.
  Proof using.
    intros HU i j.
    change (through1 (vm_problem P FirstOrder FirstOrder t C) u)
      with (fun x s i j => upwind FirstOrder (fun z => vel1 (vm_problem P FirstOrder FirstOrder t C) x s z j) (periodic 4 (fun z => u x s z j)) i).
    cbv beta. split; apply upwind_const; intros z; unfold periodic; apply (two_periodic u a b HU).
  Qed.
  Lemma through2_flat t C u a b : two u a b -> forall i j,
    through2 (vm_problem P FirstOrder FirstOrder t C) u 0%Z 0%Z (i mod 4)%Z j = a
    /\ through2 (vm_problem P FirstOrder FirstOrder t C) u 1%Z 0%Z (i mod 4)%Z j = b.
  Proof using.
    intros HU i j.
    change (through2 (vm_problem P FirstOrder FirstOrder t C) u)
      with (fun x s i j => upwind FirstOrder (fun z => vel2 (vm_problem P FirstOrder FirstOrder t C) x s i z) (periodic 3 (fun z => u x s i z)) j).
    cbv beta. split; apply upwind_const; intros z; unfold periodic; apply (two_periodic u a b HU).
  Qed.

  Lemma moment_two wt g : charge_moment P wt g = 2 * (wt (-1) w 0 * g 0%Z 0%Z + wt 1 w 0 * g 1%Z 0%Z).
  Proof using.
    unfold charge_moment, integral. cbn [N_species pc P rs_params rs_cfg charge mn1 mn2 mn3 lo1 lo2 lo3 w1 w2 w3 species_grid
      N_p1 N_p2 N_p3 p1_start p2_start p3_start dp1 dp2 dp3].
    rewrite zsum_1. cbn [nth Z.to_nat]. rewrite !zsum_1. change 2%Z with (1 + 1)%Z at 1. rewrite zsum_succ, zsum_1 by lia.
    unfold v_of. closed_Z.
    replace (-2 + (1 / 2 + 0) * 2) with (-1) by lra. replace (-2 + (1 / 2 + 1) * 2) with 1 by lra.
    replace (w - 1 / 2 + (1 / 2 + 0) * 1) with w by lra. replace (-1 / 2 + (1 / 2 + 0) * 1) with 0 by lra. ring.
  Qed.
End Flat.

(** ** Kinetic plasmas *)
Lemma flat_maxwell t dt S a b e e2 ec ec2 : flat_state S a b e e2 ec ec2 0 ->
  let e' := e - dt * (2 * (half_b 0 0 dt a b ec - half_a 0 0 dt a b ec)) in
  flat_state (vm_step (rs_params false 0 0) FirstOrder FirstOrder t dt S)
    (full_a 0 0 dt a b ec ((ec + e') / 2)) (full_b 0 0 dt a b ec ((ec + e') / 2)) e' e2 ((ec + e') / 2) ((ec2 + e2) / 2) 0.
Proof.
  intros (HU&HY&HC) e'. unfold vm_step. apply (flat_next false 0 0); auto.
  set (p := vm_problem (rs_params false 0 0) FirstOrder FirstOrder t (vm_cc S)).
  set (uh := fun x s i j => vm_f S x s i j + dt / 2 * rhs p (vm_f S) x s i j).
  pose proof (flat_half false 0 0 t dt (vm_cc S) (vm_f S) a b ec ec2 HU HC) as HH. fold p in HH. fold uh in HH.
  assert (J1 : forall i j, current1 (rs_params false 0 0) p uh i j = 2 * (half_b 0 0 dt a b ec - half_a 0 0 dt a b ec)).
  { intros i j. unfold current1. rewrite moment_two. cbv beta. change (n1 p) with 4%Z. change (n2 p) with 3%Z.
    destruct (through1_flat false 0 0 t (vm_cc S) uh _ _ HH (i mod 4)%Z j) as (A&B). fold p in A, B. rewrite A, B. ring. }
  assert (J2 : forall i j, current2 (rs_params false 0 0) p uh i j = 0) by (intros; unfold current2; rewrite moment_two; cbv beta; ring).
  assert (J3 : forall i j, current3 (rs_params false 0 0) p uh i j = 0) by (intros; unfold current3; rewrite moment_two; cbv beta; ring).
  destruct HY as (Y1&Y2&Y3&Y4&Y5&Y6). cbn [cst E1 E2 E3 B1 B2 B3] in *.
  unfold same, yee_step, faraday, ampere, fwd1, fwd2, bwd1, bwd2; cbn [cst E1 E2 E3 B1 B2 B3 pf rs_params rs_em fdq1 fdq2 eps mu].
  repeat split; intros; rewrite ?J1, ?J2, ?J3, ?Y1, ?Y2, ?Y3, ?Y4, ?Y5, ?Y6; unfold e', Rdiv; rewrite ?Rinv_1, ?Rmult_1_r; try ring; field.
Qed.

Lemma maxwell_values S : flat_state S 0 1 0 0 0 0 0 -> exists e e2,
  let P := rs_params false 0 0 in let S1 := vm_step P FirstOrder FirstOrder 0 (1/4) S in
  flat_state S1 (1/32) (31/32) (-1/2) e (-1/4) e2 0
  /\ vm_f (vm_step P FirstOrder FirstOrder (1/4) (1/4) S1) 0%Z 0%Z 0%Z 0%Z
     <> vm_f (vm_step P FirstOrder FirstOrder (1/4) (1/4) (reloaded S1)) 0%Z 0%Z 0%Z 0%Z.
Proof.
  intros H. pose proof (flat_maxwell 0 (1/4) S _ _ _ _ _ _ H) as H1. cbv zeta in H1.
  exists 0, 0. cbv zeta. set (S1 := vm_step (rs_params false 0 0) FirstOrder FirstOrder 0 (1/4) S) in *.
  assert (Q : flat_state S1 (1/32) (31/32) (-1/2) 0 (-1/4) 0 0).
  { replace ((0 + 0) / 2) with 0 in H1 by lra.
    unfold full_a, full_b, half_a, half_b in H1.
    replace (0 + 0 * 0) with 0 in H1 by ring. rewrite Rabs_R0 in H1.
    replace (0 - 1 / 4 * (2 * (1 + 1 / 4 / 2 * (0 * (0 - 1) / 2) - (0 + 1 / 4 / 2 * (0 * (1 - 0) / 2))))) with (-1/2) in H1 by lra.
    replace ((0 + -1 / 2) / 2) with (-1/4) in H1 by lra. replace (-1 / 4 + 0 * 0) with (-1/4) in H1 by ring.
    rewrite Rabs_left in H1 by lra.
    replace (0 + 1 / 4 * (- (-1 / 4) * (1 + 1 / 4 / 2 * (0 * (0 - 1) / 2) - (0 + 1 / 4 / 2 * (0 * (1 - 0) / 2))) / 2)) with (1/32) in H1 by lra.
    replace (1 + 1 / 4 * (- (-1 / 4) * (0 + 1 / 4 / 2 * (0 * (1 - 0) / 2) - (1 + 1 / 4 / 2 * (0 * (0 - 1) / 2))) / 2)) with (31/32) in H1 by lra.
    exact H1. }
  split; [exact Q|].
  pose proof (flat_maxwell (1/4) (1/4) S1 _ _ _ _ _ _ Q) as (A&_).
  pose proof (flat_maxwell (1/4) (1/4) (reloaded S1) _ _ _ _ _ _ (flat_reload 0 S1 _ _ _ _ _ _ Q)) as (B&_).
  destruct (A 0%Z 0%Z) as (A0&_); [unfold inb; lia..|]. destruct (B 0%Z 0%Z) as (B0&_); [unfold inb; lia..|].
  rewrite A0, B0. unfold full_a, half_a, half_b.
  rewrite !Rmult_0_l, !Rplus_0_r.
  rewrite (Rabs_left (-1/4)), (Rabs_left (-1/2)) by lra.
  rewrite !Rabs_left by lra. lra.
Qed.

(** ** Hybrid plasmas *)
Lemma ion_two w b3 wt g : ion (rs_params true w b3) wt g = 2 * (wt (-1) w 0 * g 0%Z + wt 1 w 0 * g 1%Z).
Proof.
  rewrite <- (moment_two true w b3 wt (fun x _ => g x)). unfold ion, charge_moment.
  cbn [N_species pc rs_params rs_cfg charge]. rewrite zsum_1. cbn [nth Z.to_nat]. ring.
Qed.

Lemma ions_two w b3 h a b : a + b <> 0 -> (forall i j, h 0%Z 0%Z (i mod 4)%Z (j mod 3)%Z = a /\ h 1%Z 0%Z (i mod 4)%Z (j mod 3)%Z = b) ->
  let F := ions (rs_params true w b3) h in
  (forall i j, num F i j = 2 * (a + b)) /\ (forall i j, vel_1 F i j = (b - a) / (a + b))
  /\ (forall i j, vel_2 F i j = w) /\ (forall i j, vel_3 F i j = 0).
Proof.
  intros N H. cbv zeta. unfold ions. cbn [num vel_1 vel_2 vel_3 lay pc rs_params rs_cfg gN1 gN2 rs_lay].
  repeat split; intros i j; rewrite !ion_two; destruct (H i j) as (-> & ->); field; lra.
Qed.

Lemma flat_hybrid t dt S a b e e2 ec ec2 : flat_state S a b e e2 ec ec2 1 -> a + b <> 0 ->
  exists e2', flat_state (hyb_step (rs_params true 1 1) FirstOrder FirstOrder t dt S)
    (full_a 1 1 dt a b ec ((ec - 1) / 2)) (full_b 1 1 dt a b ec ((ec - 1) / 2)) (-1) e2' ((ec - 1) / 2) ((ec2 + e2') / 2) 1.
Proof.
  intros (HU&HY&HC) N. set (a' := half_a 1 1 dt a b ec). set (b' := half_b 1 1 dt a b ec).
  assert (N' : a' + b' <> 0) by (unfold a', b', half_a, half_b; lra).
  exists ((b' - a') / (a' + b')). unfold hyb_step. change (ec - 1) with (ec + -1). apply (flat_next true 1 1); auto.
  set (p := vm_problem (rs_params true 1 1) FirstOrder FirstOrder t (vm_cc S)).
  set (uh := fun x s i j => vm_f S x s i j + dt / 2 * rhs p (vm_f S) x s i j).
  pose proof (flat_half true 1 1 t dt (vm_cc S) (vm_f S) a b ec ec2 HU HC) as HH. fold p in HH. fold uh in HH. fold a' b' in HH.
  unfold hyb_fields. change (charge (rs_params true 1 1)) with [1]. cbn [nth].
  destruct (ions_two 1 1 (through1 p uh) a' b' N') as (L1&L2&L3&L4);
    [intros i j; exact (through1_flat true 1 1 t (vm_cc S) uh a' b' HH (i mod 4)%Z j)|].
  destruct (ions_two 1 1 (through2 p uh) a' b' N') as (M1&M2&M3&M4);
    [intros i j; exact (through2_flat true 1 1 t (vm_cc S) uh a' b' HH i (j mod 3)%Z)|].
  destruct (ions_two 1 1 uh a' b' N') as (O1&O2&O3&O4);
    [intros i j; exact (two_periodic uh a' b' HH i j)|].
  set (IL := ions (rs_params true 1 1) (through1 p uh)) in *. set (IB := ions (rs_params true 1 1) (through2 p uh)) in *.
  set (IC := ions (rs_params true 1 1) uh) in *. clearbody IL IB IC.
  destruct HY as (Y1&Y2&Y3&Y4&Y5&Y6). cbn [cst E1 E2 E3 B1 B2 B3] in *.
  assert (OH : same (ohm (pf (rs_params true 1 1)) 1 (T_e (rs_params true 1 1)) IL IB IC (vm_yee S)) (cst (-1) ((b' - a') / (a' + b')) 1)).
  { unfold same, ohm, slope1, slope2, fwd1, fwd2; cbn [cst E1 E2 E3 B1 B2 B3 pf rs_params rs_em fdq1 fdq2 eps mu T_e].
    repeat split; intros; rewrite ?L1, ?L2, ?L3, ?L4, ?M1, ?M2, ?M3, ?M4, ?O1, ?O2, ?O3, ?O4, ?Y4, ?Y5, ?Y6; try (field; lra). }
  set (O := ohm _ _ _ _ _ _ _) in *. clearbody O. destruct OH as (Q1&Q2&Q3&Q4&Q5&Q6). cbn [cst E1 E2 E3 B1 B2 B3] in *.
  unfold same, faraday, bwd1, bwd2; cbn [cst E1 E2 E3 B1 B2 B3].
  repeat split; intros; rewrite ?Q1, ?Q2, ?Q3, ?Q4, ?Q5, ?Q6; unfold Rdiv; ring.
Qed.

Lemma hybrid_values S : flat_state S 0 1 0 0 0 0 1 ->
  let P := rs_params true 1 1 in let S1 := hyb_step P FirstOrder FirstOrder 0 (1/4) S in
  vm_f (hyb_step P FirstOrder FirstOrder (1/4) (1/4) S1) 0%Z 0%Z 0%Z 0%Z
  <> vm_f (hyb_step P FirstOrder FirstOrder (1/4) (1/4) (reloaded S1)) 0%Z 0%Z 0%Z 0%Z.
Proof.
  intros H. cbv zeta. destruct (flat_hybrid 0 (1/4) S _ _ _ _ _ _ H) as (e2&H1); [lra|].
  set (S1 := hyb_step (rs_params true 1 1) FirstOrder FirstOrder 0 (1/4) S) in *.
  set (a := full_a 1 1 (1/4) 0 1 0 ((0 - 1) / 2)) in *. set (b := full_b 1 1 (1/4) 0 1 0 ((0 - 1) / 2)) in *.
  assert (SUM : a + b = 1) by (unfold a, b, full_a, full_b; lra).
  assert (LT : a < b).
  { unfold a, b, full_a, full_b, half_a, half_b. rewrite !Rabs_right by lra. lra. }
  destruct (flat_hybrid (1/4) (1/4) S1 _ _ _ _ _ _ H1) as (e2'&A&_); [lra|].
  destruct (flat_hybrid (1/4) (1/4) (reloaded S1) _ _ _ _ _ _ (flat_reload 1 S1 _ _ _ _ _ _ H1)) as (e2''&B&_); [lra|].
  destruct (A 0%Z 0%Z) as (A0&_); [unfold inb; lia..|]. destruct (B 0%Z 0%Z) as (B0&_); [unfold inb; lia..|].
  rewrite A0, B0. clearbody a b. unfold full_a, half_a, half_b.
  replace ((-1 - 1) / 2 + 1 * 1) with 0 by lra. rewrite Rabs_R0. rewrite !Rabs_right by lra.
  lra.
Qed.

(** ** Runs of the solver *)
Definition rs_f : fstate :=
  FState (fun r1 r2 => Arr 2 1 (n1g rs_lay r1) (n2g rs_lay r2) (fun x _ _ _ => IZR x)) (fun _ _ _ => 0).

Lemma rs_start hy w b : exists s, starts (rs_params hy w b) s /\ f_of s = sf rs_f /\ time_elapsed s = 0
  /\ exists S, vm_holds (rs_params hy w b) s S /\ flat_state S 0 1 0 0 0 0 b.
Proof.
  destruct (initial_EB (rs_em hy b) (fun _ _ => Arr 1 1 0 0 (fun _ _ _ _ => 0)) (fun _ _ => (0, 0, 0)) (fun _ _ => (0, 0, b)) (rs_regular hy b)) as (e&H&HY&HC);
    [repeat split|].
  assert (Q : forall F, (same_on 4 3 (view rs_lay F) (on_shifted_grid (rs_em hy b) (fun _ _ => (0, 0, 0)) (fun _ _ => (0, 0, b)))
      \/ same_on 4 3 (view rs_lay F) (centred (on_shifted_grid (rs_em hy b) (fun _ _ => (0, 0, 0)) (fun _ _ => (0, 0, b))))) ->
      same (view rs_lay F) (cst 0 0 b)).
  { intros F K.
    assert (M : forall i j, inb 4 (i mod 4) /\ inb 3 (j mod 3)) by (intros; unfold inb; split; apply Z.mod_pos_bound; lia).
    assert (G : forall k i j, gper rs_lay F k 0 i j = gper rs_lay F k 0 (i mod 4) (j mod 3)).
    { intros. unfold gper. cbn [gN1 gN2 rs_lay]. rewrite !Zmod_mod. reflexivity. }
    unfold same, view, cst; cbn [E1 E2 E3 B1 B2 B3].
    repeat split; intros i j; rewrite G; destruct (M i j) as (X&Y);
      (destruct K as [K|K]; destruct (K _ _ X Y) as (H1&H2&H3&H4&H5&H6);
       cbn [view E1 E2 E3 B1 B2 B3 centred on_shifted_grid on_yee_grid] in H1, H2, H3, H4, H5, H6;
       unfold placed in H1, H2, H3, H4, H5, H6; cbn [fst snd] in H1, H2, H3, H4, H5, H6; lra). }
  exists (Solver rs_f e 0 0). split; [split; [eexists; exact H|intros r1 r2 _; repeat split]|]. split; [reflexivity|]. split; [reflexivity|].
  exists (VM (fun x _ _ _ => IZR x) (cst 0 0 b) (cst 0 0 b)). split.
  - split; [split; [intros r1 r2 _; repeat split|intros; reflexivity]|]. split; apply Q; [left; exact HY|right; exact HC].
  - split; [intros i j _ _; split; reflexivity|]. split; repeat split.
Qed.

Lemma maxwell_restart_differs : exists P s s2 m u r r', let d := (Lie, 1/4) in
  wf_cfg (pc P) FirstOrder FirstOrder /\ plasma P /\ maxwell P /\ periodic_fvm (pc P) FirstOrder
  /\ starts P s /\ starts P s2
  /\ run_steps (solver_stepper P) [d] s = Ok (m, None) /\ run_steps (solver_stepper P) [d; d] s = Ok (u, None)
  /\ resume P (dumps P m) (time_elapsed m) s2 = Ok r /\ run_steps (solver_stepper P) [d] r = Ok (r', None)
  /\ gval (lay (pc P)) (f_of r') 0 0 0 0 <> gval (lay (pc P)) (f_of u) 0 0 0 0.
Proof.
  set (P := rs_params false 0 0). destruct (rs_start false 0 0) as (s&ST&_&T0&S&HS&FS). fold P in ST, HS.
  assert (LS : with_layouts P (lay (pc P)) = P) by reflexivity.
  pose proof (rs_wf 0) as W. pose proof (rs_periodic 0) as PF. pose proof (rs_plasma false 0 0) as PM. pose proof (rs_maxwell 0 0) as MX.
  destruct (vm_refines P FirstOrder FirstOrder W PF PM MX [(Lie, 1/4); (Lie, 1/4)] s S ST HS) as (u&RU&HU&_).
  destruct (vm_refines P FirstOrder FirstOrder W PF PM MX [(Lie, 1/4)] s S ST HS) as (m&RM&HM&TM&_).
  destruct (vm_restart P (lay (pc P)) FirstOrder FirstOrder W PM MX PF PF (conj eq_refl eq_refl) [] [(Lie, 1/4)] [(Lie, 1/4)] s s s S (time_elapsed m))
    as (m'&r&r'&RM'&HM'&QR&RR&HR); auto.
  rewrite RM in RM'. injection RM' as <-. rewrite LS in *.
  exists P, s, s, m, u, r, r'. cbv zeta. repeat (split; [assumption|]).
  destruct (maxwell_values S FS) as (_&_&_&NE). fold P in NE.
  rewrite T0 in *. cbn [vm_run elapsed] in *. rewrite TM in HR. cbn [elapsed] in HR.
  destruct HR as ((_&VR)&_). destruct HU as ((_&VU)&_). cbn [vm_run] in VR, VU.
  rewrite VR, VU by (unfold inb; cbn; lia).
  replace (0 + (1/4 + 0)) with (1/4) by lra. replace (0 + 1/4) with (1/4) by lra. intros K. apply NE. symmetry. exact K.
Qed.

Lemma hybrid_restart_differs : exists P s s2 m u r r', let d := (Lie, 1/4) in
  wf_cfg (pc P) FirstOrder FirstOrder /\ plasma P /\ hybrid_fvm P /\ periodic_fvm (pc P) FirstOrder
  /\ starts P s /\ starts P s2
  /\ run_steps (solver_stepper P) [d] s = Ok (m, None) /\ run_steps (solver_stepper P) [d; d] s = Ok (u, None)
  /\ resume P (dumps P m) (time_elapsed m) s2 = Ok r /\ run_steps (solver_stepper P) [d] r = Ok (r', None)
  /\ gval (lay (pc P)) (f_of r') 0 0 0 0 <> gval (lay (pc P)) (f_of u) 0 0 0 0.
Proof.
  set (P := rs_params true 1 1). destruct (rs_start true 1 1) as (s&ST&_&T0&S&HS&FS). fold P in ST, HS.
  assert (LS : with_layouts P (lay (pc P)) = P) by reflexivity.
  pose proof (rs_wf 1) as W. pose proof (rs_periodic 1) as PF. pose proof (rs_plasma true 1 1) as PM. pose proof (rs_hybrid 1 1) as MX.
  destruct (hyb_refines P FirstOrder FirstOrder W PF PM MX [(Lie, 1/4); (Lie, 1/4)] s S ST HS) as (u&RU&HU&_).
  destruct (hyb_refines P FirstOrder FirstOrder W PF PM MX [(Lie, 1/4)] s S ST HS) as (m&RM&HM&TM&_).
  destruct (hyb_restart P (lay (pc P)) FirstOrder FirstOrder W PM MX PF PF ltac:(cbn; lia) ltac:(cbn; lia) (conj eq_refl eq_refl) [] [(Lie, 1/4)] [(Lie, 1/4)] s s s S (time_elapsed m))
    as (m'&r&r'&RM'&HM'&QR&RR&HR); auto.
  rewrite RM in RM'. injection RM' as <-. rewrite LS in *.
  exists P, s, s, m, u, r, r'. cbv zeta. repeat (split; [assumption|]).
  pose proof (hybrid_values S FS) as NE. cbv zeta in NE. fold P in NE.
  rewrite T0 in *. cbn [hyb_run elapsed] in *. rewrite TM in HR. cbn [elapsed] in HR.
  destruct HR as ((_&VR)&_). destruct HU as ((_&VU)&_). cbn [hyb_run] in VR, VU.
  rewrite VR, VU by (unfold inb; cbn; lia).
  replace (0 + (1/4 + 0)) with (1/4) by lra. replace (0 + 1/4) with (1/4) by lra. intros K. apply NE. symmetry. exact K.
Qed.
