(** Histories of the field solver in a box with mirror walls. *)
From Coq Require Import ZArith Reals Lia Lra String List Bool.
From Verif Require Import Base.Prelude Base.ZSum Model.Af Model.Grid Model.Petsc Model.Config
  Model.Boundaries Model.Fvm Model.Fft Model.Em Spec.Domain Spec.Yee Spec.EmRun Spec.InitFields Spec.FieldWalls
  Proofs.AfLemmas Proofs.PetscLemmas Proofs.EmLemmas Proofs.EmStep Proofs.EmGrids Proofs.EmInit Proofs.EmEnergy Proofs.EmProps
  Proofs.InitFields Proofs.VmProps Proofs.FieldWalls Proofs.FieldBox Proofs.FieldImages.
Import ListNotations.
Local Open Scope R_scope.

Lemma box_history c w1 w2 rho hist s0 : boxed c w1 w2 -> hybrid c = false -> fields_solver_init c rho = Ok s0 ->
  exists s', do_events c hist s0 = Ok s' /\ wf_em c s' /\ aliased s'
  /\ same (view (flay c) (yee_val s'))
       (wall_run w1 w2 (gN1 (flay c)) (gN2 (flay c)) (fdq1 c) (fdq2 c) (eps c) (mu c)
          (currents_of (flay c) hist) (view (flay c) (yee_val s0))).
Proof.
  intros BX HY H0. destruct (init_any c rho s0 H0) as (W&A).
  exact (events_box c w1 w2 BX hist HY s0 W A).
Qed.

Lemma box_grids c c' w1 w2 rho rho' hist hist' s0 s0' : boxed c w1 w2 -> boxed c' w1 w2 -> same_box c c' ->
  hybrid c = false -> hybrid c' = false ->
  fields_solver_init c rho = Ok s0 -> fields_solver_init c' rho' = Ok s0' ->
  same (view (flay c') (yee_val s0')) (view (flay c) (yee_val s0)) ->
  same_steps (currents_of (flay c') hist') (currents_of (flay c) hist) ->
  exists s s', do_events c hist s0 = Ok s /\ do_events c' hist' s0' = Ok s'
  /\ same (view (flay c') (yee_val s')) (view (flay c) (yee_val s)).
Proof.
  intros BX BX' (Q1&Q2&Q3&Q4&Q5&Q6) HY HY' H0 H0' S0 SS.
  destruct (box_history c w1 w2 rho hist s0 BX HY H0) as (s&E&_&_&V).
  destruct (box_history c' w1 w2 rho' hist' s0' BX' HY' H0') as (s'&E'&_&_&V').
  exists s, s'. split; [exact E|split; [exact E'|]].
  eapply same_trans; [exact V'|]. eapply same_trans; [|apply same_sym; exact V].
  rewrite Q1, Q2, Q3, Q4, Q5, Q6. apply run_same; auto.
Qed.

(** Named boundaries play no part in user-defined initial fields. *)
Definition unwalled (c : fcfg) : fcfg :=
  FCfg (flay c) (fN_g c) (fq1_start c) (fq2_start c) (fdq1 c) (fdq2 c) (eps c) (mu c) (fun _ => "periodic"%string) (em_bc c)
    (fields_solver c) (fields_initialize c) (method_in_p c) (hybrid c) (init_E c) (init_A_phi c) (init_B c) (init_A c) (init_A3_B3 c).
Lemma unwalled_init c rho : fields_initialize c = "user-defined"%string ->
  fields_solver_init (unwalled c) rho = fields_solver_init c rho.
Proof. intros H. destruct c. cbn in H. subst. reflexivity. Qed.
Lemma unwalled_regular c w1 w2 : boxed c w1 w2 -> regular (unwalled c).
Proof.
  intros (PL&_&_&_&A&B&C&D). unfold regular, periodic_fields, unwalled; cbn [flay fin_q mu eps fdq1 fdq2]. auto 10.
Qed.
Lemma box_initial c w1 w2 rho E B : boxed c w1 w2 -> defines_EB c E B ->
  exists s, fields_solver_init c rho = Ok s
  /\ same_on (gN1 (flay c)) (gN2 (flay c)) (view (flay c) (yee_val s)) (on_shifted_grid c E B)
  /\ same_on (gN1 (flay c)) (gN2 (flay c)) (view (flay c) (cc_val s)) (centred (on_shifted_grid c E B)).
Proof.
  intros BX D. destruct (initial_EB (unwalled c) rho E B (unwalled_regular c w1 w2 BX) D) as (s&H&V1&V2).
  exists s. rewrite unwalled_init in H by apply D. auto.
Qed.

(** ** Divergences *)
Lemma divE_box c w1 w2 s : boxed c w1 w2 -> wf_em c s -> forall i j, inb (gN1 (flay c)) i -> inb (gN2 (flay c)) j ->
  gval (flay c) (fst (compute_divE c s)) 0 0 i j = div_E (fdq1 c) (fdq2 c) (lat c s) i j.
Proof. intros BX W i j Hi Hj. exact (divE_view (unwalled c) s (unwalled_regular c w1 w2 BX) W i j Hi Hj). Qed.

Lemma wall_run_gauss w1 w2 n1 n2 h1 h2 e m L hist : h1 <> 0 -> h2 <> 0 -> e <> 0 -> m <> 0 -> forall rho Y i j,
  e * div_E h1 h2 (wall_run w1 w2 n1 n2 h1 h2 e m (currents_of L hist) Y) i j
    - charge_after h1 h2 rho (steps_of L hist) i j
  = e * div_E h1 h2 Y i j - rho i j.
Proof.
  intros X1 X2 X3 X4. induction hist as [|[J1 J2 J3 dt| |] l IH]; intros rho Y i j; cbn [currents_of wall_run steps_of charge_after]; auto.
  rewrite IH. cbv beta.
  change (div_E h1 h2 (wall_step w1 w2 n1 n2 h1 h2 e m dt (grid_of L (dmap asum1 J1)) (grid_of L (dmap asum1 J2)) (grid_of L (dmap asum1 J3)) Y) i j)
    with (div_E h1 h2 (ampere h1 h2 e m dt (grid_of L (dmap asum1 J1)) (grid_of L (dmap asum1 J2)) (grid_of L (dmap asum1 J3)) Y) i j).
  rewrite div_E_ampere by auto. ring.
Qed.

Lemma box_gauss c w1 w2 rho_init rho hist s0 s' : boxed c w1 w2 -> hybrid c = false ->
  fields_solver_init c rho_init = Ok s0 -> do_events c hist s0 = Ok s' ->
  forall i j, inb (gN1 (flay c)) i -> inb (gN2 (flay c)) j ->
  eps c * gval (flay c) (fst (compute_divE c s')) 0 0 i j
    - charge_after (fdq1 c) (fdq2 c) rho (steps_of (flay c) hist) i j
  = eps c * gval (flay c) (fst (compute_divE c s0)) 0 0 i j - rho i j.
Proof.
  intros BX HY H0 H i j Hi Hj. destruct (box_history c w1 w2 rho_init hist s0 BX HY H0) as (s1&E1&W1&_&V).
  rewrite E1 in H. apply Ok_inj in H. subst s1. destruct (init_any c rho_init s0 H0) as (W0&_).
  rewrite !(divE_box c w1 w2) by auto. unfold lat at 1. rewrite (div_E_same _ _ _ _ i j V).
  apply wall_run_gauss; apply BX.
Qed.

Lemma box_divB c w1 w2 rho hist s0 s' : boxed c w1 w2 -> hybrid c = false ->
  fields_solver_init c rho = Ok s0 -> do_events c hist s0 = Ok s' ->
  forall i j, (w1 = true -> i mod gN1 (flay c) <> 0)%Z -> (w2 = true -> j mod gN2 (flay c) <> 0)%Z ->
  div_B (fdq1 c) (fdq2 c) (view (flay c) (yee_val s')) i j = div_B (fdq1 c) (fdq2 c) (view (flay c) (yee_val s0)) i j.
Proof.
  intros BX HY H0 H i j I1 I2. destruct (box_history c w1 w2 rho hist s0 BX HY H0) as (s1&E1&_&_&V).
  rewrite E1 in H. apply Ok_inj in H. subst s1. rewrite (div_B_same _ _ _ _ i j V).
  apply div_B_run; auto; apply BX.
Qed.

(** ** Fields on the walls *)
Lemma box_frozen c w1 w2 rho hist s0 s' : boxed c w1 w2 -> hybrid c = false ->
  fields_solver_init c rho = Ok s0 -> do_events c hist s0 = Ok s' ->
  (w1 = true -> forall j, inb (gN2 (flay c)) j -> gval (flay c) (yee_val s') 4 0 0 j = gval (flay c) (yee_val s0) 4 0 0 j)
  /\ (w2 = true -> forall i, inb (gN1 (flay c)) i -> gval (flay c) (yee_val s') 3 0 i 0 = gval (flay c) (yee_val s0) 3 0 i 0).
Proof.
  intros BX HY H0 H. destruct (box_history c w1 w2 rho hist s0 BX HY H0) as (s1&E1&_&_&V).
  rewrite E1 in H. apply Ok_inj in H. subst s1. destruct V as (_&_&_&V4&V5&_).
  assert (PL : periodic_layout (flay c)) by apply BX. destruct PL as ((N1&_)&(N2&_)&_).
  split; intros W k Hk.
  - pose proof (V5 0%Z k) as Q. rewrite frozen1 in Q by (auto; apply Zmod_0_l).
    cbn [view B2] in Q. unfold gper in Q. rewrite Zmod_0_l, Z.mod_small in Q by exact Hk. exact Q.
  - pose proof (V4 k 0%Z) as Q. rewrite frozen2 in Q by (auto; apply Zmod_0_l).
    cbn [view B1] in Q. unfold gper in Q. rewrite Zmod_0_l, Z.mod_small in Q by exact Hk. exact Q.
Qed.

Lemma quiet_same w1 w2 n1 n2 Y Z : same Y Z -> quiet_walls w1 w2 n1 n2 Z -> quiet_walls w1 w2 n1 n2 Y.
Proof.
  intros (V1&V2&V3&V4&V5&V6) (A&B). split; intros W i j HI.
  - rewrite V1, V5, V6. apply A; auto.
  - rewrite V2, V4, V6. apply B; auto.
Qed.

Lemma box_quiet c w1 w2 rho hist s0 s' : boxed c w1 w2 -> hybrid c = false ->
  fields_solver_init c rho = Ok s0 -> do_events c hist s0 = Ok s' ->
  quiet_walls w1 w2 (gN1 (flay c)) (gN2 (flay c)) (view (flay c) (yee_val s0)) ->
  (w1 = true -> no_crossing1 (gN1 (flay c)) (currents_of (flay c) hist)) ->
  (w2 = true -> no_crossing2 (gN2 (flay c)) (currents_of (flay c) hist)) ->
  quiet_walls w1 w2 (gN1 (flay c)) (gN2 (flay c)) (view (flay c) (yee_val s')).
Proof.
  intros BX HY H0 H (Q1&Q2) C1 C2. destruct (box_history c w1 w2 rho hist s0 BX HY H0) as (s1&E1&_&_&V).
  rewrite E1 in H. apply Ok_inj in H. subst s1. eapply quiet_same; [exact V|].
  split; intros W; [apply quiet1_run|apply quiet2_run]; auto.
Qed.

(** ** Images *)
Lemma images1_same n Y Z : same Y Z -> same (images1 n Y) (images1 n Z).
Proof.
  intros (V1&V2&V3&V4&V5&V6). unfold same, images1; cbn [E1 E2 E3 B1 B2 B3].
  repeat split; intros; unfold odd1, even1; cbv zeta; rewrite ?V1, ?V2, ?V3, ?V4, ?V5, ?V6; reflexivity.
Qed.
Lemma images2_same n Y Z : same Y Z -> same (images2 n Y) (images2 n Z).
Proof.
  intros (V1&V2&V3&V4&V5&V6). unfold same, images2; cbn [E1 E2 E3 B1 B2 B3].
  repeat split; intros; unfold odd2, even2, odd1, even1; cbv zeta; rewrite ?V1, ?V2, ?V3, ?V4, ?V5, ?V6; reflexivity.
Qed.

Lemma box_images1 c c' w2 rho rho' hist hist' s0 s0' : boxed c true w2 -> boxed c' false w2 -> doubled1 c c' ->
  hybrid c = false -> hybrid c' = false ->
  fields_solver_init c rho = Ok s0 -> fields_solver_init c' rho' = Ok s0' ->
  quiet1 (gN1 (flay c)) (view (flay c) (yee_val s0)) -> no_crossing1 (gN1 (flay c)) (currents_of (flay c) hist) ->
  same (view (flay c') (yee_val s0')) (images1 (gN1 (flay c)) (view (flay c) (yee_val s0))) ->
  same_steps (currents_of (flay c') hist') (step_images1 (gN1 (flay c)) (currents_of (flay c) hist)) ->
  exists s s', do_events c hist s0 = Ok s /\ do_events c' hist' s0' = Ok s'
  /\ same (view (flay c') (yee_val s')) (images1 (gN1 (flay c)) (view (flay c) (yee_val s))).
Proof.
  intros BX BX' (Q1&Q2&Q3&Q4&Q5&Q6) HY HY' H0 H0' QU NC S0 SS.
  destruct (box_history c true w2 rho hist s0 BX HY H0) as (s&E&_&_&V).
  destruct (box_history c' false w2 rho' hist' s0' BX' HY' H0') as (s'&E'&_&_&V').
  exists s, s'. split; [exact E|split; [exact E'|]].
  eapply same_trans; [exact V'|]. eapply same_trans; [|apply images1_same, same_sym; exact V].
  rewrite Q1, Q2, Q3, Q4, Q5, Q6.
  eapply same_trans; [apply run_same; [exact SS|exact S0]|].
  assert (PL : periodic_layout (flay c)) by apply BX. destruct PL as ((N1&_)&(N2&_)&_).
  apply images1_run; auto.
Qed.

Lemma box_images2 c c' w1 rho rho' hist hist' s0 s0' : boxed c w1 true -> boxed c' w1 false -> doubled2 c c' ->
  hybrid c = false -> hybrid c' = false ->
  fields_solver_init c rho = Ok s0 -> fields_solver_init c' rho' = Ok s0' ->
  quiet2 (gN2 (flay c)) (view (flay c) (yee_val s0)) -> no_crossing2 (gN2 (flay c)) (currents_of (flay c) hist) ->
  same (view (flay c') (yee_val s0')) (images2 (gN2 (flay c)) (view (flay c) (yee_val s0))) ->
  same_steps (currents_of (flay c') hist') (step_images2 (gN2 (flay c)) (currents_of (flay c) hist)) ->
  exists s s', do_events c hist s0 = Ok s /\ do_events c' hist' s0' = Ok s'
  /\ same (view (flay c') (yee_val s')) (images2 (gN2 (flay c)) (view (flay c) (yee_val s))).
Proof.
  intros BX BX' (Q1&Q2&Q3&Q4&Q5&Q6) HY HY' H0 H0' QU NC S0 SS.
  destruct (box_history c w1 true rho hist s0 BX HY H0) as (s&E&_&_&V).
  destruct (box_history c' w1 false rho' hist' s0' BX' HY' H0') as (s'&E'&_&_&V').
  exists s, s'. split; [exact E|split; [exact E'|]].
  eapply same_trans; [exact V'|]. eapply same_trans; [|apply images2_same, same_sym; exact V].
  rewrite Q1, Q2, Q3, Q4, Q5, Q6.
  eapply same_trans; [apply run_same; [exact SS|exact S0]|].
  assert (PL : periodic_layout (flay c)) by apply BX. destruct PL as ((N1&_)&(N2&_)&_).
  apply images2_run; auto.
Qed.

(** ** Energy of a closed cavity *)
Lemma vacuum_steps L dt hist : Forall (vacuum_event L dt) hist ->
  exists k, same_steps (currents_of L hist) (repeat (dt, fun _ _ => 0, fun _ _ => 0, fun _ _ => 0) k).
Proof.
  induction 1 as [|[J1 J2 J3 dt'| |] l H _ (k&IH)]; cbn [currents_of]; [exists O; constructor| |exists k; auto|exists k; auto].
  destruct H as (->&A&B&C). exists (S k). cbn [repeat]. constructor; auto.
Qed.

Section Cavity.
  Context (c : fcfg) (w1 w2 : bool) (BX : boxed c w1 w2).
  Let n1 := gN1 (flay c).
  Let n2 := gN2 (flay c).
  Let N1 : (0 < n1)%Z. Proof. assert (PL : periodic_layout (flay c)) by apply BX. destruct PL as ((X&_)&_); exact X. Qed.
  Let N2 : (0 < n2)%Z. Proof. assert (PL : periodic_layout (flay c)) by apply BX. destruct PL as (_&(X&_)&_); exact X. Qed.
  Let stp dt := wall_step w1 w2 n1 n2 (fdq1 c) (fdq2 c) (eps c) (mu c) dt (fun _ _ => 0) (fun _ _ => 0) (fun _ _ => 0).

  Lemma per_mod_step dt Y : per_lat n1 n2 Y -> per_lat n1 n2 (stp dt Y).
  Proof.
    intros P. pose proof (per_ampere n1 n2 (fdq1 c) (fdq2 c) (eps c) (mu c) dt Y P) as (Q1&Q2&Q3&_).
    assert (QA : per_lat n1 n2 (ampere (fdq1 c) (fdq2 c) (eps c) (mu c) dt (fun _ _ => 0) (fun _ _ => 0) (fun _ _ => 0) Y)).
    { split; [exact Q1|split; [exact Q2|split; [exact Q3|apply P]]]. }
    unfold stp, wall_step. revert QA. generalize (ampere (fdq1 c) (fdq2 c) (eps c) (mu c) dt (fun _ _ => 0) (fun _ _ => 0) (fun _ _ => 0) Y).
    clear P Q1 Q2 Q3 Y. intros Y (P1&P2&P3&P4&P5&P6).
    assert (B1p : forall u, EmEnergy.per n1 n2 u -> EmEnergy.per n1 n2 (before1 w1 n1 u)).
    { intros u Hu. pose proof (per_sub1 n1 n2 u 1 Hu) as (X&X'). destruct Hu as (A&B). unfold before1.
      split; intros i j; [rewrite Z.mod_mod by lia|]; destruct (_ && _)%bool; auto. }
    assert (B2p : forall u, EmEnergy.per n1 n2 u -> EmEnergy.per n1 n2 (before2 w2 n2 u)).
    { intros u Hu. pose proof (per_sub2 n1 n2 u 1 Hu) as (X&X'). destruct Hu as (A&B). unfold before2.
      split; intros i j; [|rewrite Z.mod_mod by lia]; destruct (_ && _)%bool; auto. }
    pose proof (B1p _ P2) as (a1&a2). pose proof (B1p _ P3) as (a3&a4). pose proof (B2p _ P1) as (b1&b2). pose proof (B2p _ P3) as (b3&b4).
    assert (P1' := P1). assert (P2' := P2). assert (P3' := P3).
    destruct P1 as (e1&e2), P2 as (f1&f2), P3 as (g1&g2), P4 as (h1&h2), P5 as (k1&k2), P6 as (l1&l2).
    unfold faraday_walls, per_lat; cbn [E1 E2 E3 B1 B2 B3].
    split; [auto|split; [auto|split; [auto|]]].
    repeat split; intros i j; rewrite ?a1, ?a2, ?a3, ?a4, ?b1, ?b2, ?b3, ?b4, ?e1, ?e2, ?f1, ?f2, ?g1, ?g2, ?h1, ?h2, ?k1, ?k2, ?l1, ?l2; reflexivity.
  Qed.

  Lemma cavity_run dt k : forall Y, per_lat n1 n2 Y -> quiet_walls w1 w2 n1 n2 Y ->
    let Z := wall_run w1 w2 n1 n2 (fdq1 c) (fdq2 c) (eps c) (mu c) (repeat (dt, fun _ _ => 0, fun _ _ => 0, fun _ _ => 0) k) Y in
    energy n1 n2 (eps c) (mu c) Z (stp dt Z) = energy n1 n2 (eps c) (mu c) Y (stp dt Y)
    /\ per_lat n1 n2 Z /\ quiet_walls w1 w2 n1 n2 Z.
  Proof.
    induction k as [|k IH]; intros Y PY QY; cbn [repeat wall_run]; [auto|].
    change (wall_step w1 w2 n1 n2 (fdq1 c) (fdq2 c) (eps c) (mu c) dt (fun _ _ => 0) (fun _ _ => 0) (fun _ _ => 0) Y) with (stp dt Y).
    assert (QS : quiet_walls w1 w2 n1 n2 (stp dt Y)) by (apply quiet_step; auto).
    assert (PS : per_lat n1 n2 (stp dt Y)) by (apply per_mod_step; auto).
    destruct (IH (stp dt Y) PS QS) as (A&B&C). split; [|auto]. rewrite A.
    apply (walls_energy w1 w2 n1 n2 N1 N2); auto; try apply BX. apply same_refl.
  Qed.

  Lemma cavity_energy rho hist dt s0 s : hybrid c = false ->
    fields_solver_init c rho = Ok s0 ->
    Forall (vacuum_event (flay c) dt) hist -> do_events c hist s0 = Ok s ->
    quiet_walls w1 w2 n1 n2 (view (flay c) (yee_val s0)) ->
    forall J1 J2 J3, no_current (flay c) J1 -> no_current (flay c) J2 -> no_current (flay c) J3 ->
    exists s1 s1',
      evolve_electrodynamic_fields c J1 J2 J3 dt s0 = Ok s1
      /\ evolve_electrodynamic_fields c J1 J2 J3 dt s = Ok s1'
      /\ energy n1 n2 (eps c) (mu c) (view (flay c) (yee_val s)) (view (flay c) (yee_val s1'))
         = energy n1 n2 (eps c) (mu c) (view (flay c) (yee_val s0)) (view (flay c) (yee_val s1))
      /\ (0 < eps c -> 0 < mu c -> courant2 (fdq1 c) (fdq2 c) (eps c) (mu c) dt < 1 ->
          field_norm2 n1 n2 (eps c) (mu c) (view (flay c) (yee_val s1'))
          <= 2 / (1 - courant2 (fdq1 c) (fdq2 c) (eps c) (mu c) dt)
             * energy n1 n2 (eps c) (mu c) (view (flay c) (yee_val s0)) (view (flay c) (yee_val s1))).
  Proof.
    intros HY H0 HV H QU J1 J2 J3 Z1 Z2 Z3.
    destruct (init_any c rho s0 H0) as (W0&A0).
    destruct (box_history c w1 w2 rho hist s0 BX HY H0) as (sx&Ex&W&A&V).
    rewrite Ex in H. apply Ok_inj in H. subst sx.
    destruct (evolve_box c w1 w2 BX J1 J2 J3 dt s0 HY W0) as (s1&E1&_&_&V1&_).
    destruct (evolve_box c w1 w2 BX J1 J2 J3 dt s HY W) as (s1'&E1'&_&_&V1'&_).
    exists s1, s1'. split; [exact E1|split; [exact E1'|]].
    assert (P0 : per_lat n1 n2 (lat c s0)) by (apply lat_per; apply BX).
    assert (PS : per_lat n1 n2 (lat c s)) by (apply lat_per; apply BX).
    assert (X1 : same (lat c s1) (stp dt (lat c s0))).
    { eapply same_trans; [exact V1|]. apply step_same; auto. apply same_refl. }
    assert (X1' : same (lat c s1') (stp dt (lat c s))).
    { eapply same_trans; [exact V1'|]. apply step_same; auto. apply same_refl. }
    destruct (vacuum_steps (flay c) dt hist HV) as (k&KS).
    destruct (cavity_run dt k (lat c s0) P0 QU) as (EN&PZ&QZ).
    set (Z := wall_run _ _ _ _ _ _ _ _ _ _) in EN, PZ, QZ.
    assert (VZ : same (lat c s) Z).
    { eapply same_trans; [exact V|]. unfold Z. apply run_same; auto. apply same_refl. }
    assert (EQ : energy n1 n2 (eps c) (mu c) (lat c s) (lat c s1') = energy n1 n2 (eps c) (mu c) (lat c s0) (lat c s1)).
    { rewrite (energy_same _ _ _ _ _ _ _ _ VZ (same_trans _ _ _ X1' (step_same w1 w2 n1 n2 _ _ _ _ dt _ _ _ _ _ _ _ _ VZ (fun _ _ => eq_refl) (fun _ _ => eq_refl) (fun _ _ => eq_refl)))).
      rewrite (energy_same _ _ _ _ _ _ _ _ (same_refl (lat c s0)) X1). exact EN. }
    split; [exact EQ|].
    intros He Hm HC. fold n1 n2. change (view (flay c) (yee_val s1')) with (lat c s1'). change (view (flay c) (yee_val s0)) with (lat c s0).
    change (view (flay c) (yee_val s1)) with (lat c s1). rewrite <- EQ.
    assert (QS : quiet_walls w1 w2 n1 n2 (lat c s)) by (eapply quiet_same; [exact VZ|exact QZ]).
    assert (QS' : quiet_walls w1 w2 n1 n2 (lat c s1')).
    { eapply quiet_same; [exact X1'|]. apply quiet_step; auto. }
    assert (PS' : per_lat n1 n2 (lat c s1')) by (apply lat_per; apply BX).
    pose proof (walls_bound w1 w2 n1 n2 N1 N2 (fdq1 c) (fdq2 c) (eps c) (mu c) ltac:(apply BX) ltac:(apply BX) ltac:(apply BX) ltac:(apply BX)
       dt (lat c s) (lat c s1') He Hm HC PS' X1' QS') as BD.
    assert (H1 : 0 < 1 - courant2 (fdq1 c) (fdq2 c) (eps c) (mu c) dt) by lra.
    apply (Rmult_le_compat_l (2 / (1 - courant2 (fdq1 c) (fdq2 c) (eps c) (mu c) dt))) in BD.
    2:{ apply Rlt_le, Rdiv_lt_0_compat; lra. }
    replace (2 / (1 - courant2 (fdq1 c) (fdq2 c) (eps c) (mu c) dt) * ((1 - courant2 (fdq1 c) (fdq2 c) (eps c) (mu c) dt) / 2 * field_norm2 n1 n2 (eps c) (mu c) (lat c s1')))
      with (field_norm2 n1 n2 (eps c) (mu c) (lat c s1')) in BD by (field; lra).
    exact BD.
  Qed.
End Cavity.

(** ** What passes through a mirror *)
Lemma box_leak c w2 J1 J2 J3 dt s s' : boxed c true w2 -> hybrid c = false -> wf_em c s -> wf_em c s' ->
  forall j, inb (gN2 (flay c)) j ->
  gval (flay c) (yee_val s') 1 0 (gN1 (flay c) - 1) j = gval (flay c) (yee_val s) 1 0 (gN1 (flay c) - 1) j ->
  gval (flay c) (yee_val s') 5 0 (gN1 (flay c) - 1) j = gval (flay c) (yee_val s) 5 0 (gN1 (flay c) - 1) j ->
  exists r r', evolve_electrodynamic_fields c J1 J2 J3 dt s = Ok r
  /\ evolve_electrodynamic_fields c J1 J2 J3 dt s' = Ok r'
  /\ gval (flay c) (yee_val r') 1 0 (gN1 (flay c) - 1) j
     = gval (flay c) (yee_val r) 1 0 (gN1 (flay c) - 1) j
       - dt / (fdq1 c * mu c * eps c) * (gval (flay c) (yee_val s') 5 0 0 j - gval (flay c) (yee_val s) 5 0 0 j).
Proof.
  intros BX HY W W' j Hj QE QB.
  destruct (evolve_box c true w2 BX J1 J2 J3 dt s HY W) as (r&E&_&_&(_&V&_)&_).
  destruct (evolve_box c true w2 BX J1 J2 J3 dt s' HY W') as (r'&E'&_&_&(_&V'&_)&_).
  exists r, r'. split; [exact E|split; [exact E'|]].
  assert (PL : periodic_layout (flay c)) by apply BX. destruct PL as ((N1&_)&(N2&_)&_).
  set (n := gN1 (flay c)) in *.
  specialize (V (n - 1)%Z j). specialize (V' (n - 1)%Z j).
  assert (G : forall (F : dist R) k i, (0 <= i < n)%Z -> gper (flay c) F k 0 i j = gval (flay c) F k 0 i j).
  { intros F k i Hi. unfold gper. fold n. rewrite !Z.mod_small by (auto; exact Hj). reflexivity. }
  assert (Gn : forall (F : dist R) k, gper (flay c) F k 0 n j = gval (flay c) F k 0 0 j).
  { intros F k. unfold gper. fold n. rewrite Z_mod_same_full, Z.mod_small by exact Hj. reflexivity. }
  cbn [lat view E2 wall_step faraday_walls ampere B3] in V, V'. unfold fwd1 in V, V'.
  replace (n - 1 + 1)%Z with n in V, V' by lia. cbn [lat view E2 B3] in V, V'.
  rewrite !(G _ 1%Z (n - 1)%Z), !(G _ 5%Z (n - 1)%Z), Gn in V by lia.
  rewrite !(G _ 1%Z (n - 1)%Z), !(G _ 5%Z (n - 1)%Z), Gn in V' by lia.
  rewrite V, V', QE, QB. field.
  repeat split; apply BX.
Qed.
