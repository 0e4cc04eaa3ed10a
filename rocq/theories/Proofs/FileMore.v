(** Restarting from dumps. *)
From Coq Require Import ZArith Reals Lia Lra String List Bool.
From Verif Require Import Base.Prelude Base.ZSum Model.Af Model.Petsc Model.Config Model.Fvm Model.Fft Model.Em
  Model.FileIO Spec.Domain Spec.Lattice Spec.FvmProblem Spec.FvmRun Spec.Yee Spec.EmRun Spec.Files
  Proofs.AfLemmas Proofs.PetscLemmas Proofs.FvmMore Proofs.EmLemmas Proofs.EmStep Proofs.EmGrids Proofs.EmInit
  Proofs.EmWitness Proofs.FileLemmas.
Import ListNotations.
Local Open Scope R_scope.

Lemma periodic_layout_ok L : periodic_layout L -> layout_ok L.
Proof. intros (A&B&C&D&_). split; split; auto. Qed.

(** ** Distribution function *)
Lemma run_fvm_app c l l' s : run_fvm c (l ++ l') s = (let? s1 := run_fvm c l s in run_fvm c l' s1).
Proof.
  revert s. induction l as [|k l IH]; intros s; cbn [app run_fvm]; [reflexivity|].
  destruct (timestep_fvm _ _ _ _ _ s); cbn [rbind]; auto.
Qed.

Lemma run_global_layout c L' k1 k2 (l l' : list (call * fields3 * fields3)) u :
  gN1 L' = gN1 (lay c) -> gN2 L' = gN2 (lay c) ->
  Forall2 (fun a b => ct (fst (fst a)) = ct (fst (fst b)) /\ cdt (fst (fst a)) = cdt (fst (fst b))
                      /\ snd (fst a) = snd (fst b) /\ snd a = snd b) l l' ->
  run_global (with_layout c L') k1 k2 l' u = run_global c k1 k2 l u.
Proof.
  intros E1 E2 H. revert u. induction H as [|[[k E0] Eh] [[k' E0'] Eh'] l l' (T&D&A&B) H IH]; intros u; [reflexivity|].
  cbn [fst snd] in *. subst. cbn [run_global]. rewrite IH. rewrite <- T, <- D. f_equal.
  unfold prob, problem_of, problem_at. cbn [with_layout lay dq1 dq2 C_q source_enabled source N_p1 N_p2 N_p3 dp1 dp2 dp3 C_p].
  rewrite E1, E2. reflexivity.
Qed.

Lemma restart c L' k1 k2 (l1 l2 l2' : list (call * fields3 * fields3)) s old :
  wf_cfg c k1 k2 -> periodic_fvm c k1 -> periodic_fvm (with_layout c L') k1 -> same_grid (lay c) L' ->
  (forall k E0 Eh, In (k, E0, Eh) (l1 ++ l2) -> shows3 (lay c) (cE0 k) E0 /\ shows3 (lay c) (cEh k) Eh) ->
  (forall k E0 Eh, In (k, E0, Eh) l2' -> shows3 L' (cE0 k) E0 /\ shows3 L' (cEh k) Eh) ->
  Forall2 (fun a b => ct (fst (fst a)) = ct (fst (fst b)) /\ cdt (fst (fst a)) = cdt (fst (fst b))
                      /\ snd (fst a) = snd (fst b) /\ snd a = snd b) l2 l2' ->
  shaped (lay c) (N_p c) (N_species c) (sf s) ->
  exists s1 s2 r r2, run_fvm c (map (fun x => fst (fst x)) l1) s = Ok s1
  /\ run_fvm c (map (fun x => fst (fst x)) (l1 ++ l2)) s = Ok s2
  /\ load_distribution_function (with_layout c L') (dump_distribution_function c s1) old = Ok r
  /\ run_fvm (with_layout c L') (map (fun x => fst (fst x)) l2') r = Ok r2
  /\ forall x sp g1 g2, inb (N_p c) x -> inb (N_species c) sp -> inb (gN1 (lay c)) g1 -> inb (gN2 (lay c)) g2 ->
     gval L' (sf r2) x sp g1 g2 = gval (lay c) (sf s2) x sp g1 g2.
Proof.
  intros W PF PF' (E1&E2) S1 S2 F2 SH.
  destruct (refinement_run c k1 k2 l1 W PF (fun k E0 Eh H => S1 k E0 Eh (in_or_app _ _ _ (or_introl H))) s (gval (lay c) (sf s))) as (s1&R1&H1); [split; auto|].
  destruct (refinement_run c k1 k2 l2 W PF (fun k E0 Eh H => S1 k E0 Eh (in_or_app _ _ _ (or_intror H))) s1 _ H1) as (s2&R2&H2).
  destruct (dump_load c L' s1 old (periodic_layout_ok _ (proj1 (proj2 (proj2 PF))))
     (periodic_layout_ok _ (proj1 (proj2 (proj2 PF')))) (conj E1 E2) (proj1 H1)) as (r&QR&SR&VR).
  assert (HR : holds (with_layout c L') (sf r) (run_global c k1 k2 l1 (gval (lay c) (sf s)))).
  { split; [exact SR|]. intros x sp g1 g2 Hx Hs I1 I2. change (lay (with_layout c L')) with L' in *.
    change (N_p (with_layout c L')) with (N_p c) in *. change (N_species (with_layout c L')) with (N_species c) in *.
    rewrite VR by auto. rewrite E1 in *. rewrite E2 in *. apply H1; auto. }
  destruct (refinement_run (with_layout c L') k1 k2 l2' W PF' S2 r _ HR) as (r2&QR2&H2').
  exists s1, s2, r, r2. split; auto. split.
  { rewrite map_app, run_fvm_app, R1. cbn [rbind]. exact R2. }
  split; auto. split; auto. intros x sp g1 g2 Hx Hs I1 I2.
  rewrite (proj2 H2) by auto. destruct H2' as (_&V). change (lay (with_layout c L')) with L' in V.
  rewrite V; auto; try (rewrite ?E1, ?E2; auto).
  rewrite (run_global_layout c L' k1 k2 l2 l2'); auto.
Qed.

(** ** Electromagnetic fields *)
Lemma em_dump_load c c' s s' : layout_ok (flay c) -> layout_ok (flay c') -> same_grid (flay c) (flay c') ->
  shaped (flay c) 6 1 (yee_val s) -> wf_em c' s' ->
  exists r, load_EM_fields c' (dump_EM_fields c s) s' = Ok r
  /\ shaped (flay c') 6 1 (yee_val r)
  /\ forall k i j, inb 6 k -> inb (gN1 (flay c)) i -> inb (gN2 (flay c)) j ->
     gval (flay c') (yee_val r) k 0 i j = gval (flay c) (yee_val s) k 0 i j.
Proof.
  intros LO LO' (E1&E2) SH W. unfold load_EM_fields.
  destruct (vec_load_ok (flay c') 6 (dump_EM_fields c s)) as (G&Q).
  { cbn [dump_EM_fields vec_view flen]. rewrite E1, E2. reflexivity. }
  rewrite Q. cbn [rbind]. eexists. split; [reflexivity|].
  match goal with |- shaped _ _ _ (yee_val (yee_grid_to_cell_centered_grid Both (bind_yee ?F ?s0))) /\ _ =>
    assert (Y : yee_val (yee_grid_to_cell_centered_grid Both (bind_yee F s0)) = F) end.
  { destruct W as ((A&B&C&D)&_). unfold yee_val, yee_grid_to_cell_centered_grid, bind_yee, write, set_fbuf; cbn [mem yee cc next].
    destruct (Nat.eqb_spec (next s') (cc s')); [lia|]. rewrite Nat.eqb_refl. reflexivity. }
  rewrite Y. split; [intros r1 r2 _; repeat split|].
  intros k i j Hk Hi Hj. rewrite (load_gval (flay c') 6 1 (dump_EM_fields c s) G (fbuf s')); auto; try (rewrite ?E1, ?E2; auto; fail); [|unfold inb; lia].
  unfold dump_EM_fields. rewrite E1. change 6%Z with (6 * 1)%Z at 2. apply (view_component (flay c) 6 1); auto. unfold inb; lia.
Qed.

Lemma view_eq L L' F F' : tiles (gN1 L) (blk1 L) -> tiles (gN2 L) (blk2 L) -> same_grid L L' ->
  (forall k i j, inb 6 k -> inb (gN1 L) i -> inb (gN2 L) j -> gval L' F' k 0 i j = gval L F k 0 i j) ->
  same (view L' F') (view L F).
Proof.
  intros (N1&_) (N2&_) (Q1&Q2) H. unfold same; cbn [view E1 E2 E3 B1 B2 B3]. unfold gper. rewrite Q1, Q2.
  repeat split; intros i j; apply H; try (unfold inb; lia); apply Z.mod_pos_bound; lia.
Qed.

Lemma centred_same Y Z : same Y Z -> same (centred Y) (centred Z).
Proof.
  intros (A&B&C&D&X&F). unfold same, centred; cbn [E1 E2 E3 B1 B2 B3].
  repeat split; intros; rewrite ?A, ?B, ?C, ?D, ?X, ?F; reflexivity.
Qed.

Lemma cc_val_write v s : cc_val (write (cc s) v s) = v.
Proof. unfold cc_val, write; cbn [mem cc]. rewrite Nat.eqb_refl. reflexivity. Qed.
Lemma yee_val_bind v s : yee_val (bind_yee v s) = v.
Proof. unfold yee_val, bind_yee, write; cbn [mem yee]. rewrite Nat.eqb_refl. reflexivity. Qed.
Lemma cc_val_bind v s : (cc s < next s)%nat -> cc_val (bind_yee v s) = cc_val s.
Proof.
  intros H. unfold cc_val, bind_yee, write; cbn [mem cc]. destruct (Nat.eqb_spec (cc s) (next s)); [lia|reflexivity].
Qed.

Lemma load_synced c F s r : regular c -> wf_em c s -> load_EM_fields c F s = Ok r ->
  synced (flay c) (yee_val r) everywhere /\ wf_em c r
  /\ cc_val r = dmap2 (yee_to_cc_rank Both) (yee_val r) (cc_val s)
  /\ (aliased s -> aliased r).
Proof.
  intros RG W H. pose proof RG as ((PL&_)&_). unfold load_EM_fields in H.
  destruct (vec_load (flay c) 6 F) as [G|] eqn:Q; [|discriminate]. cbn [rbind] in H.
  apply Ok_inj in H.
  set (FF := fun r1 r2 => petsc_local_array_to_af (flay c) r1 r2 6 1 (global_to_local (flay c) 6 G (fbuf s r1 r2) r1 r2)) in *.
  assert (SF : shaped (flay c) 6 1 FF) by (intros r1 r2 _; repeat split).
  pose proof W as ((A&B&C&D)&(N1&N2&N3)&SH).
  assert (Y : yee_val r = FF).
  { rewrite <- H. unfold yee_val, yee_grid_to_cell_centered_grid, bind_yee, write, set_fbuf; cbn [mem yee cc next].
    destruct (Nat.eqb_spec (next s) (cc s)); [lia|]. rewrite Nat.eqb_refl. reflexivity. }
  split; [|split; [|split]].
  - rewrite Y. split; auto. intros r1 r2 k i j RK Hk Hi Hj _. unfold FF at 1.
    rewrite (load_local (flay c) 6 1 F G); auto; [|apply periodic_layout_ok; auto|unfold inb; lia].
    pose proof PL as ((P1&_)&(P2&_)&_&_&B1&B2). rewrite B1, B2. cbn [global_index]. unfold gper.
    change FF with (fun r1 r2 => petsc_local_array_to_af (flay c) r1 r2 6 1 (global_to_local (flay c) (6 * 1) G (fbuf s r1 r2) r1 r2)).
    rewrite (load_gval (flay c) 6 1 F G); auto; try (apply Z.mod_pos_bound; lia); [apply periodic_layout_ok; auto|unfold inb; lia].
  - rewrite <- H. unfold yee_grid_to_cell_centered_grid.
    apply wf_write; [apply wf_bind_yee; [apply wf_fbuf; auto|auto]|].
    apply shaped_y2c. apply shaped_cc. apply wf_bind_yee; [apply wf_fbuf; auto|auto].
  - rewrite Y. rewrite <- H. unfold yee_grid_to_cell_centered_grid. rewrite cc_val_write, yee_val_bind, cc_val_bind by auto. reflexivity.
  - intros (X1&X2). rewrite <- H. split; cbn; auto.
Qed.

Lemma em_restart c c' rho rho' hist hist' s0 s s0' s' : regular c -> regular c' -> same_grid (flay c) (flay c') ->
  fields_solver_init c rho = Ok s0 -> do_events c hist s0 = Ok s ->
  fields_solver_init c' rho' = Ok s0' -> do_events c' hist' s0' = Ok s' ->
  exists r, load_EM_fields c' (dump_EM_fields c s) s' = Ok r /\ good c' r
  /\ same (view (flay c') (yee_val r)) (view (flay c) (yee_val s))
  /\ same (view (flay c') (fst (get_fields c' r))) (centred (view (flay c) (yee_val s))).
Proof.
  intros RG RG' SG I0 H0 I1 H1.
  destruct (do_events_good c hist s0 s RG (init_good c rho s0 RG I0) H0) as (W&_&SY).
  destruct (do_events_good c' hist' s0' s' RG' (init_good c' rho' s0' RG' I1) H1) as (W'&AL'&_).
  pose proof RG as ((PL&_)&_). pose proof RG' as ((PL'&_)&_).
  destruct (em_dump_load c c' s s' (periodic_layout_ok _ PL) (periodic_layout_ok _ PL') SG (proj1 SY) W') as (r&QR&SR&VR).
  destruct (load_synced c' _ s' r RG' W' QR) as (SY'&WR&CR&AR).
  assert (VY : same (view (flay c') (yee_val r)) (view (flay c) (yee_val s)))
    by (apply view_eq; auto; apply PL).
  exists r. split; auto. split; [split; auto; split; auto; eapply synced_weaken; [|exact SY']; intros; exact I|].
  split; auto.
  assert (G : fst (get_fields c' r) = cc_val r).
  { destruct (AR AL') as (X1&X2). unfold get_fields; cbn [fst].
    destruct (negb (String.eqb (fields_solver c') "fdtd")); [reflexivity|]. unfold cc_val. rewrite X1, X2. destruct (at_n r); reflexivity. }
  rewrite G, CR. eapply same_trans; [apply (yee_to_cc_lift (flay c') Both (yee_val r) (cc_val s') everywhere PL' SY'); intros; exact I|].
  cbn [does_E does_B]. apply (centred_same _ _ VY).
Qed.

Lemma em_restart_run c c' rho rho' hist hist' hist2 s0 s s0' s' r r' : regular c -> regular c' -> same_grid (flay c) (flay c') ->
  hybrid c' = false ->
  fields_solver_init c rho = Ok s0 -> do_events c hist s0 = Ok s ->
  fields_solver_init c' rho' = Ok s0' -> do_events c' hist' s0' = Ok s' ->
  load_EM_fields c' (dump_EM_fields c s) s' = Ok r -> do_events c' hist2 r = Ok r' ->
  same (view (flay c') (yee_val r'))
       (yee_run (fdq1 c') (fdq2 c') (eps c') (mu c') (currents_of (flay c') hist2) (view (flay c) (yee_val s))).
Proof.
  intros RG RG' SG HY I0 H0 I1 H1 L H2.
  destruct (em_restart c c' rho rho' hist hist' s0 s s0' s' RG RG' SG I0 H0 I1 H1) as (r0&QR&G&V&_).
  rewrite L in QR. apply Ok_inj in QR. rewrite <- QR in *.
  eapply same_trans; [apply (yee_events c' hist2 r r' RG' HY G H2)|].
  apply yee_run_same. exact V.
Qed.

(** ** Electrostatic runs *)
Lemma electrostatic_dump c rho s s' : wf_em c s -> compute_electrostatic_fields c rho s = Ok s' ->
  (forall e, fin_q c e = "periodic"%string) ->
  dump_EM_fields c s' = dump_EM_fields c s /\ wf_em c s'.
Proof.
  intros W H PE. unfold compute_electrostatic_fields in H.
  destruct (String.eqb (fields_solver c) "fft"); [|apply Ok_inj in H; rewrite <- H; auto].
  split; [|eapply wf_electrostatic; eauto].
  assert (Y : yee_val s' = yee_val s).
  { unfold electrostatic_update, fft_poisson in H. destruct (negb (comm_size c =? 1)%nat); cbn [rbind] in H; [discriminate H|].
    rewrite apply_bcs_fields_periodic in H by exact PE. apply Ok_inj in H. rewrite <- H.
    destruct W as ((A&B&C&D)&(N1&_)&_).
    unfold yee_val, communicate_fields, bind_cc, set_fbuf, write; cbn [mem yee cc next].
    destruct (Nat.eqb_spec (yee s) (next s)); [lia|]. destruct (Nat.eqb_spec (yee s) (cc s)); [congruence|]. reflexivity. }
  unfold dump_EM_fields. rewrite Y. reflexivity.
Qed.
