(** Whole histories against the Yee scheme, grid conversions on reachable states,
    and the witnesses for initialize_A and the time-staggered fields. *)
From Coq Require Import ZArith Reals Lia Lra String List Bool.
From Verif Require Import Base.Prelude Base.ZSum Model.Af Model.Grid Model.Petsc Model.Config
  Model.Boundaries Model.Fvm Model.Fft Model.Em Spec.Domain Spec.Yee Spec.EmRun
  Proofs.AfLemmas Proofs.PetscLemmas Proofs.EmLemmas Proofs.EmStep Proofs.EmGrids Proofs.EmInit
  Proofs.EmEnergy Proofs.EmVector Proofs.EmProps.
Import ListNotations.
Local Open Scope R_scope.

Lemma yee_run_same h1 h2 e m l : forall Y Z, same Y Z -> same (yee_run h1 h2 e m l Y) (yee_run h1 h2 e m l Z).
Proof.
  induction l as [|[[[dt J1] J2] J3] l IH]; intros Y Z H; cbn [yee_run]; [auto|].
  apply IH. unfold yee_step. apply faraday_same, ampere_same; auto.
Qed.

Lemma yee_events c l : forall s s', regular c -> hybrid c = false -> good c s -> do_events c l s = Ok s' ->
  same (lat c s') (yee_run (fdq1 c) (fdq2 c) (eps c) (mu c) (currents_of (flay c) l) (lat c s)).
Proof.
  induction l as [|e l IH]; intros s s' RG HY G H; cbn [do_events] in H.
  { apply Ok_inj in H. rewrite <- H. apply same_refl. }
  destruct (do_event c e s) as [s1|x] eqn:E; cbn [rbind] in H; [|discriminate H].
  assert (G1 := do_event_good _ _ _ _ RG G E).
  pose proof (IH s1 s' RG HY G1 H) as X. eapply same_trans; [exact X|].
  destruct e as [J1 J2 J3 dt| |]; cbn [do_event currents_of yee_run] in *.
  - apply yee_run_same. destruct G as (W&_).
    destruct (evolve_ok c J1 J2 J3 dt s s1 RG W E) as (YE&_&_&L1&_&_&_&Z&_).
    eapply same_trans; [exact L1|]. unfold yee_step. apply faraday_same, Z; exact HY.
  - apply Ok_inj in E. rewrite <- E. unfold lat. rewrite (proj1 (get_fields_keeps c s)). apply same_refl.
  - apply Ok_inj in E. rewrite <- E. apply yee_run_same, divE_keeps; auto.
Qed.

Lemma yee_history c rho hist s0 s' : regular c -> hybrid c = false ->
  fields_solver_init c rho = Ok s0 -> do_events c hist s0 = Ok s' ->
  same (view (flay c) (yee_val s'))
       (yee_run (fdq1 c) (fdq2 c) (eps c) (mu c) (currents_of (flay c) hist) (view (flay c) (yee_val s0))).
Proof. intros RG HY H0 H. apply (yee_events c hist s0 s' RG HY); auto. eapply init_good; eauto. Qed.

Lemma centre_total_history c rho hist s0 s : regular c ->
  fields_solver_init c rho = Ok s0 -> do_events c hist s0 = Ok s ->
  forall k, inb 6 k ->
  gtotal (flay c) (cc_val (yee_grid_to_cell_centered_grid Both s)) k 0 = gtotal (flay c) (yee_val s) k 0.
Proof.
  intros RG H0 H. destruct (do_events_good c hist s0 s RG (init_good c rho s0 RG H0) H) as (W&_&S).
  apply centre_total; auto.
Qed.

Lemma stagger_total_history c rho hist s0 s : regular c ->
  fields_solver_init c rho = Ok s0 -> do_events c hist s0 = Ok s ->
  let s1 := communicate_fields c false s in
  forall k, inb 6 k ->
  gtotal (flay c) (yee_val (cell_centered_grid_to_yee_grid Both s1)) k 0 = gtotal (flay c) (cc_val s1) k 0.
Proof.
  intros RG H0 H s1. destruct (do_events_good c hist s0 s RG (init_good c rho s0 RG H0) H) as (W&_&_).
  assert (V : cc_val s1 = communicate (flay c) 6 1 (fbuf s) (cc_val s)).
  { unfold s1, communicate_fields, bind_cc, cc_val; cbn [write cc mem next set_fbuf]. rewrite Nat.eqb_refl. reflexivity. }
  apply stagger_total; auto.
  - apply wf_comm; auto.
  - rewrite V. apply communicate_synced; [apply RG|]. apply shaped_cc; auto.
Qed.

Lemma uniform_both w y a (u : Z -> R) : d1 y = 1%Z ->
  (forall k i j, inb 6 k -> inb (d2 y) i -> inb (d3 y) j -> el y k 0 i j = u k) ->
  (w = Both \/ forall k i j, inb 6 k -> inb (d2 y) i -> inb (d3 y) j -> el a k 0 i j = u k) ->
  forall k i j, inb 6 k -> inb (d2 y) i -> inb (d3 y) j ->
  el (yee_to_cc_rank w y a) k 0 i j = u k /\ el (cc_to_yee_rank w y a) k 0 i j = u k.
Proof. intros. split; [eapply uniform_y2c|eapply uniform_c2y]; eauto. Qed.
