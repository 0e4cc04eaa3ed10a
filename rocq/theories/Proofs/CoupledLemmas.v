(** The coupled solver with FVM in q and p: histories of time steps are histories
    of finite-volume steps in the fields the solver computes. *)
From Coq Require Import ZArith Reals Lia Lra String List Bool.
From Verif Require Import Base.Prelude Base.ZSum Model.Af Model.Petsc Model.Config Model.Boundaries
  Model.Fvm Model.Em Model.Moments Model.Integrators Model.Splitting Model.SemiLag Model.Timestep
  Model.Solver Spec.Domain Spec.Lattice Spec.FvmProblem Spec.FvmRun Spec.Clock
  Proofs.FvmConserve Proofs.EmInit Proofs.TimestepLemmas Proofs.SolverLemmas.
Import ListNotations.
Local Open Scope R_scope.

Section Params.
  Context (P : params).
  Let c := pc P.
  Let M := solver_stepper P.

  Lemma op_fvm_off dt s : solver_method_in_p c <> "FVM"%string \/ fields_enabled c = false ->
    op_fvm P dt s = (let? x := timestep_fvm c (time_elapsed s) dt (fun _ _ => (dummy, dummy, dummy))
                                 (fun _ _ => (dummy, dummy, dummy)) (fpart s) in Ok (set_fpart x s)).
  Proof.
    intros N.
    assert (X : forall t h f e, fields_seen P t h f e = Ok (fun _ _ => (dummy, dummy, dummy), e)).
    { intros t h f e. unfold fields_seen. fold c.
      replace (String.eqb (solver_method_in_p c) "FVM" && fields_enabled c)%bool with false; [reflexivity|].
      destruct N as [N| ->]; [|rewrite andb_false_r; reflexivity].
      destruct (String.eqb_spec (solver_method_in_p c) "FVM"); [contradiction|reflexivity]. }
    unfold op_fvm, timestep_fvm, refresh_f. fold c.
    generalize (communicate_f c (fpart s)). intros y0.
    destruct (all_ranks (lay c) (fun r1 r2 => apply_bcs_f c r1 r2 (time_elapsed s) (sf y0 r1 r2))) as [g0|]; cbn [rbind]; [|reflexivity].
    cbn [sf sbuf]. rewrite X. cbn [rbind]. unfold half_update. fold c.
    match goal with |- context [all_ranks (lay c) ?F] => destruct (all_ranks (lay c) F) as [g1|] end; cbn [rbind]; [|reflexivity].
    generalize (communicate_f c (FState g1 (sbuf y0))). intros y1.
    match goal with |- context [all_ranks (lay c) ?F] => destruct (all_ranks (lay c) F) as [g2|] end; cbn [rbind]; [|reflexivity].
    cbn [sf sbuf]. rewrite X. cbn [rbind].
    match goal with |- context [all_ranks (lay c) ?F] => destruct (all_ranks (lay c) F) as [g3|] end; cbn [rbind]; reflexivity.
  Qed.

  Context (Hq : solver_method_in_q c = "FVM"%string)
          (Hp : solver_method_in_p c = "FVM"%string \/ fields_enabled c = false).

  Lemma coupled_step m dt s s' e : step_of M m dt s = Ok (s', e) ->
    e = None /\ time_elapsed s' = time_elapsed s + dt
    /\ exists E0 Eh, timestep_fvm c (time_elapsed s) dt E0 Eh (fpart s) = Ok (fpart s').
  Proof.
    intros H. pose proof (step_outcome M (solver_clock_kept P) m dt s s' e H) as O.
    assert (F : finite_everywhere M s') by apply solver_finite.
    destruct O as [(->&_&T)|(_&N&_)]; [|contradiction].
    split; [reflexivity|]. split; [exact T|].
    rewrite (fvm_step_eq M m dt s Hq Hp) in H. apply rbind_inv in H. destruct H as (x&H1&H2). cbv beta in H2.
    assert (D : diverged M x = false) by (apply finite_iff, solver_finite).
    rewrite D in H2. apply Ok_inj, pair_equal_spec in H2. destruct H2 as (<-&_).
    apply op_fvm_inv in H1. destruct H1 as (E0&e0&Eh&eh&H1&_). exists E0, Eh. exact H1.
  Qed.

  Lemma coupled_run h s s' e : run_steps M h s = Ok (s', e) -> e = None /\
    exists l, run_fvm c l (fpart s) = Ok (fpart s') /\ map (fun k => (ct k, cdt k)) l = schedule (time_elapsed s) h.
  Proof.
    revert s. induction h as [|(m&dt) h IH]; intros s; cbn [run_steps].
    - intros E. apply Ok_inj, pair_equal_spec in E. destruct E as (<-&<-). split; auto. exists []. auto.
    - intros E. apply rbind_inv in E. destruct E as ((s1&e1)&E1&E2). cbv beta iota in E2.
      destruct (coupled_step m dt s s1 e1 E1) as (->&T&E0&Eh&St). destruct (IH _ E2) as (->&l&R1&S1).
      split; [reflexivity|]. exists (Call (time_elapsed s) dt E0 Eh :: l). cbn [run_fvm ct cdt cE0 cEh map schedule].
      rewrite St. cbn [rbind]. split; [exact R1|]. rewrite S1, T. reflexivity.
  Qed.

  Lemma coupled_mass k1 k2 h s s' e : wf_cfg c k1 k2 -> periodic_fvm c k1 ->
    velocity_periodic c -> source_conserves c -> shaped (lay c) (N_p c) (N_species c) (f_of s) ->
    run_steps M h s = Ok (s', e) ->
    shaped (lay c) (N_p c) (N_species c) (f_of s')
    /\ forall sp, inb (N_species c) sp ->
       zsum (N_p c) (fun x => gtotal (lay c) (f_of s') x sp) = zsum (N_p c) (fun x => gtotal (lay c) (f_of s) x sp).
  Proof.
    intros W PF VP SC SH H. destruct (coupled_run _ _ _ _ H) as (_&l&R1&_).
    destruct (conserve_species c k1 k2 W PF l (fpart s) VP SC SH) as (x&R2&S2&T2).
    rewrite R1 in R2. apply Ok_inj in R2. rewrite <- R2 in S2, T2. auto.
  Qed.

  (** Without fields a run with forces off never fails. *)
  Lemma off_total k1 k2 h s : fields_enabled c = false -> wf_cfg c k1 k2 -> periodic_fvm c k1 ->
    velocity_periodic c -> source_conserves c -> shaped (lay c) (N_p c) (N_species c) (f_of s) ->
    exists s', run_steps M h s = Ok (s', None).
  Proof.
    intros Off W PF VP SC. revert s. induction h as [|(m&dt) h IH]; intros s SH; cbn [run_steps]; [eauto|].
    assert (X : exists s1, step_of M m dt s = Ok (s1, None)
                /\ shaped (lay c) (N_p c) (N_species c) (f_of s1)).
    { rewrite (fvm_step_eq M m dt s Hq Hp). change (Timestep.op_fvm M) with (op_fvm P).
      rewrite op_fvm_off by auto. 
      destruct (conserve_species c k1 k2 W PF [Call (time_elapsed s) dt (fun _ _ => (dummy, dummy, dummy)) (fun _ _ => (dummy, dummy, dummy))] (fpart s) VP SC SH) as (x&R2&S2&_).
      cbn [run_fvm ct cdt cE0 cEh] in R2. apply rbind_inv in R2. destruct R2 as (y&R2&R3). cbv beta in R3.
      apply Ok_inj in R3. subst y.
      change (time_elapsed (set_dt M dt s)) with (time_elapsed s). change (fpart (set_dt M dt s)) with (fpart s).
      rewrite R2. cbn [rbind].
      match goal with |- context [diverged M ?y] => assert (D : diverged M y = false) by (apply finite_iff, solver_finite) end.
      rewrite D. eexists. split; [reflexivity|]. exact S2. }
    destruct X as (s1&->&S1). cbn [rbind]. apply IH. exact S1.
  Qed.
End Params.

(** ** Without fields, the trial orderings of swss and jia start from the same f *)
Section Host.
  Context {S V : Type} (H : host S V) (GS : forall v s, get_f H (set_f H v s) = v) (Off : fields_on H = false).

  Lemma acts_strang g1 g2 o1 o2 : acts H g1 o1 -> acts H g2 o2 -> acts H (strang_f g1 g2) (strang o1 o2).
  Proof.
    intros K1 K2 dt s. unfold strang, strang_f.
    destruct (K1 (1/2*dt) s) as (s1&->&<-). cbn [rbind]. destruct (K2 dt s1) as (s2&->&<-). cbn [rbind].
    destruct (K1 (1/2*dt) s2) as (s3&->&<-). eauto.
  Qed.
  Lemma acts_swss g1 g2 o1 o2 : acts H g1 o1 -> acts H g2 o2 -> acts H (swss_f H g1 g2) (swss H o1 o2).
  Proof.
    intros K1 K2 dt s. unfold swss, swss_f, lie_f. rewrite Off.
    destruct (K1 dt s) as (s1&->&<-). cbn [rbind]. destruct (K2 dt s1) as (s2&->&<-). cbn [rbind].
    set (y := set_f H (get_f H s) s2). assert (Y : get_f H y = get_f H s) by apply GS. rewrite <- Y.
    destruct (K2 dt y) as (s3&->&<-). cbn [rbind]. destruct (K1 dt s3) as (s4&->&<-). cbn [rbind].
    eexists. split; [reflexivity|]. apply GS.
  Qed.
  Lemma acts_jia g1 g2 o1 o2 : acts H g1 o1 -> acts H g2 o2 -> acts H (jia_f H g1 g2) (jia H o1 o2).
  Proof.
    intros K1 K2 dt s. pose proof (acts_strang _ _ _ _ K1 K2) as T1. pose proof (acts_strang _ _ _ _ K2 K1) as T2.
    pose proof (acts_swss _ _ _ _ K1 K2) as T3. unfold jia, jia_f. rewrite Off.
    destruct (T1 dt s) as (s1&->&<-). cbn [rbind].
    match goal with |- context [strang o2 o1 dt ?x] => set (y := x) end.
    assert (Y : get_f H y = get_f H s) by apply GS.
    replace (strang_f g2 g1 dt (get_f H s)) with (strang_f g2 g1 dt (get_f H y)) by (rewrite Y; reflexivity).
    destruct (T2 dt y) as (s2&->&<-). cbn [rbind].
    match goal with |- context [swss H o1 o2 dt ?x] => set (z := x) end.
    assert (Z : get_f H z = get_f H s) by apply GS.
    replace (swss_f H g1 g2 dt (get_f H s)) with (swss_f H g1 g2 dt (get_f H z)) by (rewrite Z; reflexivity).
    destruct (T3 dt z) as (s3&->&<-). cbn [rbind]. eexists. split; [reflexivity|]. apply GS.
  Qed.
End Host.

Lemma fvm_methods S A V (M : stepper S A V) m m' dt s :
  method_q M = "FVM"%string -> method_p M = "FVM"%string -> step_of M m dt s = step_of M m' dt s.
Proof. intros Q Hp. rewrite !fvm_step_eq by auto. reflexivity. Qed.

Lemma trial_orderings S V (H : host S V) :
  (forall v s, get_f H (set_f H v s) = v) -> fields_on H = false ->
  forall g1 g2 o1 o2, acts H g1 o1 -> acts H g2 o2 ->
  acts H (swss_f H g1 g2) (swss H o1 o2) /\ acts H (jia_f H g1 g2) (jia H o1 o2).
Proof. intros; split; [apply acts_swss|apply acts_jia]; auto. Qed.
