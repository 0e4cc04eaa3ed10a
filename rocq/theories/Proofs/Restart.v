(** Restarts of coupled runs. *)
From Coq Require Import ZArith Reals Lia Lra String List Bool.
From Verif Require Import Base.Prelude Base.ZSum Model.Af Model.Petsc Model.Config Model.Fvm Model.Em Model.FileIO
  Model.Moments Model.Splitting Model.Timestep Model.Solver Spec.Domain Spec.Lattice Spec.FvmProblem Spec.FvmRun
  Spec.Yee Spec.EmRun Spec.MomentSpec Spec.Clock Spec.SolverSpec Spec.VlasovMaxwell Spec.Hybrid Spec.Files Spec.Restart
  Proofs.AfLemmas Proofs.PetscLemmas Proofs.EmLemmas Proofs.EmStep Proofs.EmGrids Proofs.EmInit Proofs.EmWitness
  Proofs.FileLemmas Proofs.FileMore Proofs.VlasovMaxwell Proofs.VmProps Proofs.HybridRun Proofs.HybridProps.
Import ListNotations.
Local Open Scope R_scope.

(** Fields alone, from any two states of the field solvers. *)
Lemma em_reload c c' s s' : regular c -> regular c' -> same_grid (flay c) (flay c') -> good c s -> good c' s' ->
  exists r, load_EM_fields c' (dump_EM_fields c s) s' = Ok r /\ good c' r /\ at_n r = at_n s'
  /\ same (view (flay c') (yee_val r)) (view (flay c) (yee_val s))
  /\ same (view (flay c') (cc_val r)) (centred (view (flay c) (yee_val s))).
Proof.
  intros RG RG' SG (W&_&SY) (W'&AL'&_).
  pose proof RG as ((PL&_)&_). pose proof RG' as ((PL'&_)&_).
  destruct (em_dump_load c c' s s' (periodic_layout_ok _ PL) (periodic_layout_ok _ PL') SG (proj1 SY) W') as (r&QR&SR&VR).
  destruct (load_synced c' _ s' r RG' W' QR) as (SY'&WR&CR&AR).
  assert (VY : same (view (flay c') (yee_val r)) (view (flay c) (yee_val s)))
    by (apply view_eq; auto; apply PL).
  exists r. split; auto. split; [split; auto; split; auto; eapply synced_weaken; [|exact SY']; intros; exact I|].
  split.
  { unfold load_EM_fields in QR. destruct (vec_load _ _ _); [|discriminate]. cbn [rbind] in QR. apply Ok_inj in QR. rewrite <- QR. reflexivity. }
  split; auto.
  rewrite CR. eapply same_trans; [apply (yee_to_cc_lift (flay c') Both (yee_val r) (cc_val s') everywhere PL' SY'); intros; exact I|].
  cbn [does_E does_B]. apply (centred_same _ _ VY).
Qed.

Lemma reload P L' k1 m s2 T t : let P' := with_layouts P L' in
  plasma P -> regular (pf P) -> regular (pf P') -> periodic_fvm (pc P) k1 -> periodic_fvm (pc P') k1 -> same_grid (lay (pc P)) L' ->
  vm_holds P m T -> good (pf P) (fields m) -> good (pf P') (fields s2) ->
  exists r, resume P' (dumps P m) t s2 = Ok r /\ vm_holds P' r (reloaded T) /\ good (pf P') (fields r)
  /\ at_n (fields r) = at_n (fields s2) /\ time_elapsed r = t.
Proof.
  intros P' PM RG RG' PF PF' SG (HF&HY&HC) G G2.
  pose proof SG as (E1&E2). pose proof (pl_lay P PM) as LL.
  destruct (dump_load (pc P) L' (fpart m) (fpart s2) (periodic_layout_ok _ (proj1 (proj2 (proj2 PF))))
     (periodic_layout_ok _ (proj1 (proj2 (proj2 PF')))) SG (proj1 HF)) as (x&QX&SX&VX).
  assert (SGF : same_grid (flay (pf P)) (flay (pf P'))) by (cbn; rewrite LL; exact SG).
  destruct (em_reload (pf P) (pf P') (fields m) (fields s2) RG RG' SGF G G2) as (e&QE&GE&AE&YE&CE).
  rewrite LL in YE, CE. change (flay (pf P')) with L' in YE, CE.
  exists (Solver x e t (cur_dt s2)). unfold resume, dumps; cbn [fst snd].
  change (pc P') with (with_layout (pc P) L'). rewrite QX. cbn [rbind]. rewrite QE. cbn [rbind].
  split; [reflexivity|]. split; [|auto].
  split; [|split]; cbn [reloaded vm_f vm_yee vm_cc fields].
  - split; [exact SX|]. intros y s g1 g2 Hy Hs I1 I2. unfold f_of; cbn [fpart].
    change (lay (pc P')) with L' in *. rewrite VX by auto. rewrite E1 in I1. rewrite E2 in I2. apply HF; auto.
  - change (lay (pc P')) with L'. eapply same_trans; [exact YE|exact HY].
  - change (lay (pc P')) with L'. eapply same_trans; [exact CE|]. apply centred_same. exact HY.
Qed.

Lemma layouts_plasma P L' : plasma P -> plasma (with_layouts P L').
Proof. intros []. constructor; auto. Qed.
Lemma layouts_regular P L' k1 : regular (pf P) -> periodic_fvm (pc (with_layouts P L')) k1 -> regular (pf (with_layouts P L')).
Proof. intros ((PL&PE)&X) (_&_&PL'&_). split; [split; [exact PL'|exact PE]|exact X]. Qed.
Lemma layouts_maxwell P L' k1 : maxwell P -> periodic_fvm (pc (with_layouts P L')) k1 -> maxwell (with_layouts P L').
Proof. intros [a b d RG] PF. constructor; auto. eapply layouts_regular; eauto. Qed.

(** ** Kinetic plasmas *)
Section Maxwell.
  Context (P : params) (L' : layout) (k1 k2 : scheme).
  Let P' := with_layouts P L'.
  Context (W : wf_cfg (pc P) k1 k2) (PM : plasma P) (MX : maxwell P) (PF : periodic_fvm (pc P) k1) (PF' : periodic_fvm (pc P') k1)
    (SG : same_grid (lay (pc P)) L').

  Lemma vm_restart h0 h1 h2 s s0 s2 S t : starts P s -> vm_holds P s S ->
    starts P' s0 -> run_steps (solver_stepper P') h0 s0 = Ok (s2, None) ->
    exists m r r', run_steps (solver_stepper P) h1 s = Ok (m, None)
    /\ vm_holds P m (vm_run P k1 k2 (time_elapsed s) h1 S)
    /\ resume P' (dumps P m) t s2 = Ok r
    /\ run_steps (solver_stepper P') h2 r = Ok (r', None)
    /\ vm_holds P' r' (vm_run P k1 k2 t h2 (reloaded (vm_run P k1 k2 (time_elapsed s) h1 S))).
  Proof using W PM MX PF PF' SG.
    intros ST HS ST0 R0.
    pose proof (layouts_plasma P L' PM) as PM'. pose proof (layouts_maxwell P L' k1 MX PF') as MX'.
    destruct (starts_vm P MX s ST) as (_&G&A).
    destruct (vm_history P k1 k2 W PF PM MX h1 s S HS G A) as (m&R1&HM&GM&_).
    destruct (starts_vm P' MX' s0 ST0) as (H0&G0&A0).
    destruct (vm_history P' k1 k2 W PF' PM' MX' h0 s0 _ H0 G0 A0) as (s2'&R0'&_&G2&A2&_).
    fold P' in R0'. rewrite R0 in R0'. injection R0' as <-.
    destruct (reload P L' k1 m s2 _ t PM (mx_regular P MX) (mx_regular _ MX') PF PF' SG HM GM G2) as (r&QR&HR&GR&AR&TR).
    fold P' in HR, GR, QR. rewrite A2 in AR.
    destruct (vm_history P' k1 k2 W PF' PM' MX' h2 r _ HR GR AR) as (r'&R2&H2&_).
    exists m, r, r'. split; [exact R1|]. split; [exact HM|]. split; [exact QR|]. split; [exact R2|].
    rewrite TR in H2. unfold P' in H2 at 2. rewrite vm_run_layouts in H2 by apply SG. exact H2.
  Qed.

  (** If the solver's fields are the averages of the staggered ones when it stops,
      nothing is lost. *)
  Lemma vm_exact h1 h2 s s2 S m : starts P s -> vm_holds P s S -> starts P' s2 ->
    run_steps (solver_stepper P) h1 s = Ok (m, None) ->
    same (view (lay (pc P)) (fst (get_fields (pf P) (fields m)))) (centred (view (lay (pc P)) (yee_val (fields m)))) ->
    exists r r' u T, resume P' (dumps P m) (time_elapsed m) s2 = Ok r
    /\ run_steps (solver_stepper P') h2 r = Ok (r', None)
    /\ run_steps (solver_stepper P) h2 m = Ok (u, None)
    /\ vm_holds P u T /\ vm_holds P' r' T.
  Proof using W PM MX PF PF' SG.
    intros ST HS ST2 R1 GF.
    pose proof (layouts_plasma P L' PM) as PM'. pose proof (layouts_maxwell P L' k1 MX PF') as MX'.
    destruct (starts_vm P MX s ST) as (_&G&A).
    destruct (vm_history P k1 k2 W PF PM MX h1 s S HS G A) as (m'&R1'&HM&GM&AM&_).
    rewrite R1 in R1'. injection R1' as <-.
    rewrite get_fields_aliased in GF; [|exact (mx_solver P MX)|exact (pl_fp P PM)|exact (proj1 (proj2 GM))]. cbn [fst] in GF.
    set (T := vm_run P k1 k2 (time_elapsed s) h1 S) in *.
    assert (HM' : vm_holds P m (reloaded T)).
    { destruct HM as (a&b&d). split; [exact a|]. split; [exact b|]. cbn [reloaded vm_cc].
      eapply same_trans; [exact GF|]. apply centred_same. exact b. }
    destruct (starts_vm P' MX' s2 ST2) as (_&G2&A2).
    destruct (reload P L' k1 m s2 _ (time_elapsed m) PM (mx_regular P MX) (mx_regular _ MX') PF PF' SG HM GM G2) as (r&QR&HR&GR&AR&TR).
    fold P' in HR, GR, QR. rewrite A2 in AR.
    destruct (vm_history P' k1 k2 W PF' PM' MX' h2 r _ HR GR AR) as (r'&R2&H2&_).
    destruct (vm_history P k1 k2 W PF PM MX h2 m _ HM' GM AM) as (u&R3&H3&_).
    exists r, r', u, (vm_run P k1 k2 (time_elapsed m) h2 (reloaded T)).
    split; [exact QR|]. split; [exact R2|]. split; [exact R3|]. split; [exact H3|].
    rewrite TR in H2. unfold P' in H2 at 2. rewrite vm_run_layouts in H2 by apply SG. exact H2.
  Qed.
End Maxwell.

(** ** Hybrid plasmas *)
Lemma layouts_hybrid P L' k1 : hybrid_fvm P -> (3 <= ng1 L')%Z -> (3 <= ng2 L')%Z ->
  periodic_fvm (pc (with_layouts P L')) k1 -> hybrid_fvm (with_layouts P L').
Proof. intros [a b d e f RG] N1 N2 PF. constructor; auto. eapply layouts_regular; eauto. Qed.

Section Hybrid.
  Context (P : params) (L' : layout) (k1 k2 : scheme).
  Let P' := with_layouts P L'.
  Context (W : wf_cfg (pc P) k1 k2) (PM : plasma P) (HF : hybrid_fvm P) (PF : periodic_fvm (pc P) k1) (PF' : periodic_fvm (pc P') k1)
    (N1 : (3 <= ng1 L')%Z) (N2 : (3 <= ng2 L')%Z) (SG : same_grid (lay (pc P)) L').

  Lemma hyb_restart h0 h1 h2 s s0 s2 S t : starts P s -> vm_holds P s S ->
    starts P' s0 -> run_steps (solver_stepper P') h0 s0 = Ok (s2, None) ->
    exists m r r', run_steps (solver_stepper P) h1 s = Ok (m, None)
    /\ vm_holds P m (hyb_run P k1 k2 (time_elapsed s) h1 S)
    /\ resume P' (dumps P m) t s2 = Ok r
    /\ run_steps (solver_stepper P') h2 r = Ok (r', None)
    /\ vm_holds P' r' (hyb_run P k1 k2 t h2 (reloaded (hyb_run P k1 k2 (time_elapsed s) h1 S))).
  Proof using W PM HF PF PF' SG N1 N2.
    intros ST HS ST0 R0.
    pose proof (layouts_plasma P L' PM) as PM'. pose proof (layouts_hybrid P L' k1 HF N1 N2 PF') as HF'.
    destruct (hyb_starts P HF s ST) as (_&G&A&_).
    destruct (hyb_history P k1 k2 W PF PM HF h1 s S HS G A) as (m&R1&HM&GM&_).
    destruct (hyb_starts P' HF' s0 ST0) as (H0&G0&A0&_).
    destruct (hyb_history P' k1 k2 W PF' PM' HF' h0 s0 _ H0 G0 A0) as (s2'&R0'&_&G2&A2&_).
    fold P' in R0'. rewrite R0 in R0'. injection R0' as <-.
    destruct (reload P L' k1 m s2 _ t PM (hf_regular P HF) (hf_regular _ HF') PF PF' SG HM GM G2) as (r&QR&HR&GR&AR&TR).
    fold P' in HR, GR, QR. rewrite A2 in AR.
    destruct (hyb_history P' k1 k2 W PF' PM' HF' h2 r _ HR GR AR) as (r'&R2&H2&_).
    exists m, r, r'. split; [exact R1|]. split; [exact HM|]. split; [exact QR|]. split; [exact R2|].
    rewrite TR in H2. unfold P' in H2 at 2. rewrite hyb_run_layouts in H2 by apply SG. exact H2.
  Qed.
  (** If the solver's fields are the averages of the staggered ones when it stops,
      nothing is lost. *)
  Lemma hyb_exact h1 h2 s s2 S m : starts P s -> vm_holds P s S -> starts P' s2 ->
    run_steps (solver_stepper P) h1 s = Ok (m, None) ->
    same (view (lay (pc P)) (fst (get_fields (pf P) (fields m)))) (centred (view (lay (pc P)) (yee_val (fields m)))) ->
    exists r r' u T, resume P' (dumps P m) (time_elapsed m) s2 = Ok r
    /\ run_steps (solver_stepper P') h2 r = Ok (r', None)
    /\ run_steps (solver_stepper P) h2 m = Ok (u, None)
    /\ vm_holds P u T /\ vm_holds P' r' T.
  Proof using W PM HF PF PF' SG N1 N2.
    intros ST HS ST2 R1 GF.
    pose proof (layouts_plasma P L' PM) as PM'. pose proof (layouts_hybrid P L' k1 HF N1 N2 PF') as HF'.
    destruct (hyb_starts P HF s ST) as (_&G&A&_).
    destruct (hyb_history P k1 k2 W PF PM HF h1 s S HS G A) as (m'&R1'&HM&GM&AM&_).
    rewrite R1 in R1'. injection R1' as <-.
    rewrite get_fields_aliased in GF; [|exact (hf_solver P HF)|exact (pl_fp P PM)|exact (proj1 (proj2 GM))]. cbn [fst] in GF.
    set (T := hyb_run P k1 k2 (time_elapsed s) h1 S) in *.
    assert (HM' : vm_holds P m (reloaded T)).
    { destruct HM as (a&b&d). split; [exact a|]. split; [exact b|]. cbn [reloaded vm_cc].
      eapply same_trans; [exact GF|]. apply centred_same. exact b. }
    destruct (hyb_starts P' HF' s2 ST2) as (_&G2&A2&_).
    destruct (reload P L' k1 m s2 _ (time_elapsed m) PM (hf_regular P HF) (hf_regular _ HF') PF PF' SG HM GM G2) as (r&QR&HR&GR&AR&TR).
    fold P' in HR, GR, QR. rewrite A2 in AR.
    destruct (hyb_history P' k1 k2 W PF' PM' HF' h2 r _ HR GR AR) as (r'&R2&H2&_).
    destruct (hyb_history P k1 k2 W PF PM HF h2 m _ HM' GM AM) as (u&R3&H3&_).
    exists r, r', u, (hyb_run P k1 k2 (time_elapsed m) h2 (reloaded T)).
    split; [exact QR|]. split; [exact R2|]. split; [exact R3|]. split; [exact H3|].
    rewrite TR in H2. unfold P' in H2 at 2. rewrite hyb_run_layouts in H2 by apply SG. exact H2.
  Qed.
End Hybrid.
