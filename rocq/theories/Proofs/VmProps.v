(** Properties of electrodynamic runs of the solver. *)
From Coq Require Import ZArith Reals Lia Lra String List Bool.
From Verif Require Import Base.Prelude Base.ZSum Model.Af Model.Petsc Model.Config
  Model.Fvm Model.Em Model.Moments Model.Splitting Model.Timestep Model.Solver Spec.Domain Spec.Lattice Spec.FvmProblem Spec.FvmRun
  Spec.Yee Spec.EmRun Spec.MomentSpec Spec.Clock Spec.SolverSpec Spec.VlasovMaxwell Spec.InitFields Proofs.AfLemmas Proofs.PetscLemmas Proofs.ConvLemmas
  Proofs.FluxLemmas Proofs.FvmLemmas Proofs.FvmLemmas2 Proofs.FvmConserve
  Proofs.EmLemmas Proofs.EmStep Proofs.EmInit Proofs.EmProps Proofs.StageLemmas Proofs.ChargeLemmas Proofs.InitFields Proofs.VlasovMaxwell Proofs.Gauss.
Import ListNotations.
Local Open Scope R_scope.

Section Props.
  Context (P : params) (k1 k2 : scheme).
  Let c := pc P.
  Let L := lay c.
  Let M := solver_stepper P.
  Context (W : wf_cfg c k1 k2) (PF : periodic_fvm c k1) (PM : plasma P) (MX : maxwell P).

  Definition global_of (s : solver) : vm_state :=
    VM (gval L (f_of s)) (view L (yee_val (fields s))) (view L (cc_val (fields s))).

  Lemma starts_vm s : starts P s -> vm_holds P s (global_of s) /\ good (pf P) (fields s) /\ at_n (fields s) = true.
  Proof.
    intros ((rho&H)&SH). destruct (vm_start P MX rho (fields s) (fpart s) (time_elapsed s) H SH) as (_&B&C).
    split; [|auto]. split; [split; [exact SH|reflexivity]|]. split; apply same_refl.
  Qed.

  Lemma vm_refines h s S : starts P s -> vm_holds P s S ->
    exists s', run_steps M h s = Ok (s', None) /\ vm_holds P s' (vm_run P k1 k2 (time_elapsed s) h S)
    /\ time_elapsed s' = time_elapsed s + elapsed h /\ ftime (fields s') = elapsed h.
  Proof.
    intros ST HS. destruct (starts_vm s ST) as (_&G&A).
    destruct (vm_history P k1 k2 W PF PM MX h s S HS G A) as (s'&R&H&_&_&T&F).
    exists s'. split; [exact R|]. split; [exact H|]. split; [exact T|].
    rewrite F. destruct ST as ((rho&I)&_). rewrite (proj1 (init_calm _ _ _ I)). cbn [fresh ftime]. ring.
  Qed.

  Lemma charge_density_ext u v i j : (forall x s, inb (N_p c) x -> inb (N_species c) s -> u x s i j = v x s i j) ->
    charge_density P u i j = charge_density P v i j.
  Proof. intros H. unfold charge_density. apply charge_moment_ext. exact H. Qed.

  Lemma gauss_solver h s : ballistic P -> source_conserves c -> starts P s ->
    exists s', run_steps M h s = Ok (s', None)
    /\ forall i j, inb (gN1 L) i -> inb (gN2 L) j ->
       eps (pf P) * gval L (fst (compute_divE (pf P) (fields s'))) 0 0 i j - charge_density P (gval L (f_of s')) i j
       = eps (pf P) * gval L (fst (compute_divE (pf P) (fields s))) 0 0 i j - charge_density P (gval L (f_of s)) i j.
  Proof.
    intros BL SC ST. destruct (starts_vm s ST) as (HS&G&A). pose proof PM as [_ _ _ LY _ _ _]. fold c L in LY.
    destruct (vm_history P k1 k2 W PF PM MX h s _ HS G A) as (s'&R&((SH&HU)&HY&HC)&G'&_).
    exists s'. split; [exact R|]. intros i j Hi Hj. fold c L in HU, HY, HC.
    assert (D : forall x, wf_em (pf P) x -> gval L (fst (compute_divE (pf P) x)) 0 0 i j = div_E (fdq1 (pf P)) (fdq2 (pf P)) (view L (yee_val x)) i j).
    { intros x Wx. pose proof (divE_view (pf P) x (mx_regular _ MX) Wx i j) as Q. unfold lat in Q. rewrite LY in Q. apply Q; auto. }
    rewrite !D by (first [apply G'|apply G]). rewrite (div_E_same _ _ _ _ i j HY).
    rewrite (charge_density_ext (gval L (f_of s')) (vm_f (vm_run P k1 k2 (time_elapsed s) h (global_of s))) i j).
    2:{ intros. apply HU; auto. }
    exact (gauss_run P k1 k2 W PF BL SC h (mx_regular _ MX) (time_elapsed s) (global_of s) i j Hi Hj).
  Qed.

  Lemma divB_run h : forall t S i j, div_B (fdq1 (pf P)) (fdq2 (pf P)) (vm_yee (vm_run P k1 k2 t h S)) i j
    = div_B (fdq1 (pf P)) (fdq2 (pf P)) (vm_yee S) i j.
  Proof.
    pose proof (mx_regular _ MX) as RG.
    induction h as [|(m&dt) h IH]; intros t S i j; cbn [vm_run]; [reflexivity|]. rewrite IH.
    unfold vm_step, yee_step. cbn [vm_yee]. rewrite div_B_faraday by apply RG. reflexivity.
  Qed.
  Lemma divB_solver h s : starts P s ->
    exists s', run_steps M h s = Ok (s', None)
    /\ forall i j, inb (gN1 L) i -> inb (gN2 L) j ->
       gval L (compute_divB (pf P) (fields s')) 0 0 i j = gval L (compute_divB (pf P) (fields s)) 0 0 i j.
  Proof.
    intros ST. destruct (starts_vm s ST) as (HS&G&A). pose proof PM as [_ _ _ LY _ _ _]. fold c L in LY.
    destruct (vm_history P k1 k2 W PF PM MX h s _ HS G A) as (s'&R&((SH&HU)&HY&HC)&G'&_).
    exists s'. split; [exact R|]. intros i j Hi Hj. fold c L in HY.
    assert (D : forall x, good (pf P) x -> gval L (compute_divB (pf P) x) 0 0 i j = div_B (fdq1 (pf P)) (fdq2 (pf P)) (view L (yee_val x)) i j).
    { intros x Wx. pose proof (divB_view (pf P) x (mx_regular _ MX) Wx i j) as Q. unfold lat in Q. rewrite LY in Q. apply Q; auto. }
    rewrite !D by auto. rewrite (div_B_same _ _ _ _ i j HY). apply divB_run.
  Qed.
End Props.

(** ** Process grids *)
Lemma vm_problem_layouts P L' k1 k2 t C : gN1 L' = gN1 (lay (pc P)) -> gN2 L' = gN2 (lay (pc P)) ->
  vm_problem (with_layouts P L') k1 k2 t C = vm_problem P k1 k2 t C.
Proof.
  intros G1 G2. unfold vm_problem, prob, problem_of, problem_at, with_layouts, with_layout; cbn [pc lay]. rewrite G1, G2. reflexivity.
Qed.
Lemma vm_step_layouts P L' k1 k2 t dt S : gN1 L' = gN1 (lay (pc P)) -> gN2 L' = gN2 (lay (pc P)) ->
  vm_step (with_layouts P L') k1 k2 t dt S = vm_step P k1 k2 t dt S.
Proof.
  intros G1 G2. unfold vm_step. rewrite !vm_problem_layouts by auto. reflexivity.
Qed.
Lemma vm_run_layouts P L' k1 k2 h : gN1 L' = gN1 (lay (pc P)) -> gN2 L' = gN2 (lay (pc P)) ->
  forall t S, vm_run (with_layouts P L') k1 k2 t h S = vm_run P k1 k2 t h S.
Proof.
  intros G1 G2. induction h as [|(m&dt) h IH]; intros t S; cbn [vm_run]; [reflexivity|].
  rewrite vm_step_layouts by auto. apply IH.
Qed.

Lemma vm_decomposition P L' k1 k2 h s s2 S : let P' := with_layouts P L' in
  wf_cfg (pc P) k1 k2 -> plasma P -> maxwell P -> periodic_fvm (pc P) k1 ->
  periodic_fvm (pc P') k1 -> gN1 L' = gN1 (lay (pc P)) -> gN2 L' = gN2 (lay (pc P)) ->
  starts P s -> vm_holds P s S -> starts P' s2 -> vm_holds P' s2 S -> time_elapsed s2 = time_elapsed s ->
  exists r r2 T, run_steps (solver_stepper P) h s = Ok (r, None) /\ run_steps (solver_stepper P') h s2 = Ok (r2, None)
  /\ vm_holds P r T /\ vm_holds P' r2 T.
Proof.
  intros P' W PM MX PF PF' G1 G2 S1 H1 S2 H2 T.
  destruct (vm_refines P k1 k2 W PF PM MX h s S S1 H1) as (r&R&HR&_).
  assert (PM' : plasma P') by (destruct PM; constructor; auto).
  assert (MX' : maxwell P').
  { destruct MX as [a b d RG]. constructor; auto. destruct RG as ((PL&PE)&X). destruct PF' as (_&_&PL'&_).
    split; [split; [exact PL'|exact PE]|exact X]. }
  destruct (vm_refines P' k1 k2 W PF' PM' MX' h s2 S S2 H2) as (r2&R2&HR2&_).
  exists r, r2, (vm_run P k1 k2 (time_elapsed s) h S). split; [exact R|]. split; [exact R2|]. split; [exact HR|].
  rewrite T in HR2. unfold P' in HR2 at 2. rewrite vm_run_layouts in HR2 by auto. exact HR2.
Qed.

(** From the same user functions. *)
Lemma same_on_views L L' F F' Y : (0 < gN1 L)%Z -> (0 < gN2 L)%Z -> gN1 L' = gN1 L -> gN2 L' = gN2 L ->
  same_on (gN1 L) (gN2 L) (view L F) Y -> same_on (gN1 L) (gN2 L) (view L' F') Y -> same (view L' F') (view L F).
Proof.
  intros P1 P2 G1 G2 H H'.
  assert (Q : forall M (G : dist R) k i j, gN1 M = gN1 L -> gN2 M = gN2 L -> gper M G k 0 i j = gper M G k 0 (i mod gN1 L) (j mod gN2 L)).
  { intros M G k i j A B. unfold gper. rewrite A, B, !Zmod_mod. reflexivity. }
  unfold same, view; cbn [E1 E2 E3 B1 B2 B3].
  repeat split; intros i j; rewrite (Q L), (Q L') by auto;
    assert (X : inb (gN1 L) (i mod gN1 L)) by (apply Z.mod_pos_bound; auto);
    assert (X2 : inb (gN2 L) (j mod gN2 L)) by (apply Z.mod_pos_bound; auto);
    destruct (H _ _ X X2) as (A1&A2&A3&A4&A5&A6); destruct (H' _ _ X X2) as (C1&C2&C3&C4&C5&C6);
    cbn [view E1 E2 E3 B1 B2 B3] in *; congruence.
Qed.

Lemma user_start P L' s s2 : let P' := with_layouts P L' in
  plasma P -> regular (pf P) -> regular (pf P') -> gN1 L' = gN1 (lay (pc P)) -> gN2 L' = gN2 (lay (pc P)) ->
  (0 < gN1 L')%Z -> (0 < gN2 L')%Z ->
  user_defined (pf P) -> starts P s -> starts P' s2 ->
  same (view L' (yee_val (fields s2))) (view (lay (pc P)) (yee_val (fields s)))
  /\ same (view L' (cc_val (fields s2))) (view (lay (pc P)) (cc_val (fields s))).
Proof.
  intros P' PM RG RG' G1 G2 P1 P2 UD ((rho&H)&_) ((rho2&H2)&_).
  pose proof PM as [_ _ _ LY _ _ _].
  assert (X : exists Y Y', same_on (gN1 L') (gN2 L') (view (lay (pc P)) (yee_val (fields s))) Y
     /\ same_on (gN1 L') (gN2 L') (view (lay (pc P)) (cc_val (fields s))) Y'
     /\ same_on (gN1 L') (gN2 L') (view L' (yee_val (fields s2))) Y
     /\ same_on (gN1 L') (gN2 L') (view L' (cc_val (fields s2))) Y').
  { destruct UD as [(E&B&D)|(E&ab&D)].
    - destruct (initial_EB (pf P) rho E B RG D) as (e&I&A1&A2). destruct (initial_EB (pf P') rho2 E B RG' D) as (e2&I2&C1&C2).
      rewrite I in H. apply Ok_inj in H. subst e. rewrite I2 in H2. apply Ok_inj in H2. subst e2.
      rewrite LY, <- G1, <- G2 in A1, A2. cbn [P' with_layouts with_flayout pf flay] in C1, C2.
      exists (on_shifted_grid (pf P) E B), (centred (on_shifted_grid (pf P) E B)). auto.
    - destruct (initial_EA (pf P) rho E ab RG D) as (e&I&A1&A2). destruct (initial_EA (pf P') rho2 E ab RG' D) as (e2&I2&C1&C2).
      rewrite I in H. apply Ok_inj in H. subst e. rewrite I2 in H2. apply Ok_inj in H2. subst e2.
      rewrite LY, <- G1, <- G2 in A1, A2. cbn [P' with_layouts with_flayout pf flay] in C1, C2.
      exists (with_curl (pf P) ab (on_shifted_grid (pf P) E E)), (centred (with_curl (pf P) ab (on_shifted_grid (pf P) E E))). auto. }
  destruct X as (Y&Y'&A1&A2&A3&A4). rewrite G1, G2 in *.
  split; eapply same_on_views; eauto.
Qed.

Lemma vm_any_ranks P L' k1 k2 h s s2 u : let P' := with_layouts P L' in
  wf_cfg (pc P) k1 k2 -> plasma P -> maxwell P -> user_defined (pf P) -> periodic_fvm (pc P) k1 ->
  periodic_fvm (pc P') k1 -> gN1 L' = gN1 (lay (pc P)) -> gN2 L' = gN2 (lay (pc P)) ->
  starts P s -> holds (pc P) (f_of s) u -> starts P' s2 -> holds (pc P') (f_of s2) u -> time_elapsed s2 = time_elapsed s ->
  exists r r2 T, run_steps (solver_stepper P) h s = Ok (r, None) /\ run_steps (solver_stepper P') h s2 = Ok (r2, None)
  /\ vm_holds P r T /\ vm_holds P' r2 T.
Proof.
  intros P' W PM MX UD PF PF' G1 G2 S1 H1 S2 H2 T.
  assert (RG' : regular (pf P')).
  { destruct MX as [a b d RG]. destruct RG as ((PL&PE)&X). destruct PF' as (_&_&PL'&_).
    split; [split; [exact PL'|exact PE]|exact X]. }
  destruct (grid_pos (pc P') k1 PF') as (P1&P2). change (lay (pc P')) with L' in P1, P2.
  destruct (user_start P L' s s2 PM (mx_regular _ MX) RG' G1 G2 P1 P2 UD S1 S2) as (A&B).
  apply (vm_decomposition P L' k1 k2 h s s2 (VM u (view (lay (pc P)) (yee_val (fields s))) (view (lay (pc P)) (cc_val (fields s))))); auto.
  - split; [exact H1|]. split; apply same_refl.
  - split; [exact H2|]. split; [exact A|exact B].
Qed.

(** ** A neutral uniform plasma at rest *)
Section Rest.
  Context (P : params) (k1 k2 : scheme).
  Let c := pc P.
  Let L := lay c.
  Context (W : wf_cfg c k1 k2) (PF : periodic_fvm c k1) (PM : plasma P) (MX : maxwell P).
  Context (VU : velocity_uniform c) (SO : source_enabled c = false) (FD : field_driven c).
  Context (a : Z -> Z -> R) (CF : current_free P a).

  Definition at_rest (S : vm_state) : Prop :=
    (forall x s i j, inb (N_p c) x -> inb (N_species c) s -> inb (gN1 L) i -> inb (gN2 L) j -> vm_f S x s i j = a x s)
    /\ no_fields (vm_yee S) /\ no_fields (vm_cc S).

  Lemma rest_rhs t C u x s i j : no_fields C ->
    (forall x s i j, inb (N_p c) x -> inb (N_species c) s -> inb (gN1 L) i -> inb (gN2 L) j -> u x s i j = a x s) ->
    inb (N_p c) x -> inb (N_species c) s -> inb (gN1 L) i -> inb (gN2 L) j -> rhs (vm_problem P k1 k2 t C) u x s i j = 0.
  Proof using W PF VU SO FD.
    intros (Z1&Z2&Z3&Z4&Z5&Z6) Hu Hx Hs Hi Hj. cbn [E1 E2 E3 B1 B2 B3] in *. destruct (grid_pos c k1 PF) as (P1&P2). fold L in P1, P2.
    unfold rhs, vm_problem. rewrite src_off by exact SO.
    assert (AQ : advect_q (prob (pc P) k1 k2 t (components C, components C, components C)) u x s i j = 0).
    { unfold advect_q. destruct (vel_uni c k1 k2 t (components C, components C, components C) VU) as [V1 V2]. fold c.
      rewrite (advect_const _ _ _ _ _ (a x s)), (advect_const _ _ _ _ _ (a x s)); [lra| | | |].
      - intros z. unfold periodic. apply Hu; auto. apply Z.mod_pos_bound; auto.
      - apply V2.
      - intros z. unfold periodic. apply Hu; auto. apply Z.mod_pos_bound; auto.
      - apply V1. }
    rewrite AQ.
    assert (AC : forall o1 o2 o3 y s' g1 g2, accel c t (components C) o1 o2 o3 y s' g1 g2 = (0, 0, 0)).
    { intros. unfold accel, components. cbn [Z.eqb Pos.eqb]. rewrite Z1, Z2, Z3, Z4, Z5, Z6. apply FD. }
    assert (AP : advect_p (prob (pc P) k1 k2 t (components C, components C, components C)) i j (fun x' s' => u x' s' i j) x s = 0).
    { unfold advect_p, prob, problem_of, problem_at; cbn [acc1 acc2 acc3 M1 M2 M3 kp hp1 hp2 hp3 fst snd]. fold c.
      unfold advect, flux, periodic. rewrite !AC. cbn [fst snd]. destruct (p_is_fvm c); unfold Rdiv; ring. }
    rewrite AP. ring.
  Qed.

  Lemma upwind_const k v u i b : (forall z, u z = b) -> upwind k v u i = b.
  Proof using. intros H. unfold upwind. rewrite !(cell_faces_const k u _ b) by auto. destruct (Rlt_dec _ _); reflexivity. Qed.

  Lemma rest_step t dt S : at_rest S -> at_rest (vm_step P k1 k2 t dt S).
  Proof using W PF VU SO FD CF.
    intros (HU&HY&HC). destruct (grid_pos c k1 PF) as (P1&P2). fold L in P1, P2.
    set (p := vm_problem P k1 k2 t (vm_cc S)).
    set (uh := fun x s i j => vm_f S x s i j + dt / 2 * rhs p (vm_f S) x s i j).
    assert (Hh : forall x s i j, inb (N_p c) x -> inb (N_species c) s -> inb (gN1 L) i -> inb (gN2 L) j -> uh x s i j = a x s).
    { intros x s i j Hx Hs Hi Hj. unfold uh, p. rewrite rest_rhs by auto. rewrite HU by auto. ring. }
    destruct CF as (C1&C2&C3).
    assert (J1 : forall i j, current1 P p uh i j = 0).
    { intros i j. rewrite <- C1. unfold current1. apply charge_moment_ext. intros x s Hx Hs. unfold through1. apply upwind_const.
      intros z. unfold periodic. apply Hh; auto; apply Z.mod_pos_bound; auto. }
    assert (J2 : forall i j, current2 P p uh i j = 0).
    { intros i j. rewrite <- C2. unfold current2. apply charge_moment_ext. intros x s Hx Hs. unfold through2. apply upwind_const.
      intros z. unfold periodic. apply Hh; auto; apply Z.mod_pos_bound; auto. }
    assert (J3 : forall i j, current3 P p uh i j = 0).
    { intros i j. rewrite <- C3. unfold current3. apply charge_moment_ext. intros x s Hx Hs.
      apply Hh; auto; apply Z.mod_pos_bound; auto. }
    assert (YN : no_fields (vm_yee (vm_step P k1 k2 t dt S))).
    { unfold vm_step. cbn [vm_yee]. fold p. fold uh. destruct HY as (Y1&Y2&Y3&Y4&Y5&Y6). cbn [E1 E2 E3 B1 B2 B3] in *.
      unfold no_fields, same, yee_step, faraday, ampere, fwd1, fwd2, bwd1, bwd2; cbn [E1 E2 E3 B1 B2 B3].
      repeat split; intros; rewrite ?J1, ?J2, ?J3, ?Y1, ?Y2, ?Y3, ?Y4, ?Y5, ?Y6; unfold Rdiv; ring. }
    assert (CN : no_fields (vm_cc (vm_step P k1 k2 t dt S))).
    { set (Y := vm_yee (vm_step P k1 k2 t dt S)) in *.
      change (vm_cc (vm_step P k1 k2 t dt S)) with (EB (mid (vm_cc S) (centred Y)) (centred Y)).
      destruct HC as (Z1&Z2&Z3&Z4&Z5&Z6). destruct YN as (Y1&Y2&Y3&Y4&Y5&Y6). cbn [E1 E2 E3 B1 B2 B3] in *.
      unfold no_fields, same, EB, mid, centred; cbn [E1 E2 E3 B1 B2 B3].
      repeat split; intros; rewrite ?Z1, ?Z2, ?Z3, ?Y1, ?Y2, ?Y3, ?Y4, ?Y5, ?Y6; lra. }
    split; [|split; [exact YN|exact CN]].
    intros x s i j Hx Hs Hi Hj.
    change (vm_f (vm_step P k1 k2 t dt S) x s i j) with (vm_f S x s i j + dt * rhs (vm_problem P k1 k2 t (vm_cc (vm_step P k1 k2 t dt S))) uh x s i j).
    rewrite rest_rhs by auto. rewrite HU by auto. ring.
  Qed.

  Lemma rest_run h : forall t S, at_rest S -> at_rest (vm_run P k1 k2 t h S).
  Proof using W PF VU SO FD CF.
    induction h as [|(m&dt) h IH]; intros t S HS; cbn [vm_run]; auto. apply IH. apply rest_step; auto.
  Qed.

  Lemma rest_solver h s : starts P s -> holds c (f_of s) (fun x sp _ _ => a x sp) ->
    no_fields (view L (yee_val (fields s))) -> no_fields (view L (cc_val (fields s))) ->
    exists s', run_steps (solver_stepper P) h s = Ok (s', None)
    /\ holds c (f_of s') (fun x sp _ _ => a x sp)
    /\ no_fields (view L (yee_val (fields s'))) /\ no_fields (view L (cc_val (fields s'))).
  Proof.
    intros ST HU HY HC.
    destruct (vm_refines P k1 k2 W PF PM MX h s (VM (fun x sp _ _ => a x sp) (view L (yee_val (fields s))) (view L (cc_val (fields s)))) ST)
      as (s'&R&((SH&HU')&HY'&HC')&_).
    { split; [exact HU|]. split; apply same_refl. }
    destruct (rest_run h (time_elapsed s) (VM (fun x sp _ _ => a x sp) (view L (yee_val (fields s))) (view L (cc_val (fields s))))) as (A&B&C).
    { split; [reflexivity|]. split; [exact HY|exact HC]. }
    exists s'. split; [exact R|]. split; [|split].
    - split; [exact SH|]. intros x sp i j Hx Hs Hi Hj. rewrite HU' by auto. apply A; auto.
    - eapply same_trans; [exact HY'|exact B].
    - eapply same_trans; [exact HC'|exact C].
  Qed.
End Rest.
