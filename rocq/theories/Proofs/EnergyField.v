(** Energy balance of the fields in electrodynamic runs. *)
From Coq Require Import ZArith Reals Lia Lra String List Bool.
From Verif Require Import Proofs.FvmConserve Base.Prelude Base.ZSum Model.Af Model.Petsc Model.Config Model.Fvm Model.Em
  Model.Moments Model.Timestep Model.Solver Spec.Domain Spec.Lattice Spec.FvmProblem Spec.FvmRun
  Spec.Yee Spec.EmRun Spec.MomentSpec Spec.Clock Spec.SolverSpec Spec.VlasovMaxwell Spec.Poisson Spec.Energy
  Proofs.EmEnergy Proofs.EmProps Proofs.FvmLemmas Proofs.VlasovMaxwell Proofs.VmProps.
Import ListNotations.
Local Open Scope R_scope.

Section Poynting.
Context (n1 n2 : Z) (P1 : (0 < n1)%Z) (P2 : (0 < n2)%Z).

(** The discrete Poynting theorem: what the fields lose is done on the currents. *)
Lemma poynting h1 h2 e m dt J1 J2 J3 Y1 Y2 :
  h1 <> 0 -> h2 <> 0 -> e <> 0 -> m <> 0 ->
  per_lat n1 n2 Y1 -> per_lat n1 n2 Y2 ->
  same Y2 (yee_step h1 h2 e m dt J1 J2 J3 Y1) ->
  energy n1 n2 e m (faraday h1 h2 (- dt) Y2) Y2
  = energy n1 n2 e m (faraday h1 h2 (- dt) Y1) Y1
    - 2 * dt * total n1 n2 (fun i j => J1 i j * E1 (mid Y1 Y2) i j + J2 i j * E2 (mid Y1 Y2) i j + J3 i j * E3 (mid Y1 Y2) i j).
Proof using P1 P2.
  intros H1 H2 He Hm Q1 Q2 (T1&T2&T3&T4&T5&T6).
  cbn [yee_step faraday ampere mid E1 E2 E3 B1 B2 B3] in *.
  assert (F1 : forall i j, B1 Y2 i j = B1 Y1 i j - dt * bwd2 h2 (E3 Y2) i j).
  { intros. rewrite T4. unfold bwd2. rewrite !T3. ring. }
  assert (F2 : forall i j, B2 Y2 i j = B2 Y1 i j + dt * bwd1 h1 (E3 Y2) i j).
  { intros. rewrite T5. unfold bwd1. rewrite !T3. ring. }
  assert (F3 : forall i j, B3 Y2 i j = B3 Y1 i j - dt * (bwd1 h1 (E2 Y2) i j - bwd2 h2 (E1 Y2) i j)).
  { intros. rewrite T6. unfold bwd1, bwd2. rewrite !T1, !T2. ring. }
  assert (G1 : forall i j, E1 Y2 i j = E1 Y1 i j + dt * (fwd2 h2 (B3 Y1) i j / (m * e) - J1 i j / e)) by exact T1.
  assert (G2 : forall i j, E2 Y2 i j = E2 Y1 i j + dt * (- fwd1 h1 (B3 Y1) i j / (m * e) - J2 i j / e)) by exact T2.
  assert (G3 : forall i j, E3 Y2 i j = E3 Y1 i j + dt * ((fwd1 h1 (B2 Y1) i j - fwd2 h2 (B1 Y1) i j) / (m * e) - J3 i j / e)) by exact T3.
  clear T1 T2 T3 T4 T5 T6.
  destruct Q1 as (QE1&QE2&QE3&QB1&QB2&QB3). destruct Q2 as (RE1&RE2&RE3&_).
  rewrite <- (total_scal _ _ (2 * dt)).
  match goal with |- ?a = ?b - ?c => enough (E0 : a - b + c = 0) by lra end.
  unfold energy. cbn [faraday E1 E2 E3 B1 B2 B3]. rewrite <- total_minus.
  rewrite <- total_plus.
  set (g1 := fun i j => B3 Y1 i j * (E1 Y1 i (j - 1)%Z + E1 Y2 i (j - 1)%Z)).
  set (g2 := fun i j => B3 Y1 i j * (E2 Y1 (i - 1)%Z j + E2 Y2 (i - 1)%Z j)).
  set (g3 := fun i j => B2 Y1 i j * (E3 Y1 (i - 1)%Z j + E3 Y2 (i - 1)%Z j)).
  set (g4 := fun i j => B1 Y1 i j * (E3 Y1 i (j - 1)%Z + E3 Y2 i (j - 1)%Z)).
  rewrite (total_ext _ _ _ (fun i j =>
     (dt / m / h2 * (g1 i (j + 1)%Z - g1 i j) + - (dt / m / h1) * (g2 (i + 1)%Z j - g2 i j))
     + (dt / m / h1 * (g3 (i + 1)%Z j - g3 i j) + - (dt / m / h2) * (g4 i (j + 1)%Z - g4 i j)))).
  - rewrite (total_plus _ _
       (fun i j => dt / m / h2 * (g1 i (j + 1)%Z - g1 i j) + - (dt / m / h1) * (g2 (i + 1)%Z j - g2 i j))
       (fun i j => dt / m / h1 * (g3 (i + 1)%Z j - g3 i j) + - (dt / m / h2) * (g4 i (j + 1)%Z - g4 i j))).
    rewrite (total_plus _ _ (fun i j => dt / m / h2 * (g1 i (j + 1)%Z - g1 i j))
       (fun i j => - (dt / m / h1) * (g2 (i + 1)%Z j - g2 i j))).
    rewrite (total_plus _ _ (fun i j => dt / m / h1 * (g3 (i + 1)%Z j - g3 i j))
       (fun i j => - (dt / m / h2) * (g4 i (j + 1)%Z - g4 i j))).
    rewrite (total_scal _ _ _ (fun i j => g1 i (j + 1)%Z - g1 i j)).
    rewrite (total_scal _ _ _ (fun i j => g2 (i + 1)%Z j - g2 i j)).
    rewrite (total_scal _ _ _ (fun i j => g3 (i + 1)%Z j - g3 i j)).
    rewrite (total_scal _ _ _ (fun i j => g4 i (j + 1)%Z - g4 i j)).
    rewrite (total_diff2 n1 n2 P2 g1), (total_diff1 n1 n2 P1 g2), (total_diff1 n1 n2 P1 g3), (total_diff2 n1 n2 P2 g4); [ring| | | |];
      (apply per_mul; [assumption|apply per_add; (apply per_sub1 || apply per_sub2); assumption]).
  - intros i j. subst g1 g2 g3 g4. cbv beta.
    replace (i + 1 - 1)%Z with i by lia. replace (j + 1 - 1)%Z with j by lia.
    rewrite !F1, !F2, !F3.
    set (b1 := B1 Y1) in *. set (b2 := B2 Y1) in *. set (b3 := B3 Y1) in *.
    assert (K : e * (E1 Y2 i j ^ 2 + E2 Y2 i j ^ 2 + E3 Y2 i j ^ 2) - e * (E1 Y1 i j ^ 2 + E2 Y1 i j ^ 2 + E3 Y1 i j ^ 2)
      + 2 * dt * (J1 i j * ((E1 Y1 i j + E1 Y2 i j) / 2) + J2 i j * ((E2 Y1 i j + E2 Y2 i j) / 2) + J3 i j * ((E3 Y1 i j + E3 Y2 i j) / 2))
      = dt / m * (fwd2 h2 b3 i j * (E1 Y1 i j + E1 Y2 i j) - fwd1 h1 b3 i j * (E2 Y1 i j + E2 Y2 i j)
                  + (fwd1 h1 b2 i j - fwd2 h2 b1 i j) * (E3 Y1 i j + E3 Y2 i j))).
    { rewrite G1, G2, G3. field; auto. }
    match type of K with ?l = ?r => match goal with |- ?a = ?b => enough (a - l = b - r) by lra end end.
    unfold fwd1, fwd2, bwd1, bwd2. field; auto.
Qed.
End Poynting.

Lemma per_shift n1 n2 u d e : per n1 n2 u -> per n1 n2 (fun i j => u (i + d)%Z (j + e)%Z).
Proof.
  intros (A&B). split; intros.
  - rewrite <- (A (i + d)%Z), <- (A (i mod n1 + d)%Z). f_equal. apply Zplus_mod_idemp_l.
  - rewrite <- (B _ (j + e)%Z), <- (B _ (j mod n2 + e)%Z). f_equal. apply Zplus_mod_idemp_l.
Qed.
Lemma yee_step_per n1 n2 h1 h2 e m dt J1 J2 J3 Y : per_lat n1 n2 Y -> per n1 n2 J1 -> per n1 n2 J2 -> per n1 n2 J3 ->
  per_lat n1 n2 (yee_step h1 h2 e m dt J1 J2 J3 Y).
Proof.
  intros (A1&A2&A3&A4&A5&A6) Q1 Q2 Q3.
  assert (S1 : forall u, per n1 n2 u -> per n1 n2 (fwd1 h1 u)).
  { intros u H. pose proof (per_shift n1 n2 u 1 0 H) as (X&X'). destruct H as (Y0&Y1).
    split; intros; unfold fwd1; [specialize (X i j)|specialize (X' i j)]; rewrite !Z.add_0_r in *; rewrite ?X, ?X', ?Y0, ?Y1; reflexivity. }
  assert (S2 : forall u, per n1 n2 u -> per n1 n2 (fwd2 h2 u)).
  { intros u H. pose proof (per_shift n1 n2 u 0 1 H) as (X&X'). destruct H as (Y0&Y1).
    split; intros; unfold fwd2; [specialize (X i j)|specialize (X' i j)]; rewrite !Z.add_0_r in *; rewrite ?X, ?X', ?Y0, ?Y1; reflexivity. }
  assert (S3 : forall u, per n1 n2 u -> per n1 n2 (bwd1 h1 u)).
  { intros u H. pose proof (per_sub1 n1 n2 u 1 H) as (X&X'). destruct H as (Y0&Y1).
    split; intros; unfold bwd1; [specialize (X i j)|specialize (X' i j)]; cbv beta in *; rewrite ?X, ?X', ?Y0, ?Y1; reflexivity. }
  assert (S4 : forall u, per n1 n2 u -> per n1 n2 (bwd2 h2 u)).
  { intros u H. pose proof (per_sub2 n1 n2 u 1 H) as (X&X'). destruct H as (Y0&Y1).
    split; intros; unfold bwd2; [specialize (X i j)|specialize (X' i j)]; cbv beta in *; rewrite ?X, ?X', ?Y0, ?Y1; reflexivity. }
  assert (AM : per_lat n1 n2 (ampere h1 h2 e m dt J1 J2 J3 Y)).
  { assert (C : forall u v w a, per n1 n2 u -> per n1 n2 v -> per n1 n2 w -> per n1 n2 (fun i j => u i j + dt * (v i j / a - w i j / e))).
    { intros u v w a (U0&U1) (V0&V1) (W0&W1). split; intros; rewrite ?U0, ?V0, ?W0, ?U1, ?V1, ?W1; reflexivity. }
    unfold per_lat, ampere. cbn [E1 E2 E3 B1 B2 B3]. repeat match goal with |- _ /\ _ => split end; try assumption.
    - apply (C (E1 Y) (fwd2 h2 (B3 Y)) J1); auto.
    - apply (C (E2 Y) (fun i j => - fwd1 h1 (B3 Y) i j) J2); auto.
      destruct (S1 _ A6) as (X&X'). split; intros; rewrite ?X, ?X'; reflexivity.
    - apply (C (E3 Y) (fun i j => fwd1 h1 (B2 Y) i j - fwd2 h2 (B1 Y) i j) J3); auto.
      destruct (S1 _ A5) as (X&X'). destruct (S2 _ A4) as (X2&X2'). split; intros; rewrite ?X, ?X', ?X2, ?X2'; reflexivity. }
  unfold yee_step. set (A := ampere h1 h2 e m dt J1 J2 J3 Y) in *. clearbody A.
  destruct AM as (B1'&B2'&B3'&B4'&B5'&B6'). unfold per_lat, faraday. cbn [E1 E2 E3 B1 B2 B3].
  repeat match goal with |- _ /\ _ => split end; try assumption.
  - destruct B4' as (X&X'), (S4 _ B3') as (V&V'). split; intros; rewrite ?X, ?X', ?V, ?V'; reflexivity.
  - destruct B5' as (X&X'), (S3 _ B3') as (V&V'). split; intros; rewrite ?X, ?X', ?V, ?V'; reflexivity.
  - destruct B6' as (X&X'), (S3 _ B2') as (V&V'), (S4 _ B1') as (T&T'). split; intros; rewrite ?X, ?X', ?V, ?V', ?T, ?T'; reflexivity.
Qed.

Section Run.
  Context (P : params) (k1 k2 : scheme).
  Let c := pc P.
  Let L := lay c.
  Context (W : wf_cfg c k1 k2) (PF : periodic_fvm c k1) (PM : plasma P) (MX : maxwell P).

  Lemma same_layout : flay (pf P) = L. Proof using PM. destruct PM as [_ _ _ LY _ _ _]. exact LY. Qed.
  Lemma cells_pos : (0 < gN1 L)%Z /\ (0 < gN2 L)%Z.
  Proof using PF. exact (grid_pos c k1 PF). Qed.
  Lemma currents_per p u : Lattice.n1 p = gN1 L -> Lattice.n2 p = gN2 L ->
    per (gN1 L) (gN2 L) (current1 P p u) /\ per (gN1 L) (gN2 L) (current2 P p u) /\ per (gN1 L) (gN2 L) (current3 P p u).
  Proof using PF.
    intros N1 N2. destruct cells_pos. unfold current1, current2, current3. rewrite N1, N2.
    repeat split; intros; rewrite ?Zmod_mod; reflexivity.
  Qed.
  Lemma view_per F : per_lat (gN1 L) (gN2 L) (view L F).
  Proof using PF.
    repeat split; cbn [view E1 E2 E3 B1 B2 B3]; apply gper_per_grid, PF.
  Qed.

  Lemma vm_step_per t dt S : per_lat (gN1 L) (gN2 L) (vm_yee S) -> per_lat (gN1 L) (gN2 L) (vm_yee (vm_step P k1 k2 t dt S)).
  Proof using PF.
    intros H. unfold vm_step. cbn [vm_yee].
    match goal with |- context [yee_step _ _ _ _ _ (current1 P ?p ?u)] => destruct (currents_per p u eq_refl eq_refl) as (A&B&D) end.
    apply yee_step_per; auto.
  Qed.

  Lemma field_step t dt S : per_lat (gN1 L) (gN2 L) (vm_yee S) ->
    let p := vm_problem P k1 k2 t (vm_cc S) in let uh := vm_half P k1 k2 t dt S in
    let Y := vm_yee (vm_step P k1 k2 t dt S) in
    field_energy P dt Y = field_energy P dt (vm_yee S)
      - dt * joule P (current1 P p uh) (current2 P p uh) (current3 P p uh) (vm_yee S) Y.
  Proof using PF PM MX.
    intros H p uh Y. destruct cells_pos as (Q1&Q2). pose proof (vm_step_per t dt S H) as H2. fold Y in H2.
    pose proof (mx_regular _ MX) as RG.
    unfold field_energy, joule. rewrite same_layout. cbv zeta.
    rewrite (poynting (gN1 L) (gN2 L) Q1 Q2 (fdq1 (pf P)) (fdq2 (pf P)) (eps (pf P)) (mu (pf P)) dt
      (current1 P p uh) (current2 P p uh) (current3 P p uh) (vm_yee S) Y); try apply RG; auto.
    - field.
    - subst Y p uh. unfold vm_step. cbn [vm_yee]. repeat split; reflexivity.
  Qed.


  Lemma field_run dt h : all_steps dt h -> forall t S, per_lat (gN1 L) (gN2 L) (vm_yee S) ->
    field_energy P dt (vm_yee (vm_run P k1 k2 t h S)) = field_energy P dt (vm_yee S) - vm_work P k1 k2 t h S.
  Proof using PF PM MX.
    induction h as [|(m&d) h IH]; intros AS t S H; cbn [vm_run vm_work]; [ring|].
    inversion AS as [|x l E AS']; subst. cbn [snd] in *. rewrite IH; auto.
    - rewrite field_step by auto. ring.
    - apply vm_step_per; auto.
  Qed.

  Lemma field_energy_same dt Y Y' : same Y Y' -> field_energy P dt Y = field_energy P dt Y'.
  Proof using.
    intros (A1&A2&A3&A4&A5&A6). unfold field_energy. f_equal. f_equal. unfold energy. apply total_ext.
    intros i j. unfold faraday, bwd1, bwd2. cbn [E1 E2 E3 B1 B2 B3]. rewrite !A1, !A2, !A3, !A4, !A5, !A6. reflexivity.
  Qed.

  Lemma per_same Y Y' : same Y Y' -> per_lat (gN1 L) (gN2 L) Y -> per_lat (gN1 L) (gN2 L) Y'.
  Proof using.
    intros (A1&A2&A3&A4&A5&A6) ((B1&B1')&(B2&B2')&(B3&B3')&(B4&B4')&(B5&B5')&(B6&B6')).
    repeat split; intros; rewrite <- ?A1, <- ?A2, <- ?A3, <- ?A4, <- ?A5, <- ?A6; auto.
  Qed.
  Lemma field_solver dt h s S : all_steps dt h -> starts P s -> vm_holds P s S ->
    exists s', run_steps (solver_stepper P) h s = Ok (s', None)
    /\ field_energy P dt (view L (yee_val (fields s')))
       = field_energy P dt (view L (yee_val (fields s))) - vm_work P k1 k2 (time_elapsed s) h S.
  Proof using W PF PM MX.
    intros AS ST HS. destruct (vm_refines P k1 k2 W PF PM MX h s S ST HS) as (s'&R&(_&HY&_)&_).
    exists s'. split; [exact R|]. fold c L in HY. rewrite (field_energy_same dt _ _ HY).
    destruct HS as (_&HY0&_). fold c L in HY0. rewrite (field_energy_same dt _ _ HY0).
    apply (field_run dt h AS). apply (per_same _ _ HY0). apply view_per.
  Qed.
End Run.
