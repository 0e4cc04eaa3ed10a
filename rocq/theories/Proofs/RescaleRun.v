(** Solvers set up in two systems of units. *)
From Coq Require Import ZArith Reals Lia Lra String List Bool FunctionalExtensionality.
From Verif Require Import Base.Prelude Base.ZSum Model.Af Model.Petsc Model.Config Model.Boundaries
  Model.Fvm Model.Em Model.Moments Model.Splitting Model.Timestep Model.Solver
  Spec.Domain Spec.Lattice Spec.FvmProblem Spec.FvmRun Spec.Yee Spec.EmRun Spec.Waves Spec.MomentSpec Spec.Clock Spec.SolverSpec
  Spec.VlasovMaxwell Spec.InitFields Spec.Poisson Spec.TimeTerms Spec.Rescale
  Proofs.FvmConserve Proofs.EmInit Proofs.InitFields Proofs.VmProps Proofs.PoissonRun Proofs.PoissonProps Proofs.TimeTerms Proofs.Rescale.
From Verif Require Import Spec.Yee.
Import ListNotations.
Local Open Scope R_scope.

Lemma same_eq Y Z : same Y Z -> Y = Z.
Proof.
  intros (H1&H2&H3&H4&H5&H6). destruct Y as [y1 y2 y3 y4 y5 y6], Z as [z1 z2 z3 z4 z5 z6]. cbn [E1 E2 E3 B1 B2 B3] in *.
  f_equal; fext2; auto.
Qed.
Lemma same_units U Y Z : same Y Z -> same (convert_fields U Y) (convert_fields U Z).
Proof. intros H. rewrite (same_eq _ _ H). repeat split. Qed.

Section Setups.
  Context (U : units) (UP : proper U) (P : params) (k1 k2 : scheme).
  Let c := pc P.

  Lemma wf_units : wf_cfg c k1 k2 -> wf_cfg (convert_cfg U c) k1 k2.
  Proof using.
    intros (A1&A2&A3&A4&L1&L2&L3&L4&L5&L6&R1&R2&S).
    unfold wf_cfg. cbn [convert_cfg N_p1 N_p2 N_p3 N_species p1_start p2_start p3_start dp1 dp2 dp3 reconstruction_method_in_q
      reconstruction_method_in_p]. rewrite !map_length.
    repeat match goal with |- _ /\ _ => split end; auto.
    intros t q1 q2 w w' H x s Hx Hs. cbn [convert_cfg source]. f_equal. apply S; auto.
    intros; cbn beta. rewrite H by auto. reflexivity.
  Qed.
  Lemma periodic_units : periodic_fvm c k1 -> periodic_fvm (convert_cfg U c) k1.
  Proof using. intros H. exact H. Qed.
  Lemma plasma_units : plasma P -> plasma (convert U P).
  Proof using. intros [A1 A2 A3 A4 A5 A6 A7]. constructor; try assumption. cbn [convert charge pc]. rewrite map_length. exact A3. Qed.
  Lemma regular_units : regular (pf P) -> regular (pf (convert U P)).
  Proof using UP.
    intros (A&B1&B2&B3&B4). split; [exact A|]. cbn [convert pf convert_fcfg mu eps fdq1 fdq2].
    destruct (facts U UP) as (Hl&HT&HV&_). destruct (eps_units U UP) as (NE&MU&_).
    assert (NM : u_mu U <> 0). { intros Z. rewrite Z in MU. lra. }
    assert (NL : u_len U <> 0) by lra.
    repeat split; apply Rmult_integral_contrapositive; auto.
  Qed.
  Lemma maxwell_units : maxwell P -> maxwell (convert U P).
  Proof using UP. intros [A1 A2 A3 A4]. constructor; try assumption. apply regular_units; exact A4. Qed.
  Lemma electrostatic_units : electrostatic P -> electrostatic (convert U P).
  Proof using UP.
    intros [A1 A2 A3 A4 A5 A6 A7 A8]. destruct (facts U UP) as (Hl&_). constructor; try assumption.
    - apply regular_units; exact A3.
    - cbn [convert pf convert_fcfg fdq1]. apply Rmult_lt_0_compat; auto.
    - cbn [convert pf convert_fcfg fdq2]. apply Rmult_lt_0_compat; auto.
  Qed.

  (** ** Initial fields *)
  Lemma placed_units o1 o2 (g : R -> R -> R) a i j :
    placed (convert_fcfg U (pf P)) o1 o2 (fun x y => a * g (x / u_len U) (y / u_len U)) i j = a * placed (pf P) o1 o2 g i j.
  Proof using UP.
    destruct (facts U UP) as (Hl&_). unfold placed. cbn [convert_fcfg fq1_start fq2_start fdq1 fdq2].
    f_equal. f_equal; field; lra.
  Qed.
  Lemma shifted_units E B :
    on_shifted_grid (convert_fcfg U (pf P)) (fun q1 q2 => times3 (u_E U) (at_len U E q1 q2)) (fun q1 q2 => times3 (u_B U) (at_len U B q1 q2))
    = convert_fields U (on_shifted_grid (pf P) E B).
  Proof using UP.
    unfold on_shifted_grid, on_yee_grid, convert_fields. cbn [E1 E2 E3 B1 B2 B3].
    f_equal; fext2; rewrite <- placed_units; reflexivity.
  Qed.
  Lemma curl_units E ab : regular (pf P) ->
    with_curl (convert_fcfg U (pf P)) (fun q1 q2 => let v := at_len U ab q1 q2 in (u_B U * u_len U * fst v, u_B U * snd v))
      (on_shifted_grid (convert_fcfg U (pf P)) (fun q1 q2 => times3 (u_E U) (at_len U E q1 q2)) (fun q1 q2 => times3 (u_E U) (at_len U E q1 q2)))
    = convert_fields U (with_curl (pf P) ab (on_shifted_grid (pf P) E E)).
  Proof using UP.
    intros (_&_&_&N1&N2). destruct (facts U UP) as (Hl&_).
    unfold with_curl, on_shifted_grid, on_yee_grid, convert_fields. cbn [E1 E2 E3 B1 B2 B3 convert_fcfg fdq1 fdq2].
    assert (A : forall i j, placed (convert_fcfg U (pf P)) (1/2) (1/2) (fun x y => fst (u_B U * u_len U * fst (at_len U ab x y), u_B U * snd (at_len U ab x y))) i j
       = u_B U * u_len U * placed (pf P) (1/2) (1/2) (fun x y => fst (ab x y)) i j).
    { intros. rewrite <- placed_units. reflexivity. }
    f_equal; fext2; try (rewrite <- placed_units; reflexivity).
    - unfold bwd2. rewrite !A. field. lra.
    - unfold bwd1. rewrite !A. field. lra.
  Qed.

  Lemma fields_units s s2 : regular (pf P) -> plasma P -> periodic_fvm c k1 -> user_defined (pf P) -> starts P s -> starts (convert U P) s2 ->
    same (view (lay c) (yee_val (fields s2))) (convert_fields U (view (lay c) (yee_val (fields s))))
    /\ same (view (lay c) (cc_val (fields s2))) (convert_fields U (view (lay c) (cc_val (fields s)))).
  Proof using UP.
    intros RG PM PF UD ((rho&H)&_) ((rho2&H2)&_).
    pose proof PM as [_ _ _ LY _ _ _]. pose proof (regular_units RG) as RG'. fold c in LY.
    destruct (grid_pos c k1 PF) as (P1&P2).
    assert (X : exists Y, same_on (gN1 (lay c)) (gN2 (lay c)) (view (lay c) (yee_val (fields s))) Y
       /\ same_on (gN1 (lay c)) (gN2 (lay c)) (view (lay c) (cc_val (fields s))) (centred Y)
       /\ same_on (gN1 (lay c)) (gN2 (lay c)) (view (lay c) (yee_val (fields s2))) (convert_fields U Y)
       /\ same_on (gN1 (lay c)) (gN2 (lay c)) (view (lay c) (cc_val (fields s2))) (convert_fields U (centred Y))).
    { destruct UD as [(E&B&D)|(E&ab&D)].
      - destruct (initial_EB (pf P) rho E B RG D) as (e&I&A1&A2).
        assert (D' : defines_EB (pf (convert U P)) (fun q1 q2 => times3 (u_E U) (at_len U E q1 q2)) (fun q1 q2 => times3 (u_B U) (at_len U B q1 q2))).
        { destruct D as (D1&D2&D3&D4). split; [exact D1|]. cbn [convert pf convert_fcfg init_E init_B init_A3_B3].
          rewrite D2, D3, D4. repeat split. }
        destruct (initial_EB (pf (convert U P)) rho2 _ _ RG' D') as (e2&I2&C1&C2).
        rewrite I in H. apply Ok_inj in H. subst e. rewrite I2 in H2. apply Ok_inj in H2. subst e2.
        rewrite LY in A1, A2. change (pf (convert U P)) with (convert_fcfg U (pf P)) in C1, C2.
        change (flay (convert_fcfg U (pf P))) with (flay (pf P)) in C1, C2. rewrite LY, shifted_units in C1, C2.
        rewrite centred_units in C2.
        exists (on_shifted_grid (pf P) E B). auto.
      - destruct (initial_EA (pf P) rho E ab RG D) as (e&I&A1&A2).
        assert (D' : defines_EA (pf (convert U P)) (fun q1 q2 => times3 (u_E U) (at_len U E q1 q2))
          (fun q1 q2 => let v := at_len U ab q1 q2 in (u_B U * u_len U * fst v, u_B U * snd v))).
        { destruct D as (D1&D2&D3&D4&D5). split; [exact D1|]. cbn [convert pf convert_fcfg init_E init_B init_A init_A3_B3].
          rewrite D2, D3, D4, D5. repeat split. }
        destruct (initial_EA (pf (convert U P)) rho2 _ _ RG' D') as (e2&I2&C1&C2).
        rewrite I in H. apply Ok_inj in H. subst e. rewrite I2 in H2. apply Ok_inj in H2. subst e2.
        rewrite LY in A1, A2. change (pf (convert U P)) with (convert_fcfg U (pf P)) in C1, C2.
        change (flay (convert_fcfg U (pf P))) with (flay (pf P)) in C1, C2. rewrite LY in C1, C2.
        rewrite curl_units in C1, C2 by exact RG.
        rewrite centred_units in C2.
        exists (with_curl (pf P) ab (on_shifted_grid (pf P) E E)). auto. }
    destruct X as (Y&A1&A2&A3&A4).
    assert (Q : forall (G : dist R) k i j, gper (lay c) G k 0 i j = gper (lay c) G k 0 (i mod gN1 (lay c)) (j mod gN2 (lay c))).
    { intros. unfold gper. rewrite !Zmod_mod. reflexivity. }
    assert (Z : forall F F' Y, (0 < gN1 (lay c))%Z -> (0 < gN2 (lay c))%Z ->
        same_on (gN1 (lay c)) (gN2 (lay c)) (view (lay c) F) Y -> same_on (gN1 (lay c)) (gN2 (lay c)) (view (lay c) F') (convert_fields U Y) ->
        same (view (lay c) F') (convert_fields U (view (lay c) F))).
    { intros F F' Z _ _ G1 G2.
      assert (MM : forall i j, inb (gN1 (lay c)) (i mod gN1 (lay c)) /\ inb (gN2 (lay c)) (j mod gN2 (lay c)))
        by (intros; split; apply Z.mod_pos_bound; auto).
      unfold same, view, convert_fields; cbn [E1 E2 E3 B1 B2 B3].
      repeat split; intros i j; rewrite (Q F'), (Q F); destruct (MM i j) as (M1&M2);
        destruct (G1 _ _ M1 M2) as (X1&X2&X3&X4&X5&X6); destruct (G2 _ _ M1 M2) as (Y1&Y2&Y3&Y4&Y5&Y6);
        cbn [view convert_fields E1 E2 E3 B1 B2 B3] in *;
        first [rewrite Y1, X1|rewrite Y2, X2|rewrite Y3, X3|rewrite Y4, X4|rewrite Y5, X5|rewrite Y6, X6]; reflexivity. }
    split; eapply Z; eauto.
  Qed.

  (** ** Runs *)
  Lemma clocks_units h : elapsed (convert_steps U h) = u_time U * elapsed h.
  Proof using.
    induction h as [|(m&dt) h IH]; cbn [convert_steps map elapsed fst snd]; [ring|]. fold (convert_steps U h). rewrite IH. ring.
  Qed.

  Lemma vm_units h s s2 u : wf_cfg c k1 k2 -> periodic_fvm c k1 -> plasma P -> maxwell P -> user_defined (pf P) ->
    starts P s -> holds c (f_of s) u -> starts (convert U P) s2 -> holds (pc (convert U P)) (f_of s2) (convert_f U u) ->
    time_elapsed s2 = u_time U * time_elapsed s ->
    exists r r2 T, run_steps (solver_stepper P) h s = Ok (r, None)
    /\ run_steps (solver_stepper (convert U P)) (convert_steps U h) s2 = Ok (r2, None)
    /\ vm_holds P r T /\ vm_holds (convert U P) r2 (convert_vm U T) /\ time_elapsed r2 = u_time U * time_elapsed r.
  Proof using UP.
    intros W PF PM MX UD S1 H1 S2 H2 TT.
    destruct (fields_units s s2 (mx_regular _ MX) PM PF UD S1 S2) as (FY&FC).
    set (S := VM u (view (lay c) (yee_val (fields s))) (view (lay c) (cc_val (fields s)))).
    assert (A : vm_holds P s S) by (split; [exact H1|split; repeat split]).
    assert (B : vm_holds (convert U P) s2 (convert_vm U S)) by (split; [exact H2|split; [exact FY|exact FC]]).
    destruct (vm_refines P k1 k2 W PF PM MX h s S S1 A) as (r&R&HR&T1&_).
    destruct (vm_refines (convert U P) k1 k2 (wf_units W) (periodic_units PF) (plasma_units PM) (maxwell_units MX) (convert_steps U h) s2 _ S2 B)
      as (r2&R2&HR2&T2&_).
    exists r, r2, (vm_run P k1 k2 (time_elapsed s) h S).
    split; [exact R|]. split; [exact R2|]. split; [exact HR|]. split.
    - rewrite TT, vm_run_units in HR2; [exact HR2|exact UP|]. destruct MX as [_ _ _ (_&X)]. exact X.
    - rewrite T1, T2, TT, clocks_units. ring.
  Qed.

  (** Electrostatics. *)
  Lemma wave_units N d i : wavenumber N (u_len U * d) i = wavenumber N d i / u_len U.
  Proof using. unfold wavenumber. unfold Rdiv. rewrite !Rinv_mult. ring. Qed.
  Lemma coulomb_units N1 N2 d1 d2 e k k' m n : (forall i j, k' i j = k i j / u_len U) ->
    coulomb N1 N2 (u_len U * d1) (u_len U * d2) (u_eps U * e) k' m n = u_len U / u_eps U * coulomb N1 N2 d1 d2 e k m n.
  Proof using UP.
    intros K. destruct (facts U UP) as (Hl&_). unfold coulomb.
    rewrite (zsum_ext N1 _ (fun i => u_len U * zsum N2 (fun j =>
      if ((i =? 0) && (j =? 0))%Z%bool then 0
      else k i j / (wavenumber N1 d1 i ^ 2 + wavenumber N2 d2 j ^ 2)
           * sin (2 * PI * (IZR i * IZR m / IZR N1 + IZR j * IZR n / IZR N2))))).
    - rewrite zsum_scal. unfold Rdiv. rewrite !Rinv_mult. ring.
    - intros i _. rewrite <- zsum_scal. apply zsum_ext. intros j _. destruct (_ && _)%bool; [ring|].
      rewrite K, !wave_units.
      replace ((wavenumber N1 d1 i / u_len U) ^ 2 + (wavenumber N2 d2 j / u_len U) ^ 2)
        with ((wavenumber N1 d1 i ^ 2 + wavenumber N2 d2 j ^ 2) * / (u_len U ^ 2)) by (field; lra).
      unfold Rdiv. rewrite !Rinv_mult, Rinv_inv. generalize (/ (wavenumber N1 d1 i ^ 2 + wavenumber N2 d2 j ^ 2)); intros D.
      generalize (sin (2 * PI * (IZR i * IZR m * / IZR N1 + IZR j * IZR n * / IZR N2))); intros S. field. lra.
  Qed.
  Lemma density_units u i j : charge_density (convert U P) (convert_f U u) i j
    = u_charge U * u_f U * u_vel U ^ 3 * charge_density P u i j.
  Proof using.
    unfold charge_density. rewrite (charge_moment_units U P (fun _ _ _ => 1) _ 1 (fun x s => u x s i j) _ (u_f U)); try (intros; reflexivity).
    - ring.
    - intros; ring.
  Qed.
  Lemma es_units bg u : es_fields (convert U P) (convert_fields U bg) (convert_f U u) = convert_fields U (es_fields P bg u).
  Proof using UP.
    destruct (facts U UP) as (Hl&HT&HV&HF&HQ&HE&HB&VT). destruct (eps_units U UP) as (NE&_).
    assert (K : u_len U / u_eps U * (u_charge U * u_f U * u_vel U ^ 3) = u_E U).
    { unfold u_eps. field. repeat split; auto; lra. }
    unfold es_fields. cbn [convert pf pc convert_fcfg convert_cfg lay fdq1 fdq2 eps].
    unfold convert_fields; cbn [E1 E2 E3 B1 B2 B3]. f_equal; fext2; unfold field_of, coulomb1, coulomb2.
    - rewrite <- K, <- zsum_scal. apply zsum_ext. intros. rewrite <- zsum_scal. apply zsum_ext. intros.
      rewrite density_units. rewrite (coulomb_units _ _ _ _ _ (fun i _ => wavenumber (gN1 (lay (pc P))) (fdq1 (pf P)) i)).
      + ring.
      + intros; apply wave_units.
    - rewrite <- K, <- zsum_scal. apply zsum_ext. intros. rewrite <- zsum_scal. apply zsum_ext. intros.
      rewrite density_units. rewrite (coulomb_units _ _ _ _ _ (fun _ j => wavenumber (gN2 (lay (pc P))) (fdq2 (pf P)) j)).
      + ring.
      + intros; apply wave_units.
  Qed.

  Lemma vp_half_units bg t dt u : vp_half (convert U P) k1 k2 (convert_fields U bg) (u_time U * t) (u_time U * dt) (convert_f U u)
    = convert_f U (vp_half P k1 k2 bg t dt u).
  Proof using UP.
    destruct (facts U UP) as (_&HT&_). unfold vp_half. fext4. rewrite es_units.
    rewrite (rhs_units U UP _ _ _ _ _ _ _ (problem_units U UP P k1 k2 t (es_fields P bg u))).
    unfold convert_f. field. lra.
  Qed.
  Lemma vp_step_units bg t dt u : vp_step (convert U P) k1 k2 (convert_fields U bg) (u_time U * t) (u_time U * dt) (convert_f U u)
    = convert_f U (vp_step P k1 k2 bg t dt u).
  Proof using UP.
    destruct (facts U UP) as (_&HT&_). unfold vp_step. fext4. rewrite vp_half_units, es_units.
    rewrite (rhs_units U UP _ _ _ _ _ _ _ (problem_units U UP P k1 k2 t (es_fields P bg (vp_half P k1 k2 bg t dt u)))).
    unfold convert_f. field. lra.
  Qed.
  Lemma vp_run_units bg h : forall t u C,
    vp_run (convert U P) k1 k2 (convert_fields U bg) (u_time U * t) (convert_steps U h) (convert_f U u) = convert_f U (vp_run P k1 k2 bg t h u)
    /\ vp_fields (convert U P) k1 k2 (convert_fields U bg) (u_time U * t) (convert_steps U h) (convert_f U u) (convert_fields U C)
       = convert_fields U (vp_fields P k1 k2 bg t h u C).
  Proof using UP.
    induction h as [|(m&dt) h IH]; intros t u C; cbn [convert_steps map vp_run vp_fields fst snd]; [split; reflexivity|].
    fold (convert_steps U h). rewrite vp_step_units, vp_half_units, es_units.
    replace (u_time U * t + u_time U * dt) with (u_time U * (t + dt)) by ring. apply IH.
  Qed.

  Lemma es_run_units h s s2 u : wf_cfg c k1 k2 -> periodic_fvm c k1 -> plasma P -> electrostatic P -> user_defined (pf P) ->
    starts P s -> holds c (f_of s) u -> starts (convert U P) s2 -> holds (pc (convert U P)) (f_of s2) (convert_f U u) ->
    time_elapsed s2 = u_time U * time_elapsed s ->
    exists r r2 v, run_steps (solver_stepper P) h s = Ok (r, None)
    /\ run_steps (solver_stepper (convert U P)) (convert_steps U h) s2 = Ok (r2, None)
    /\ holds c (f_of r) v /\ holds (pc (convert U P)) (f_of r2) (convert_f U v)
    /\ same (view (lay c) (fst (get_fields (pf (convert U P)) (fields r2))))
            (convert_fields U (view (lay c) (fst (get_fields (pf P) (fields r))))).
  Proof using UP.
    intros W PF PM ES UD S1 H1 S2 H2 TT. pose proof (electrostatic_units ES) as ES'.
    destruct (fields_units s s2 (el_regular _ ES) PM PF UD S1 S2) as (_&FC).
    destruct (vp_program P k1 k2 W PF PM ES h s u S1 H1) as (r&R&_&HR&FR).
    destruct (vp_program (convert U P) k1 k2 (wf_units W) (periodic_units PF) (plasma_units PM) ES' (convert_steps U h) s2 _ S2 H2)
      as (r2&R2&_&HR2&FR2).
    rewrite (cc_is_got P (fields s) ES) in HR, FR. rewrite (cc_is_got P (fields r) ES) in FR.
    rewrite (cc_is_got _ (fields s2) ES') in HR2, FR2. rewrite (cc_is_got _ (fields r2) ES') in FR2.
    change (lay (pc (convert U P))) with (lay c) in HR2, FR2. fold c in HR, FR.
    apply same_eq in FC. rewrite FC in HR2, FR2. rewrite TT in HR2, FR2.
    destruct (vp_run_units (view (lay c) (cc_val (fields s))) h (time_elapsed s) u (view (lay c) (cc_val (fields s)))) as (E1&E2).
    rewrite E1 in HR2. rewrite E2 in FR2.
    exists r, r2, (vp_run P k1 k2 (view (lay c) (cc_val (fields s))) (time_elapsed s) h u).
    split; [exact R|]. split; [exact R2|]. split; [exact HR|]. split; [exact HR2|].
    rewrite (cc_is_got P (fields r) ES), (cc_is_got _ (fields r2) ES'). apply same_eq in FR. rewrite FR. exact FR2.
  Qed.

  (** No fields. *)
  Let zero : lattice := Lattice (fun _ _ => 0) (fun _ _ => 0) (fun _ _ => 0) (fun _ _ => 0) (fun _ _ => 0) (fun _ _ => 0).
  Lemma no_fields_problem P' t : prob (pc P') k1 k2 t TimeTerms.no_fields = vm_problem P' k1 k2 t zero.
  Proof using.
    unfold vm_problem, TimeTerms.no_fields.
    assert (E : components zero = fun _ _ _ => 0).
    { do 3 (apply functional_extensionality; intro). unfold components, zero. cbn [E1 E2 E3 B1 B2 B3].
      repeat match goal with |- context [if ?b then _ else _] => destruct b end; reflexivity. }
    rewrite E. reflexivity.
  Qed.
  Lemma frozen_units h : forall t u,
    frozen_run (convert_cfg U c) k1 k2 (u_time U * t) (convert_steps U h) (convert_f U u) = convert_f U (frozen_run c k1 k2 t h u).
  Proof using UP.
    assert (Z : convert_fields U zero = zero) by (unfold convert_fields, zero; cbn [E1 E2 E3 B1 B2 B3]; f_equal; fext2; ring).
    induction h as [|(m&dt) h IH]; intros t u; cbn [convert_steps map frozen_run fst snd]; [reflexivity|].
    fold (convert_steps U h). cbv zeta.
    rewrite (no_fields_problem (convert U P)), (no_fields_problem P).
    rewrite <- Z at 1 2. rewrite (midpoint_units U UP (vm_problem P k1 k2 t zero) _ (vm_problem P k1 k2 t zero) _) by apply (problem_units U UP P k1 k2 t zero).
    replace (u_time U * t + u_time U * dt) with (u_time U * (t + dt)) by ring. apply IH.
  Qed.
  Lemma free_units h s s2 u : wf_cfg c k1 k2 -> periodic_fvm c k1 -> fields_enabled c = false ->
    holds c (f_of s) u -> holds (pc (convert U P)) (f_of s2) (convert_f U u) -> time_elapsed s2 = u_time U * time_elapsed s ->
    exists r r2 v, run_steps (solver_stepper P) h s = Ok (r, None)
    /\ run_steps (solver_stepper (convert U P)) (convert_steps U h) s2 = Ok (r2, None)
    /\ holds c (f_of r) v /\ holds (pc (convert U P)) (f_of r2) (convert_f U v).
  Proof using UP.
    intros W PF Off H1 H2 TT.
    destruct (frozen P k1 k2 Off W PF h s u H1) as (r&R&_&HR).
    destruct (frozen (convert U P) k1 k2 Off (wf_units W) (periodic_units PF) (convert_steps U h) s2 _ H2) as (r2&R2&_&HR2).
    exists r, r2, (frozen_run c k1 k2 (time_elapsed s) h u). split; [exact R|]. split; [exact R2|]. split; [exact HR|].
    change (pc (convert U P)) with (convert_cfg U c) in HR2 at 2. rewrite TT, frozen_units in HR2. exact HR2.
  Qed.
End Setups.

(** ** Opposite charges *)
Definition opposite : units := Units 1 1 1 (-1) (-1).
Lemma opposite_proper : proper opposite.
Proof. unfold proper, opposite; cbn [u_len u_time u_f u_charge u_E]. lra. Qed.
Lemma map_one (l : list R) a : a = 1 -> map (Rmult a) l = l.
Proof. intros ->. induction l as [|x l IH]; cbn [map]; [reflexivity|]. rewrite IH, Rmult_1_l. reflexivity. Qed.
Lemma opposite_vel : u_vel opposite = 1. Proof. unfold u_vel; cbn [opposite u_len u_time]. lra. Qed.
Lemma opposite_B : u_B opposite = -1. Proof. unfold u_B. rewrite opposite_vel. cbn [opposite u_E]. lra. Qed.
Lemma opposite_eps : u_eps opposite = 1.
Proof. unfold u_eps. rewrite opposite_vel. cbn [opposite u_len u_f u_charge u_E]. field. Qed.
Lemma opposite_mu : u_mu opposite = 1.
Proof. unfold u_mu. rewrite opposite_eps, opposite_vel. field. Qed.
Lemma div1 x : x / 1 = x. Proof. field. Qed.
Lemma times3_minus v : times3 (-1) v = minus3 v.
Proof. unfold times3, minus3. f_equal; [f_equal|]; ring. Qed.
Lemma times3_one v : times3 1 v = v.
Proof. destruct v as ((x&y)&z). unfold times3; cbn [fst snd]. rewrite !Rmult_1_l. reflexivity. Qed.
Lemma times2_one v : times2 1 v = v.
Proof. destruct v as (x&y). unfold times2; cbn [fst snd]. rewrite !Rmult_1_l. reflexivity. Qed.
Ltac fext := repeat (apply functional_extensionality; intro).
Lemma opposite_cfg c : convert_cfg opposite c = reversed_cfg c.
Proof.
  unfold convert_cfg, reversed_cfg, in_units. rewrite opposite_vel, opposite_B. cbn [opposite u_len u_time u_f u_E].
  rewrite !Rmult_1_l, !map_one, !div1 by reflexivity.
  assert (D : forall x, x / -1 = - x) by (intros; field).
  f_equal; fext; rewrite ?div1, ?D, ?times2_one, ?times3_one, ?Rmult_1_l; try reflexivity.
  f_equal. fext. apply div1.
Qed.
Lemma opposite_fcfg c : convert_fcfg opposite c = reversed_fcfg c.
Proof.
  unfold convert_fcfg, reversed_fcfg, at_len. rewrite opposite_B, opposite_eps, opposite_mu. cbn [opposite u_len u_time u_f u_E].
  rewrite !Rmult_1_l, !Rmult_1_r.
  f_equal; f_equal; fext; cbv zeta; rewrite ?div1, ?times3_minus; try reflexivity; f_equal; ring.
Qed.
Lemma opposite_params P : convert opposite P = reversed P.
Proof.
  unfold convert, reversed. rewrite opposite_cfg, opposite_fcfg. cbn [opposite u_len u_time u_f u_charge].
  f_equal.
  - apply map_ext. intros; ring.
  - fext. rewrite ?div1, ?Rmult_1_l. f_equal. fext. apply div1.
Qed.
Lemma opposite_f u : convert_f opposite u = u.
Proof. unfold convert_f. cbn [opposite u_f]. fext. ring. Qed.
Lemma opposite_fields Y : convert_fields opposite Y = reversed_fields Y.
Proof. unfold convert_fields, reversed_fields. rewrite opposite_B. cbn [opposite u_E]. f_equal; fext; ring. Qed.
Lemma opposite_steps h : convert_steps opposite h = h.
Proof.
  unfold convert_steps. induction h as [|(m&dt) h IH]; cbn [map fst snd]; [reflexivity|]. rewrite IH. cbn [opposite u_time].
  rewrite Rmult_1_l. reflexivity.
Qed.

Lemma vm_reversed P k1 k2 h s s2 u : wf_cfg (pc P) k1 k2 -> periodic_fvm (pc P) k1 -> plasma P -> maxwell P -> user_defined (pf P) ->
  starts P s -> holds (pc P) (f_of s) u -> starts (reversed P) s2 -> holds (pc P) (f_of s2) u -> time_elapsed s2 = time_elapsed s ->
  exists r r2 S, run_steps (solver_stepper P) h s = Ok (r, None) /\ run_steps (solver_stepper (reversed P)) h s2 = Ok (r2, None)
  /\ vm_holds P r S /\ vm_holds (reversed P) r2 (VM (vm_f S) (reversed_fields (vm_yee S)) (reversed_fields (vm_cc S))).
Proof.
  intros W PF PM MX UD S1 H1 S2 H2 TT. rewrite <- opposite_params in *.
  destruct (vm_units opposite opposite_proper P k1 k2 h s s2 u W PF PM MX UD S1 H1 S2) as (r&r2&S&R1&R2&V1&V2&_).
  - rewrite opposite_f. exact H2.
  - rewrite TT. cbn [opposite u_time]. ring.
  - rewrite opposite_steps in R2. exists r, r2, S. unfold convert_vm in V2. rewrite opposite_f, !opposite_fields in V2. auto.
Qed.
Lemma es_reversed P k1 k2 h s s2 u : let L := lay (pc P) in
  wf_cfg (pc P) k1 k2 -> periodic_fvm (pc P) k1 -> plasma P -> electrostatic P -> user_defined (pf P) ->
  starts P s -> holds (pc P) (f_of s) u -> starts (reversed P) s2 -> holds (pc P) (f_of s2) u -> time_elapsed s2 = time_elapsed s ->
  exists r r2 v, run_steps (solver_stepper P) h s = Ok (r, None) /\ run_steps (solver_stepper (reversed P)) h s2 = Ok (r2, None)
  /\ holds (pc P) (f_of r) v /\ holds (pc P) (f_of r2) v
  /\ same (view L (fst (get_fields (pf (reversed P)) (fields r2)))) (reversed_fields (view L (fst (get_fields (pf P) (fields r))))).
Proof.
  intros L W PF PM MX UD S1 H1 S2 H2 TT. rewrite <- opposite_params in *.
  destruct (es_run_units opposite opposite_proper P k1 k2 h s s2 u W PF PM MX UD S1 H1 S2) as (r&r2&S&R1&R2&V1&V2&V3).
  - rewrite opposite_f. exact H2.
  - rewrite TT. cbn [opposite u_time]. ring.
  - rewrite opposite_steps in R2. exists r, r2, S. rewrite opposite_f in V2. rewrite opposite_fields in V3. auto.
Qed.
