(** Electrostatic runs are the Vlasov-Poisson program with the explicit field. *)
From Coq Require Import ZArith Reals Lia Lra String List Bool.
From Verif Require Import Base.Prelude Base.ZSum Base.Cplx Model.Af Model.Petsc Model.Config
  Model.Fft Model.Fvm Model.Em Model.Moments Model.Splitting Model.SemiLag Model.Timestep Model.Solver Spec.Domain Spec.Lattice Spec.FvmProblem Spec.FvmRun
  Spec.Yee Spec.EmRun Spec.Dft Spec.Waves Spec.MomentSpec Spec.Clock Spec.SolverSpec Spec.VlasovMaxwell Spec.Poisson Proofs.AfLemmas Proofs.PetscLemmas Proofs.ConvLemmas
  Proofs.FvmLemmas Proofs.FvmLemmas2
  Proofs.EmLemmas Proofs.EmStep Proofs.EmGrids Proofs.MomentLemmas Proofs.EmInit Proofs.DftLemmas Proofs.PoissonLemmas Proofs.PoissonKernel Proofs.Electrostatic
  Proofs.TimestepLemmas Proofs.SolverLemmas Proofs.StageLemmas Proofs.ChargeLemmas Proofs.FieldRun Proofs.VlasovPoisson.
Import ListNotations.
Local Open Scope R_scope.

Lemma field_of_ext N1 N2 K r r' i j : (forall a b, inb N1 a -> inb N2 b -> r a b = r' a b) ->
  field_of N1 N2 K r i j = field_of N1 N2 K r' i j.
Proof. intros H. unfold field_of. apply zsum_ext; intros a Ha. apply zsum_ext; intros b Hb. rewrite H by auto. reflexivity. Qed.

Lemma electrostatic_is P : electrostatic P -> fields_type P = "electrostatic"%string /\ electrostatic_ok (pf P).
Proof. intros [A B C D E F G H]. split; auto. split; [exact C|]. auto 10. Qed.

(** The six components on the whole grid. *)
Definition shown (L : layout) (F : dist R) (C : lattice) : Prop := forall n i j, inb 6 n -> inb (gN1 L) i -> inb (gN2 L) j ->
  gval L F n 0 i j = components C n i j.

Section VP.
  Context (P : params) (k1 k2 : scheme).
  Let c := pc P.
  Let L := lay c.
  Let N1 := gN1 L. Let N2 := gN2 L.
  Context (W : wf_cfg c k1 k2) (PF : periodic_fvm c k1) (PM : plasma P) (ES : electrostatic P).

  Lemma shown_shows F C : shown L F C -> shows L F (components C).
  Proof using PF.
    intros H r1 r2 i j n RK Hi Hj Hn. pose proof PF as (_&_&(T1&T2&_)&_). fold c L in T1, T2.
    destruct (T1) as (_&F1&E1). destruct T2 as (_&F2&E2). destruct RK as (R1&R2).
    pose proof (off_nonneg (blk1 L) r1 F1). pose proof (off_nonneg (blk2 L) r2 F2).
    pose proof (off_end (blk1 L) r1 F1 R1). pose proof (off_end (blk2 L) r2 F2 R2).
    rewrite <- H; auto; [|unfold inb in *; lia|unfold inb in *; lia].
    symmetry. apply gval_interior; auto. split; auto.
  Qed.

  Lemma es_seen t dt F U e C : covered P F U -> wf_em (pf P) e -> shown L (cc_val e) C ->
    exists A e', fields_seen P t dt F e = Ok (A, e') /\ wf_em (pf P) e' /\ ftime e' = ftime e
    /\ (let X := components (es_fields P C U) in shows3 L A (X, X, X))
    /\ shown L (cc_val e') (es_fields P C U).
  Proof using W PF PM ES.
    intros CV We SC. pose proof PM as [TB GR CH LY MP MF ON].
    destruct (electrostatic_is P ES) as (FT&EO). pose proof EO as (RG&G1&G2&Q1&Q2&FS&CS).
    pose proof PF as (HQ&HE&PL&_). fold c L in LY, MP, ON, PL.
    assert (SH : shaped L (N_p c) (N_species c) F) by (eapply covered_shaped; exact CV).
    destruct (charge_moment_el P k1 k2 W PL PM "density" (fun _ _ _ => 1) F (fun _ _ _ => eq_refl) SH) as (m&Em&Sm&Vm). fold c L in Sm, Vm.
    assert (Sm' : shaped (flay (pf P)) 1 1 (dmap asum1 (times_charge P m))) by (rewrite LY; exact Sm).
    destruct (electrostatic_fields (pf P) (times_charge P m) e EO We Sm') as (e1&E1&W1&S1&V1&K1&Y1).
    rewrite LY in V1, K1. fold c L in V1, K1.
    destruct (face_values_ok P k1 k2 W PF t F U CV) as (fl&fb&Ef).
    assert (UF : update_fields P t dt F e = Ok e1).
    { unfold update_fields. rewrite Ef. cbn [rbind]. rewrite FT. cbn [String.eqb Ascii.eqb Bool.eqb andb rbind].
      rewrite FS. cbn [String.eqb Ascii.eqb Bool.eqb]. rewrite Em. cbn [rbind]. exact E1. }
    assert (FTM : ftime e1 = ftime e).
    { unfold compute_electrostatic_fields, electrostatic_update, fft_poisson in E1. rewrite FS in E1.
      cbn [String.eqb Ascii.eqb Bool.eqb] in E1. rewrite CS in E1. cbn [Nat.eqb negb rbind] in E1.
      rewrite apply_bcs_fields_periodic in E1 by apply RG. apply Ok_inj in E1. rewrite <- E1. reflexivity. }
    assert (HF : shown L (cc_val e1) (es_fields P C U)).
    { destruct (one_rank (pf P)) as (B1'&B2'); [apply RG|apply RG|exact CS|]. rewrite LY in B1', B2', G1, G2. fold L in B1', B2', G1, G2.
      assert (RK : rank_ok L 0 0) by (unfold rank_ok; rewrite B1', B2'; cbn; lia).
      assert (PN : (0 < N1)%Z /\ (0 < N2)%Z) by (split; [apply PL|apply PL]).
      assert (PG : (0 < fN_g (pf P))%Z) by (rewrite <- G1; apply PL).
      set (rho := asum1 (times_charge P m 0%nat 0%nat)) in *.
      assert (DR : dims4 rho 1 1 (N1 + 2 * fN_g (pf P)) (N2 + 2 * fN_g (pf P))).
      { destruct (Sm 0%nat 0%nat RK) as (D0&D1&D2&D3). unfold dmap in D0, D1, D2, D3. fold rho in D0, D1, D2, D3.
        unfold n1g, n2g, bsize in D2, D3. rewrite B1', G1 in D2. rewrite B2', G2 in D3. cbn [nth] in D2, D3.
        repeat split; auto. }
      assert (RH : forall i j, inb N1 i -> inb N2 j -> el rho 0 0 (fN_g (pf P) + i)%Z (fN_g (pf P) + j)%Z = charge_density P U i j).
      { intros i j Hi Hj. unfold charge_density, rho.
        assert (Ri : inb (n1g L 0) (fN_g (pf P) + i)%Z).
        { unfold n1g, bsize. rewrite B1', G1. cbn [nth]. fold N1. unfold inb in *. lia. }
        assert (Rj : inb (n2g L 0) (fN_g (pf P) + j)%Z).
        { unfold n2g, bsize. rewrite B2', G2. cbn [nth]. fold N2. unfold inb in *. lia. }
        rewrite (Vm 0%nat 0%nat _ _ RK Ri Rj). apply charge_moment_ext. intros x s Hx Hs.
        destruct (CV 0%nat 0%nat RK) as (_&VC). rewrite VC by auto. fold c L. fold N1 N2.
        unfold off. rewrite G1, G2. cbn [firstn zlsum fold_right].
        f_equal; (match goal with |- (?a mod _)%Z = ?b => replace a with b by lia end; apply Z.mod_small; unfold inb in *; lia). }
      intros n i j Hn Hi Hj. destruct (V1 i j Hi Hj) as (Va&Vb).
      destruct (fft_kernel (fN_g (pf P)) N1 N2 PG (proj1 PN) (proj2 PN) (fdq1 (pf P)) (fdq2 (pf P)) (eps (pf P)) Q1 Q2
                  (proj1 (proj2 (proj2 RG))) rho DR i j Hi Hj) as (Ka&Kb).
      assert (n = 0 \/ n = 1 \/ 2 <= n < 6)%Z as [->|[->|Hn2]] by (unfold inb in Hn; lia).
      - rewrite Va, Ka. cbn [components Z.eqb Yee.E1 es_fields]. apply field_of_ext. intros; apply RH; auto.
      - rewrite Vb, Kb. cbn [components Z.eqb Pos.eqb Yee.E2 es_fields]. apply field_of_ext. intros; apply RH; auto.
      - rewrite K1, SC by auto. unfold components, es_fields. cbn [Yee.E1 Yee.E2 Yee.E3 Yee.B1 Yee.B2 Yee.B3].
        replace (n =? 0)%Z with false by lia. replace (n =? 1)%Z with false by lia. reflexivity. }
    exists (fun r1 r2 => (cc_val e1 r1 r2, cc_val e1 r1 r2, cc_val e1 r1 r2)),
           (set_at_n (negb (negb (negb (at_n e1)))) e1).
    split.
    { unfold fields_seen. fold c. rewrite MP, ON. cbn [String.eqb Ascii.eqb Bool.eqb andb]. rewrite UF. cbn [rbind].
      rewrite !get_fields_fft by auto. reflexivity. }
    split; [apply wf_at_n; exact W1|]. split; [exact FTM|]. split; [|exact HF].
    split; [|split]; apply shown_shows; exact HF.
  Qed.

  Lemma es_fields_bg C U V : es_fields P (es_fields P C U) V = es_fields P C V.
  Proof using. reflexivity. Qed.

  (** One step. *)
  Lemma vp_op dt s u C : holds c (f_of s) u -> wf_em (pf P) (fields s) -> shown L (cc_val (fields s)) C ->
    exists s', op_fvm P dt s = Ok s' /\ wf_em (pf P) (fields s') /\ time_elapsed s' = time_elapsed s
    /\ holds c (f_of s') (vp_step P k1 k2 C (time_elapsed s) dt u)
    /\ shown L (cc_val (fields s')) (es_fields P C (vp_half P k1 k2 C (time_elapsed s) dt u)).
  Proof using W PF PM ES.
    intros HU We SC. destruct (op_fvm_stages P k1 k2 W PF dt s u HU) as (x0&R0&C0&ST).
    destruct (es_seen (time_elapsed s) (cur_dt s) (sf x0) u (fields s) C C0 We SC) as (A0&e0&F0&W0&T0&S0&H0).
    destruct (ST A0 e0 _ F0 S0) as (xh&Ch&ST2).
    destruct (es_seen (time_elapsed s) (cur_dt s) (sf xh) _ e0 (es_fields P C u) Ch W0 H0) as (Ah&eh&Fh&Wh&Th&Sh&Hh).
    destruct (ST2 Ah eh _ Fh Sh) as (s'&OP&FE&TE&DE&HH).
    exists s'. rewrite FE. split; [exact OP|]. split; [exact Wh|]. split; [exact TE|].
    split; [exact HH|exact Hh].
  Qed.

  Let M := solver_stepper P.
  Lemma vp_history h : forall s u bg C, holds c (f_of s) u -> wf_em (pf P) (fields s) -> shown L (cc_val (fields s)) C ->
    (forall U, es_fields P C U = es_fields P bg U) ->
    exists s', run_steps M h s = Ok (s', None) /\ wf_em (pf P) (fields s') /\ time_elapsed s' = time_elapsed s + elapsed h
    /\ holds c (f_of s') (vp_run P k1 k2 bg (time_elapsed s) h u)
    /\ shown L (cc_val (fields s')) (vp_fields P k1 k2 bg (time_elapsed s) h u C).
  Proof using W PF PM ES.
    induction h as [|(m&dt) h IH]; intros s u bg C HU We SC BG; cbn [run_steps vp_run vp_fields].
    - exists s. cbn [elapsed]. rewrite Rplus_0_r. auto.
    - destruct (vp_op dt (set_dt M dt s) u C HU We SC) as (s1&OP&W1&T1&H1&F1).
      change (time_elapsed (set_dt M dt s)) with (time_elapsed s) in *.
      change (fields (set_dt M dt s)) with (fields s) in *.
      assert (ST : step_of M m dt s = Ok (set_clock M (clock M s1 + dt) s1, None)).
      { rewrite (fvm_step_eq M m dt s); [|apply PF|left; apply PM].
        change (Timestep.op_fvm M) with (op_fvm P). rewrite OP. cbn [rbind].
        assert (D : diverged M s1 = false) by (apply finite_iff, solver_finite). rewrite D. reflexivity. }
      rewrite ST. cbn [rbind].
      set (s2 := set_clock M (clock M s1 + dt) s1).
      assert (HALF : vp_half P k1 k2 C (time_elapsed s) dt u = vp_half P k1 k2 bg (time_elapsed s) dt u)
        by (unfold vp_half; rewrite BG; reflexivity).
      assert (STEP : vp_step P k1 k2 C (time_elapsed s) dt u = vp_step P k1 k2 bg (time_elapsed s) dt u)
        by (unfold vp_step; rewrite HALF, BG; reflexivity).
      rewrite STEP in H1. rewrite HALF, BG in F1.
      assert (T2 : time_elapsed s2 = time_elapsed s + dt) by (unfold s2; cbn; rewrite T1; reflexivity).
      destruct (IH s2 _ bg _ H1 W1 F1 (fun U => eq_refl)) as (s'&RS&WV&TV&HV&FV).
      rewrite T2 in HV, FV, TV. exists s'. split; [exact RS|]. split; [exact WV|].
      split; [cbn [elapsed]; rewrite TV; ring|]. auto.
  Qed.

  Lemma shown_view F : shown L F (view L F).
  Proof using PF.
    intros n i j Hn Hi Hj. unfold components, view. cbn [Yee.E1 Yee.E2 Yee.E3 Yee.B1 Yee.B2 Yee.B3].
    assert (Q : forall k, gper L F k 0 i j = gval L F k 0 i j).
    { intros k. unfold gper. unfold inb in Hi, Hj. rewrite !Z.mod_small by lia. reflexivity. }
    rewrite !Q. unfold inb in Hn.
    assert (n = 0 \/ n = 1 \/ n = 2 \/ n = 3 \/ n = 4 \/ n = 5)%Z as [->|[->|[->|[->|[->| ->]]]]] by lia; reflexivity.
  Qed.

  Lemma vp_refines h s u : starts P s -> holds c (f_of s) u -> let C := view L (cc_val (fields s)) in
    exists s', run_steps M h s = Ok (s', None) /\ time_elapsed s' = time_elapsed s + elapsed h
    /\ holds c (f_of s') (vp_run P k1 k2 C (time_elapsed s) h u)
    /\ shown L (cc_val (fields s')) (vp_fields P k1 k2 C (time_elapsed s) h u C).
  Proof using W PF PM ES.
    intros ((rho&H)&_) HU C.
    pose proof (init_good _ _ _ (el_regular P ES) H) as (GE&_).
    destruct (vp_history h s u C C HU GE (shown_view _) (fun U => eq_refl)) as (s'&RS&_&T&HV&FV).
    exists s'. auto.
  Qed.
End VP.
