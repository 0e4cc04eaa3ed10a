(** Electrostatic runs: the fields of every evaluation solve the Poisson equation
    for the charge density of the state they act on. *)
From Coq Require Import ZArith Reals Lia Lra String List Bool.
From Verif Require Import Base.Prelude Base.ZSum Base.Cplx Model.Af Model.Petsc Model.Config
  Model.Fft Model.Fvm Model.Em Model.Moments Model.Splitting Model.SemiLag Model.Timestep Model.Solver Spec.Domain Spec.Lattice Spec.FvmProblem Spec.FvmRun
  Spec.Yee Spec.EmRun Spec.Dft Spec.Waves Spec.MomentSpec Spec.Clock Spec.SolverSpec Proofs.AfLemmas Proofs.PetscLemmas Proofs.ConvLemmas
  Proofs.FvmLemmas Proofs.FvmLemmas2
  Proofs.EmLemmas Proofs.EmStep Proofs.EmGrids Proofs.MomentLemmas Proofs.EmInit Proofs.DftLemmas Proofs.PoissonLemmas Proofs.Electrostatic
  Proofs.TimestepLemmas Proofs.SolverLemmas Proofs.StageLemmas Proofs.ChargeLemmas Proofs.FieldRun.
Import ListNotations.
Local Open Scope R_scope.

Lemma mean2_ext N1 N2 a b : (forall i j, inb N1 i -> inb N2 j -> a i j = b i j) -> Waves.mean2 N1 N2 a = Waves.mean2 N1 N2 b.
Proof.
  intros H. unfold Waves.mean2. f_equal. apply zsum_ext; intros i Hi. apply zsum_ext; intros j Hj. apply H; auto.
Qed.
Lemma poisson_field_ext N1 N2 dq1 dq2 eps r r' e1 e1' e2 e2' :
  (forall i j, inb N1 i -> inb N2 j -> r i j = r' i j) ->
  (forall i j, inb N1 i -> inb N2 j -> e1 i j = e1' i j) ->
  (forall i j, inb N1 i -> inb N2 j -> e2 i j = e2' i j) ->
  poisson_field N1 N2 dq1 dq2 eps r e1 e2 -> poisson_field N1 N2 dq1 dq2 eps r' e1' e2'.
Proof.
  intros Hr H1 H2. unfold poisson_field. cbv zeta.
  assert (X1 : forall i j, dft2 N1 N2 (fun i j => RtoC (e1' i j)) i j = dft2 N1 N2 (fun i j => RtoC (e1 i j)) i j)
    by (intros; apply dft2_ext; intros; rewrite H1; auto).
  assert (X2 : forall i j, dft2 N1 N2 (fun i j => RtoC (e2' i j)) i j = dft2 N1 N2 (fun i j => RtoC (e2 i j)) i j)
    by (intros; apply dft2_ext; intros; rewrite H2; auto).
  assert (M : Waves.mean2 N1 N2 r' = Waves.mean2 N1 N2 r) by (symmetry; apply mean2_ext; auto).
  assert (X3 : forall i j, dft2 N1 N2 (fun m n => RtoC (r' m n - Waves.mean2 N1 N2 r')) i j
                         = dft2 N1 N2 (fun m n => RtoC (r m n - Waves.mean2 N1 N2 r)) i j).
  { intros. rewrite M. apply dft2_ext. intros. rewrite Hr; auto. }
  rewrite <- (mean2_ext N1 N2 e1 e1'), <- (mean2_ext N1 N2 e2 e2') by auto.
  intros (A&B&C&D&E). split; [exact A|]. split; [exact B|]. split; [|split].
  - intros i j Hi Hj Rs. rewrite X1, X2, X3. apply C; auto.
  - intros i j Hi Hj Q. rewrite X1. apply D; auto.
  - intros i j Hi Hj Q. rewrite X2. apply E; auto.
Qed.

Lemma get_fields_fft c e : fields_solver c = "fft"%string -> method_in_p c = "FVM"%string ->
  get_fields c e = (cc_val e, set_at_n (negb (at_n e)) e).
Proof. intros A B. unfold get_fields. rewrite A, B. reflexivity. Qed.

Section VP.
  Context (P : params) (k1 k2 : scheme).
  Let c := pc P.
  Let L := lay c.
  Let N1 := gN1 L. Let N2 := gN2 L.
  Context (W : wf_cfg c k1 k2) (PF : periodic_fvm c k1) (PM : plasma P)
          (FT : fields_type P = "electrostatic"%string) (EO : electrostatic_ok (pf P)).

  Lemma face_values_ok t F U : covered P F U -> exists fl fb, face_values P t F = Ok (Some (fl, fb)).
  Proof.
    intros C. unfold face_values. fold c. rewrite (proj1 PF). cbn [String.eqb Ascii.eqb Bool.eqb].
    assert (Q : forall r1 r2, rank_ok L r1 r2 -> exists d l b, df_dt_q c r1 r2 t (F r1 r2) = Ok (d, l, b)).
    { intros r1 r2 RK.
      destruct (df_dt_q_spec c k1 k2 r1 r2 t (fun _ _ _ => 0) (fun _ _ _ => 0) (fun _ _ _ => 0) (F r1 r2) U W PF RK (C r1 r2 RK))
        as (d&l&b&E&_). eauto. }
    match goal with |- context [all_ranks (lay c) ?G] => destruct (all_ranks_ok L G) as (fl&E1&_) end.
    { intros r1 r2 RK. destruct (Q r1 r2 RK) as (d&l&b&->). cbn [rbind]. eauto. }
    fold L. rewrite E1. cbn [rbind].
    match goal with |- context [all_ranks L ?G] => destruct (all_ranks_ok L G) as (fb&E2&_) end.
    { intros r1 r2 RK. destruct (Q r1 r2 RK) as (d&l&b&->). cbn [rbind]. eauto. }
    rewrite E2. cbn [rbind]. eauto.
  Qed.

  (** The six components on the global grid. *)
  Definition seen_E (F : dist R) : gfields := fun n i j => gval L F n 0 i j.

  Lemma shows_gval F : shows L F (seen_E F).
  Proof.
    intros r1 r2 i j n RK Hi Hj Hn. unfold seen_E. pose proof PF as (_&_&(T1&T2&_)&_). fold L in T1, T2.
    symmetry. apply gval_interior; auto; [apply T1|apply T2].
  Qed.

  Lemma poisson_seen t dt F U e : covered P F U -> wf_em (pf P) e ->
    exists A e' E, fields_seen P t dt F e = Ok (A, e') /\ wf_em (pf P) e' /\ shows3 L A (E, E, E)
    /\ poisson_field N1 N2 (fdq1 (pf P)) (fdq2 (pf P)) (eps (pf P)) (charge_density P U) (E 0%Z) (E 1%Z)
    /\ (forall n i j, (2 <= n < 6)%Z -> inb N1 i -> inb N2 j -> E n i j = gval L (cc_val e) n 0 i j)
    /\ (forall n i j, inb 6 n -> inb N1 i -> inb N2 j -> E n i j = gval L (cc_val e') n 0 i j)
    /\ ftime e' = ftime e.
  Proof.
    intros C We. pose proof PM as [TB GR CH LY MP MF ON]. pose proof EO as (RG&G1&G2&Q1&Q2&FS&CS).
    pose proof PF as (HQ&HE&PL&_). fold c L in LY, MP, ON, PL.
    assert (SH : shaped L (N_p c) (N_species c) F) by (eapply covered_shaped; exact C).
    destruct (charge_moment_el P k1 k2 W PL PM "density" (fun _ _ _ => 1) F (fun _ _ _ => eq_refl) SH) as (m&Em&Sm&Vm). fold c L in Sm, Vm.
    assert (Sm' : shaped (flay (pf P)) 1 1 (dmap asum1 (times_charge P m))) by (rewrite LY; exact Sm).
    destruct (electrostatic_fields (pf P) (times_charge P m) e EO We Sm') as (e1&E1&W1&S1&V1&K1&Y1).
    rewrite LY in V1, K1. fold c L in V1, K1.
    destruct (face_values_ok t F U C) as (fl&fb&Ef).
    assert (UF : update_fields P t dt F e = Ok e1).
    { unfold update_fields. rewrite Ef. cbn [rbind]. rewrite FT. cbn [String.eqb Ascii.eqb Bool.eqb andb rbind].
      rewrite FS. cbn [String.eqb Ascii.eqb Bool.eqb]. rewrite Em. cbn [rbind]. exact E1. }
    assert (FTM : ftime e1 = ftime e).
    { unfold compute_electrostatic_fields, electrostatic_update, fft_poisson in E1. rewrite FS in E1.
      cbn [String.eqb Ascii.eqb Bool.eqb] in E1. rewrite CS in E1. cbn [Nat.eqb negb rbind] in E1.
      rewrite apply_bcs_fields_periodic in E1 by apply RG. apply Ok_inj in E1. rewrite <- E1. reflexivity. }
    exists (fun r1 r2 => (cc_val e1 r1 r2, cc_val e1 r1 r2, cc_val e1 r1 r2)),
           (set_at_n (negb (negb (negb (at_n e1)))) e1), (seen_E (cc_val e1)).
    split.
    { unfold fields_seen. fold c. rewrite MP, ON. cbn [String.eqb Ascii.eqb Bool.eqb andb]. rewrite UF. cbn [rbind].
      rewrite !get_fields_fft by auto. reflexivity. }
    split; [apply wf_at_n; exact W1|]. split; [|split; [|split; [|split]]].
    - split; [|split]; apply shows_gval.
    - destruct (one_rank (pf P)) as (B1&B2); [apply RG|apply RG|exact CS|]. rewrite LY in B1, B2, G1, G2. fold L in B1, B2, G1, G2.
      assert (RK : rank_ok L 0 0) by (unfold rank_ok; rewrite B1, B2; cbn; lia).
      assert (PN : (0 < N1)%Z /\ (0 < N2)%Z) by (split; [apply PL|apply PL]).
      assert (PG : (0 < fN_g (pf P))%Z) by (rewrite <- G1; apply PL).
      set (rho := asum1 (times_charge P m 0%nat 0%nat)) in *.
      assert (DR : dims4 rho 1 1 (N1 + 2 * fN_g (pf P)) (N2 + 2 * fN_g (pf P))).
      { destruct (Sm 0%nat 0%nat RK) as (D0&D1&D2&D3). unfold dmap in D0, D1, D2, D3. fold rho in D0, D1, D2, D3.
        unfold n1g, n2g, bsize in D2, D3. rewrite B1, G1 in D2. rewrite B2, G2 in D3. cbn [nth] in D2, D3.
        repeat split; auto. }
      destruct (poisson (fN_g (pf P)) N1 N2 PG (proj1 PN) (proj2 PN) (fdq1 (pf P)) (fdq2 (pf P)) (eps (pf P)) Q1 Q2
                  (proj1 (proj2 (proj2 RG))) rho DR) as (_&_&PZ).
      eapply poisson_field_ext; [| | |exact PZ].
      + intros i j Hi Hj. cbv beta. unfold charge_density, rho. 
        assert (Ri : inb (n1g L 0) (fN_g (pf P) + i)%Z).
        { unfold n1g, bsize. rewrite B1, G1. cbn [nth]. fold N1. unfold inb in *. lia. }
        assert (Rj : inb (n2g L 0) (fN_g (pf P) + j)%Z).
        { unfold n2g, bsize. rewrite B2, G2. cbn [nth]. fold N2. unfold inb in *. lia. }
        rewrite (Vm 0%nat 0%nat _ _ RK Ri Rj). apply charge_moment_ext. intros x s Hx Hs.
        destruct (C 0%nat 0%nat RK) as (_&VC). rewrite VC by auto. fold c L. fold N1 N2.
        unfold off. rewrite G1, G2. cbn [firstn zlsum fold_right].
        f_equal; (match goal with |- (?a mod _)%Z = ?b => replace a with b by lia end; apply Z.mod_small; unfold inb in *; lia).
      + intros i j Hi Hj. symmetry. apply V1; auto.
      + intros i j Hi Hj. symmetry. apply V1; auto.
    - intros n i j Hn Hi Hj. apply K1; auto.
    - intros n i j Hn Hi Hj. reflexivity.
    - exact FTM.
  Qed.

  (** One step. *)
  Lemma vlasov_poisson_op dt s u : holds c (f_of s) u -> wf_em (pf P) (fields s) ->
    exists s' E0 Eh, op_fvm P dt s = Ok s'
    /\ wf_em (pf P) (fields s') /\ time_elapsed s' = time_elapsed s /\ cur_dt s' = cur_dt s /\ ftime (fields s') = ftime (fields s)
    /\ let p E := prob c k1 k2 (time_elapsed s) (E, E, E) in
       let uh : gstate := fun x sp g1 g2 => u x sp g1 g2 + dt / 2 * rhs (p E0) u x sp g1 g2 in
       holds c (f_of s') (midpoint (p E0) (p Eh) dt u)
       /\ poisson_field N1 N2 (fdq1 (pf P)) (fdq2 (pf P)) (eps (pf P)) (charge_density P u) (E0 0%Z) (E0 1%Z)
       /\ poisson_field N1 N2 (fdq1 (pf P)) (fdq2 (pf P)) (eps (pf P)) (charge_density P uh) (Eh 0%Z) (Eh 1%Z)
       /\ forall n i j, (2 <= n < 6)%Z -> inb N1 i -> inb N2 j ->
            E0 n i j = gval L (cc_val (fields s)) n 0 i j /\ Eh n i j = E0 n i j
            /\ gval L (cc_val (fields s')) n 0 i j = E0 n i j.
  Proof.
    intros HU We. destruct (op_fvm_stages P k1 k2 W PF dt s u HU) as (x0&R0&C0&ST).
    destruct (poisson_seen (time_elapsed s) (cur_dt s) (sf x0) u (fields s) C0 We) as (A0&e0&E0&F0&W0&S0&P0&K0&M0&T0).
    destruct (ST A0 e0 (E0, E0, E0) F0 S0) as (xh&Ch&ST2).
    destruct (poisson_seen (time_elapsed s) (cur_dt s) (sf xh) _ e0 Ch W0) as (Ah&eh&Eh&Fh&Wh&Sh&Ph&Kh&Mh&Th).
    destruct (ST2 Ah eh (Eh, Eh, Eh) Fh Sh) as (s'&OP&FE&TE&DE&HH).
    exists s', E0, Eh. rewrite FE. split; [exact OP|]. split; [exact Wh|]. split; [exact TE|]. split; [exact DE|].
    split; [congruence|]. cbv zeta. split; [exact HH|]. split; [exact P0|]. split; [exact Ph|].
    intros n i j Hn Hi Hj. assert (H6 : inb 6 n) by (unfold inb; lia).
    assert (X : Eh n i j = E0 n i j) by (rewrite Kh, <- M0 by auto; reflexivity).
    split; [apply K0; auto|]. split; [exact X|]. rewrite <- Mh, X by auto. reflexivity.
  Qed.
End VP.

(** ** Histories *)
Section Runs.
  Context (P : params) (k1 k2 : scheme).
  Let c := pc P.
  Let L := lay c.
  Let M := solver_stepper P.
  Context (W : wf_cfg c k1 k2) (PF : periodic_fvm c k1) (PM : plasma P)
          (FT : fields_type P = "electrostatic"%string) (EO : electrostatic_ok (pf P)).

  Lemma vlasov_poisson_run bg h s u : holds c (f_of s) u -> wf_em (pf P) (fields s) ->
    (forall n i j, (2 <= n < 6)%Z -> inb (gN1 L) i -> inb (gN2 L) j -> gval L (cc_val (fields s)) n 0 i j = bg n i j) ->
    exists s' v, run_steps M h s = Ok (s', None) /\ vlasov_poisson P k1 k2 bg (time_elapsed s) h u v
      /\ holds c (f_of s') v /\ wf_em (pf P) (fields s') /\ time_elapsed s' = time_elapsed s + elapsed h.
  Proof.
    revert s u. induction h as [|(m&dt) h IH]; intros s u HU We BG; cbn [run_steps].
    - exists s, u. split; [reflexivity|]. split; [constructor|]. cbn [elapsed]. rewrite Rplus_0_r. auto.
    - destruct (vlasov_poisson_op P k1 k2 W PF PM FT EO dt (set_dt M dt s) u HU We)
        as (s1&E0&Eh&OP&W1&T1&D1&F1&H1&P0&Ph&K).
      change (time_elapsed (set_dt M dt s)) with (time_elapsed s) in *.
      change (fields (set_dt M dt s)) with (fields s) in *. fold c in T1, H1, P0, Ph, K. fold L in P0, Ph, K.
      assert (ST : step_of M m dt s = Ok (set_clock M (clock M s1 + dt) s1, None)).
      { rewrite (fvm_step_eq M m dt s); [|apply PF|left; apply PM].
        change (Timestep.op_fvm M) with (op_fvm P). rewrite OP. cbn [rbind].
        assert (D : diverged M s1 = false) by (apply finite_iff, solver_finite). rewrite D. reflexivity. }
      rewrite ST. cbn [rbind].
      set (s2 := set_clock M (clock M s1 + dt) s1).
      destruct (IH s2 _ H1 W1) as (s'&v&RS&VP&HV&WV&TV).
      { intros n i j Hn Hi Hj. destruct (K n i j Hn Hi Hj) as (A&B&C). change (fields s2) with (fields s1).
        rewrite C, A. apply BG; auto. }
      assert (T2 : time_elapsed s2 = time_elapsed s + dt) by (unfold s2; cbn; rewrite T1; reflexivity).
      exists s', v. split; [exact RS|]. split; [|split; [exact HV|split; [exact WV|]]].
      + rewrite T2 in VP. eapply vp_step; [| |exact VP]; (split; [assumption|]).
        * intros n i j Hn Hi Hj. destruct (K n i j Hn Hi Hj) as (A&_). rewrite A. apply BG; auto.
        * intros n i j Hn Hi Hj. destruct (K n i j Hn Hi Hj) as (A&B&_). rewrite B, A. apply BG; auto.
      + cbn [elapsed]. rewrite TV, T2. ring.
  Qed.
End Runs.

(** ** Semi-Lagrangian momentum advection never updates the field *)
Section Stale.
  Context (P : params) (AF : asl_fft P).
  Let M := solver_stepper P.

  Lemma op_fields_stale dt s : exists s', op_fields P dt s = Ok s' /\ fields s' = fields s.
  Proof.
    destruct AF as [AQ AP AFP ON ED FF ST]. unfold op_fields. rewrite FF. cbn [String.eqb Ascii.eqb Bool.eqb rbind].
    assert (G : forall e, get_fields (pf P) e = (cc_val e, e)) by (intros; unfold get_fields; rewrite FF, AFP; reflexivity).
    rewrite !G.
    match goal with |- context [all_ranks ?L ?F] => destruct (all_ranks_total L F) as (g&->) end.
    { intros r1 r2. unfold f_interp_p_3d. destruct ST as (A&B&C&D).
      match goal with |- context [interpolant (pc P) r1 r2 ?a (p2_start _) _] =>
        destruct (interpolant_total P r1 r2 a (p2_start (pc P)) (dp2 (pc P)) A C) as (x&Ex) end.
      rewrite Ex. cbn [rbind].
      match goal with |- context [interpolant (pc P) r1 r2 ?a (p3_start _) _] =>
        destruct (interpolant_total P r1 r2 a (p3_start (pc P)) (dp3 (pc P)) B D) as (y&Ey) end.
      rewrite Ey. cbn [rbind]. eauto. }
    cbn [rbind]. eexists. split; reflexivity.
  Qed.

  Definition stale (op : operator solver) : Prop := forall dt s, exists s', op dt s = Ok s' /\ fields s' = fields s.
  Lemma stale_lie o1 o2 : stale o1 -> stale o2 -> stale (lie o1 o2).
  Proof.
    intros K1 K2 dt s. unfold lie. destruct (K1 dt s) as (s1&->&<-). cbn [rbind]. apply K2.
  Qed.
  Lemma stale_strang o1 o2 : stale o1 -> stale o2 -> stale (strang o1 o2).
  Proof.
    intros K1 K2 dt s. unfold strang. destruct (K1 (1/2*dt) s) as (s1&->&<-). cbn [rbind].
    destruct (K2 dt s1) as (s2&->&<-). cbn [rbind]. apply K1.
  Qed.
  Lemma stale_advect : stale (op_advect_q P).
  Proof.
    intros dt s. unfold op_advect_q, refresh_f.
    match goal with |- context [all_ranks ?L ?F] => destruct (all_ranks_total L F) as (g&->) end.
    { intros r1 r2. rewrite apply_bcs_periodic by apply AF. eauto. }
    cbn [rbind]. eexists. split; reflexivity.
  Qed.
  Lemma stale_source : stale (op_solve_src P).
  Proof.
    intros dt s. unfold op_solve_src. destruct (instantaneous P); [rewrite andb_false_r|rewrite andb_true_r];
      [|destruct (source_enabled (pc P))]; (eexists; split; reflexivity).
  Qed.

  Lemma stale_run h s : Forall (fun x => fst x = Lie \/ fst x = Strang) h ->
    exists s', run_steps M h s = Ok (s', None) /\ fields s' = fields s.
  Proof.
    intros F. revert s. induction F as [|(m&dt) h Hm F IH]; intros s; cbn [run_steps]; [eauto|].
    assert (ST : exists s1, step_of M m dt s = Ok (s1, None) /\ fields s1 = fields s).
    { rewrite step_of_eq. unfold step, advance. change (method_q M) with (solver_method_in_q (pc P)).
      change (method_p M) with (solver_method_in_p (pc P)). change (with_fields M) with (fields_enabled (pc P)).
      rewrite (af_q P AF), (af_p P AF), (af_on P AF). cbn [String.eqb Ascii.eqb Bool.eqb].
      assert (K : forall o1 o2, stale o1 -> stale o2 -> stale (split_of M m o1 o2)).
      { intros. destruct Hm as [E|E]; cbn [fst] in E; rewrite E; [apply stale_lie|apply stale_strang]; auto. }
      destruct (K _ _ (K _ _ stale_advect stale_source) op_fields_stale dt (set_dt M dt s)) as (s1&E&X).
      change (op_advect_q P) with (Timestep.op_advect_q M) in E.
      change (op_solve_src P) with (Timestep.op_solve_src M) in E.
      change (op_fields P) with (Timestep.op_fields M) in E.
      rewrite E. cbn [rbind].
      assert (D : diverged M s1 = false) by (apply finite_iff, solver_finite).
      rewrite D. eexists. split; [reflexivity|]. exact X. }
    destruct ST as (s1&->&E). cbn [rbind]. rewrite <- E. apply IH.
  Qed.

  (** So a field with a mean is never that of the charge density. *)
  Lemma stale_wrong h s e : Forall (fun x => fst x = Lie \/ fst x = Strang) h ->
    (0 < gN1 (flay (pf P)))%Z -> (0 < gN2 (flay (pf P)))%Z -> e <> 0 ->
    (forall i j, inb (gN1 (flay (pf P))) i -> inb (gN2 (flay (pf P))) j -> gval (flay (pf P)) (cc_val (fields s)) 0 0 i j = e) ->
    exists s', run_steps M h s = Ok (s', None)
    /\ let F := fst (get_fields (pf P) (fields s')) in
       forall rho, ~ poisson_field (gN1 (flay (pf P))) (gN2 (flay (pf P))) (fdq1 (pf P)) (fdq2 (pf P)) (eps (pf P)) rho
           (gval (flay (pf P)) F 0 0) (gval (flay (pf P)) F 1 0).
  Proof.
    intros HH P1 P2 Ne U. destruct (stale_run h s HH) as (s'&R1&E). exists s'. split; [exact R1|].
    cbv zeta. rewrite E. unfold get_fields. rewrite (af_fft P AF). cbn [String.eqb Ascii.eqb Bool.eqb negb fst].
    intros rho (A&_). rewrite (mean2_ext _ _ _ (fun _ _ => e)) in A by auto.
    unfold Waves.mean2 in A. rewrite zsum_const in A by lia. rewrite zsum_const in A by lia.
    apply Ne.
    assert (Q1 : 0 < IZR (gN1 (flay (pf P)))) by (apply IZR_lt; lia).
    assert (Q2 : 0 < IZR (gN2 (flay (pf P)))) by (apply IZR_lt; lia).
    rewrite <- A. field. lra.
  Qed.
End Stale.
