(** Electrodynamic runs with FVM in q and p refine [vm_run]. *)
From Coq Require Import ZArith Reals Lia Lra String List Bool.
From Verif Require Import Base.Prelude Base.ZSum Model.Af Model.Petsc Model.Config
  Model.Fvm Model.Em Model.Moments Model.Splitting Model.SemiLag Model.Timestep Model.Solver Spec.Domain Spec.Lattice Spec.FvmProblem Spec.FvmRun
  Spec.Yee Spec.EmRun Spec.MomentSpec Spec.Clock Spec.SolverSpec Spec.VlasovMaxwell Proofs.AfLemmas Proofs.PetscLemmas Proofs.ConvLemmas
  Proofs.FvmLemmas Proofs.FvmLemmas2 Proofs.FvmConserve
  Proofs.EmLemmas Proofs.EmStep Proofs.EmGrids Proofs.MomentLemmas Proofs.EmInit Proofs.EmProps
  Proofs.TimestepLemmas Proofs.SolverLemmas Proofs.StageLemmas Proofs.ChargeLemmas Proofs.FieldClock.
Import ListNotations.
Local Open Scope R_scope.

Lemma yee_step_same h1 h2 e m dt J1 J2 J3 J1' J2' J3' Y Z :
  (forall i j, J1 i j = J1' i j) -> (forall i j, J2 i j = J2' i j) -> (forall i j, J3 i j = J3' i j) -> same Y Z ->
  same (yee_step h1 h2 e m dt J1 J2 J3 Y) (yee_step h1 h2 e m dt J1' J2' J3' Z).
Proof.
  intros A B C S. unfold yee_step. apply faraday_same.
  eapply same_trans; [apply ampere_ext; eassumption|]. apply ampere_same; exact S.
Qed.
Lemma centred_same Y Z : same Y Z -> same (centred Y) (centred Z).
Proof.
  intros (A&B&C&D&E&F). unfold same, centred; simpl.
  repeat split; intros; rewrite ?A, ?B, ?C, ?D, ?E, ?F; reflexivity.
Qed.
Lemma EB_mid_same X X' Y Y' : same X X' -> same Y Y' -> same (EB (mid X Y) Y) (EB (mid X' Y') Y').
Proof.
  intros (A&B&C&_) (A'&B'&C'&D'&E'&F'). unfold same, EB, mid; simpl.
  repeat split; intros; rewrite ?A, ?B, ?C, ?A', ?B', ?C', ?D', ?E', ?F'; reflexivity.
Qed.

(** With all three attributes referring to one array, every query returns it. *)
Lemma get_fields_aliased c e : fields_solver c = "fdtd"%string -> method_in_p c = "FVM"%string -> aliased e ->
  get_fields c e = (cc_val e, set_at_n (negb (at_n e)) e).
Proof.
  intros A B (N&H). unfold get_fields. rewrite A, B, N, H. cbn [negb String.eqb Ascii.eqb Bool.eqb].
  unfold cc_val. destruct (at_n e); reflexivity.
Qed.

(** The constructor leaves the flag set and the clock at zero. *)
Lemma calm_joined c lo hi g s s' : set_joined c lo hi g s = Ok s' -> calm s s'.
Proof. unfold set_joined. intros H. binds H. injection H as <-. apply calm_write. Qed.
Lemma calm_update c rho s s' : electrostatic_update c rho s = Ok s' -> calm s s'.
Proof.
  unfold electrostatic_update, fft_poisson. intros H. destruct (negb _); cbn [rbind] in H; [discriminate H|].
  eapply calm_trans; [|eapply calm_bcs; exact H]. eapply calm_trans; [apply calm_write|apply calm_comm].
Qed.
Lemma init_calm c rho e : fields_solver_init c rho = Ok e -> calm (fresh c) e.
Proof.
  intros H. unfold fields_solver_init in H. binds H. injection H as <-.
  unfold initialize_fields in E. binds E. injection E as <-.
  assert (X : calm (fresh c) x0); [|exact X].
  destruct (String.eqb (fields_initialize c) "fft").
  - binds E0. injection E0 as <-. eapply calm_trans; [eapply calm_update; exact E|]. apply calm_write.
  - destruct (String.eqb (fields_initialize c) "user-defined").
    + binds E0. injection E0 as <-. eapply calm_trans; [eapply calm_joined; exact E|].
      eapply calm_trans; [eapply calm_joined; exact E1|]. apply calm_write.
    + destruct (String.eqb _ _); [|discriminate E0]. binds E0. injection E0 as <-.
      eapply calm_trans; [eapply calm_update; exact E|]. eapply calm_trans; [apply calm_write|].
      eapply calm_trans; [eapply calm_joined; exact E1|]. apply calm_write.
Qed.

Section VM.
  Context (P : params) (k1 k2 : scheme).
  Let c := pc P.
  Let L := lay c.
  Let N1 := gN1 L. Let N2 := gN2 L.
  Context (W : wf_cfg c k1 k2) (PF : periodic_fvm c k1) (PM : plasma P) (MX : maxwell P).

  Lemma faces_spec t C F U : covered P F U ->
    exists fl fb, face_values P t F = Ok (Some (fl, fb))
    /\ shaped L (N_p c) (N_species c) fl /\ shaped L (N_p c) (N_species c) fb
    /\ forall r1 r2 x s i j, rank_ok L r1 r2 -> inb (N_p c) x -> inb (N_species c) s ->
       inb (bsize (blk1 L) r1) i -> inb (bsize (blk2 L) r2) j ->
       el (fl r1 r2) x s (ng1 L + i)%Z (ng2 L + j)%Z
         = through1 (vm_problem P k1 k2 t C) U x s (off (blk1 L) r1 + i)%Z (off (blk2 L) r2 + j)%Z
       /\ el (fb r1 r2) x s (ng1 L + i)%Z (ng2 L + j)%Z
         = through2 (vm_problem P k1 k2 t C) U x s (off (blk1 L) r1 + i)%Z (off (blk2 L) r2 + j)%Z.
  Proof.
    intros CV. unfold face_values. fold c. rewrite (proj1 PF). cbn [String.eqb Ascii.eqb Bool.eqb].
    assert (Q : forall r1 r2, rank_ok L r1 r2 -> exists d l b, df_dt_q c r1 r2 t (F r1 r2) = Ok (d, l, b)
      /\ q_shaped c r1 r2 l /\ q_shaped c r1 r2 b
      /\ forall x s i j, inb (N_p c) x -> inb (N_species c) s -> inb (bsize (blk1 L) r1) i -> inb (bsize (blk2 L) r2) j ->
       el l x s (ng1 L + i)%Z (ng2 L + j)%Z
         = through1 (vm_problem P k1 k2 t C) U x s (off (blk1 L) r1 + i)%Z (off (blk2 L) r2 + j)%Z
       /\ el b x s (ng1 L + i)%Z (ng2 L + j)%Z
         = through2 (vm_problem P k1 k2 t C) U x s (off (blk1 L) r1 + i)%Z (off (blk2 L) r2 + j)%Z).
    { intros r1 r2 RK.
      destruct (df_dt_q_spec c k1 k2 r1 r2 t (components C) (components C) (components C) (F r1 r2) U W PF RK (CV r1 r2 RK))
        as (d&l&b&E&_&Sl&Sb&V). exists d, l, b. split; [exact E|]. split; [exact Sl|]. split; [exact Sb|].
      intros x s i j Hx Hs Hi Hj. destruct (V x s i j Hx Hs Hi Hj) as (_&Vl&Vb). split; [exact Vl|exact Vb]. }
    match goal with |- context [all_ranks (lay c) ?G] => destruct (all_ranks_ok L G) as (fl&E1&V1) end.
    { intros r1 r2 RK. destruct (Q r1 r2 RK) as (d&l&b&->&_). cbn [rbind]. eauto. }
    fold L. rewrite E1. cbn [rbind].
    match goal with |- context [all_ranks L ?G] => destruct (all_ranks_ok L G) as (fb&E2&V2) end.
    { intros r1 r2 RK. destruct (Q r1 r2 RK) as (d&l&b&->&_). cbn [rbind]. eauto. }
    rewrite E2. cbn [rbind]. exists fl, fb. split; [reflexivity|].
    assert (R : forall r1 r2, rank_ok L r1 r2 -> exists d, df_dt_q c r1 r2 t (F r1 r2) = Ok (d, fl r1 r2, fb r1 r2)).
    { intros r1 r2 RK. destruct (Q r1 r2 RK) as (d&l&b&E&_). specialize (V1 r1 r2 RK). specialize (V2 r1 r2 RK).
      cbv beta in V1, V2. rewrite E in V1, V2. cbn [rbind] in V1, V2. apply Ok_inj in V1. apply Ok_inj in V2. subst. eauto. }
    assert (Q' : forall r1 r2, rank_ok L r1 r2 -> q_shaped c r1 r2 (fl r1 r2) /\ q_shaped c r1 r2 (fb r1 r2)
      /\ forall x s i j, inb (N_p c) x -> inb (N_species c) s -> inb (bsize (blk1 L) r1) i -> inb (bsize (blk2 L) r2) j ->
       el (fl r1 r2) x s (ng1 L + i)%Z (ng2 L + j)%Z
         = through1 (vm_problem P k1 k2 t C) U x s (off (blk1 L) r1 + i)%Z (off (blk2 L) r2 + j)%Z
       /\ el (fb r1 r2) x s (ng1 L + i)%Z (ng2 L + j)%Z
         = through2 (vm_problem P k1 k2 t C) U x s (off (blk1 L) r1 + i)%Z (off (blk2 L) r2 + j)%Z).
    { intros r1 r2 RK. destruct (Q r1 r2 RK) as (d&l&b&E&Sl&Sb&V). destruct (R r1 r2 RK) as (d'&E').
      rewrite E in E'. apply Ok_inj in E'. injection E' as _ <- <-. auto. }
    split; [|split].
    - intros r1 r2 RK. apply (Q' r1 r2 RK).
    - intros r1 r2 RK. apply (Q' r1 r2 RK).
    - intros r1 r2 x s i j RK Hx Hs Hi Hj. apply (Q' r1 r2 RK); auto.
  Qed.

  (** A current from a moment of arrays known at interior cells. *)
  Lemma current_grid name w F (g : Z -> Z -> Z -> Z -> R) :
    (forall x y z, moment_weight name x y z = Some (w x y z)) -> shaped L (N_p c) (N_species c) F ->
    (forall r1 r2 x s i j, rank_ok L r1 r2 -> inb (N_p c) x -> inb (N_species c) s ->
       inb (bsize (blk1 L) r1) i -> inb (bsize (blk2 L) r2) j ->
       el (F r1 r2) x s (ng1 L + i)%Z (ng2 L + j)%Z = g x s (off (blk1 L) r1 + i)%Z (off (blk2 L) r2 + j)%Z) ->
    exists m, moment P name F = Ok m
    /\ forall i j, grid_of L (dmap asum1 (times_charge P m)) i j
         = charge_moment P w (fun x s => g x s (i mod N1)%Z (j mod N2)%Z).
  Proof.
    intros Hw SH V. pose proof PF as (_&_&PL&_). fold c L in PL.
    destruct (charge_moment_el P k1 k2 W PL PM name w F Hw SH) as (m&Em&_&Vm). fold c L in Vm.
    exists m. split; [exact Em|]. assert (PL' := PL). destruct PL' as ((P1&F1&S1)&(P2&F2&S2)&G1&G2&_).
    apply (grid_ind L PL).
    - intros. f_equal. unfold N1, N2. rewrite !Z.mod_add by lia. reflexivity.
    - intros r1 r2 i j RK Hi Hj. pose proof RK as (R1&R2).
      pose proof (off_nonneg (blk1 L) r1 F1). pose proof (off_nonneg (blk2 L) r2 F2).
      pose proof (off_end (blk1 L) r1 F1 R1). pose proof (off_end (blk2 L) r2 F2 R2).
      unfold N1, N2. rewrite !Z.mod_small by lia. unfold dmap at 1.
      rewrite Vm; [|exact RK|unfold inb, n1g; lia|unfold inb, n2g; lia].
      apply charge_moment_ext. intros x s Hx Hs.
      replace i with (ng1 L + (i - ng1 L))%Z at 1 by lia. replace j with (ng2 L + (j - ng2 L))%Z at 1 by lia.
      rewrite V; auto; [|unfold inb; lia|unfold inb; lia]. f_equal; lia.
  Qed.

  (** What a rank's view shows. *)
  Lemma shows_components F C : same (view L F) C -> shows L F (components C).
  Proof.
    intros (A1&A2&A3&A4&A5&A6) r1 r2 i j n RK Hi Hj Hn. pose proof PF as (_&_&PL&_). fold c L in PL.
    assert (X : forall k, gper L F k 0 (off (blk1 L) r1 + i)%Z (off (blk2 L) r2 + j)%Z = el (F r1 r2) k 0 (ng1 L + i)%Z (ng2 L + j)%Z).
    { intros k. rewrite <- (gper_interior L F r1 r2 k 0 (ng1 L + i) (ng2 L + j)); auto; [|unfold inb in *; lia|unfold inb in *; lia].
      f_equal; lia. }
    unfold components. cbn [view E1 E2 E3 B1 B2 B3] in *.
    assert (Q := six n Hn). destruct Q as [->|[->|[->|[->|[->| ->]]]]]; cbn [Z.eqb Pos.eqb];
      rewrite <- X; [apply A1|apply A2|apply A3|apply A4|apply A5|apply A6].
  Qed.

  Lemma seen_first t dt F U e : covered P F U -> aliased e -> at_n e = true ->
    Solver.fields_seen P t dt F e
    = Ok (fun r1 r2 => (cc_val e r1 r2, cc_val e r1 r2, cc_val e r1 r2), set_at_n false e).
  Proof.
    intros CV AL AT. pose proof PM as [TB GR CH LY MP MF ON]. fold c in MP, ON. destruct MX as [FT FS HY RG].
    destruct (faces_spec t (view L (fun _ _ => dummy)) F U CV) as (fl&fb&Ef&_).
    unfold Solver.fields_seen. fold c. rewrite MP, ON. cbn [String.eqb Ascii.eqb Bool.eqb andb].
    unfold update_fields. rewrite Ef. cbn [rbind]. rewrite FT, AT.
    cbn [String.eqb Ascii.eqb Bool.eqb andb negb rbind].
    rewrite !get_fields_aliased by auto. cbn [set_at_n at_n]. rewrite AT. reflexivity.
  Qed.

  Lemma seen_second t dt F U e C : covered P F U -> good (pf P) e -> at_n e = false ->
    exists e', Solver.fields_seen P t dt F e
      = Ok (fun r1 r2 => (cc_val e' r1 r2, cc_val e' r1 r2, cc_val e' r1 r2), e')
    /\ good (pf P) e' /\ at_n e' = true /\ ftime e' = ftime e + dt
    /\ same (view L (yee_val e'))
         (yee_step (fdq1 (pf P)) (fdq2 (pf P)) (eps (pf P)) (mu (pf P)) dt
            (current1 P (vm_problem P k1 k2 t C) U) (current2 P (vm_problem P k1 k2 t C) U)
            (current3 P (vm_problem P k1 k2 t C) U) (view L (yee_val e)))
    /\ same (view L (cc_val e')) (EB (mid (view L (cc_val e)) (centred (view L (yee_val e')))) (centred (view L (yee_val e')))).
  Proof.
    intros CV (We&AL&SY) AT. pose proof PM as [TB GR CH LY MP MF ON]. fold c in LY, MP, ON. fold L in LY. destruct MX as [FT FS HY RG].
    destruct (faces_spec t C F U CV) as (fl&fb&Ef&Sl&Sb&V).
    assert (SF : shaped L (N_p c) (N_species c) F) by (eapply covered_shaped; exact CV).
    destruct (current_grid "mom_v1_bulk" (fun v _ _ => v) fl (through1 (vm_problem P k1 k2 t C) U) (fun _ _ _ => eq_refl) Sl) as (m1&Em1&G1).
    { intros. apply V; auto. }
    destruct (current_grid "mom_v2_bulk" (fun _ v _ => v) fb (through2 (vm_problem P k1 k2 t C) U) (fun _ _ _ => eq_refl) Sb) as (m2&Em2&G2).
    { intros. apply V; auto. }
    destruct (current_grid "mom_v3_bulk" (fun _ _ v => v) F U (fun _ _ _ => eq_refl) SF) as (m3&Em3&G3).
    { intros r1 r2 x s i j RK Hx Hs Hi Hj. destruct (CV r1 r2 RK) as (_&VC). fold c L in VC.
      pose proof PF as (_&_&((P1&F1&S1)&(P2&F2&S2)&Q1&Q2&_)&_). fold c L in P1, F1, S1, P2, F2, S2, Q1, Q2. pose proof RK as (R1&R2).
      pose proof (off_nonneg (blk1 L) r1 F1). pose proof (off_nonneg (blk2 L) r2 F2).
      pose proof (off_end (blk1 L) r1 F1 R1). pose proof (off_end (blk2 L) r2 F2 R2). unfold inb in *.
      rewrite VC; auto; unfold inb, n1g, n2g; try lia. f_equal;
        (match goal with |- (?a mod _)%Z = ?b => replace a with b by lia end; apply Z.mod_small; lia). }
    destruct (evolve_total (pf P) (times_charge P m1) (times_charge P m2) (times_charge P m3) dt e RG HY) as (e1&E1).
    destruct (evolve_ok (pf P) _ _ _ dt e e1 RG We E1) as (YE&W1&SY1&L1&_&_&_&XA&AT1&FT1&AL1).
    specialize (XA HY). destruct (AL1 AL) as (AL'&CC). unfold lat in *. rewrite LY in *.
    assert (UF : update_fields P t dt F e = Ok e1).
    { unfold update_fields. rewrite Ef. cbn [rbind]. rewrite FT, AT.
      cbn [String.eqb Ascii.eqb Bool.eqb andb negb]. rewrite HY. unfold kinetic_currents.
      rewrite Em1, Em2, Em3. cbn [rbind]. unfold fst3, snd3. cbn [fst snd]. rewrite E1. reflexivity. }
    exists (set_at_n true e1). split; [|split; [|split; [|split; [|split]]]].
    - unfold Solver.fields_seen. fold c. rewrite MP, ON. cbn [String.eqb Ascii.eqb Bool.eqb andb].
      rewrite UF. cbn [rbind]. rewrite !get_fields_aliased by auto. cbn [set_at_n at_n]. rewrite AT1, AT. reflexivity.
    - split; [apply wf_at_n; exact W1|]. split; [exact AL'|]. rewrite LY; exact SY1.
    - reflexivity.
    - exact FT1.
    - change (yee_val (set_at_n true e1)) with (yee_val e1).
      eapply same_trans; [exact L1|]. unfold yee_step. apply faraday_same.
      eapply same_trans; [exact XA|]. apply ampere_ext; intros; [rewrite G1|rewrite G2|rewrite G3]; reflexivity.
    - exact CC.
  Qed.

  Lemma vm_op dt s S : cur_dt s = dt -> vm_holds P s S -> good (pf P) (fields s) -> at_n (fields s) = true ->
    exists s', op_fvm P dt s = Ok s' /\ vm_holds P s' (vm_step P k1 k2 (time_elapsed s) dt S)
    /\ good (pf P) (fields s') /\ at_n (fields s') = true
    /\ time_elapsed s' = time_elapsed s /\ cur_dt s' = cur_dt s /\ ftime (fields s') = ftime (fields s) + dt.
  Proof.
    intros CD (HU&HY&HC) G AT. pose proof G as (We&AL&SY).
    destruct (op_fvm_stages P k1 k2 W PF dt s (vm_f S) HU) as (x0&R0&C0&ST).
    pose proof (seen_first (time_elapsed s) (cur_dt s) (sf x0) _ (fields s) C0 AL AT) as F0.
    destruct (ST _ _ (components (vm_cc S), components (vm_cc S), components (vm_cc S)) F0) as (xh&Ch&ST2).
    { split; [|split]; apply shows_components; exact HC. }
    destruct (seen_second (time_elapsed s) (cur_dt s) (sf xh) _ (set_at_n false (fields s)) (vm_cc S) Ch)
      as (eh&Fh&Gh&ATh&FTh&SY1&SC1).
    { split; [apply wf_at_n; exact We|]. split; [exact AL|exact SY]. }
    { reflexivity. }
    change (yee_val (set_at_n false (fields s))) with (yee_val (fields s)) in SY1.
    change (cc_val (set_at_n false (fields s))) with (cc_val (fields s)) in SC1.
    rewrite CD in *.
    set (S' := vm_step P k1 k2 (time_elapsed s) dt S).
    assert (YS : same (view L (yee_val eh)) (vm_yee S')).
    { eapply same_trans; [exact SY1|]. unfold S', vm_step; cbn [vm_yee].
      apply yee_step_same; try reflexivity. exact HY. }
    assert (CS : same (view L (cc_val eh)) (vm_cc S')).
    { eapply same_trans; [exact SC1|]. change (vm_cc S') with (EB (mid (vm_cc S) (centred (vm_yee S'))) (centred (vm_yee S'))).
      apply EB_mid_same; [exact HC|]. apply centred_same. exact YS. }
    destruct (ST2 _ _ (components (vm_cc S'), components (vm_cc S'), components (vm_cc S')) Fh) as (s'&OP&FE&TE&DE&HH).
    { split; [|split]; apply shows_components; exact CS. }
    exists s'. split; [exact OP|]. rewrite FE. split; [|split; [exact Gh|split; [exact ATh|split; [exact TE|split; [congruence|exact FTh]]]]].
    unfold vm_holds. rewrite FE. split; [exact HH|]. split; [exact YS|exact CS].
  Qed.
End VM.

Section Runs.
  Context (P : params) (k1 k2 : scheme).
  Let c := pc P.
  Let L := lay c.
  Let M := solver_stepper P.
  Context (W : wf_cfg c k1 k2) (PF : periodic_fvm c k1) (PM : plasma P) (MX : maxwell P).

  Lemma vm_history h s S : vm_holds P s S -> good (pf P) (fields s) -> at_n (fields s) = true ->
    exists s', run_steps M h s = Ok (s', None) /\ vm_holds P s' (vm_run P k1 k2 (time_elapsed s) h S)
    /\ good (pf P) (fields s') /\ at_n (fields s') = true
    /\ time_elapsed s' = time_elapsed s + elapsed h /\ ftime (fields s') = ftime (fields s) + elapsed h.
  Proof.
    revert s S. induction h as [|(m&dt) h IH]; intros s S HS G AT; cbn [run_steps].
    - exists s. cbn [elapsed vm_run]. rewrite !Rplus_0_r. auto 8.
    - destruct (vm_op P k1 k2 W PF PM MX dt (set_dt M dt s) S eq_refl HS G AT) as (s1&OP&H1&G1&A1&T1&D1&F1).
      change (time_elapsed (set_dt M dt s)) with (time_elapsed s) in *.
      change (fields (set_dt M dt s)) with (fields s) in *.
      assert (ST : step_of M m dt s = Ok (set_clock M (clock M s1 + dt) s1, None)).
      { rewrite (fvm_step_eq M m dt s); [|apply PF|left; apply PM].
        change (Timestep.op_fvm M) with (op_fvm P). rewrite OP. cbn [rbind].
        assert (D : diverged M s1 = false) by (apply finite_iff, solver_finite). rewrite D. reflexivity. }
      rewrite ST. cbn [rbind].
      set (s2 := set_clock M (clock M s1 + dt) s1).
      assert (T2 : time_elapsed s2 = time_elapsed s + dt) by (unfold s2; cbn; rewrite T1; reflexivity).
      destruct (IH s2 (vm_step P k1 k2 (time_elapsed s) dt S)) as (s'&RS&HV&GV&AV&TV&FV); auto.
      exists s'. split; [exact RS|]. cbn [vm_run elapsed]. rewrite <- T2. split; [exact HV|]. split; [exact GV|]. split; [exact AV|].
      split; [rewrite TV, T2; ring|]. rewrite FV. change (fields s2) with (fields s1). rewrite F1. ring.
  Qed.

  (** From the state the constructor leaves. *)
  Lemma vm_start rho e f t : fields_solver_init (pf P) rho = Ok e -> shaped L (N_p c) (N_species c) (sf f) ->
    vm_holds P (Solver f e t 0) (VM (gval L (sf f)) (view L (yee_val e)) (view L (cc_val e)))
    /\ good (pf P) e /\ at_n e = true.
  Proof using MX.
    intros H SH. split; [|split].
    - split; [split; [exact SH|reflexivity]|]. split; apply same_refl.
    - eapply init_good; [apply MX|exact H].
    - exact (proj2 (init_calm _ _ _ H)).
  Qed.
End Runs.
