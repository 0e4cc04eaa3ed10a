(** Which choices of methods can be advanced, and that the others always raise. *)
From Coq Require Import ZArith Reals Lia Lra String List Bool.
From Verif Require Import Base.Prelude Base.ZSum Model.Af Model.Reconstruct Model.Petsc Model.Config Model.Boundaries
  Model.Fvm Model.Fft Model.Em Model.Moments Model.Integrators Model.Splitting Model.SemiLag Model.Timestep
  Model.Solver Spec.Domain Spec.Lattice Spec.FvmProblem Spec.Yee Spec.EmRun Spec.Clock Spec.SolverSpec Spec.Inputs Spec.Combos
  Proofs.AfLemmas Proofs.PetscLemmas Proofs.FvmLemmas2
  Proofs.EmLemmas Proofs.EmStep Proofs.EmInit Proofs.EmProps
  Proofs.EmGrids Proofs.TimestepLemmas Proofs.SolverLemmas Proofs.HybridLemmas Proofs.FieldClock Proofs.FieldRun.
Import ListNotations.
Local Open Scope R_scope.

(** ** Operators that always raise *)
Definition raises {S} (op : operator S) : Prop := forall dt s, exists x, op dt s = Err x.
Definition raises_res {A} (x : res A) : Prop := exists e, x = Err e.

Lemma raises_bind {A B} (x : res A) (k : A -> res B) : (forall a, x = Ok a -> raises_res (k a)) ->
  raises_res (let? a := x in k a).
Proof. intros H. destruct x as [a|e]; cbn [rbind]; [apply H; reflexivity|exists e; reflexivity]. Qed.

Lemma raises_lie {S} (o1 o2 : operator S) : raises o2 -> raises (lie o1 o2).
Proof. intros H dt s. apply raises_bind. intros. apply H. Qed.
Lemma raises_strang {S} (o1 o2 : operator S) : raises o2 -> raises (strang o1 o2).
Proof.
  intros H dt s. apply raises_bind. intros a _. destruct (H dt a) as (x&E). unfold operator in *.
  rewrite E. exists x. reflexivity.
Qed.
Lemma raises_swss {S V} (H : host S V) (o1 o2 : operator S) : raises o2 -> raises (swss H o1 o2).
Proof.
  intros K dt s. apply raises_bind. intros a _. destruct (K dt a) as (x&E).
  rewrite E. exists x. reflexivity.
Qed.
Lemma raises_jia {S V} (H : host S V) (o1 o2 : operator S) : raises o2 -> raises (jia H o1 o2).
Proof.
  intros K dt s. destruct (raises_strang o1 o2 K dt s) as (x&E). unfold jia. rewrite E. exists x. reflexivity.
Qed.

Section Stuck.
  Context (P : params).
  Let c := pc P.
  Let M := solver_stepper P.
  Let H := solver_host P.

  Lemma raises_split m o1 o2 : raises o2 -> raises (split_of M m o1 o2).
  Proof. destruct m; [apply raises_lie|apply raises_strang|apply raises_swss|apply raises_jia]. Qed.

  Lemma raises_step m dt s : raises (advance M (split_of M m)) -> exists x, step_of M m dt s = Err x.
  Proof.
    intros K. rewrite step_of_eq. unfold step. destruct (K dt (set_dt M dt s)) as (x&E).
    rewrite E. exists x. reflexivity.
  Qed.

  (** Semi-Lagrangian in q: the values at faces that df_dt_fvm uses for the
      currents do not exist. *)
  Lemma raises_fvm : solver_method_in_q c = "ASL"%string -> solver_method_in_p c = "FVM"%string ->
    method_in_p (pf P) = "FVM"%string ->
    fields_enabled c = true -> fields_type P = "electrodynamic"%string -> raises (op_fvm P).
  Proof.
    intros Q PP MP FE FT dt s.
    assert (U : forall t h f e, at_n e = false -> raises_res (Solver.fields_seen P t h f e)).
    { intros t h f e A. unfold Solver.fields_seen. fold c. rewrite PP, FE. cbn [String.eqb Ascii.eqb Bool.eqb andb].
      apply raises_bind. intros e' E. exfalso. unfold update_fields, face_values in E. fold c in E. rewrite Q in E.
      cbn [String.eqb Ascii.eqb Bool.eqb rbind] in E. rewrite FT, A in E.
      cbn [String.eqb Ascii.eqb Bool.eqb andb negb rbind] in E. discriminate. }
    assert (V : forall t h f e F e', at_n e = true -> Solver.fields_seen P t h f e = Ok (F, e') -> at_n e' = false).
    { intros t h f e F e' A E. unfold Solver.fields_seen in E. fold c in E. rewrite PP, FE in E.
      cbn [String.eqb Ascii.eqb Bool.eqb andb] in E. unfold update_fields in E.
      rewrite FT, A in E. cbn [String.eqb Ascii.eqb Bool.eqb andb negb] in E.
      unfold face_values in E. fold c in E. rewrite Q in E. cbn [String.eqb Ascii.eqb Bool.eqb rbind] in E.
      unfold get_fields in E. rewrite MP in E. cbn [String.eqb Ascii.eqb Bool.eqb] in E.
      cbn [rbind] in E. apply Ok_inj, pair_equal_spec in E. destruct E as (_&<-).
      cbn [at_n set_at_n]. rewrite A. reflexivity. }
    unfold op_fvm. apply raises_bind. intros x _. apply raises_bind. intros (E&e) HE.
    destruct (at_n (fields s)) eqn:A.
    - apply raises_bind. intros f _. apply raises_bind. intros x' _.
      apply raises_bind. intros (E'&e') HE'. exfalso.
      pose proof (V _ _ _ _ _ _ A HE) as A'.
      destruct (U (time_elapsed s) (cur_dt s) (sf x') e A') as (y&Y). rewrite Y in HE'. discriminate.
    - exfalso. destruct (U (time_elapsed s) (cur_dt s) (sf x) _ A) as (y&Y). rewrite Y in HE. discriminate.
  Qed.

  (** Semi-Lagrangian in p with the full Maxwell equations: line 226 of
      asl_operators.py reads a name that is not defined. *)
  Lemma raises_fields : fields_solver (pf P) = "fdtd"%string -> hybrid (pf P) = false -> raises (op_fields P).
  Proof.
    intros FS HY dt s. unfold op_fields. rewrite FS, HY. cbn [String.eqb Ascii.eqb Bool.eqb rbind].
    apply raises_bind. intros e E. exfalso.
    apply rbind_inv in E. destruct E as ((J&e1)&E&_).
    apply rbind_inv in E. destruct E as (m1&_&E). apply rbind_inv in E. destruct E as (m2&_&E). discriminate.
  Qed.

  Lemma stuck_fvm m dt s : solver_method_in_q c = "ASL"%string -> solver_method_in_p c = "FVM"%string ->
    method_in_p (pf P) = "FVM"%string ->
    fields_enabled c = true -> fields_type P = "electrodynamic"%string -> exists x, step_of M m dt s = Err x.
  Proof.
    intros Q PP MP FE FT. apply raises_step. intros dt' s'. unfold advance.
    change (method_q M) with (solver_method_in_q c).
    change (method_p M) with (solver_method_in_p c). change (with_fields M) with (fields_enabled c).
    rewrite Q, PP, FE. cbn [String.eqb Ascii.eqb Bool.eqb]. apply raises_split. apply raises_fvm; auto.
  Qed.

  Lemma stuck_fields m dt s : solver_method_in_q c = "FVM"%string \/ solver_method_in_q c = "ASL"%string ->
    solver_method_in_p c = "ASL"%string -> fields_enabled c = true ->
    fields_solver (pf P) = "fdtd"%string -> hybrid (pf P) = false -> exists x, step_of M m dt s = Err x.
  Proof.
    intros Q PP FE FS HY. apply raises_step. intros dt' s'. unfold advance.
    change (method_q M) with (solver_method_in_q c).
    change (method_p M) with (solver_method_in_p c). change (with_fields M) with (fields_enabled c).
    rewrite PP, FE. destruct Q as [Q|Q]; rewrite Q; cbn [String.eqb Ascii.eqb Bool.eqb andb];
      apply raises_split, raises_fields; auto.
  Qed.

  Lemma unavailable m : documented P -> ~ available P m -> forall dt s, exists x, step_of M m dt s = Err x.
  Proof.
    intros D N dt s. pose proof (do_q P D) as Dq. pose proof (do_p P D) as Dp.
    pose proof (do_type P D) as Dt. pose proof (do_same P D) as Ds. unfold available in N.
    destruct (fields_enabled (pc P)) eqn:FE; [|exfalso; apply N; discriminate].
    assert (JF : forall o1 o2, raises (jia H o1 o2)).
    { intros o1 o2 dt' s'. apply (jia_fails H o1 o2 dt' s'). exact FE. }
    apply raises_step. intros dt' s'. unfold advance.
    change (method_q M) with (solver_method_in_q (pc P)).
    change (method_p M) with (solver_method_in_p (pc P)). change (with_fields M) with (fields_enabled (pc P)).
    rewrite FE.
    destruct Dq as [Q|Q], Dp as [PP|PP]; rewrite Q, PP in *; cbn [String.eqb Ascii.eqb Bool.eqb andb].
    - exfalso. apply N. auto.
    - destruct m; try apply JF; apply raises_split; apply raises_fields;
        (destruct (String.eqb_spec (fields_solver (pf P)) "fdtd") as [FS|FS]; [|exfalso; apply N; intros _; right; right; repeat split; auto; discriminate]);
        auto; destruct (hybrid (pf P)); auto; exfalso; apply N; intros _; right; right; repeat split; auto; discriminate.
    - destruct m; try apply JF; apply raises_split; apply raises_fvm; auto;
        destruct Dt as [FT|FT]; auto; exfalso; apply N; intros _; right; left; repeat split; auto; discriminate.
    - destruct m; try apply JF; apply raises_split; apply raises_fields;
        (destruct (String.eqb_spec (fields_solver (pf P)) "fdtd") as [FS|FS]; [|exfalso; apply N; intros _; right; right; repeat split; auto; discriminate]);
        auto; destruct (hybrid (pf P)); auto; exfalso; apply N; intros _; right; right; repeat split; auto; discriminate.
  Qed.
End Stuck.

(** ** Operators that never raise *)
Section Total.
  Context (P : params) (DO : documented P).
  Local Notation c := (pc P).
  Let M := solver_stepper P.
  Let H := solver_host P.
  Let wf (s : solver) := wf_em (pf P) (fields s).
  Let from (s0 s : solver) := wf s /\ ext (fields s0) (fields s).

  Lemma moment_any name f : has (table P) name -> exists m, moment P name f = Ok m.
  Proof.
    intros (m&Hm). unfold moment. apply all_ranks_total. intros r1 r2. unfold compute_moments.
    rewrite (do_grid P DO). cbn [String.eqb Ascii.eqb Bool.eqb]. rewrite Hm. cbn [rbind]. eauto.
  Qed.
  Lemma kinetic_any fl fb f : exists J, kinetic_currents P fl fb f = Ok J.
  Proof.
    unfold kinetic_currents. destruct DO.
    destruct (moment_any "mom_v1_bulk" fl) as (?&->); auto; cbn [rbind].
    destruct (moment_any "mom_v2_bulk" fb) as (?&->); auto; cbn [rbind].
    destruct (moment_any "mom_v3_bulk" f) as (?&->); auto; cbn [rbind]. eauto.
  Qed.
  Lemma hybrid_any fl fb f e : exists J e', hybrid_fields P fl fb f e = Ok (J, e').
  Proof.
    unfold hybrid_fields. destruct DO.
    destruct (moment_any "mom_v2_bulk" fl) as (?&->); auto; cbn [rbind].
    destruct (moment_any "density" fl) as (?&->); auto; cbn [rbind].
    destruct (moment_any "mom_v3_bulk" fl) as (?&->); auto; cbn [rbind].
    destruct (moment_any "mom_v3_bulk" fb) as (?&->); auto; cbn [rbind].
    destruct (moment_any "density" fb) as (?&->); auto; cbn [rbind].
    destruct (moment_any "mom_v1_bulk" fb) as (?&->); auto; cbn [rbind].
    destruct (moment_any "mom_v1_bulk" f) as (?&->); auto; cbn [rbind].
    destruct (moment_any "density" f) as (?&->); auto; cbn [rbind].
    destruct (moment_any "mom_v2_bulk" f) as (?&->); auto; cbn [rbind].
    eexists _, _. reflexivity.
  Qed.

  Lemma reconstruct_any a x k m : scheme_of_name m = Some k -> exists y, reconstruct a x m = Ok y.
  Proof.
    unfold scheme_of_name, reconstruct. intros E.
    repeat match type of E with context [String.eqb ?u ?v] => destruct (String.eqb u v) end; eauto; discriminate.
  Qed.
  Lemma df_q_any r1 r2 t f : exists y, df_dt_q c r1 r2 t f = Ok y.
  Proof.
    destruct (do_schemes P DO) as (k1&k2&K1&K2). unfold df_dt_q.
    destruct (reconstruct_any f Ax2 k1 _ K1) as ((a&b)&->). cbn [rbind].
    destruct (reconstruct_any f Ax3 k1 _ K1) as ((a'&b')&->). cbn [rbind]. eauto.
  Qed.
  Lemma d_flux_any r1 r2 x dp C f : exists y, d_flux_p c r1 r2 x dp C f = Ok y.
  Proof.
    destruct (do_schemes P DO) as (k1&k2&K1&K2). unfold d_flux_p.
    match goal with |- context [reconstruct ?g _ _] => destruct (reconstruct_any g x k2 _ K2) as ((a&b)&->) end.
    cbn [rbind]. eauto.
  Qed.
  Lemma df_dt_any r1 r2 t E1 E2 E3 f : exists y, df_dt_fvm c r1 r2 t E1 E2 E3 f = Ok y.
  Proof.
    unfold df_dt_fvm.
    assert (X : exists d, (if String.eqb (solver_method_in_q c) "FVM"
              then let? (d, _, _) := df_dt_q c r1 r2 t f in Ok d else Ok (azero f)) = Ok d).
    { destruct (String.eqb _ _); eauto. destruct (df_q_any r1 r2 t f) as (((d&l)&b)&->). cbn [rbind]. eauto. }
    destruct X as (d&->). cbn [rbind]. destruct (_ && _); eauto. unfold df_dt_p.
    destruct (d_flux_any r1 r2 Ax0 (dp1 c) (force_p1 c r1 r2 t E1) f) as (y1&->). cbn [rbind].
    destruct (d_flux_any r1 r2 Ax1 (dp2 c) (force_p2 c r1 r2 t E2) f) as (y2&->). cbn [rbind].
    destruct (d_flux_any r1 r2 Ax2 (dp3 c) (force_p3 c r1 r2 t E3) f) as (y3&->). cbn [rbind]. eauto.
  Qed.
  Lemma half_any t h E f0 f : exists y, half_update P t h E f0 f = Ok y.
  Proof.
    unfold half_update. apply all_ranks_total. intros r1 r2. destruct (E r1 r2) as ((a1&a2)&a3).
    destruct (df_dt_any r1 r2 t a1 a2 a3 (f r1 r2)) as (y&Y). rewrite Y. cbn [rbind]. eauto.
  Qed.
  Lemma refresh_any t s : exists x, refresh_f P t s = Ok x.
  Proof.
    unfold refresh_f.
    match goal with |- context [all_ranks ?L ?F] => destruct (all_ranks_total L F) as (G&->) end.
    { intros r1 r2. rewrite apply_bcs_periodic by apply DO. eauto. }
    cbn [rbind]. eauto.
  Qed.
  Lemma faces_any t f : exists o, face_values P t f = Ok o
    /\ (solver_method_in_q c = "FVM"%string -> exists fl fb, o = Some (fl, fb)).
  Proof.
    unfold face_values. destruct (String.eqb_spec (solver_method_in_q c) "FVM") as [Q|Q].
    - match goal with |- context [all_ranks ?L ?F] => destruct (all_ranks_total L F) as (G&->) end.
      { intros r1 r2. destruct (df_q_any r1 r2 t (f r1 r2)) as (((d&l)&b)&->). cbn [rbind]. eauto. }
      cbn [rbind].
      match goal with |- context [all_ranks ?L ?F] => destruct (all_ranks_total L F) as (G'&->) end.
      { intros r1 r2. destruct (df_q_any r1 r2 t (f r1 r2)) as (((d&l)&b)&->). cbn [rbind]. eauto. }
      cbn [rbind]. eexists. split; [reflexivity|]. eauto.
    - eexists. split; [reflexivity|]. intros; contradiction.
  Qed.

  Lemma electrostatic_any rho e : wf_em (pf P) e ->
    exists e', compute_electrostatic_fields (pf P) rho e = Ok e' /\ wf_em (pf P) e' /\ ext e e'.
  Proof.
    intros W. unfold compute_electrostatic_fields.
    destruct (String.eqb_spec (fields_solver (pf P)) "fft") as [FS|FS].
    - unfold electrostatic_update, fft_poisson. rewrite (do_process P DO FS). cbn [Nat.eqb negb rbind].
      destruct (do_regular P DO) as ((PL&PE)&_). rewrite apply_bcs_fields_periodic by exact PE.
      eexists. split; [reflexivity|]. split.
      + apply wf_comm, wf_write; auto. apply shaped_dmap2; [|apply shaped_cc; auto].
        intros g a. destruct (fft_poisson_E (fN_g (pf P)) (fdq1 (pf P)) (fdq2 (pf P)) (eps (pf P)) g) as (x&y). repeat split.
      + eapply ext_trans; [apply ext_write|apply (ext_comm (pf P) false)].
    - exists e. split; [reflexivity|]. split; [exact W|apply ext_refl].
  Qed.

  Lemma evolve_any fl fb f dt e : wf_em (pf P) e ->
    exists J e1 e2, (if hybrid (pf P) then hybrid_fields P fl fb f e
                     else let? J := kinetic_currents P fl fb f in Ok (J, e)) = Ok (J, e1)
      /\ evolve_electrodynamic_fields (pf P) (fst3 J) (snd3 J) (snd J) dt e1 = Ok e2
      /\ wf_em (pf P) e2 /\ ext e e2.
  Proof.
    intros W. pose proof (do_regular P DO) as RG. destruct (hybrid (pf P)) eqn:HY.
    - destruct (hybrid_any fl fb f e) as (J&e1&E1).
      destruct (hybrid_evolve P RG HY _ _ _ _ _ _ dt W E1) as (e2&E2&W2&_&_&W1).
      exists J, e1, e2. split; [exact E1|]. split; [exact E2|]. split; [exact W2|].
      eapply ext_trans; [eapply ext_hybrid; exact E1|eapply ext_evolve; exact E2].
    - destruct (kinetic_any fl fb f) as (J&->). cbn [rbind].
      destruct (evolve_total (pf P) (fst3 J) (snd3 J) (snd J) dt e RG HY) as (e2&E2).
      exists J, e, e2. split; [reflexivity|]. split; [exact E2|].
      destruct (evolve_ok _ _ _ _ _ _ _ RG W E2) as (_&W2&_). split; [exact W2|eapply ext_evolve; exact E2].
  Qed.

  Lemma get3 e : wf_em (pf P) e -> exists F1 F2 F3 e1 e2 e3, get_fields (pf P) e = (F1, e1)
    /\ get_fields (pf P) e1 = (F2, e2) /\ get_fields (pf P) e2 = (F3, e3) /\ wf_em (pf P) e3 /\ ext e e3.
  Proof.
    intros W.
    pose proof (wf_get (pf P) e W) as W1. pose proof (ext_get (pf P) e) as X1.
    destruct (get_fields (pf P) e) as (F1&e1). cbn [snd] in W1, X1.
    pose proof (wf_get (pf P) e1 W1) as W2. pose proof (ext_get (pf P) e1) as X2.
    destruct (get_fields (pf P) e1) as (F2&e2) eqn:E2. cbn [snd] in W2, X2.
    pose proof (wf_get (pf P) e2 W2) as W3. pose proof (ext_get (pf P) e2) as X3.
    destruct (get_fields (pf P) e2) as (F3&e3) eqn:E3. cbn [snd] in W3, X3.
    exists F1, F2, F3, e1, e2, e3. split; [reflexivity|]. split; [exact E2|]. split; [exact E3|].
    split; [exact W3|]. eapply ext_trans; [exact X1|eapply ext_trans; eassumption].
  Qed.

  Lemma seen_any t h f e : (fields_enabled c = true -> solver_method_in_p c = "FVM"%string ->
      solver_method_in_q c = "FVM"%string \/ fields_type P = "electrostatic"%string) ->
    wf_em (pf P) e ->
    exists F e', Solver.fields_seen P t h f e = Ok (F, e') /\ wf_em (pf P) e' /\ ext e e'.
  Proof.
    intros AV W. unfold Solver.fields_seen.
    destruct (String.eqb_spec (solver_method_in_p c) "FVM") as [PP|PP]; cbn [andb];
      [|do 2 eexists; split; [reflexivity|split; [exact W|apply ext_refl]]].
    destruct (fields_enabled c) eqn:FE; [|do 2 eexists; split; [reflexivity|split; [exact W|apply ext_refl]]].
    specialize (AV eq_refl PP).
    assert (U : exists e', update_fields P t h f e = Ok e' /\ wf_em (pf P) e' /\ ext e e').
    { unfold update_fields. destruct (faces_any t f) as (o&->&O). cbn [rbind].
      assert (U1 : exists e1, (if String.eqb (fields_type P) "electrodynamic" && negb (at_n e) then
          match o with
          | None => Err UnboundLocalError
          | Some (fl, fb) =>
              let? (J, e) := (if hybrid (pf P) then hybrid_fields P fl fb f e
                              else let? J := kinetic_currents P fl fb f in Ok (J, e)) in
              evolve_electrodynamic_fields (pf P) (fst3 J) (snd3 J) (snd J) h e
          end else Ok e) = Ok e1 /\ wf_em (pf P) e1 /\ ext e e1).
      { destruct (String.eqb_spec (fields_type P) "electrodynamic") as [FT|FT]; cbn [andb];
          [|exists e; split; [reflexivity|split; [exact W|apply ext_refl]]].
        destruct (at_n e); cbn [negb]; [exists e; split; [reflexivity|split; [exact W|apply ext_refl]]|].
        destruct AV as [Q|ES]; [|rewrite FT in ES; discriminate].
        destruct (O Q) as (fl&fb&->).
        destruct (evolve_any fl fb f h e W) as (J&e1&e2&->&E2&W2&X2). cbn [rbind]. exists e2. auto. }
      destruct U1 as (e1&->&W1&X1). cbn [rbind].
      destruct (_ && _); [|exists e1; auto].
      destruct (moment_any "density" f (do_density P DO)) as (n&->). cbn [rbind].
      destruct (electrostatic_any (times_charge P n) e1 W1) as (e2&->&W2&X2).
      exists e2. split; [reflexivity|]. split; [exact W2|eapply ext_trans; eassumption]. }
    destruct U as (e1&->&W1&X1). cbn [rbind].
    destruct (get3 e1 W1) as (F1&F2&F3&a&b&d&->&->&->&W3&X3).
    do 2 eexists. split; [reflexivity|]. split; [exact W3|eapply ext_trans; eassumption].
  Qed.

  (** As [fine], for the setups considered here. *)
  Definition ready (op : operator solver) : Prop :=
    forall dt s, wf s -> exists s', op dt s = Ok s' /\ from s s'.

  Lemma ready_fvm : (fields_enabled c = true -> solver_method_in_p c = "FVM"%string ->
      solver_method_in_q c = "FVM"%string \/ fields_type P = "electrostatic"%string) -> ready (op_fvm P).
  Proof.
    intros AV dt s W. unfold op_fvm.
    destruct (refresh_any (time_elapsed s) (fpart s)) as (x&->). cbn [rbind].
    destruct (seen_any (time_elapsed s) (cur_dt s) (sf x) (fields s) AV W) as (F&e1&->&W1&X1). cbn [rbind].
    destruct (half_any (time_elapsed s) (dt / 2) F (sf x) (sf x)) as (f1&->). cbn [rbind].
    destruct (refresh_any (time_elapsed s) (FState f1 (sbuf x))) as (x'&->). cbn [rbind].
    destruct (seen_any (time_elapsed s) (cur_dt s) (sf x') e1 AV W1) as (F'&e2&->&W2&X2). cbn [rbind].
    destruct (half_any (time_elapsed s) dt F' (sf x) (sf x')) as (f2&->). cbn [rbind].
    eexists. split; [reflexivity|]. split; [exact W2|]. cbn [fields set_fields]. eapply ext_trans; eassumption.
  Qed.

  Lemma ready_fields : solver_method_in_p c = "ASL"%string ->
    (fields_solver (pf P) <> "fdtd"%string \/ hybrid (pf P) = true) -> ready (op_fields P).
  Proof.
    intros PP AV dt s W. unfold op_fields.
    assert (U0 : exists e0, (if String.eqb (fields_solver (pf P)) "electrostatic" then
        let? n := moment P "density" (f_of s) in
        compute_electrostatic_fields (pf P) (times_charge P n) (fields s) else Ok (fields s)) = Ok e0
        /\ wf_em (pf P) e0 /\ ext (fields s) e0).
    { destruct (String.eqb _ _); [|exists (fields s); split; [reflexivity|split; [exact W|apply ext_refl]]].
      destruct (moment_any "density" (f_of s) (do_density P DO)) as (n&->). cbn [rbind].
      apply electrostatic_any. exact W. }
    destruct U0 as (e0&->&W0&X0). cbn [rbind].
    match goal with |- context [rbind (if String.eqb (fields_solver (pf P)) "fdtd" then ?A else Ok e0) _] =>
      assert (U1 : exists e1, (if String.eqb (fields_solver (pf P)) "fdtd" then A else Ok e0) = Ok e1
                   /\ wf_em (pf P) e1 /\ ext e0 e1) end.
    { destruct (String.eqb_spec (fields_solver (pf P)) "fdtd") as [FS|FS];
        [|exists e0; split; [reflexivity|split; [exact W0|apply ext_refl]]].
      destruct AV as [AV|HY]; [contradiction|].
      destruct (evolve_any (half_sum_q1 (f_of s)) (half_sum_q2 (f_of s)) (f_of s) (cur_dt s) e0 W0)
        as (J&e1&e2&E1&E2&W2&X2).
      rewrite HY in *. rewrite E1. cbn [rbind]. exists e2. auto. }
    destruct U1 as (e1&->&W1&X1). cbn [rbind].
    destruct (get3 e1 W1) as (F1&F2&F3&a&b&d&->&->&->&W3&X3).
    match goal with |- context [all_ranks ?L ?F] => destruct (all_ranks_total L F) as (G&->) end.
    { intros r1 r2. unfold f_interp_p_3d. destruct (do_species P DO PP) as (A&B&C&D).
      match goal with |- context [interpolant ?cc r1 r2 ?u (p2_start _) _] =>
        destruct (interpolant_total P r1 r2 u (p2_start c) (dp2 c) A C) as (x&Ex) end.
      rewrite Ex. cbn [rbind].
      match goal with |- context [interpolant ?cc r1 r2 ?u (p3_start _) _] =>
        destruct (interpolant_total P r1 r2 u (p3_start c) (dp3 c) B D) as (y&Ey) end.
      rewrite Ey. cbn [rbind]. eauto. }
    cbn [rbind]. eexists. split; [reflexivity|]. split; [exact W3|].
    cbn [fields set_fields]. eapply ext_trans; [exact X0|eapply ext_trans; eassumption].
  Qed.

  Lemma ready_advect : ready (op_advect_q P).
  Proof.
    intros dt s W. unfold op_advect_q. destruct (refresh_any (time_elapsed s) (fpart s)) as (x&->).
    cbn [rbind]. eexists. split; [reflexivity|]. split; [exact W|apply ext_refl].
  Qed.
  Lemma ready_source : ready (op_solve_src P).
  Proof.
    intros dt s W. unfold op_solve_src. destruct (instantaneous P); [rewrite andb_false_r|rewrite andb_true_r];
      [|destruct (source_enabled (pc P))]; (eexists; split; [reflexivity|split; [exact W|apply ext_refl]]).
  Qed.

  Lemma from_trans' a b d : from a b -> from b d -> from a d.
  Proof. intros (A&B) (A'&B'). split; auto. eapply ext_trans; eassumption. Qed.
  Lemma ready_lie o1 o2 : ready o1 -> ready o2 -> ready (lie o1 o2).
  Proof.
    intros K1 K2 dt s W. unfold lie. destruct (K1 dt s W) as (s1&->&X1). cbn [rbind].
    destruct (K2 dt s1 (proj1 X1)) as (s2&->&X2). exists s2. split; auto. eapply from_trans'; eassumption.
  Qed.
  Lemma ready_strang o1 o2 : ready o1 -> ready o2 -> ready (strang o1 o2).
  Proof.
    intros K1 K2 dt s W. unfold strang. destruct (K1 (1/2*dt) s W) as (s1&->&X1). cbn [rbind].
    destruct (K2 dt s1 (proj1 X1)) as (s2&->&X2). cbn [rbind].
    destruct (K1 (1/2*dt) s2 (proj1 X2)) as (s3&->&X3). exists s3. split; auto.
    eapply from_trans'; [|exact X3]. eapply from_trans'; eassumption.
  Qed.
  Lemma ready_swss o1 o2 : ready o1 -> ready o2 -> ready (swss H o1 o2).
  Proof.
    intros K1 K2 dt s W. unfold swss. destruct (K1 dt s W) as (s1&->&X1). cbn [rbind].
    destruct (K2 dt s1 (proj1 X1)) as (s2&->&X2). cbn [rbind].
    pose proof (from_trans' _ _ _ X1 X2) as X02.
    change (fields_on H) with (fields_enabled (pc P)). destruct (fields_enabled (pc P)) eqn:FE.
    - set (y := set_refs H (get_refs H s) (set_f H (get_f H s) s2)).
      assert (Wy : wf y) by (apply (wf_rebind P s (set_f H (get_f H s) s2) W); exact X02).
      destruct (K2 dt y Wy) as (s3&->&X3). cbn [rbind].
      destruct (K1 dt s3 (proj1 X3)) as (s4&->&X4). cbn [rbind].
      eexists. split; [reflexivity|].
      assert (Xy : ext (fields s2) (fields y)) by (repeat split; auto).
      assert (X24 : ext (fields s2) (fields s4)).
      { eapply ext_trans; [exact Xy|]. eapply ext_trans; [apply X3|apply X4]. }
      pose proof (proj1 X4) as W4. pose proof (proj1 X2) as W2.
      destruct W4 as ((A1&A2&A3&A4)&W4'). destruct W2 as ((C1&C2&C3&C4)&W2').
      pose proof X24 as (N24&_&_).
      split.
      + apply wf_mix; [exact (proj1 X4)| | | |]; cbn [H solver_host get_refs fst snd set_f set_f_of fields set_fpart]; auto; lia.
      + eapply ext_trans; [apply X02|]. eapply ext_trans; [exact X24|].
        split; [apply le_S, le_S, le_n|]. split; reflexivity.
    - destruct (K2 dt (set_f H (get_f H s) s2) (proj1 X2)) as (s3&->&X3). cbn [rbind].
      destruct (K1 dt s3 (proj1 X3)) as (s4&->&X4). cbn [rbind].
      eexists. split; [reflexivity|]. split; [exact (proj1 X4)|].
      eapply ext_trans; [apply X02|]. eapply ext_trans; [apply X3|apply X4].
  Qed.
  Lemma ready_jia o1 o2 : fields_enabled (pc P) = false -> ready o1 -> ready o2 -> ready (jia H o1 o2).
  Proof.
    intros FE K1 K2 dt s W. unfold jia. change (fields_on H) with (fields_enabled (pc P)). rewrite FE.
    destruct (ready_strang _ _ K1 K2 dt s W) as (s1&->&X1). cbn [rbind].
    destruct (ready_strang _ _ K2 K1 dt (set_f H (get_f H s) s1) (proj1 X1)) as (s2&->&X2). cbn [rbind].
    destruct (ready_swss _ _ K1 K2 dt (set_f H (get_f H s) s2) (proj1 X2)) as (s3&->&X3). cbn [rbind].
    eexists. split; [reflexivity|]. split; [exact (proj1 X3)|].
    eapply ext_trans; [apply X1|]. eapply ext_trans; [apply X2|apply X3].
  Qed.

  Lemma ready_split m o1 o2 : (fields_enabled (pc P) = true -> m <> Jia) -> ready o1 -> ready o2 ->
    ready (split_of M m o1 o2).
  Proof.
    intros NJ K1 K2. destruct m; cbn [split_of]; [apply ready_lie|apply ready_strang|apply ready_swss|apply ready_jia]; auto.
    destruct (fields_enabled (pc P)); auto. exfalso. apply (NJ eq_refl eq_refl).
  Qed.

  Lemma ready_advance m : available P m -> ready (advance M (split_of M m)).
  Proof.
    intros AV dt s W. unfold advance.
    change (method_q M) with (solver_method_in_q (pc P)).
    change (method_p M) with (solver_method_in_p (pc P)). change (with_fields M) with (fields_enabled (pc P)).
    unfold available in AV.
    assert (NJ : (fields_enabled (pc P) = true -> solver_method_in_q (pc P) = "ASL"%string \/ solver_method_in_p (pc P) = "ASL"%string -> m <> Jia)).
    { intros FE QP. specialize (AV FE). destruct AV as [(Q&PP)|[(_&_&_&J)|(_&_&J)]]; auto.
      rewrite Q, PP in QP. destruct QP; discriminate. }
    destruct (do_q P DO) as [Q|Q]; rewrite Q; cbn [String.eqb Ascii.eqb Bool.eqb].
    - destruct (do_p P DO) as [PP|PP]; rewrite PP; cbn [String.eqb Ascii.eqb Bool.eqb andb].
      + apply ready_fvm; auto.
      + destruct (fields_enabled (pc P)) eqn:FE.
        * apply ready_split; auto; [apply ready_fvm; intros _ X; rewrite PP in X; discriminate|].
          apply ready_fields; [exact PP|]. destruct (AV eq_refl) as [(_&X)|[(X&_)|(_&X&_)]]; auto; [rewrite PP in X|rewrite Q in X]; discriminate.
        * apply ready_fvm; auto.
    - destruct (fields_enabled (pc P)) eqn:FE.
      + destruct (do_p P DO) as [PP|PP]; rewrite PP; cbn [String.eqb Ascii.eqb Bool.eqb];
          apply ready_split; auto; try (apply ready_split; auto; [apply ready_advect|apply ready_source]).
        * apply ready_fvm. intros _ _. right.
          destruct (AV eq_refl) as [(X&_)|[(_&_&X&_)|(X&_)]]; auto; [rewrite Q in X|rewrite PP in X]; discriminate.
        * apply ready_fields; [exact PP|]. destruct (AV eq_refl) as [(_&X)|[(_&X&_)|(_&X&_)]]; auto; rewrite PP in X; discriminate.
      + apply ready_split; [intros X; rewrite FE in X; discriminate|apply ready_advect|apply ready_source|exact W].
  Qed.

  Lemma available_step m dt s : available P m -> wf s -> exists s', step_of M m dt s = Ok (s', None) /\ wf s'.
  Proof.
    intros AV W. rewrite step_of_eq. unfold step.
    destruct (ready_advance m AV dt (set_dt M dt s) W) as (s1&->&X). cbn [rbind].
    assert (D : diverged M s1 = false) by (apply finite_iff, solver_finite).
    rewrite D. eexists. split; [reflexivity|]. exact (proj1 X).
  Qed.

  Lemma available_run h s : wf s ->
    (Forall (fun x => available P (fst x)) h <-> exists s', run_steps M h s = Ok (s', None)).
  Proof.
    intros W. split.
    - intros F. assert (X : exists s', run_steps M h s = Ok (s', None) /\ wf s'); [|destruct X as (s'&X&_); eauto].
      revert s W. induction F as [|(m&dt) h A F IH]; intros s W; cbn [run_steps]; [eauto|].
      destruct (available_step m dt s A W) as (s1&->&W1). cbn [rbind]. apply IH. exact W1.
    - revert s W. induction h as [|(m&dt) h IH]; intros s W (s'&E); [constructor|]. cbn [run_steps] in E.
      assert (A : available P m).
      { destruct (do_q P DO) as [Q|Q], (do_p P DO) as [PP|PP];
        assert (DEC : available P m \/ ~ available P m).
        all: try (unfold available; rewrite ?Q, ?PP;
          destruct (fields_enabled (pc P)); [|left; discriminate];
          destruct (String.eqb_spec (fields_type P) "electrostatic") as [T|T];
          destruct (String.eqb_spec (fields_solver (pf P)) "fdtd") as [S|S];
          destruct (hybrid (pf P)); destruct m;
          solve [left; intros _; first [left; split; reflexivity
                 | right; left; repeat split; auto; discriminate
                 | right; right; repeat split; auto; discriminate]
                |right; intros X; destruct (X eq_refl) as [(Y&Z)|[(Y&Z&V&J)|(Y&[V|V]&J)]]; congruence]).
        all: destruct DEC as [DEC|DEC]; [exact DEC|];
          destruct (unavailable P m DO DEC dt s) as (x&X); fold M in X; rewrite X in E; discriminate. }
      constructor; [exact A|]. destruct (available_step m dt s A W) as (s1&E1&W1). rewrite E1 in E. cbn [rbind] in E.
      apply (IH s1 W1). eauto.
  Qed.
End Total.
