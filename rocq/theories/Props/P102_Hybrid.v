(** Hybrid plasmas and translations of coupled runs: C102-C108. *)
From Coq Require Import ZArith Reals Lra Lia String List Bool.
From Verif Require Import Base.Prelude Base.ZSum Model.Af Model.Petsc Model.Config Model.Fvm Model.Em
  Model.Moments Model.Splitting Model.Timestep Model.Solver Spec.Domain Spec.Lattice Spec.FvmProblem Spec.FvmRun
  Spec.Yee Spec.EmRun Spec.MomentSpec Spec.Clock Spec.SolverSpec Spec.VlasovMaxwell Spec.InitFields Spec.Hybrid Spec.Symmetry Spec.Slide
  Proofs.EmLemmas Proofs.EmInit Proofs.EmProps Proofs.InitFields Proofs.VmProps Proofs.HybridRun Proofs.Slide Proofs.HybridProps
  Props.ExFvm Props.ExEm Props.ExSolver Props.ExMaxwell Props.ExHybrid.
Import ListNotations.
Local Open Scope R_scope.

(** C102.  With three ghost zones, any sequence of steps of a hybrid plasma succeeds
    and computes the Vlasov equation with the generalised Ohm's law and Faraday's law
    on the global grid (Spec/Hybrid.v). *)
Theorem C102_hybrid_model : forall P k1 k2, wf_cfg (pc P) k1 k2 -> periodic_fvm (pc P) k1 -> plasma P -> hybrid_fvm P ->
  forall h s S, starts P s -> vm_holds P s S ->
  exists s', run_steps (solver_stepper P) h s = Ok (s', None)
  /\ vm_holds P s' (hyb_run P k1 k2 (time_elapsed s) h S)
  /\ time_elapsed s' = time_elapsed s + elapsed h /\ ftime (fields s') = elapsed h.
Proof. exact hyb_refines. Qed.
Print Assumptions C102_hybrid_model.

Definition hyb_steps : list (method * R) := [(Strang, 1/10); (Lie, 1/20); (Swss, 1/10)].

Example C102_applies : exists s s' S, let P := hyb_params push twist in
  starts P s /\ f_of s = sf (hyb_state beat) /\ vm_holds P s S
  /\ run_steps (solver_stepper P) hyb_steps s = Ok (s', None)
  /\ vm_holds P s' (hyb_run P MC PPM 0 hyb_steps S) /\ ftime (fields s') = 1/4.
Proof.
  destruct (hyb_initial push twist beat) as (s&ST&F&T&_).
  set (P := hyb_params push twist) in *.
  destruct (hyb_starts P (hyb_fvm push twist) s ST) as (H&_).
  destruct (C102_hybrid_model P MC PPM hyb_wf hyb_periodic (hyb_plasma _ _) (hyb_fvm _ _) hyb_steps s _ ST H) as (s'&R&H'&_&C).
  rewrite T in H'. exists s, s', (contents P s). cbv zeta.
  split; [exact ST|]. split; [exact F|]. split; [exact H|]. split; [exact R|]. split; [exact H'|].
  rewrite C. unfold hyb_steps, elapsed; cbn. lra.
Qed.

(** C103.  The divergence of B, as the solver computes it, never changes. *)
Theorem C103_hybrid_no_monopoles : forall P k1 k2, wf_cfg (pc P) k1 k2 -> periodic_fvm (pc P) k1 -> plasma P -> hybrid_fvm P ->
  forall h s, starts P s ->
  exists s', run_steps (solver_stepper P) h s = Ok (s', None)
  /\ forall i j, inb (gN1 (lay (pc P))) i -> inb (gN2 (lay (pc P))) j ->
     gval (lay (pc P)) (compute_divB (pf P) (fields s')) 0 0 i j = gval (lay (pc P)) (compute_divB (pf P) (fields s)) 0 0 i j.
Proof. exact hyb_divB_solver. Qed.
Print Assumptions C103_hybrid_no_monopoles.

Example C103_applies : forall h, exists s s', let P := hyb_params push twist in
  starts P s /\ f_of s = sf (hyb_state beat) /\ run_steps (solver_stepper P) h s = Ok (s', None)
  /\ forall i j, inb 4 i -> inb 3 j ->
     gval ex_lay (compute_divB (pf P) (fields s')) 0 0 i j = gval ex_lay (compute_divB (pf P) (fields s)) 0 0 i j.
Proof.
  intros h. destruct (hyb_initial push twist beat) as (s&ST&F&_).
  destruct (C103_hybrid_no_monopoles (hyb_params push twist) MC PPM hyb_wf hyb_periodic (hyb_plasma push twist) (hyb_fvm _ _) h s ST) as (s'&R&H).
  exists s, s'. auto.
Qed.

(** C104.  The result does not depend on the process grid. *)
Theorem C104_hybrid_any_process_grid : forall P L' k1 k2 h s s2 u, let P' := with_layouts P L' in
  wf_cfg (pc P) k1 k2 -> plasma P -> hybrid_fvm P -> user_defined (pf P) -> periodic_fvm (pc P) k1 ->
  periodic_fvm (pc P') k1 -> (3 <= ng1 L')%Z -> (3 <= ng2 L')%Z ->
  gN1 L' = gN1 (lay (pc P)) -> gN2 L' = gN2 (lay (pc P)) ->
  starts P s -> holds (pc P) (f_of s) u -> starts P' s2 -> holds (pc P') (f_of s2) u -> time_elapsed s2 = time_elapsed s ->
  exists r r2 T, run_steps (solver_stepper P) h s = Ok (r, None) /\ run_steps (solver_stepper P') h s2 = Ok (r2, None)
  /\ vm_holds P r T /\ vm_holds P' r2 T.
Proof. exact hyb_any_ranks. Qed.
Print Assumptions C104_hybrid_any_process_grid.

(** Four ranks and one. *)
Example C104_applies : forall h, let P := hyb_params push twist in let P' := with_layouts P ex_serial in
  exists s s2 r r2 T, f_of s = sf (hyb_state beat) /\ run_steps (solver_stepper P) h s = Ok (r, None)
  /\ run_steps (solver_stepper P') h s2 = Ok (r2, None) /\ vm_holds P r T /\ vm_holds P' r2 T.
Proof.
  intros h P P'. destruct (hyb_initial push twist beat) as (s&ST&F&T&_).
  assert (UD : user_defined (pf P)) by (left; exists push, twist; apply hyb_defines).
  assert (RG' : regular (pf P')).
  { unfold regular, periodic_fields, periodic_layout, tiles; cbn. repeat split; try lia; try lra; repeat constructor; try lia. }
  assert (PF' : periodic_fvm (pc P') MC).
  { unfold periodic_fvm, periodic_layout, tiles; cbn. repeat split; try lia; repeat constructor; lia. }
  destruct (initial_EB (pf P') zeroJ push twist RG' (hyb_defines push twist)) as (e2&I2&_).
  set (f2 := FState (fun r1 r2 => Arr 4 1 (n1g ex_serial r1) (n2g ex_serial r2) (fun x s i j => beat x s (i - 4) (j - 3))%Z) (fun _ _ _ => 0)).
  set (s2 := Solver f2 e2 0 0).
  assert (S2 : starts P' s2) by (split; [exists zeroJ; exact I2|intros r1 r2 _; repeat split]).
  destruct (C104_hybrid_any_process_grid P ex_serial MC PPM h s s2 beat hyb_wf (hyb_plasma _ _)
    (hyb_fvm _ _) UD hyb_periodic PF' ltac:(cbn; lia) ltac:(cbn; lia) eq_refl eq_refl ST) as (r&r2&U&A&B&C&D).
  - rewrite F. apply hyb_holds.
  - exact S2.
  - split; [intros r1 r2 _; repeat split|]. intros x sp i j _ _ Hi Hj. unfold inb in *. cbn in Hi, Hj.
    assert (CC : (i = 0 \/ i = 1 \/ i = 2 \/ i = 3)%Z) by lia. assert (DD : (j = 0 \/ j = 1 \/ j = 2)%Z) by lia.
    destruct CC as [->|[->|[->| ->]]]; destruct DD as [->|[->| ->]]; reflexivity.
  - rewrite T. reflexivity.
  - exists s, s2, r, r2, U. auto.
Qed.

(** C105.  Where the origin of the periodic box lies is immaterial: the run from
    data moved by whole cells is the moved run, for the full Maxwell and the hybrid
    model, whatever the ranks the data land on. *)
Theorem C105_translation : forall P c' k1 k2 d1 d2 h s s2, let P' := with_fields_from P c' in
  wf_cfg (pc P) k1 k2 -> periodic_fvm (pc P) k1 -> plasma P -> maxwell P \/ hybrid_fvm P ->
  velocity_uniform (pc P) -> same_everywhere (pc P) ->
  starts P s -> starts P' s2 -> time_elapsed s2 = time_elapsed s -> moved_state P d1 d2 (contents P s) (contents P s2) ->
  exists r r2, run_steps (solver_stepper P) h s = Ok (r, None) /\ run_steps (solver_stepper P') h s2 = Ok (r2, None)
  /\ moved_state P d1 d2 (contents P r) (contents P r2).
Proof. exact translation. Qed.
Print Assumptions C105_translation.

(** So data that do not vary along some direction never do: one-dimensional
    problems stay one-dimensional. *)
Theorem C105_one_dimensional : forall P k1 k2 d1 d2 h s,
  wf_cfg (pc P) k1 k2 -> periodic_fvm (pc P) k1 -> plasma P -> maxwell P \/ hybrid_fvm P ->
  velocity_uniform (pc P) -> same_everywhere (pc P) ->
  starts P s -> constant_along P d1 d2 (contents P s) ->
  exists r, run_steps (solver_stepper P) h s = Ok (r, None) /\ constant_along P d1 d2 (contents P r).
Proof. exact kept_along. Qed.
Print Assumptions C105_one_dimensional.

Definition steady (x y : R) : R * R * R := (1, 2, 3).
Definition upward (x y : R) : R * R * R := (1/2, 0, 1).

(** Uniform fields look the same from everywhere. *)
Lemma steady_slid E B d1 d2 u v s s2 : (forall x y, E x y = E 0 0) -> (forall x y, B x y = B 0 0) ->
  f_of s = sf (hyb_state u) -> f_of s2 = sf (hyb_state v) ->
  same_on 4 3 (view ex_lay (yee_val (fields s))) (on_shifted_grid (hfvm_em E B) E B) ->
  same_on 4 3 (view ex_lay (cc_val (fields s))) (centred (on_shifted_grid (hfvm_em E B) E B)) ->
  same_on 4 3 (view ex_lay (yee_val (fields s2))) (on_shifted_grid (hfvm_em E B) E B) ->
  same_on 4 3 (view ex_lay (cc_val (fields s2))) (centred (on_shifted_grid (hfvm_em E B) E B)) ->
  (forall x i j, inb 4 i -> inb 3 j -> v x 0%Z i j = u x 0%Z ((i - d1) mod 4)%Z ((j - d2) mod 3)%Z) ->
  moved_state (hyb_params E B) d1 d2 (contents (hyb_params E B) s) (contents (hyb_params E B) s2).
Proof.
  intros HE HB F F2 Y C Y2 C2 M.
  assert (V := view_wrap ex_lay (yee_val (fields s)) ltac:(reflexivity) ltac:(reflexivity) _ Y).
  assert (V2 := view_wrap ex_lay (yee_val (fields s2)) ltac:(reflexivity) ltac:(reflexivity) _ Y2).
  assert (X := view_wrap ex_lay (cc_val (fields s)) ltac:(reflexivity) ltac:(reflexivity) _ C).
  assert (X2 := view_wrap ex_lay (cc_val (fields s2)) ltac:(reflexivity) ltac:(reflexivity) _ C2).
  split; [|split].
  - intros x sp i j Hx Hs Hi Hj. unfold contents, moved; cbn [vm_f]. rewrite F, F2.
    change (lay (pc (hyb_params E B))) with ex_lay. change (gN1 ex_lay) with 4%Z. change (gN2 ex_lay) with 3%Z.
    rewrite !hyb_gval by (auto; apply Z.mod_pos_bound; lia).
    replace sp with 0%Z by (unfold inb in Hs; cbn in Hs; lia). apply M; auto.
  - repeat split; intros i j; cbn [slide contents vm_yee E1 E2 E3 B1 B2 B3]; unfold slid;
      change (lay (pc (hyb_params E B))) with ex_lay;
      destruct (V (i - d1)%Z (j - d2)%Z) as (V1&V3&V4&V5&V6&V7); destruct (V2 i j) as (W1&W3&W4&W5&W6&W7);
      cbn [E1 E2 E3 B1 B2 B3 view] in *;
      rewrite ?V1, ?V3, ?V4, ?V5, ?V6, ?V7, ?W1, ?W3, ?W4, ?W5, ?W6, ?W7;
      cbn [E1 E2 E3 B1 B2 B3 on_shifted_grid on_yee_grid]; unfold placed;
      repeat match goal with |- context [E ?a ?b] => lazymatch a with 0 => fail | _ => rewrite (HE a b) end end;
      repeat match goal with |- context [B ?a ?b] => lazymatch a with 0 => fail | _ => rewrite (HB a b) end end; reflexivity.
  - repeat split; intros i j; cbn [slide contents vm_cc E1 E2 E3 B1 B2 B3]; unfold slid;
      change (lay (pc (hyb_params E B))) with ex_lay;
      destruct (X (i - d1)%Z (j - d2)%Z) as (V1&V3&V4&V5&V6&V7); destruct (X2 i j) as (W1&W3&W4&W5&W6&W7);
      cbn [E1 E2 E3 B1 B2 B3 view] in *;
      rewrite ?V1, ?V3, ?V4, ?V5, ?V6, ?V7, ?W1, ?W3, ?W4, ?W5, ?W6, ?W7;
      cbn [E1 E2 E3 B1 B2 B3 on_shifted_grid on_yee_grid centred]; unfold placed;
      repeat match goal with |- context [E ?a ?b] => lazymatch a with 0 => fail | _ => rewrite (HE a b) end end;
      repeat match goal with |- context [B ?a ?b] => lazymatch a with 0 => fail | _ => rewrite (HB a b) end end; reflexivity.
Qed.

(** f in a magnetic field, moved by (1, -2) across rank borders. *)
Example C105_applies : forall h, let P := hyb_params steady upward in
  exists s s2 r r2, starts P s /\ f_of s = sf (hyb_state beat)
  /\ run_steps (solver_stepper P) h s = Ok (r, None) /\ run_steps (solver_stepper P) h s2 = Ok (r2, None)
  /\ moved_state P 1 (-2) (contents P s) (contents P s2) /\ moved_state P 1 (-2) (contents P r) (contents P r2).
Proof.
  intros h P. destruct (hyb_initial steady upward beat) as (s&ST&F&T&Y&C).
  destruct (hyb_initial steady upward (fun x sp i j => beat x sp ((i - 1) mod 4) ((j - -2) mod 3))%Z) as (s2&ST2&F2&T2&Y2&C2).
  assert (MV : moved_state P 1 (-2) (contents P s) (contents P s2)).
  { eapply steady_slid; eauto. }
  destruct (C105_translation P (hfvm_em steady upward) MC PPM 1 (-2) h s s2 hyb_wf hyb_periodic (hyb_plasma _ _)
    (or_intror (hyb_fvm _ _)) hyb_uniform hyb_everywhere ST ST2) as (r&r2&R&R2&M); auto.
  { rewrite T, T2. reflexivity. }
  exists s, s2, r, r2. auto 10.
Qed.

Definition lines (x s i j : Z) : R := IZR (1 + x + i * (4 - i)).
Definition flat (x s i j : Z) : R := IZR (1 + x * x).

Example C105_one_dimensional_applies : forall h, let P := hyb_params steady upward in
  exists s r, starts P s /\ f_of s = sf (hyb_state lines) /\ constant_along P 0 1 (contents P s)
  /\ run_steps (solver_stepper P) h s = Ok (r, None) /\ constant_along P 0 1 (contents P r).
Proof.
  intros h P. destruct (hyb_initial steady upward lines) as (s&ST&F&T&Y&C).
  assert (MV : constant_along P 0 1 (contents P s)).
  { eapply steady_slid; eauto. intros x i j Hi Hj. unfold lines. rewrite Z.sub_0_r, Z.mod_small by exact Hi. reflexivity. }
  destruct (C105_one_dimensional P MC PPM 0 1 h s hyb_wf hyb_periodic (hyb_plasma _ _)
    (or_intror (hyb_fvm _ _)) hyb_uniform hyb_everywhere ST MV) as (r&R&M).
  exists s, r. auto 10.
Qed.

(** C106.  A plasma that is the same everywhere stays so, and its magnetic field
    never changes, in either model. *)
Theorem C106_homogeneous : forall P k1 k2 h s,
  wf_cfg (pc P) k1 k2 -> periodic_fvm (pc P) k1 -> plasma P -> maxwell P \/ hybrid_fvm P ->
  velocity_uniform (pc P) -> same_everywhere (pc P) ->
  starts P s -> homogeneous P (contents P s) ->
  exists r, run_steps (solver_stepper P) h s = Ok (r, None) /\ homogeneous P (contents P r)
  /\ same_B (vm_yee (contents P r)) (vm_yee (contents P s)).
Proof. exact homogeneous_solver. Qed.
Print Assumptions C106_homogeneous.

Example C106_applies : forall h, let P := hyb_params steady upward in
  exists s r, starts P s /\ f_of s = sf (hyb_state flat)
  /\ run_steps (solver_stepper P) h s = Ok (r, None) /\ homogeneous P (contents P r)
  /\ B3 (vm_yee (contents P r)) 0%Z 0%Z = 1.
Proof.
  intros h P. destruct (hyb_initial steady upward flat) as (s&ST&F&T&Y&C).
  destruct (C106_homogeneous P MC PPM h s hyb_wf hyb_periodic (hyb_plasma _ _)
    (or_intror (hyb_fvm _ _)) hyb_uniform hyb_everywhere ST) as (r&R&H&(_&_&B)).
  { split; eapply steady_slid; eauto. }
  exists s, r. split; [exact ST|]. split; [exact F|]. split; [exact R|]. split; [exact H|].
  rewrite B. destruct (Y 0%Z 0%Z) as (_&_&_&_&_&Q); [unfold inb; lia|unfold inb; lia|]. exact Q.
Qed.

(** C107.  Electrons at one temperature push with the gradient of log n, which has no
    curl: an unmagnetised hybrid plasma should stay unmagnetised.  Proved for plasmas
    that vary along one axis only; missing: any others. *)
Theorem C107_unmagnetised_partial : forall P k1 k2 h s,
  wf_cfg (pc P) k1 k2 -> periodic_fvm (pc P) k1 -> plasma P -> hybrid_fvm P ->
  velocity_uniform (pc P) -> same_everywhere (pc P) -> starts P s ->
  constant_along P 1 0 (contents P s) \/ constant_along P 0 1 (contents P s) ->
  unmagnetised (vm_yee (contents P s)) -> unmagnetised (vm_cc (contents P s)) ->
  exists r, run_steps (solver_stepper P) h s = Ok (r, None)
  /\ unmagnetised (vm_yee (contents P r)) /\ unmagnetised (vm_cc (contents P r)).
Proof. exact unmagnetised_solver. Qed.
Print Assumptions C107_unmagnetised_partial.

Example C107_applies : forall h, let P := hyb_params steady none in
  exists s r, starts P s /\ f_of s = sf (hyb_state lines)
  /\ run_steps (solver_stepper P) h s = Ok (r, None) /\ unmagnetised (vm_yee (contents P r)).
Proof.
  intros h P. destruct (hyb_initial steady none lines) as (s&ST&F&T&Y&C).
  assert (V := view_wrap ex_lay (yee_val (fields s)) ltac:(reflexivity) ltac:(reflexivity) _ Y).
  assert (X := view_wrap ex_lay (cc_val (fields s)) ltac:(reflexivity) ltac:(reflexivity) _ C).
  destruct (C107_unmagnetised_partial P MC PPM h s hyb_wf hyb_periodic (hyb_plasma _ _)
    (hyb_fvm _ _) hyb_uniform hyb_everywhere ST) as (r&R&U&_).
  - right. eapply steady_slid; eauto. intros x i j Hi Hj. unfold lines. rewrite Z.sub_0_r, Z.mod_small by exact Hi. reflexivity.
  - repeat split; intros i j; cbn [contents vm_yee]; change (lay (pc P)) with ex_lay;
      destruct (V i j) as (_&_&_&A1&A2&A3); cbn [on_shifted_grid on_yee_grid B1 B2 B3] in *; unfold placed, none in *; cbn [fst snd] in *; lra.
  - repeat split; intros i j; cbn [contents vm_cc]; change (lay (pc P)) with ex_lay;
      destruct (X i j) as (_&_&_&A1&A2&A3); cbn [centred on_shifted_grid on_yee_grid B1 B2 B3] in *; unfold placed, none in *; cbn [fst snd] in *; lra.
  - exists s, r. auto.
Qed.

(** Cold ions at rest, no fields, one cell twice as dense: after one step B3 <> 0. *)
Theorem C107_unmagnetised_refuted : exists P k1 k2 h s r,
  wf_cfg (pc P) k1 k2 /\ periodic_fvm (pc P) k1 /\ plasma P /\ hybrid_fvm P
  /\ velocity_uniform (pc P) /\ same_everywhere (pc P) /\ starts P s
  /\ no_fields (vm_yee (contents P s)) /\ no_fields (vm_cc (contents P s))
  /\ run_steps (solver_stepper P) h s = Ok (r, None) /\ ~ unmagnetised (vm_yee (contents P r)).
Proof.
  destruct (cold_run bump 1 bump_pos) as (s&r&ST&F&_&NY&NC&R&Q1&Q2&Q3).
  exists cold, MC, MC, [(Strang, 1)], s, r.
  split; [exact cold_wf|]. split; [exact cold_periodic|]. split; [exact cold_plasma|]. split; [exact cold_fvm|].
  split; [exact cold_uniform|]. split; [exact cold_everywhere|]. split; [exact ST|]. split; [exact NY|]. split; [exact NC|].
  split; [exact R|]. intros (_&_&B). specialize (B 1%Z 0%Z). rewrite Q3 in B. unfold bwd1, bwd2 in B. rewrite !Q1, !Q2 in B.
  unfold slope1, slope2 in B. cbv -[Rplus Rmult Ropp Rdiv Rinv IZR Rminus] in B. lra.
Qed.
Print Assumptions C107_unmagnetised_refuted.

(** C108.  Ions spread evenly, without fields, stay that way, at rest or not: the
    electrons take their charge and current along. *)
Theorem C108_hybrid_rest : forall P k1 k2, wf_cfg (pc P) k1 k2 -> periodic_fvm (pc P) k1 -> plasma P -> hybrid_fvm P ->
  velocity_uniform (pc P) -> source_enabled (pc P) = false -> field_driven (pc P) ->
  forall a h s, starts P s -> holds (pc P) (f_of s) (fun x sp _ _ => a x sp) ->
  no_fields (view (lay (pc P)) (yee_val (fields s))) -> no_fields (view (lay (pc P)) (cc_val (fields s))) ->
  exists s', run_steps (solver_stepper P) h s = Ok (s', None)
  /\ holds (pc P) (f_of s') (fun x sp _ _ => a x sp)
  /\ no_fields (view (lay (pc P)) (yee_val (fields s'))) /\ no_fields (view (lay (pc P)) (cc_val (fields s'))).
Proof. exact beam_solver. Qed.
Print Assumptions C108_hybrid_rest.

Example C108_applies : forall h, exists s s', let P := hyb_params none none in
  starts P s /\ f_of s = sf (hyb_state flat) /\ run_steps (solver_stepper P) h s = Ok (s', None)
  /\ holds (pc P) (f_of s') (fun x sp _ _ => flat x sp 0 0).
Proof.
  intros h. destruct (hyb_initial none none flat) as (s&ST&F&T&HY&HC).
  destruct (C108_hybrid_rest (hyb_params none none) MC PPM hyb_wf hyb_periodic (hyb_plasma none none) (hyb_fvm none none)
    hyb_uniform eq_refl hyb_field_driven (fun x sp => flat x sp 0 0) h s ST) as (s'&R&H&_).
  - rewrite F. apply (hyb_holds flat).
  - apply (none_fields ex_lay _ (hfvm_em none none) eq_refl eq_refl). left. exact HY.
  - apply (none_fields ex_lay _ (hfvm_em none none) eq_refl eq_refl). right. exact HC.
  - exists s, s'. auto.
Qed.
