(** Hybrid plasmas: process grids, homogeneous and unmagnetised states. *)
From Coq Require Import ZArith Reals Lia Lra String List Bool.
From Verif Require Import Base.Prelude Base.ZSum Model.Af Model.Petsc Model.Config
  Model.Fvm Model.Em Model.Moments Model.Splitting Model.SemiLag Model.Timestep Model.Solver Spec.Domain Spec.Lattice Spec.FvmProblem Spec.FvmRun
  Spec.Yee Spec.EmRun Spec.MomentSpec Spec.Clock Spec.SolverSpec Spec.VlasovMaxwell Spec.InitFields Spec.Hybrid Spec.Symmetry Spec.Slide
  Proofs.AfLemmas Proofs.PetscLemmas Proofs.FvmLemmas2 Proofs.FvmConserve
  Proofs.EmLemmas Proofs.EmStep Proofs.EmInit Proofs.ChargeLemmas Proofs.VlasovMaxwell Proofs.VmProps Proofs.HybridRun Proofs.Slide.
Import ListNotations.
Local Open Scope R_scope.

(** ** Process grids *)
Lemma hyb_step_layouts P L' k1 k2 t dt S : gN1 L' = gN1 (lay (pc P)) -> gN2 L' = gN2 (lay (pc P)) ->
  hyb_step (with_layouts P L') k1 k2 t dt S = hyb_step P k1 k2 t dt S.
Proof.
  intros G1 G2. unfold hyb_step. rewrite !vm_problem_layouts by auto.
  assert (I : forall g, ions (with_layouts P L') g = ions P g).
  { intros g. unfold ions. change (lay (pc (with_layouts P L'))) with L'. rewrite G1, G2. reflexivity. }
  assert (Q : forall p uh Y, hyb_fields (with_layouts P L') p dt uh Y = hyb_fields P p dt uh Y).
  { intros. unfold hyb_fields. rewrite !I. reflexivity. }
  rewrite !Q. reflexivity.
Qed.
Lemma hyb_run_layouts P L' k1 k2 h : gN1 L' = gN1 (lay (pc P)) -> gN2 L' = gN2 (lay (pc P)) ->
  forall t S, hyb_run (with_layouts P L') k1 k2 t h S = hyb_run P k1 k2 t h S.
Proof.
  intros G1 G2. induction h as [|(m&dt) h IH]; intros t S; cbn [hyb_run]; [reflexivity|].
  rewrite hyb_step_layouts by auto. apply IH.
Qed.

Lemma hyb_any_ranks P L' k1 k2 h s s2 u : let P' := with_layouts P L' in
  wf_cfg (pc P) k1 k2 -> plasma P -> hybrid_fvm P -> user_defined (pf P) -> periodic_fvm (pc P) k1 ->
  periodic_fvm (pc P') k1 -> (3 <= ng1 L')%Z -> (3 <= ng2 L')%Z ->
  gN1 L' = gN1 (lay (pc P)) -> gN2 L' = gN2 (lay (pc P)) ->
  starts P s -> holds (pc P) (f_of s) u -> starts P' s2 -> holds (pc P') (f_of s2) u -> time_elapsed s2 = time_elapsed s ->
  exists r r2 T, run_steps (solver_stepper P) h s = Ok (r, None) /\ run_steps (solver_stepper P') h s2 = Ok (r2, None)
  /\ vm_holds P r T /\ vm_holds P' r2 T.
Proof.
  intros P' W PM HF UD PF PF' NG1 NG2 G1 G2 S1 H1 S2 H2 T.
  assert (HF' : hybrid_fvm P').
  { destruct HF as [a b d e g RG]. constructor; auto. destruct RG as ((PL&PE)&X). destruct PF' as (_&_&PL'&_).
    split; [split; [exact PL'|exact PE]|exact X]. }
  assert (PM' : plasma P') by (destruct PM; constructor; auto).
  destruct (grid_pos (pc P') k1 PF') as (P1&P2). change (lay (pc P')) with L' in P1, P2.
  destruct (user_start P L' s s2 PM (hf_regular _ HF) (hf_regular _ HF') G1 G2 P1 P2 UD S1 S2) as (A&B).
  set (S := VM u (view (lay (pc P)) (yee_val (fields s))) (view (lay (pc P)) (cc_val (fields s)))).
  destruct (hyb_refines P k1 k2 W PF PM HF h s S S1) as (r&R&HR&_).
  { split; [exact H1|]. split; apply same_refl. }
  destruct (hyb_refines P' k1 k2 W PF' PM' HF' h s2 S S2) as (r2&R2&HR2&_).
  { split; [exact H2|]. split; [exact A|exact B]. }
  exists r, r2, (hyb_run P k1 k2 (time_elapsed s) h S). split; [exact R|]. split; [exact R2|]. split; [exact HR|].
  rewrite T in HR2. unfold P' in HR2 at 2. rewrite hyb_run_layouts in HR2 by auto. exact HR2.
Qed.

(** ** Homogeneous plasmas *)
Section Homog.
  Context (P : params) (k1 k2 : scheme).
  Let c := pc P.
  Let L := lay c.
  Context (W : wf_cfg c k1 k2) (PF : periodic_fvm c k1) (VU : velocity_uniform c) (SE : same_everywhere c).

  Lemma run_along hyb d1 d2 h : (hyb = true -> N_species c = 1%Z) -> forall t S, Boxed P S ->
    constant_along P d1 d2 S -> constant_along P d1 d2 (run P k1 k2 hyb t h S).
  Proof using W PF VU SE. intros ON t S B M. apply run_moved; auto. Qed.

  Lemma E_of_step hyb t dt S : exists X, vm_yee (step P k1 k2 hyb t dt S) = faraday (fdq1 (pf P)) (fdq2 (pf P)) dt X
    /\ E1 X = E1 (vm_yee (step P k1 k2 hyb t dt S)) /\ E2 X = E2 (vm_yee (step P k1 k2 hyb t dt S))
    /\ E3 X = E3 (vm_yee (step P k1 k2 hyb t dt S)) /\ B1 X = B1 (vm_yee S) /\ B2 X = B2 (vm_yee S) /\ B3 X = B3 (vm_yee S).
  Proof using.
    unfold step, update. cbn [vm_yee]. destruct hyb; [unfold hyb_fields|unfold yee_step]; eexists; (split; [reflexivity|]); repeat split.
  Qed.

  Lemma homog_step hyb t dt S : homogeneous P (step P k1 k2 hyb t dt S) ->
    same_B (vm_yee (step P k1 k2 hyb t dt S)) (vm_yee S).
  Proof using.
    intros ((_&A&_)&(_&B&_)). destruct (E_of_step hyb t dt S) as (X&EX&X1&X2&X3&Y1&Y2&Y3).
    destruct A as (A1&A2&A3&_). destruct B as (C1&C2&C3&_). rewrite <- X1, <- X2, <- X3 in *.
    unfold same_B. rewrite EX in *. cbn [faraday E1 E2 E3 B1 B2 B3 slide] in *. unfold slid, bwd1, bwd2 in *.
    rewrite <- Y1, <- Y2, <- Y3. clear X1 X2 X3.
    repeat split; intros i j; pose proof (A2 i j) as a2; pose proof (A3 i j) as a3; pose proof (C1 i j) as c1; pose proof (C3 i j) as c3;
      rewrite ?Z.sub_0_r in *; unfold Rdiv.
    - rewrite c3. ring.
    - rewrite a3. ring.
    - rewrite a2, c1. ring.
  Qed.

  Lemma homog_run hyb h : (hyb = true -> N_species c = 1%Z) -> forall t S, Boxed P S -> homogeneous P S ->
    homogeneous P (run P k1 k2 hyb t h S) /\ same_B (vm_yee (run P k1 k2 hyb t h S)) (vm_yee S).
  Proof using W PF VU SE.
    intros ON. induction h as [|(m&dt) h IH]; intros t S B H; cbn [run]; [split; [exact H|repeat split]|].
    assert (B1 : Boxed P (step P k1 k2 hyb t dt S)) by (apply step_boxed; auto).
    assert (H1 : homogeneous P (step P k1 k2 hyb t dt S)) by (split; apply step_moved; auto; apply H).
    destruct (IH (t + dt) _ B1 H1) as (X&(Y1&Y2&Y3)). split; [exact X|].
    destruct (homog_step hyb t dt S H1) as (Z1&Z2&Z3).
    repeat split; intros; [rewrite Y1; apply Z1|rewrite Y2; apply Z2|rewrite Y3; apply Z3].
  Qed.

  (** ** Unmagnetised plasmas that vary along one axis only *)
  Lemma flat1 (g : gstate) : Cells P g (moved c 1 0 g) -> N_species c = 1%Z -> forall i j,
    num (ions P g) i j = num (ions P g) (i - 1)%Z j.
  Proof using W PF.
    intros M ON i j. destruct (ions_slid P k1 k2 W PF 1 0 g g ON M) as (A&_).
    rewrite A. cbn [slide_fluid num]. unfold slid. rewrite Z.sub_0_r. reflexivity.
  Qed.
  Lemma flat2 (g : gstate) : Cells P g (moved c 0 1 g) -> N_species c = 1%Z -> forall i j,
    num (ions P g) i j = num (ions P g) i (j - 1)%Z.
  Proof using W PF.
    intros M ON i j. destruct (ions_slid P k1 k2 W PF 0 1 g g ON M) as (A&_).
    rewrite A. cbn [slide_fluid num]. unfold slid. rewrite Z.sub_0_r. reflexivity.
  Qed.

  Lemma unmag_step t dt S : N_species c = 1%Z -> Boxed P S ->
    constant_along P 1 0 S \/ constant_along P 0 1 S -> unmagnetised (vm_yee S) ->
    unmagnetised (vm_yee (step P k1 k2 true t dt S)).
  Proof using W PF VU SE.
    intros ON (BY&BC) CA (Z1&Z2&Z3).
    set (p := vm_problem P k1 k2 t (vm_cc S)).
    set (uh := fun x s i j => vm_f S x s i j + dt / 2 * rhs p (vm_f S) x s i j).
    change (vm_yee (step P k1 k2 true t dt S)) with (faraday (fdq1 (pf P)) (fdq2 (pf P)) dt (ohm_of P p uh (vm_yee S))).
    assert (E3z : forall i j, E3 (ohm_of P p uh (vm_yee S)) i j = 0).
    { intros i j. unfold ohm_of, ohm. cbn [E3]. cbv zeta. unfold fwd1, fwd2. rewrite !Z1, !Z2, !Z3. unfold Rdiv. ring. }
    assert (E1f : forall i j, E1 (ohm_of P p uh (vm_yee S)) i j
       = - T_e P * ((slope1 (fdq1 (pf P)) (num (ions P uh)) i j + slope1 (fdq1 (pf P)) (num (ions P uh)) (i - 1)%Z j) / 2)
         / (nth 0 (charge P) 0 * num (ions P uh) i j)).
    { intros i j. unfold ohm_of, ohm. cbn [E1]. cbv zeta. unfold fwd1, fwd2. rewrite !Z1, !Z2, !Z3. unfold Rdiv. ring. }
    assert (E2f : forall i j, E2 (ohm_of P p uh (vm_yee S)) i j
       = - T_e P * ((slope2 (fdq2 (pf P)) (num (ions P uh)) i j + slope2 (fdq2 (pf P)) (num (ions P uh)) i (j - 1)%Z) / 2)
         / (nth 0 (charge P) 0 * num (ions P uh) i j)).
    { intros i j. unfold ohm_of, ohm. cbn [E2]. cbv zeta. unfold fwd1, fwd2. rewrite !Z1, !Z2, !Z3. unfold Rdiv. ring. }
    assert (CURL : forall i j, bwd1 (fdq1 (pf P)) (E2 (ohm_of P p uh (vm_yee S))) i j = 0
                   /\ bwd2 (fdq2 (pf P)) (E1 (ohm_of P p uh (vm_yee S))) i j = 0).
    { intros i j. destruct CA as [(MU&MY&MC)|(MU&MY&MC)].
      - assert (MH : Cells P uh (moved c 1 0 uh)) by (apply (half_moved P k1 k2 W PF VU SE t dt 1 0); auto).
        pose proof (flat1 uh MH ON) as FL.
        assert (F0 : forall d i j, num (ions P uh) (i + Z.of_nat d)%Z j = num (ions P uh) i j).
        { induction d as [|d IH]; intros x y; [f_equal; lia|]. rewrite FL. rewrite <- (IH x y). f_equal; lia. }
        assert (S0 : forall i j, slope1 (fdq1 (pf P)) (num (ions P uh)) i j = 0).
        { intros a b. unfold slope1. pose proof (F0 1%nat a b) as Q1. pose proof (F0 2%nat a b) as Q2.
          pose proof (F0 1%nat (a - 1)%Z b) as Q3. pose proof (F0 2%nat (a - 2)%Z b) as Q4.
          change (Z.of_nat 1) with 1%Z in *. change (Z.of_nat 2) with 2%Z in *.
          replace (a - 1 + 1)%Z with a in Q3 by lia. replace (a - 2 + 2)%Z with a in Q4 by lia.
          rewrite Q1, Q2, <- Q3, <- Q4. unfold Rdiv. ring. }
        split.
        + unfold bwd1. destruct (ohm_moved P k1 k2 W PF VU t 1 0 (vm_cc S) (vm_cc S) uh uh (vm_yee S) (vm_yee S) ON MH MY) as (_&Q&_).
          fold p in Q. rewrite (Q i j). cbn [slide E2]. unfold slid. rewrite Z.sub_0_r. unfold Rdiv. ring.
        + unfold bwd2. rewrite !E1f, !S0. unfold Rdiv. ring.
      - assert (MH : Cells P uh (moved c 0 1 uh)) by (apply (half_moved P k1 k2 W PF VU SE t dt 0 1); auto).
        pose proof (flat2 uh MH ON) as FL.
        assert (F0 : forall d i j, num (ions P uh) i (j + Z.of_nat d)%Z = num (ions P uh) i j).
        { induction d as [|d IH]; intros x y; [f_equal; lia|]. rewrite FL. rewrite <- (IH x y). f_equal; lia. }
        assert (S0 : forall i j, slope2 (fdq2 (pf P)) (num (ions P uh)) i j = 0).
        { intros a b. unfold slope2. pose proof (F0 1%nat a b) as Q1. pose proof (F0 2%nat a b) as Q2.
          pose proof (F0 1%nat a (b - 1)%Z) as Q3. pose proof (F0 2%nat a (b - 2)%Z) as Q4.
          change (Z.of_nat 1) with 1%Z in *. change (Z.of_nat 2) with 2%Z in *.
          replace (b - 1 + 1)%Z with b in Q3 by lia. replace (b - 2 + 2)%Z with b in Q4 by lia.
          rewrite Q1, Q2, <- Q3, <- Q4. unfold Rdiv. ring. }
        split.
        + unfold bwd1. rewrite !E2f, !S0. unfold Rdiv. ring.
        + unfold bwd2. destruct (ohm_moved P k1 k2 W PF VU t 0 1 (vm_cc S) (vm_cc S) uh uh (vm_yee S) (vm_yee S) ON MH MY) as (Q&_).
          fold p in Q. rewrite (Q i j). cbn [slide E1]. unfold slid. rewrite Z.sub_0_r. unfold Rdiv. ring. }
    assert (D : forall i j, bwd1 (fdq1 (pf P)) (E3 (ohm_of P p uh (vm_yee S))) i j = 0
                   /\ bwd2 (fdq2 (pf P)) (E3 (ohm_of P p uh (vm_yee S))) i j = 0).
    { intros i j. unfold bwd1, bwd2. rewrite !E3z. unfold Rdiv. split; ring. }
    unfold unmagnetised, faraday. cbn [B1 B2 B3]. repeat split; intros i j; destruct (CURL i j) as (C1&C2); destruct (D i j) as (D1&D2);
      rewrite ?C1, ?C2, ?D1, ?D2; change (B1 (ohm_of P p uh (vm_yee S))) with (B1 (vm_yee S));
      change (B2 (ohm_of P p uh (vm_yee S))) with (B2 (vm_yee S)); change (B3 (ohm_of P p uh (vm_yee S))) with (B3 (vm_yee S));
      rewrite ?Z1, ?Z2, ?Z3; unfold Rdiv; ring.
  Qed.

  Lemma unmag_run h : N_species c = 1%Z -> forall t S, Boxed P S ->
    constant_along P 1 0 S \/ constant_along P 0 1 S -> unmagnetised (vm_yee S) -> unmagnetised (vm_cc S) ->
    unmagnetised (vm_yee (run P k1 k2 true t h S)) /\ unmagnetised (vm_cc (run P k1 k2 true t h S)).
  Proof using W PF VU SE.
    intros ON. induction h as [|(m&dt) h IH]; intros t S B CA U UC; cbn [run]; [auto|].
    pose proof (unmag_step t dt S ON B CA U) as U1. apply IH; auto.
    - apply step_boxed; auto.
    - destruct CA; [left|right]; apply step_moved; auto.
    - destruct U1 as (A1&A2&A3). unfold step. cbn [vm_cc].
      set (Y := update P true _ dt _ _). change (vm_yee (step P k1 k2 true t dt S)) with Y in A1, A2, A3.
      unfold unmagnetised, EB, mid, centred. cbn [B1 B2 B3].
      repeat split; intros; rewrite ?A1, ?A2, ?A3; lra.
  Qed.
End Homog.

Lemma homogeneous_solver P k1 k2 h s :
  wf_cfg (pc P) k1 k2 -> periodic_fvm (pc P) k1 -> plasma P -> maxwell P \/ hybrid_fvm P ->
  velocity_uniform (pc P) -> same_everywhere (pc P) ->
  starts P s -> homogeneous P (contents P s) ->
  exists r, run_steps (solver_stepper P) h s = Ok (r, None) /\ homogeneous P (contents P r)
  /\ same_B (vm_yee (contents P r)) (vm_yee (contents P s)).
Proof.
  intros W PF PM EM VU SE ST H.
  destruct (any_refines P k1 k2 h s W PF PM EM ST) as (r&R&HR&ON).
  exists r. split; [exact R|]. destruct (contents_holds P r _ HR) as (A&B&C).
  assert (BX : Boxed P (contents P s)) by (split; apply (boxed_view P k1 PF)).
  destruct (homog_run P k1 k2 W PF VU SE (hybrid (pf P)) h ON (time_elapsed s) (contents P s) BX H) as ((X1&X2)&Y).
  split; [split|].
  - exact (moved_state_ext P k1 1 0 _ _ _ _ PF A B C A B C X1).
  - exact (moved_state_ext P k1 0 1 _ _ _ _ PF A B C A B C X2).
  - destruct B as (_&_&_&B1&B2&B3). destruct Y as (Y1&Y2&Y3).
    repeat split; intros; [rewrite B1; apply Y1|rewrite B2; apply Y2|rewrite B3; apply Y3].
Qed.

Lemma unmagnetised_solver P k1 k2 h s :
  wf_cfg (pc P) k1 k2 -> periodic_fvm (pc P) k1 -> plasma P -> hybrid_fvm P ->
  velocity_uniform (pc P) -> same_everywhere (pc P) -> starts P s ->
  constant_along P 1 0 (contents P s) \/ constant_along P 0 1 (contents P s) ->
  unmagnetised (vm_yee (contents P s)) -> unmagnetised (vm_cc (contents P s)) ->
  exists r, run_steps (solver_stepper P) h s = Ok (r, None)
  /\ unmagnetised (vm_yee (contents P r)) /\ unmagnetised (vm_cc (contents P r)).
Proof.
  intros W PF PM HF VU SE ST CA U UC.
  destruct (any_refines P k1 k2 h s W PF PM (or_intror HF) ST) as (r&R&HR&_). rewrite (hf_hybrid _ HF) in HR.
  exists r. split; [exact R|]. destruct (contents_holds P r _ HR) as (_&(_&_&_&B1&B2&B3)&(_&_&_&C1&C2&C3)).
  assert (BX : Boxed P (contents P s)) by (split; apply (boxed_view P k1 PF)).
  destruct (unmag_run P k1 k2 W PF VU SE h (hf_one _ HF) (time_elapsed s) (contents P s) BX CA U UC) as ((X1&X2&X3)&(Y1&Y2&Y3)).
  repeat split; intros; congruence.
Qed.

(** ** A uniform ion beam without fields *)
Section Beam.
  Context (P : params) (k1 k2 : scheme).
  Let c := pc P.
  Let L := lay c.
  Context (W : wf_cfg c k1 k2) (PF : periodic_fvm c k1) (ON : N_species c = 1%Z).
  Context (VU : velocity_uniform c) (SO : source_enabled c = false) (FD : field_driven c).
  Context (a : Z -> Z -> R).

  Lemma beam_step t dt S : at_rest P a S -> at_rest P a (hyb_step P k1 k2 t dt S).
  Proof using W PF ON VU SO FD.
    intros (HU&HY&HC). destruct (grid_pos c k1 PF) as (P1&P2). fold L in P1, P2.
    set (p := vm_problem P k1 k2 t (vm_cc S)).
    set (uh := fun x s i j => vm_f S x s i j + dt / 2 * rhs p (vm_f S) x s i j).
    assert (Hh : forall x s i j, inb (N_p c) x -> inb (N_species c) s -> inb (gN1 L) i -> inb (gN2 L) j -> uh x s i j = a x s).
    { intros x s i j Hx Hs Hi Hj. unfold uh, p. rewrite (rest_rhs P k1 k2 W PF VU SO FD a) by auto. rewrite HU by auto. ring. }
    assert (NC : forall i j i' j', num (ions P uh) i j = num (ions P uh) i' j').
    { intros i j i' j'. unfold ions. cbn [num]. apply (ion_ext P k1 k2 W). intros x Hx.
      rewrite !Hh; auto; try (apply Z.mod_pos_bound; auto); fold c; unfold inb; lia. }
    assert (YN : no_fields (vm_yee (hyb_step P k1 k2 t dt S))).
    { unfold hyb_step. cbn [vm_yee]. fold p. fold uh. destruct HY as (Y1&Y2&Y3&Y4&Y5&Y6). cbn [E1 E2 E3 B1 B2 B3] in *.
      assert (OH : no_fields (ohm (pf P) (nth 0 (charge P) 0) (T_e P) (ions P (through1 p uh)) (ions P (through2 p uh)) (ions P uh) (vm_yee S))).
      { unfold no_fields, same, ohm; cbn [E1 E2 E3 B1 B2 B3]. cbv zeta. unfold fwd1, fwd2, slope1, slope2.
        repeat split; intros i j; rewrite ?Y4, ?Y5, ?Y6; auto.
        - rewrite (NC (i + 1) j i j)%Z, (NC (i + 2) j i j)%Z, (NC (i - 1) j i j)%Z, (NC (i - 2) j i j)%Z,
            (NC (i - 1 + 1) j i j)%Z, (NC (i - 1 + 2) j i j)%Z, (NC (i - 1 - 1) j i j)%Z, (NC (i - 1 - 2) j i j)%Z. unfold Rdiv. ring.
        - rewrite (NC i (j + 1) i j)%Z, (NC i (j + 2) i j)%Z, (NC i (j - 1) i j)%Z, (NC i (j - 2) i j)%Z,
            (NC i (j - 1 + 1) i j)%Z, (NC i (j - 1 + 2) i j)%Z, (NC i (j - 1 - 1) i j)%Z, (NC i (j - 1 - 2) i j)%Z. unfold Rdiv. ring.
        - unfold Rdiv. ring. }
      destruct OH as (O1&O2&O3&O4&O5&O6). cbn [E1 E2 E3 B1 B2 B3] in *.
      unfold no_fields, same, hyb_fields, faraday, bwd1, bwd2. cbn [E1 E2 E3 B1 B2 B3].
      repeat split; intros i j; cbn [ohm E1 E2 E3 B1 B2 B3] in *; rewrite ?O1, ?O2, ?O3, ?O4, ?O5, ?O6; unfold Rdiv; ring. }
    assert (CN : no_fields (vm_cc (hyb_step P k1 k2 t dt S))).
    { set (Y := vm_yee (hyb_step P k1 k2 t dt S)) in *.
      change (vm_cc (hyb_step P k1 k2 t dt S)) with (EB (mid (vm_cc S) (centred Y)) (centred Y)).
      destruct HC as (Z1&Z2&Z3&Z4&Z5&Z6). destruct YN as (Y1&Y2&Y3&Y4&Y5&Y6). cbn [E1 E2 E3 B1 B2 B3] in *.
      unfold no_fields, same, EB, mid, centred; cbn [E1 E2 E3 B1 B2 B3].
      repeat split; intros; rewrite ?Z1, ?Z2, ?Z3, ?Y1, ?Y2, ?Y3, ?Y4, ?Y5, ?Y6; lra. }
    split; [|split; [exact YN|exact CN]].
    intros x s i j Hx Hs Hi Hj.
    change (vm_f (hyb_step P k1 k2 t dt S) x s i j) with (vm_f S x s i j + dt * rhs (vm_problem P k1 k2 t (vm_cc (hyb_step P k1 k2 t dt S))) uh x s i j).
    rewrite (rest_rhs P k1 k2 W PF VU SO FD a) by auto. rewrite HU by auto. ring.
  Qed.

  Lemma beam_run h : forall t S, at_rest P a S -> at_rest P a (hyb_run P k1 k2 t h S).
  Proof using W PF ON VU SO FD.
    induction h as [|(m&dt) h IH]; intros t S HS; cbn [hyb_run]; auto. apply IH. apply beam_step; auto.
  Qed.
End Beam.

Lemma beam_solver P k1 k2 : wf_cfg (pc P) k1 k2 -> periodic_fvm (pc P) k1 -> plasma P -> hybrid_fvm P ->
  velocity_uniform (pc P) -> source_enabled (pc P) = false -> field_driven (pc P) ->
  forall a h s, starts P s -> holds (pc P) (f_of s) (fun x sp _ _ => a x sp) ->
  no_fields (view (lay (pc P)) (yee_val (fields s))) -> no_fields (view (lay (pc P)) (cc_val (fields s))) ->
  exists s', run_steps (solver_stepper P) h s = Ok (s', None)
  /\ holds (pc P) (f_of s') (fun x sp _ _ => a x sp)
  /\ no_fields (view (lay (pc P)) (yee_val (fields s'))) /\ no_fields (view (lay (pc P)) (cc_val (fields s'))).
Proof.
  intros W PF PM HF VU SO FD a h s ST HU HY HC. set (L := lay (pc P)) in *.
  destruct (hyb_refines P k1 k2 W PF PM HF h s (VM (fun x sp _ _ => a x sp) (view L (yee_val (fields s))) (view L (cc_val (fields s)))) ST)
    as (s'&R&((SH&HU')&HY'&HC')&_).
  { split; [exact HU|]. split; apply same_refl. }
  destruct (beam_run P k1 k2 W PF (hf_one _ HF) VU SO FD a h (time_elapsed s)
     (VM (fun x sp _ _ => a x sp) (view L (yee_val (fields s))) (view L (cc_val (fields s))))) as (A&B&C).
  { split; [reflexivity|]. split; [exact HY|exact HC]. }
  exists s'. split; [exact R|]. split; [|split].
  - split; [exact SH|]. intros x sp i j Hx Hs Hi Hj. rewrite HU' by auto. apply A; auto.
  - eapply same_trans; [exact HY'|exact B].
  - eapply same_trans; [exact HC'|exact C].
Qed.
