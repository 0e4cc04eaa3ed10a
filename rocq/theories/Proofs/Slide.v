(** Coupled runs commute with whole-cell translations. *)
From Coq Require Import ZArith Reals Lia Lra String List Bool.
From Verif Require Import Base.Prelude Base.ZSum Model.Af Model.Petsc Model.Config
  Model.Fvm Model.Em Model.Moments Model.Splitting Model.SemiLag Model.Timestep Model.Solver Spec.Domain Spec.Lattice Spec.FvmProblem Spec.FvmRun
  Spec.Yee Spec.EmRun Spec.MomentSpec Spec.Clock Spec.SolverSpec Spec.VlasovMaxwell Spec.Hybrid Spec.Symmetry Spec.Slide
  Proofs.AfLemmas Proofs.PetscLemmas Proofs.ConvLemmas Proofs.FluxLemmas
  Proofs.FvmLemmas Proofs.FvmLemmas2 Proofs.FvmConserve Proofs.SchemeSym Proofs.SymmetryMore
  Proofs.EmLemmas Proofs.EmStep Proofs.EmGrids Proofs.MomentLemmas Proofs.EmInit Proofs.EmProps
  Proofs.SolverLemmas Proofs.StageLemmas Proofs.ChargeLemmas Proofs.VlasovMaxwell Proofs.VmProps Proofs.HybridRun.
Import ListNotations.
Local Open Scope R_scope.

Ltac slid_eq := unfold slid; repeat first [reflexivity | lia | f_equal].

Lemma slide_same d1 d2 Y Z : same Y Z -> same (slide d1 d2 Y) (slide d1 d2 Z).
Proof. intros (A&B&C&D&E&F). repeat split; intros; cbn [slide E1 E2 E3 B1 B2 B3]; unfold slid; auto. Qed.
Lemma slide_slide a b d e Y : same (slide a b (slide d e Y)) (slide (a + d) (b + e) Y).
Proof. repeat split; intros; cbn [slide E1 E2 E3 B1 B2 B3]; slid_eq. Qed.
Lemma slide_centred d1 d2 Y : same (centred (slide d1 d2 Y)) (slide d1 d2 (centred Y)).
Proof. repeat split; intros; cbn [slide centred E1 E2 E3 B1 B2 B3]; slid_eq. Qed.
Lemma slide_faraday h1 h2 dt d1 d2 Y : same (faraday h1 h2 dt (slide d1 d2 Y)) (slide d1 d2 (faraday h1 h2 dt Y)).
Proof. repeat split; intros; cbn [slide faraday E1 E2 E3 B1 B2 B3]; unfold bwd1, bwd2; slid_eq. Qed.
Lemma slide_ampere h1 h2 e m dt d1 d2 J1 J2 J3 J1' J2' J3' Y :
  (forall i j, J1' i j = slid d1 d2 J1 i j) -> (forall i j, J2' i j = slid d1 d2 J2 i j) -> (forall i j, J3' i j = slid d1 d2 J3 i j) ->
  same (ampere h1 h2 e m dt J1' J2' J3' (slide d1 d2 Y)) (slide d1 d2 (ampere h1 h2 e m dt J1 J2 J3 Y)).
Proof.
  intros A B C. repeat split; intros; cbn [slide ampere E1 E2 E3 B1 B2 B3]; rewrite ?A, ?B, ?C; unfold fwd1, fwd2; slid_eq.
Qed.
Lemma slide_EB_mid d1 d2 X X' Y Y' : same X' (slide d1 d2 X) -> same Y' (slide d1 d2 Y) ->
  same (EB (mid X' (centred Y')) (centred Y')) (slide d1 d2 (EB (mid X (centred Y)) (centred Y))).
Proof.
  intros A B. eapply same_trans; [apply EB_mid_same; [exact A|apply centred_same; exact B]|].
  eapply same_trans; [apply EB_mid_same; [apply same_refl|apply slide_centred]|].
  repeat split; intros; cbn [slide EB mid centred E1 E2 E3 B1 B2 B3]; slid_eq.
Qed.

(** Fluids *)
Definition same_fluid (f g : fluid) : Prop :=
  (forall i j, num f i j = num g i j) /\ (forall i j, vel_1 f i j = vel_1 g i j)
  /\ (forall i j, vel_2 f i j = vel_2 g i j) /\ (forall i j, vel_3 f i j = vel_3 g i j).
Definition slide_fluid (d1 d2 : Z) (f : fluid) : fluid :=
  Fluid (slid d1 d2 (num f)) (slid d1 d2 (vel_1 f)) (slid d1 d2 (vel_2 f)) (slid d1 d2 (vel_3 f)).
Lemma slide_ohm c e Te d1 d2 l b ce l' b' ce' Y Y' :
  same_fluid l' (slide_fluid d1 d2 l) -> same_fluid b' (slide_fluid d1 d2 b) -> same_fluid ce' (slide_fluid d1 d2 ce) ->
  same Y' (slide d1 d2 Y) ->
  same (ohm c e Te l' b' ce' Y') (slide d1 d2 (ohm c e Te l b ce Y)).
Proof.
  intros (L0&L1&L2&L3) (M0&M1&M2&M3) (C0&C1&C2&C3) (_&_&_&A&B&C).
  assert (Q : forall i j, E1 (ohm c e Te l' b' ce' Y') i j = E1 (ohm c e Te l b ce Y) (i - d1)%Z (j - d2)%Z
    /\ E2 (ohm c e Te l' b' ce' Y') i j = E2 (ohm c e Te l b ce Y) (i - d1)%Z (j - d2)%Z
    /\ E3 (ohm c e Te l' b' ce' Y') i j = E3 (ohm c e Te l b ce Y) (i - d1)%Z (j - d2)%Z).
  { intros i j. cbn [slide_fluid num vel_1 vel_2 vel_3 slide B1 B2 B3] in *. apply ohm_near.
    - intros u v u' v' Hu Hv _ _. rewrite A, B, C. unfold slid.
      replace (u - d1)%Z with u' by lia. replace (v - d2)%Z with v' by lia. auto.
    - apply L0. - apply L2. - apply L3. - apply M0. - apply M3. - apply M1. - apply C1. - apply C2.
    - intros u u' Hu _. rewrite C0. unfold slid. replace (u - d1)%Z with u' by lia. reflexivity.
    - intros u u' Hu _. rewrite C0. unfold slid. replace (u - d2)%Z with u' by lia. reflexivity. }
  repeat split; intros; cbn [slide E1 E2 E3 B1 B2 B3]; unfold slid; try apply Q; [exact (A i j)|exact (B i j)|exact (C i j)].
Qed.

Section Move.
  Context (P : params) (k1 k2 : scheme).
  Let c := pc P.
  Let L := lay c.
  Context (W : wf_cfg c k1 k2) (PF : periodic_fvm c k1) (VU : velocity_uniform c) (SE : same_everywhere c).

  (** Lattices repeat over the box. *)
  Definition boxed (Y : lattice) : Prop := same (slide (gN1 L) 0 Y) Y /\ same (slide 0 (gN2 L) Y) Y.
  Definition Cells (u v : gstate) : Prop := forall x s i j, inb (N_p c) x -> inb (N_species c) s ->
     inb (gN1 L) i -> inb (gN2 L) j -> u x s i j = v x s i j.

  Lemma boxed_view F : boxed (view L F).
  Proof using PF.
    destruct (grid_pos c k1 PF) as (P1&P2). fold L in P1, P2.
    split; repeat split; intros; cbn [slide view E1 E2 E3 B1 B2 B3]; unfold slid.
    all: (replace (i - gN1 L)%Z with (i + (-1) * gN1 L)%Z by ring; replace (j - 0)%Z with j by lia; apply gper_add1; lia)
      || (replace (j - gN2 L)%Z with (j + (-1) * gN2 L)%Z by ring; replace (i - 0)%Z with i by lia; apply gper_add2; lia).
  Qed.

  Lemma period1 (u : grid) : (forall i j, u (i - gN1 L)%Z j = u i j) -> forall i j, u (i mod gN1 L)%Z j = u i j.
  Proof using PF.
    intros H. destruct (grid_pos c k1 PF) as (P1&P2). fold L in P1, P2.
    assert (Q : forall n : nat, forall i j, u (i + Z.of_nat n * gN1 L)%Z j = u i j).
    { induction n as [|n IH]; intros i j; [f_equal; lia|]. rewrite <- (IH i j), <- H. f_equal; lia. }
    intros i j. rewrite Z.mod_eq by lia. destruct (Z.le_ge_cases 0 (i / gN1 L)) as [G|G].
    - rewrite <- (Q (Z.to_nat (i / gN1 L))). f_equal. rewrite Z2Nat.id by lia. lia.
    - rewrite <- (Q (Z.to_nat (- (i / gN1 L))) i j). f_equal. rewrite Z2Nat.id by lia. lia.
  Qed.
  Lemma period2 (u : grid) : (forall i j, u i (j - gN2 L)%Z = u i j) -> forall i j, u i (j mod gN2 L)%Z = u i j.
  Proof using PF.
    intros H. destruct (grid_pos c k1 PF) as (P1&P2). fold L in P1, P2.
    assert (Q : forall n : nat, forall i j, u i (j + Z.of_nat n * gN2 L)%Z = u i j).
    { induction n as [|n IH]; intros i j; [f_equal; lia|]. rewrite <- (IH i j), <- H. f_equal; lia. }
    intros i j. rewrite Z.mod_eq by lia. destruct (Z.le_ge_cases 0 (j / gN2 L)) as [G|G].
    - rewrite <- (Q (Z.to_nat (j / gN2 L))). f_equal. rewrite Z2Nat.id by lia. lia.
    - rewrite <- (Q (Z.to_nat (- (j / gN2 L))) i j). f_equal. rewrite Z2Nat.id by lia. lia.
  Qed.

  Lemma boxed_wrap Y : boxed Y -> forall n i j, components Y n (i mod gN1 L)%Z (j mod gN2 L)%Z = components Y n i j.
  Proof using PF.
    intros ((A1&A2&A3&A4&A5&A6)&(C1&C2&C3&C4&C5&C6)) n i j. unfold components.
    cbn [slide E1 E2 E3 B1 B2 B3] in *. unfold slid in *.
    assert (Q : forall u : grid, (forall i j, u (i - gN1 L)%Z (j - 0)%Z = u i j) -> (forall i j, u (i - 0)%Z (j - gN2 L)%Z = u i j) ->
       u (i mod gN1 L)%Z (j mod gN2 L)%Z = u i j).
    { intros u X Y'. rewrite (period1 u), (period2 u); auto; intros a b.
      - rewrite <- (Y' a b). f_equal; lia.
      - rewrite <- (X a b). f_equal; lia. }
    rewrite !Q; auto.
  Qed.

  Lemma moved_components d1 d2 C C' : boxed C -> same C' (slide d1 d2 C) ->
    moved_fields c d1 d2 (components C, components C, components C) (components C', components C', components C').
  Proof using PF.
    intros B (A1&A2&A3&A4&A5&A6) pick HI n g1 g2. pose proof (boxed_wrap C B n (g1 - d1) (g2 - d2)) as Q. fold L.
    assert (Q' : components C' n g1 g2 = components C n (g1 - d1)%Z (g2 - d2)%Z).
    { unfold components. cbn [slide E1 E2 E3 B1 B2 B3] in *. unfold slid in *.
      rewrite A1, A2, A3, A4, A5, A6. reflexivity. }
    destruct HI as [<-|[<-|[<-|[]]]]; cbn [fst snd]; rewrite Q, Q'; reflexivity.
  Qed.

  Section One.
  Context (t dt : R) (d1 d2 : Z) (C C' : lattice) (u u' : gstate).
  Let p := vm_problem P k1 k2 t C.
  Let p' := vm_problem P k1 k2 t C'.
  Context (BC : boxed C) (MC : same C' (slide d1 d2 C)) (MU : Cells u' (moved c d1 d2 u)).

  Lemma half_moved : Cells (fun x s i j => u' x s i j + dt / 2 * rhs p' u' x s i j)
     (moved c d1 d2 (fun x s i j => u x s i j + dt / 2 * rhs p u x s i j)).
  Proof using W PF VU SE BC MC MU.
    intros x s i j Hx Hs Hi Hj. pose proof (rhs_moved c k1 k2 d1 d2 W PF VU SE t _ _ u u' (moved_components d1 d2 C C' BC MC) MU x s i j Hx Hs Hi Hj) as Q.
    unfold p', vm_problem. fold c. rewrite Q, MU by auto. unfold moved. reflexivity.
  Qed.
  End One.

  Lemma upwind_move k n (v v' f f' : Z -> R) V d g : (0 < n)%Z -> (forall z, v z = V) -> (forall z, v' z = V) ->
    (forall z, inb n z -> f' z = f ((z - d) mod n)%Z) ->
    upwind k v' (periodic n f') g = upwind k v (periodic n f) ((g - d) mod n)%Z.
  Proof using.
    intros N HV HV' H.
    replace ((g - d) mod n)%Z with (g + (- d - n * ((g - d) / n)))%Z by (rewrite (Zmod_eq_full (g - d) n) by lia; ring).
    rewrite <- upwind_shift. apply upwind_ext; [rewrite HV, HV'; auto|].
    intros z _. unfold periodic. rewrite H by (apply Z.mod_pos_bound; auto). f_equal.
    rewrite Zminus_mod_idemp_l.
    replace (z + (- d - n * ((g - d) / n)))%Z with (z - d + (- ((g - d) / n)) * n)%Z by ring.
    rewrite Z_mod_plus_full. reflexivity.
  Qed.
  Lemma modm n z : (0 < n)%Z -> inb n (z mod n)%Z.
  Proof using. intros. apply Z.mod_pos_bound. auto. Qed.

  (** What crosses the faces of moved data. *)
  Lemma through_moved t C C' d1 d2 u u' x s i j : Cells u' (moved c d1 d2 u) -> inb (N_p c) x -> inb (N_species c) s ->
    inb (gN1 L) i -> inb (gN2 L) j ->
    through1 (vm_problem P k1 k2 t C') u' x s i j = moved c d1 d2 (through1 (vm_problem P k1 k2 t C) u) x s i j
    /\ through2 (vm_problem P k1 k2 t C') u' x s i j = moved c d1 d2 (through2 (vm_problem P k1 k2 t C) u) x s i j.
  Proof using W PF VU.
    intros MU Hx Hs Hi Hj. destruct (grid_pos c k1 PF) as (P1&P2). fold L in P1, P2.
    unfold moved, through1, through2. unfold vm_problem, prob, problem_of, problem_at; cbn [kq n1 n2 vel1 vel2]. fold c L. split.
    - apply upwind_move with (V := fst (velocity c t x s (pos1 c 0 0) (pos2 c 0 0))); auto;
        try (intros; unfold velocity; f_equal; apply VU).
      intros z Hz. rewrite MU by auto. reflexivity.
    - apply upwind_move with (V := snd (velocity c t x s (pos1 c 0 0) (pos2 c 0 0))); auto;
        try (intros; unfold velocity; f_equal; apply VU).
      intros z Hz. rewrite MU by auto. reflexivity.
  Qed.

  Lemma moved_wrap d1 d2 (g : gstate) x s i j : (0 < gN1 L)%Z -> (0 < gN2 L)%Z ->
    moved c d1 d2 g x s (i mod gN1 L)%Z (j mod gN2 L)%Z = g x s ((i - d1) mod gN1 L)%Z ((j - d2) mod gN2 L)%Z.
  Proof using. intros. unfold moved. fold L. rewrite !Zminus_mod_idemp_l. reflexivity. Qed.

  Lemma charge_slid w d1 d2 (g g' : gstate) : Cells g' (moved c d1 d2 g) -> forall i j,
    charge_moment P w (fun x s => g' x s (i mod gN1 L)%Z (j mod gN2 L)%Z)
    = slid d1 d2 (fun i j => charge_moment P w (fun x s => g x s (i mod gN1 L)%Z (j mod gN2 L)%Z)) i j.
  Proof using W PF.
    intros M i j. destruct (grid_pos c k1 PF) as (P1&P2). fold L in P1, P2. unfold slid.
    apply (charge_moment_ext P). intros x s Hx Hs. rewrite M by (auto; apply modm; auto). apply moved_wrap; auto.
  Qed.

  Lemma ions_slid d1 d2 (g g' : gstate) : N_species c = 1%Z -> Cells g' (moved c d1 d2 g) ->
    same_fluid (ions P g') (slide_fluid d1 d2 (ions P g)).
  Proof using W PF.
    intros O M. destruct (grid_pos c k1 PF) as (P1&P2). fold L in P1, P2.
    assert (Q : forall w i j, ion P w (fun x => g' x 0%Z (i mod gN1 L)%Z (j mod gN2 L)%Z)
              = ion P w (fun x => g x 0%Z ((i - d1) mod gN1 L)%Z ((j - d2) mod gN2 L)%Z)).
    { intros w i j. apply (ion_ext P k1 k2 W). intros x Hx.
      rewrite M by (auto; try apply modm; auto; unfold inb; lia). apply moved_wrap; auto. }
    repeat split; intros i j; unfold ions, slide_fluid, slid; cbn [num vel_1 vel_2 vel_3]; fold c L; rewrite !Q; reflexivity.
  Qed.

  (** ** One step *)
  Definition Boxed (S : vm_state) : Prop := boxed (vm_yee S) /\ boxed (vm_cc S).

  Lemma moved_self n1 n2 (u : gstate) : (exists a, n1 = a * gN1 L)%Z -> (exists a, n2 = a * gN2 L)%Z -> Cells u (moved c n1 n2 u).
  Proof using PF.
    intros (a&->) (b&->) x s i j Hx Hs Hi Hj. unfold moved. fold L.
    replace (i - a * gN1 L)%Z with (i + (- a) * gN1 L)%Z by ring. replace (j - b * gN2 L)%Z with (j + (- b) * gN2 L)%Z by ring.
    destruct (grid_pos c k1 PF) as (P1&P2). fold L in P1, P2.
    rewrite !Z.mod_add by lia. rewrite !Z.mod_small by (unfold inb in *; lia). reflexivity.
  Qed.

  (** Both kinds of field update. *)
  Definition update (hyb : bool) (p : problem) (dt : R) (uh : gstate) (Y : lattice) : lattice :=
    if hyb then hyb_fields P p dt uh Y
    else yee_step (fdq1 (pf P)) (fdq2 (pf P)) (eps (pf P)) (mu (pf P)) dt
             (current1 P p uh) (current2 P p uh) (current3 P p uh) Y.
  Definition step (hyb : bool) (t dt : R) (S : vm_state) : vm_state :=
    let p := vm_problem P k1 k2 t (vm_cc S) in
    let uh : gstate := fun x s i j => vm_f S x s i j + dt / 2 * rhs p (vm_f S) x s i j in
    let Y := update hyb p dt uh (vm_yee S) in
    let C := EB (mid (vm_cc S) (centred Y)) (centred Y) in
    VM (midpoint p (vm_problem P k1 k2 t C) dt (vm_f S)) Y C.
  Lemma step_vm t dt S : step false t dt S = vm_step P k1 k2 t dt S. Proof using. reflexivity. Qed.
  Lemma step_hyb t dt S : step true t dt S = hyb_step P k1 k2 t dt S. Proof using. reflexivity. Qed.

  Lemma faces_moved t C C' d1 d2 u u' : Cells u' (moved c d1 d2 u) ->
    Cells (through1 (vm_problem P k1 k2 t C') u') (moved c d1 d2 (through1 (vm_problem P k1 k2 t C) u))
    /\ Cells (through2 (vm_problem P k1 k2 t C') u') (moved c d1 d2 (through2 (vm_problem P k1 k2 t C) u)).
  Proof using W PF VU. intros MU. split; intros x s i j Hx Hs Hi Hj; apply through_moved; auto. Qed.

  Definition ohm_of (p : problem) (uh : gstate) (Y : lattice) : lattice :=
    ohm (pf P) (nth 0 (charge P) 0) (T_e P) (ions P (through1 p uh)) (ions P (through2 p uh)) (ions P uh) Y.

  Lemma ohm_moved t d1 d2 C C' u u' Y Y' : N_species c = 1%Z ->
    Cells u' (moved c d1 d2 u) -> same Y' (slide d1 d2 Y) ->
    same (ohm_of (vm_problem P k1 k2 t C') u' Y') (slide d1 d2 (ohm_of (vm_problem P k1 k2 t C) u Y)).
  Proof using W PF VU.
    intros ON MU MY. destruct (faces_moved t C C' d1 d2 u u' MU) as (T1&T2).
    apply slide_ohm; auto; apply ions_slid; auto.
  Qed.

  Lemma update_moved hyb t dt d1 d2 C C' u u' Y Y' : (hyb = true -> N_species c = 1%Z) ->
    Cells u' (moved c d1 d2 u) -> same Y' (slide d1 d2 Y) ->
    same (update hyb (vm_problem P k1 k2 t C') dt u' Y') (slide d1 d2 (update hyb (vm_problem P k1 k2 t C) dt u Y)).
  Proof using W PF VU.
    intros ON MU MY. destruct (faces_moved t C C' d1 d2 u u' MU) as (T1&T2).
    destruct hyb; unfold update.
    - unfold hyb_fields. eapply same_trans; [|apply slide_faraday]. apply faraday_same.
      apply ohm_moved; auto.
    - unfold yee_step. eapply same_trans; [|apply slide_faraday]. apply faraday_same.
      eapply same_trans; [apply ampere_same; exact MY|]. apply slide_ampere; intros i j.
      + apply (charge_slid (fun v _ _ => v) d1 d2 _ _ T1 i j).
      + apply (charge_slid (fun _ v _ => v) d1 d2 _ _ T2 i j).
      + apply (charge_slid (fun _ _ v => v) d1 d2 _ _ MU i j).
  Qed.

  Lemma step_boxed hyb t dt S : (hyb = true -> N_species c = 1%Z) -> Boxed S -> Boxed (step hyb t dt S).
  Proof using W PF VU.
    intros ON ((A&A')&(B&B')).
    set (p := vm_problem P k1 k2 t (vm_cc S)).
    set (uh := fun x s i j => vm_f S x s i j + dt / 2 * rhs p (vm_f S) x s i j).
    assert (Q : forall n1 n2, (exists a, n1 = a * gN1 L)%Z -> (exists a, n2 = a * gN2 L)%Z ->
      same (slide n1 n2 (vm_yee S)) (vm_yee S) -> same (slide n1 n2 (vm_cc S)) (vm_cc S) ->
      same (slide n1 n2 (vm_yee (step hyb t dt S))) (vm_yee (step hyb t dt S))
      /\ same (slide n1 n2 (vm_cc (step hyb t dt S))) (vm_cc (step hyb t dt S))).
    { intros n1 n2 H1 H2 Y1 Y2.
      assert (X : same (slide n1 n2 (vm_yee (step hyb t dt S))) (vm_yee (step hyb t dt S))).
      { apply same_sym. apply (update_moved hyb t dt n1 n2 (vm_cc S) (vm_cc S) uh uh (vm_yee S) (vm_yee S) ON).
        - apply moved_self; auto.
        - apply same_sym; auto. }
      split; [exact X|]. apply same_sym.
      set (Y := vm_yee (step hyb t dt S)) in *.
      change (vm_cc (step hyb t dt S)) with (EB (mid (vm_cc S) (centred Y)) (centred Y)).
      apply slide_EB_mid; apply same_sym; auto. }
    destruct (Q (gN1 L) 0%Z) as (X1&X2); auto; [exists 1%Z; ring|exists 0%Z; ring|].
    destruct (Q 0%Z (gN2 L)) as (X3&X4); auto; [exists 0%Z; ring|exists 1%Z; ring|].
    repeat split; auto; try apply X1; try apply X2; try apply X3; try apply X4.
  Qed.

  Lemma step_moved hyb t dt d1 d2 S S' : (hyb = true -> N_species c = 1%Z) -> Boxed S ->
    moved_state P d1 d2 S S' -> moved_state P d1 d2 (step hyb t dt S) (step hyb t dt S').
  Proof using W PF VU SE.
    intros ON (BY&BC) (MU&MY&MC).
    pose proof (step_boxed hyb t dt S ON (conj BY BC)) as (BY1&BC1).
    set (p := vm_problem P k1 k2 t (vm_cc S)). set (p' := vm_problem P k1 k2 t (vm_cc S')).
    set (uh := fun x s i j => vm_f S x s i j + dt / 2 * rhs p (vm_f S) x s i j).
    set (uh' := fun x s i j => vm_f S' x s i j + dt / 2 * rhs p' (vm_f S') x s i j).
    assert (MH : Cells uh' (moved c d1 d2 uh)) by (apply half_moved; auto).
    set (Y := vm_yee (step hyb t dt S)) in *. set (Y' := vm_yee (step hyb t dt S')).
    assert (MY1 : same Y' (slide d1 d2 Y)) by (apply update_moved; auto).
    assert (MC1 : same (vm_cc (step hyb t dt S')) (slide d1 d2 (vm_cc (step hyb t dt S)))).
    { change (vm_cc (step hyb t dt S')) with (EB (mid (vm_cc S') (centred Y')) (centred Y')).
      change (vm_cc (step hyb t dt S)) with (EB (mid (vm_cc S) (centred Y)) (centred Y)).
      apply slide_EB_mid; auto. }
    split; [|split; [exact MY1|exact MC1]].
    intros x s i j Hx Hs Hi Hj.
    change (vm_f (step hyb t dt S') x s i j) with (vm_f S' x s i j + dt * rhs (vm_problem P k1 k2 t (vm_cc (step hyb t dt S'))) uh' x s i j).
    pose proof (rhs_moved c k1 k2 d1 d2 W PF VU SE t _ _ uh uh' (moved_components d1 d2 _ _ BC1 MC1) MH x s i j Hx Hs Hi Hj) as Q.
    unfold vm_problem. fold c. rewrite Q, MU by auto. reflexivity.
  Qed.

  Fixpoint run (hyb : bool) (t : R) (h : list (method * R)) (S : vm_state) : vm_state :=
    match h with
    | [] => S
    | (_, dt) :: h => run hyb (t + dt) h (step hyb t dt S)
    end.
  Lemma run_vm h : forall t S, run false t h S = vm_run P k1 k2 t h S.
  Proof using. induction h as [|(m&dt) h IH]; intros; cbn [run vm_run]; auto. Qed.
  Lemma run_hyb h : forall t S, run true t h S = hyb_run P k1 k2 t h S.
  Proof using. induction h as [|(m&dt) h IH]; intros; cbn [run hyb_run]; auto. Qed.

  Lemma run_moved hyb d1 d2 h : (hyb = true -> N_species c = 1%Z) -> forall t S S', Boxed S ->
    moved_state P d1 d2 S S' -> moved_state P d1 d2 (run hyb t h S) (run hyb t h S').
  Proof using W PF VU SE.
    intros ON. induction h as [|(m&dt) h IH]; intros t S S' B M; cbn [run]; auto.
    apply IH; [apply step_boxed; auto|apply step_moved; auto].
  Qed.
End Move.

(** ** The solver *)
Lemma contents_holds P s S : vm_holds P s S ->
  (forall x sp i j, inb (N_p (pc P)) x -> inb (N_species (pc P)) sp -> inb (gN1 (lay (pc P))) i -> inb (gN2 (lay (pc P))) j ->
     vm_f (contents P s) x sp i j = vm_f S x sp i j)
  /\ same (vm_yee (contents P s)) (vm_yee S) /\ same (vm_cc (contents P s)) (vm_cc S).
Proof. intros ((_&H)&A&B). split; [exact H|]. split; assumption. Qed.

Lemma moved_state_ext P k1 d1 d2 S S' T T' : periodic_fvm (pc P) k1 ->
  (forall x sp i j, inb (N_p (pc P)) x -> inb (N_species (pc P)) sp -> inb (gN1 (lay (pc P))) i -> inb (gN2 (lay (pc P))) j ->
     vm_f T x sp i j = vm_f S x sp i j) -> same (vm_yee T) (vm_yee S) -> same (vm_cc T) (vm_cc S) ->
  (forall x sp i j, inb (N_p (pc P)) x -> inb (N_species (pc P)) sp -> inb (gN1 (lay (pc P))) i -> inb (gN2 (lay (pc P))) j ->
     vm_f T' x sp i j = vm_f S' x sp i j) -> same (vm_yee T') (vm_yee S') -> same (vm_cc T') (vm_cc S') ->
  moved_state P d1 d2 S S' -> moved_state P d1 d2 T T'.
Proof.
  intros PF A B C A' B' C' (X&Y&Z). destruct (grid_pos (pc P) k1 PF) as (P1&P2). split; [|split].
  - intros x sp i j Hx Hs Hi Hj. rewrite A', X by auto. unfold moved. symmetry.
    apply A; auto; apply Z.mod_pos_bound; auto.
  - eapply same_trans; [exact B'|]. eapply same_trans; [exact Y|]. apply slide_same, same_sym; exact B.
  - eapply same_trans; [exact C'|]. eapply same_trans; [exact Z|]. apply slide_same, same_sym; exact C.
Qed.

(** Both models, started from any constructed solver. *)
Lemma any_refines P k1 k2 h s : wf_cfg (pc P) k1 k2 -> periodic_fvm (pc P) k1 -> plasma P -> maxwell P \/ hybrid_fvm P ->
  starts P s -> exists s', run_steps (solver_stepper P) h s = Ok (s', None)
  /\ vm_holds P s' (run P k1 k2 (hybrid (pf P)) (time_elapsed s) h (contents P s))
  /\ (hybrid (pf P) = true -> N_species (pc P) = 1%Z).
Proof.
  intros W PF PM [MX|HF] ST.
  - destruct (starts_vm P MX s ST) as (HS&_).
    destruct (vm_refines P k1 k2 W PF PM MX h s _ ST HS) as (s'&R&H&_).
    exists s'. rewrite (mx_hybrid _ MX). split; [exact R|]. split; [rewrite run_vm; exact H|discriminate].
  - destruct (hyb_starts P HF s ST) as (HS&_).
    destruct (hyb_refines P k1 k2 W PF PM HF h s _ ST HS) as (s'&R&H&_).
    exists s'. rewrite (hf_hybrid _ HF). split; [exact R|]. split; [rewrite run_hyb; exact H|]. intros _. apply HF.
Qed.

Lemma translation P c' k1 k2 d1 d2 h s s2 : let P' := with_fields_from P c' in
  wf_cfg (pc P) k1 k2 -> periodic_fvm (pc P) k1 -> plasma P -> maxwell P \/ hybrid_fvm P ->
  velocity_uniform (pc P) -> same_everywhere (pc P) ->
  starts P s -> starts P' s2 -> time_elapsed s2 = time_elapsed s -> moved_state P d1 d2 (contents P s) (contents P s2) ->
  exists r r2, run_steps (solver_stepper P) h s = Ok (r, None) /\ run_steps (solver_stepper P') h s2 = Ok (r2, None)
  /\ moved_state P d1 d2 (contents P r) (contents P r2).
Proof.
  intros P' W PF PM EM VU SE ST ST2 T MV.
  destruct (any_refines P k1 k2 h s W PF PM EM ST) as (r&R&H&ON).
  assert (PM' : plasma P') by (destruct PM; constructor; auto).
  assert (EM' : maxwell P' \/ hybrid_fvm P').
  { destruct EM as [[a b d e]|[a b d e g k]]; [left|right]; constructor; auto. }
  destruct (any_refines P' k1 k2 h s2 W PF PM' EM' ST2) as (r2&R2&H2&_).
  exists r, r2. split; [exact R|]. split; [exact R2|].
  destruct (contents_holds P r _ H) as (A&B&C).
  destruct (contents_holds P' r2 _ H2) as (A'&B'&C').
  refine (moved_state_ext P k1 d1 d2 _ _ _ _ PF A B C A' B' C' _).
  change (hybrid (pf P')) with (hybrid (pf P)). rewrite T.
  change (contents P' s2) with (contents P s2).
  apply (run_moved P k1 k2 W PF VU SE (hybrid (pf P)) d1 d2 h ON (time_elapsed s) (contents P s) (contents P s2)); auto.
  split; apply (boxed_view P k1 PF).
Qed.

Lemma kept_along P k1 k2 d1 d2 h s :
  wf_cfg (pc P) k1 k2 -> periodic_fvm (pc P) k1 -> plasma P -> maxwell P \/ hybrid_fvm P ->
  velocity_uniform (pc P) -> same_everywhere (pc P) ->
  starts P s -> constant_along P d1 d2 (contents P s) ->
  exists r, run_steps (solver_stepper P) h s = Ok (r, None) /\ constant_along P d1 d2 (contents P r).
Proof.
  intros W PF PM EM VU SE ST MV.
  destruct (any_refines P k1 k2 h s W PF PM EM ST) as (r&R&H&ON).
  exists r. split; [exact R|]. destruct (contents_holds P r _ H) as (A&B&C).
  refine (moved_state_ext P k1 d1 d2 _ _ _ _ PF A B C A B C _).
  apply (run_moved P k1 k2 W PF VU SE (hybrid (pf P)) d1 d2 h ON (time_elapsed s) (contents P s) (contents P s)); auto.
  split; apply (boxed_view P k1 PF).
Qed.
