(** Coupled runs commute with reflections. *)
From Coq Require Import ZArith Reals Lia Lra String List Bool.
From Verif Require Import Base.Prelude Base.ZSum Model.Af Model.Petsc Model.Config
  Model.Fvm Model.Em Model.Moments Model.Splitting Model.SemiLag Model.Timestep Model.Solver Spec.Domain Spec.Lattice Spec.FvmProblem Spec.FvmRun
  Spec.Yee Spec.EmRun Spec.MomentSpec Spec.Clock Spec.SolverSpec Spec.VlasovMaxwell Spec.Hybrid Spec.Symmetry Spec.Slide Spec.Reflect
  Proofs.AfLemmas Proofs.PetscLemmas Proofs.ConvLemmas Proofs.FluxLemmas
  Proofs.FvmLemmas Proofs.FvmLemmas2 Proofs.FvmConserve Proofs.FvmMore Proofs.SchemeSym
  Proofs.EmLemmas Proofs.EmStep Proofs.EmGrids Proofs.MomentLemmas Proofs.EmInit Proofs.EmProps
  Proofs.SolverLemmas Proofs.StageLemmas Proofs.ChargeLemmas Proofs.VlasovMaxwell Proofs.VmProps Proofs.HybridRun Proofs.Slide.
Import ListNotations.
Local Open Scope R_scope.

Section Fields.
  Context (n1 n2 : Z) (b1 b2 : bool).
  Let M := mirror_yee n1 n2 b1 b2.
  Let C := mirror_centre n1 n2 b1 b2.

  Lemma mirror_same Y Z : same Y Z -> same (M Y) (M Z).
  Proof. intros (A1&A2&A3&A4&A5&A6). unfold M, mirror_yee. repeat split; intros; cbn [E1 E2 E3 B1 B2 B3]; congruence. Qed.
  Lemma mirror_c_same Y Z : same Y Z -> same (C Y) (C Z).
  Proof. intros (A1&A2&A3&A4&A5&A6). unfold C, mirror_centre. repeat split; intros; cbn [E1 E2 E3 B1 B2 B3]; congruence. Qed.

  Lemma i1 n x : (n - 1 - x = n - x - 1)%Z. Proof. ring. Qed.
  Lemma i2 n x : (n - (x + 1) = n - x - 1)%Z. Proof. ring. Qed.
  Lemma i3 n x : (n - (x - 1) = n - x + 1)%Z. Proof. ring. Qed.
  Lemma i4 x : (x + 1 - 1 = x)%Z. Proof. ring. Qed.
  Lemma i5 x : (x - 1 + 1 = x)%Z. Proof. ring. Qed.
  Ltac normal := rewrite ?(i1 n1), ?(i1 n2), ?(i2 n1), ?(i2 n2), ?(i3 n1), ?(i3 n2), ?i4, ?i5.
  Ltac unf := unfold fwd1, fwd2, bwd1, bwd2, flip, flip_face, turn, xorb; cbn [E1 E2 E3 B1 B2 B3].
  Ltac go Y := destruct b1, b2; unf; normal; unfold Rdiv; ring.

  Lemma mirror_centred Y : same (centred (M Y)) (C (centred Y)).
  Proof.
    unfold M, C, mirror_yee, mirror_centre. repeat split; intros i j; cbn [centred E1 E2 E3 B1 B2 B3]; go Y.
  Qed.
  Lemma mirror_faraday h1 h2 dt Y : same (faraday h1 h2 dt (M Y)) (M (faraday h1 h2 dt Y)).
  Proof.
    unfold M, mirror_yee. repeat split; intros i j; cbn [faraday E1 E2 E3 B1 B2 B3]; go Y.
  Qed.
  Lemma mirror_ampere h1 h2 e m dt J1 J2 J3 J1' J2' J3' Y :
    (forall i j, J1' i j = turn b1 (J1 (flip_face b1 n1 i) (flip b2 n2 j))) ->
    (forall i j, J2' i j = turn b2 (J2 (flip b1 n1 i) (flip_face b2 n2 j))) ->
    (forall i j, J3' i j = J3 (flip b1 n1 i) (flip b2 n2 j)) ->
    same (ampere h1 h2 e m dt J1' J2' J3' (M Y)) (M (ampere h1 h2 e m dt J1 J2 J3 Y)).
  Proof.
    intros Q1 Q2 Q3. unfold M, mirror_yee. repeat split; intros i j; cbn [ampere E1 E2 E3 B1 B2 B3]; rewrite ?Q1, ?Q2, ?Q3; go Y.
  Qed.
  Lemma mirror_EB_mid X X' Y Y' : same X' (C X) -> same Y' (M Y) ->
    same (EB (mid X' (centred Y')) (centred Y')) (C (EB (mid X (centred Y)) (centred Y))).
  Proof.
    intros A B. eapply same_trans; [apply EB_mid_same; [exact A|apply centred_same; exact B]|].
    eapply same_trans; [apply EB_mid_same; [apply same_refl|apply mirror_centred]|].
    unfold C, mirror_centre.
    repeat split; intros i j; cbn [EB mid centred E1 E2 E3 B1 B2 B3]; destruct b1, b2; cbn [turn xorb]; unfold Rdiv; ring.
  Qed.

  Definition fluid_image (f1 f2 : Z -> Z) (u u' : fluid) : Prop :=
    (forall i j, num u' i j = num u (f1 i) (f2 j)) /\ (forall i j, vel_1 u' i j = turn b1 (vel_1 u (f1 i) (f2 j)))
    /\ (forall i j, vel_2 u' i j = turn b2 (vel_2 u (f1 i) (f2 j))) /\ (forall i j, vel_3 u' i j = vel_3 u (f1 i) (f2 j)).
  Lemma mirror_ohm c e l b ce l' b' ce' Y Y' :
    fluid_image (flip_face b1 n1) (flip b2 n2) l l' -> fluid_image (flip b1 n1) (flip_face b2 n2) b b' ->
    fluid_image (flip b1 n1) (flip b2 n2) ce ce' -> same Y' (M Y) ->
    same (ohm c e 0 l' b' ce' Y') (M (ohm c e 0 l b ce Y)).
  Proof.
    intros (L0&L1&L2&L3) (N0&N1&N2&N3) (C0&C1&C2&C3) (_&_&_&A&B&D). unfold M, mirror_yee in *. cbn [E1 E2 E3 B1 B2 B3] in *.
    repeat split; intros i j; cbn [ohm E1 E2 E3 B1 B2 B3]; cbv zeta; unfold fwd1, fwd2; auto.
    - rewrite !L0, !L2, !L3, !B, !D, !A. go Y.
    - rewrite !N0, !N1, !N3, !B, !D, !A. go Y.
    - rewrite !C0, !C1, !C2, !B, !D, !A. go Y.
  Qed.
End Fields.
