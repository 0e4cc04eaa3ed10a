(** The magnetic field on a mirror wall moves with the normal electric field. *)
From Coq Require Import ZArith Reals Lia Lra String List Bool.
From Verif Require Import Base.Prelude Base.ZSum Model.Af Model.Petsc Model.Config
  Model.Em Spec.Domain Spec.Yee Spec.EmRun Spec.FieldWalls Proofs.EmLemmas Proofs.EmStep Proofs.EmGrids Proofs.EmInit Proofs.EmProps
  Proofs.FieldWalls Proofs.FieldBox Proofs.FieldImages Proofs.FieldBoxRun.
Import ListNotations.
Local Open Scope R_scope.

Lemma wall_B3 c w2 J1 J2 J3 dt s : boxed c true w2 -> hybrid c = false -> wf_em c s ->
  no_current (flay c) J1 ->
  (forall i j, B3 (view (flay c) (yee_val s)) i j = 0) ->
  exists s', evolve_electrodynamic_fields c J1 J2 J3 dt s = Ok s'
  /\ forall j, (0 < j < gN2 (flay c))%Z ->
     gval (flay c) (yee_val s') 5 0 0 j
     = dt * (gval (flay c) (yee_val s) 0 0 0 j - gval (flay c) (yee_val s) 0 0 0 (j - 1)) / fdq2 c.
Proof.
  intros BX HY W NJ ZB. destruct (evolve_box c true w2 BX J1 J2 J3 dt s HY W) as (s'&E&_&_&(_&_&_&_&_&V)&_).
  exists s'. split; [exact E|]. intros j Hj. specialize (V 0%Z j).
  assert (H1 : fdq1 c <> 0) by apply BX. assert (H2 : fdq2 c <> 0) by apply BX. assert (Xe : eps c <> 0) by apply BX. assert (Xm : mu c <> 0) by apply BX.
  cbn [wall_step faraday_walls ampere E1 E2 E3 B1 B2 B3] in V.
  unfold before1, before2 in V. rewrite Zmod_0_l in V. cbn [Z.eqb andb] in V.
  replace (w2 && (j mod gN2 (flay c) =? 0)%Z)%bool with false in V by (rewrite Z.mod_small by lia; destruct w2; lia).
  change (lat c s) with (view (flay c) (yee_val s)) in V. unfold fwd1, fwd2 in V.
  rewrite !ZB in V. rewrite !NJ in V.
  assert (G : forall (F : dist R) k i, (0 <= i < gN2 (flay c))%Z -> gper (flay c) F k 0 0 i = gval (flay c) F k 0 0 i).
  { intros F k i Hi. unfold gper. rewrite Zmod_0_l, Z.mod_small by exact Hi. reflexivity. }
  cbn [lat view E1 E2 E3 B1 B2 B3] in V. rewrite !G in V by lia. rewrite V. field. auto.
Qed.
