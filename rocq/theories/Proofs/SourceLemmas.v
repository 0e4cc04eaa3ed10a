(** The source sub-step of the semi-Lagrangian solver. *)
From Coq Require Import ZArith Reals Lia Lra String List Bool.
From Verif Require Import Base.Prelude Base.ZSum Model.Af Model.Petsc Model.Config Model.Fvm Model.Em
  Model.Integrators Model.Splitting Model.Timestep Model.Solver Spec.Domain Spec.FvmProblem
  Spec.Clock Spec.SolverSpec Proofs.AfLemmas Proofs.PetscLemmas Proofs.FvmLemmas Proofs.TimestepLemmas Proofs.SolverLemmas
  Proofs.FieldRun.
Local Open Scope R_scope.

Lemma source_gval c src g r t F x sp i j : tiles (gN1 (lay c)) (blk1 (lay c)) -> tiles (gN2 (lay c)) (blk2 (lay c)) ->
  (0 <= ng1 (lay c))%Z -> (0 <= ng2 (lay c))%Z -> inb (gN1 (lay c)) i -> inb (gN2 (lay c)) j ->
  (forall q1 q2 f x s, g q1 q2 (src t q1 q2) f x s = r q1 q2 f x s) ->
  gval (lay c) (fun r1 r2 => with_source src g c r1 r2 t (F r1 r2)) x sp i j
  = r (pos1 c (1/2) i) (pos2 c (1/2) j) (fun y s => gval (lay c) F y s i j) x sp.
Proof.
  intros (P1&F1&S1) (P2&F2&S2) G1 G2 Hi Hj Hg. unfold gval at 1.
  destruct (owner_spec (blk1 (lay c)) i F1 ltac:(unfold inb in *; lia)) as (A1&A2).
  destruct (owner_spec (blk2 (lay c)) j F2 ltac:(unfold inb in *; lia)) as (B1&B2).
  set (r1 := owner (blk1 (lay c)) i) in *. set (r2 := owner (blk2 (lay c)) j) in *.
  set (li := (ng1 (lay c) + (i - off (blk1 (lay c)) r1))%Z).
  set (lj := (ng2 (lay c) + (j - off (blk2 (lay c)) r2))%Z).
  unfold with_source; cbn [el].
  destruct (q_coords c r1 r2 x sp li lj) as (_&_&_&_&_&_&Q1&Q2).
  { unfold n1g, li, inb in *. lia. } { unfold n2g, lj, inb in *. lia. }
  rewrite Q1, Q2, Hg.
  replace (off (blk1 (lay c)) r1 + li - ng1 (lay c))%Z with i by (unfold li; lia).
  replace (off (blk2 (lay c)) r2 + lj - ng2 (lay c))%Z with j by (unfold lj; lia).
  reflexivity.
Qed.

Section Params.
  Context (P : params).
  Let c := pc P.
  Let L := lay c.

  Lemma source_step dt s : tiles (gN1 L) (blk1 L) -> tiles (gN2 L) (blk2 L) -> (0 <= ng1 L)%Z -> (0 <= ng2 L)%Z ->
    exists s', op_solve_src P dt s = Ok s'
    /\ fields s' = fields s /\ time_elapsed s' = time_elapsed s
    /\ forall x sp i j, inb (gN1 L) i -> inb (gN2 L) j ->
       let t := time_elapsed s in
       let w y r := gval L (f_of s) y r i j in
       let Src v := source c t (pos1 c (1/2) i) (pos2 c (1/2) j) v in
       gval L (f_of s') x sp i j =
         if instantaneous P then source_inst P t (pos1 c (1/2) i) (pos2 c (1/2) j) w x sp
         else if source_enabled c then w x sp + Src (fun y r => w y r + Src w y r * (dt / 2)) x sp * dt
         else w x sp.
  Proof.
    intros T1 T2 G1 G2. unfold op_solve_src. fold c. destruct (instantaneous P).
    - rewrite andb_false_r. eexists. split; [reflexivity|]. split; [reflexivity|]. split; [reflexivity|].
      intros x sp i j Hi Hj. cbv zeta. cbn [f_of set_f_of set_fpart fpart sf].
      apply (source_gval c (source_inst P) (fun _ _ src f => src f)
               (fun q1 q2 f => source_inst P (time_elapsed s) q1 q2 f)); auto.
    - rewrite andb_true_r. destruct (source_enabled c).
      + eexists. split; [reflexivity|]. split; [reflexivity|]. split; [reflexivity|].
        intros x sp i j Hi Hj. cbv zeta. cbn [f_of set_f_of set_fpart fpart sf].
        apply (source_gval c (source c) (fun _ _ src f => RK2_cell src f dt)
          (fun q1 q2 f x sp => f x sp + source c (time_elapsed s) q1 q2
             (fun y r => f y r + source c (time_elapsed s) q1 q2 f y r * (dt/2)) x sp * dt)); auto.
      + eexists. split; [reflexivity|]. repeat split; auto.
  Qed.
End Params.
