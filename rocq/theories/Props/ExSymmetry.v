(** Example data for the theorems on symmetries. *)
From Coq Require Import ZArith Reals Lra Lia String List Bool.
From Verif Require Import Base.Prelude Base.ZSum Model.Af Model.Petsc Model.Config Model.Fvm
  Spec.Domain Spec.Lattice Spec.FvmProblem Spec.FvmRun Spec.Symmetry Props.ExFvm.
Import ListNotations.
Local Open Scope R_scope.

(** The state that holds [u]; ghosts hold what the formula gives. *)
Definition state_of (c : cfg) (u : gstate) : fstate :=
  FState (fun r1 r2 => Arr (N_p c) (N_species c) (n1g (lay c) r1) (n2g (lay c) r2)
    (fun x s i j => u x s (off (blk1 (lay c)) r1 + (i - ng1 (lay c)))%Z (off (blk2 (lay c)) r2 + (j - ng2 (lay c)))%Z))
   (fun _ _ _ => 0).
Lemma state_of_holds c u : holds c (sf (state_of c u)) u.
Proof.
  split; [intros r1 r2 _; repeat split|]. intros x s g1 g2 _ _ _ _. unfold gval, state_of; cbn [sf el].
  f_equal; lia.
Qed.

(** The field arrays that show [E]. *)
Definition fields_of (c : cfg) (E : fields3) : fieldseq := fun r1 r2 =>
  let one (E : gfields) := Arr 6 1 (n1g (lay c) r1) (n2g (lay c) r2)
    (fun n _ i j => E n (off (blk1 (lay c)) r1 + (i - ng1 (lay c)))%Z (off (blk2 (lay c)) r2 + (j - ng2 (lay c)))%Z) in
  (one (fst (fst E)), one (snd (fst E)), one (snd E)).
Lemma fields_of_shows c E : shows3 (lay c) (fields_of c E) E.
Proof.
  repeat split; intros r1 r2 i j n _ _ _ _; unfold fields_of; cbn [fst snd el]; f_equal; lia.
Qed.

(** A wave and a bump. *)
Definition sym_data : gstate := fun x s g1 g2 => IZR (x + 2 * s + g1 * g1 + 3 * g2).
Definition sym_fields : fields3 := (fun n g1 g2 => IZR (n + g1), fun n g1 g2 => IZR (n - g2), fun n g1 g2 => IZR (g1 * g2)).
Definition shift3 (c : cfg) (d1 d2 : Z) (E : fields3) : fields3 :=
  let m (E : gfields) : gfields := fun n g1 g2 => E n ((g1 - d1) mod gN1 (lay c))%Z ((g2 - d2) mod gN2 (lay c))%Z in
  (m (fst (fst E)), m (snd (fst E)), m (snd E)).
Lemma shift3_moved c d1 d2 E : moved_fields c d1 d2 E (shift3 c d1 d2 E).
Proof. intros pick [<-|[<-|[<-|[]]]] n g1 g2; reflexivity. Qed.

(** A larger grid. *)
Definition wide_lay : layout := Layout 20 20 [11;9]%Z [20]%Z 3 3 PPeriodic PPeriodic.
Definition wide (m : string) (on : bool) : cfg := with_layout (ex_cfg m on) wide_lay.
Lemma wide_wf m on k : scheme_of_name m = Some k -> wf_cfg (wide m on) k PPM.
Proof. intros H. exact (ex_wf m on k H). Qed.
Lemma wide_periodic m on k : periodic_fvm (wide m on) k.
Proof.
  unfold periodic_fvm, periodic_layout, tiles; cbn. repeat split; try lia; repeat constructor; try lia; destruct k; cbn; lia.
Qed.

(** Reversal of p1: the momenta are (i1, i2) with i1 fastest. *)
Definition swap_p1 (x : Z) : Z := if Z.even x then (x + 1)%Z else (x - 1)%Z.
Lemma swap_pairs m : pairs_velocities (ex_cfg m false) true false swap_p1.
Proof.
  intros t q1 q2 x s Hx Hs. change (N_p (ex_cfg m false)) with 4%Z in *.
  change (N_species (ex_cfg m false)) with 2%Z in *. unfold inb in *.
  assert (X : (x = 0 \/ x = 1 \/ x = 2 \/ x = 3)%Z) by lia. assert (S : (s = 0 \/ s = 1)%Z) by lia.
  unfold velocity, mom1, mom2, mom3.
  destruct X as [->|[->|[->| ->]]], S as [->| ->]; (split; [cbn; lia|]);
   cbv -[Rplus Rmult Ropp Rdiv Rinv IZR Rminus]; f_equal; lra.
Qed.
