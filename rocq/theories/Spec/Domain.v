(** Admissible process decompositions, and the value a distributed array holds
    at a global cell.  Used in property statements. *)
From Coq Require Import ZArith List Reals.
From Verif Require Import Model.Af Model.Petsc Base.ZSum.
Local Open Scope Z_scope.

(** Every block is non-empty and the blocks tile the axis. *)
Definition tiles (N : Z) (bl : list Z) : Prop :=
  0 < N /\ Forall (fun b => 0 < b) bl /\ zlsum bl = N.

(** Ranks that exist in a layout. *)
Definition rank_ok (L : layout) (r1 r2 : nat) : Prop :=
  (r1 < length (blk1 L))%nat /\ (r2 < length (blk2 L))%nat.

(** A doubly periodic layout with at least one ghost zone on each axis. *)
Definition periodic_layout (L : layout) : Prop :=
  tiles (gN1 L) (blk1 L) /\ tiles (gN2 L) (blk2 L)
  /\ 0 < ng1 L /\ 0 < ng2 L /\ pbc1 L = PPeriodic /\ pbc2 L = PPeriodic.

(** Local arrays have the extents the solver allocates. *)
Definition shaped {A} (L : layout) (nv0 nv1 : Z) (F : dist A) : Prop :=
  forall r1 r2, rank_ok L r1 r2 ->
    d0 (F r1 r2) = nv0 /\ d1 (F r1 r2) = nv1
    /\ d2 (F r1 r2) = n1g L r1 /\ d3 (F r1 r2) = n2g L r2.

(** Value of component (p, s) at global cell (g1, g2), 0 <= g < N: the interior
    value held by the owner. *)
Definition gval {A} (L : layout) (F : dist A) (p s g1 g2 : Z) : A :=
  let o1 := owner (blk1 L) g1 in
  let o2 := owner (blk2 L) g2 in
  el (F o1 o2) p s (ng1 L + (g1 - off (blk1 L) o1)) (ng2 L + (g2 - off (blk2 L) o2)).

(** Its periodic extension to all integers. *)
Definition gper {A} (L : layout) (F : dist A) (p s g1 g2 : Z) : A :=
  gval L F p s (g1 mod gN1 L) (g2 mod gN2 L).

(** Sum over the global grid. *)
Definition gtotal (L : layout) (F : dist R) (p s : Z) : R :=
  zsum (gN1 L) (fun g1 => zsum (gN2 L) (fun g2 => gval L F p s g1 g2)).
