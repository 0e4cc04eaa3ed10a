(** What a dump file is to a reader, and which process grids exist. *)
From Coq Require Import ZArith Reals String Ascii List.
From Verif Require Import Base.Prelude Model.Af Model.Petsc Model.Config Model.Fvm Model.FileIO
  Spec.Domain Spec.FvmRun.
Import ListNotations.
Local Open Scope Z_scope.

(** Component [k] of cell (g1, g2): entry [g2, g1, k] of the N2 x N1 x dof array a
    reader gets. *)
Definition component {A} (F : file A) (N1 dof k g1 g2 : Z) : A := fdat F (k + dof * (g1 + N1 * g2)).

(** A process grid of a solver: the blocks tile each axis; ghost zones on an axis,
    or a single cell without them (boundary condition 'none'). *)
Definition axis_ok (N : Z) (bl : list Z) (g : Z) : Prop := tiles N bl /\ (0 < g \/ g = 0 /\ N = 1).
Definition layout_ok (L : layout) : Prop :=
  axis_ok (gN1 L) (blk1 L) (ng1 L) /\ axis_ok (gN2 L) (blk2 L) (ng2 L).

(** Two process grids for the same domain. *)
Definition same_grid (L L' : layout) : Prop := gN1 L' = gN1 L /\ gN2 L' = gN2 L.

(** Every local value, ghost zones included, is that of the periodic extension. *)
Definition ghosts_filled (c : cfg) (F : dist R) : Prop :=
  forall r1 r2 x s i j, rank_ok (lay c) r1 r2 -> inb (N_p c) x -> inb (N_species c) s ->
    inb (n1g (lay c) r1) i -> inb (n2g (lay c) r2) j ->
    el (F r1 r2) x s i j
    = gper (lay c) F x s (off (blk1 (lay c)) r1 + i - ng1 (lay c)) (off (blk2 (lay c)) r2 + j - ng2 (lay c)).

(** The k-th public name of a module in alphabetical order, utility excluded. *)
Definition public (names : list string) (a : string) : Prop :=
  In a names /\ a <> "integral_over_v"%string /\ forall r, a <> String "_"%char r.
