(** The parts of PETSc's DMDA that Bolt relies on, and the conversion routines
    of /repo/bolt/lib/utils/af_petsc_conversion.py.

    A layout is the global grid cut, along each axis, in consecutive blocks.
    Rank (r1, r2) owns block r1 along q1 and block r2 along q2. *)
From Coq Require Import ZArith List.
From Verif Require Import Base.Prelude Model.Af.
Import ListNotations.
Local Open Scope Z_scope.

(** boundary_type of a DMDA axis ('periodic', 'ghosted', 'none'). *)
Inductive pbc : Type := PPeriodic | PGhosted | PNone.

Record layout : Type := Layout {
  gN1 : Z; gN2 : Z;                (* global N_q1, N_q2 *)
  blk1 : list Z; blk2 : list Z;    (* lengths of the blocks along each axis *)
  ng1 : Z; ng2 : Z;                (* N_g1, N_g2: ghost zones kept in local arrays *)
  pbc1 : pbc; pbc2 : pbc }.

Definition zlsum (l : list Z) : Z := fold_right Z.add 0 l.

(** DMDA.getCorners(): offset and size of a block. *)
Definition off (bl : list Z) (r : nat) : Z := zlsum (firstn r bl).
Definition bsize (bl : list Z) (r : nat) : Z := nth r bl 0.

(** The block that owns a global index. *)
Fixpoint owner (bl : list Z) (g : Z) : nat :=
  match bl with
  | [] => O
  | b :: t => if g <? b then O else S (owner t (g - b))
  end.

(** Extents of local arrays with ghost zones
    (nonlinear_solver.py:340-341, fields.py:208-209). *)
Definition n1g (L : layout) (r1 : nat) : Z := bsize (blk1 L) r1 + 2 * ng1 L.
Definition n2g (L : layout) (r2 : nat) : Z := bsize (blk2 L) r2 + 2 * ng2 L.

(** Slice end used for the interior: -N_g, or 1 when N_g == 0
    (nonlinear_solver.py:322-328). *)
Definition i_end (g : Z) : Z := if g =? 0 then 1 else - g.

Definition interior {A} (L : layout) (a : arr A) : arr A :=
  slice23 a (ng1 L) (i_end (ng1 L)) (ng2 L) (i_end (ng2 L)).

(** af_to_petsc_glob_array, af_petsc_conversion.py:3-20: the rank's part of the
    global vector, degrees of freedom fastest, then q1, then q2. *)
Definition af_to_petsc_glob_array {A} (L : layout) (a : arr A) : Z -> A :=
  flat (interior L a).

(** petsc_local_array_to_af, af_petsc_conversion.py:22-38 *)
Definition petsc_local_array_to_af {A} (L : layout) (r1 r2 : nat) (nv0 nv1 : Z)
    (b : Z -> A) : arr A :=
  of_flat nv0 nv1 (n1g L r1) (n2g L r2) b.

(** Global index a ghosted local index refers to, if any. *)
Definition global_index (bc : pbc) (N g : Z) : option Z :=
  match bc with
  | PPeriodic => Some (g mod N)
  | _ => if (0 <=? g) && (g <? N) then Some g else None
  end%bool.

(** DMDA.globalToLocal for rank (r1, r2) and [dof] components, box stencil.
    [G] holds every rank's part of the global vector.  Local entries that
    correspond to no global cell keep their old value. *)
Definition global_to_local {A} (L : layout) (dof : Z) (G : nat -> nat -> Z -> A)
    (old : Z -> A) (r1 r2 : nat) : Z -> A :=
  fun x =>
    let c := x mod dof in
    let i := (x / dof) mod n1g L r1 in
    let j := x / dof / n1g L r1 in
    match global_index (pbc1 L) (gN1 L) (off (blk1 L) r1 + i - ng1 L),
          global_index (pbc2 L) (gN2 L) (off (blk2 L) r2 + j - ng2 L) with
    | Some g1, Some g2 =>
        let o1 := owner (blk1 L) g1 in
        let o2 := owner (blk2 L) g2 in
        G o1 o2 (c + dof * ((g1 - off (blk1 L) o1)
                            + bsize (blk1 L) o1 * (g2 - off (blk2 L) o2)))
    | _, _ => old x
    end.

(** The arrays of all ranks. *)
Definition dist (A : Type) : Type := nat -> nat -> arr A.

(** communicate_f (nonlinear/communicate.py:8-38) and communicate_fields (40-77)
    on all ranks: interior to the global vector, globalToLocal, back to an array
    with [nv0] x [nv1] components.  [old] is the previous content of the local
    vectors. *)
Definition communicate {A} (L : layout) (nv0 nv1 : Z) (old : nat -> nat -> Z -> A)
    (F : dist A) : dist A :=
  fun r1 r2 =>
    petsc_local_array_to_af L r1 r2 nv0 nv1
      (global_to_local L (nv0 * nv1) (fun a b => af_to_petsc_glob_array L (F a b))
                       (old r1 r2) r1 r2).
