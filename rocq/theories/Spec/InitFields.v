(** Fields a user prescribes as functions of position. *)
From Coq Require Import ZArith Reals String.
From Verif Require Import Base.ZSum Model.Af Model.Petsc Model.Config Model.Em Spec.Domain Spec.Yee.
Local Open Scope R_scope.

(** The function [g] at offset (o1, o2) inside each cell. *)
Definition placed (c : fcfg) (o1 o2 : R) (g : R -> R -> R) : grid := fun i j =>
  g (fq1_start c + (IZR i + o1) * fdq1 c) (fq2_start c + (IZR j + o2) * fdq2 c).

(** E and B at the positions of the Yee grid (Spec/Yee.v). *)
Definition on_yee_grid (c : fcfg) (E B : R -> R -> R * R * R) : lattice :=
  Lattice (placed c 0 (1/2) (fun x y => fst (fst (E x y)))) (placed c (1/2) 0 (fun x y => snd (fst (E x y))))
          (placed c (1/2) (1/2) (fun x y => snd (E x y)))
          (placed c (1/2) 0 (fun x y => fst (fst (B x y)))) (placed c 0 (1/2) (fun x y => snd (fst (B x y))))
          (placed c 0 0 (fun x y => snd (B x y))).

(** The same with E1 and B2 half a cell lower, at the corner of the cell. *)
Definition on_shifted_grid (c : fcfg) (E B : R -> R -> R * R * R) : lattice :=
  let Y := on_yee_grid c E B in
  Lattice (placed c 0 0 (fun x y => fst (fst (E x y)))) (E2 Y) (E3 Y)
          (B1 Y) (placed c 0 0 (fun x y => snd (fst (B x y)))) (B3 Y).

(** In-plane B as the discrete curl of A3 at the cell centres. *)
Definition with_curl (c : fcfg) (ab : R -> R -> R * R) (Y : lattice) : lattice :=
  let a := placed c (1/2) (1/2) (fun x y => fst (ab x y)) in
  Lattice (E1 Y) (E2 Y) (E3 Y) (bwd2 (fdq2 c) a) (fun i j => - bwd1 (fdq1 c) a i j)
          (placed c 0 0 (fun x y => snd (ab x y))).

(** Equal on the cells of the grid. *)
Definition same_on (n1 n2 : Z) (Y Z : lattice) : Prop :=
  forall i j, inb n1 i -> inb n2 j ->
  E1 Y i j = E1 Z i j /\ E2 Y i j = E2 Z i j /\ E3 Y i j = E3 Z i j
  /\ B1 Y i j = B1 Z i j /\ B2 Y i j = B2 Z i j /\ B3 Y i j = B3 Z i j.

(** A user who defines E and, respectively, B or A3 and B3. *)
Definition defines_EB (c : fcfg) (E B : R -> R -> R * R * R) : Prop :=
  fields_initialize c = "user-defined"%string /\ init_E c = Some E /\ init_B c = Some B /\ init_A3_B3 c = None.
Definition defines_EA (c : fcfg) (E : R -> R -> R * R * R) (ab : R -> R -> R * R) : Prop :=
  fields_initialize c = "user-defined"%string /\ init_E c = Some E
  /\ init_B c = None /\ init_A c = None /\ init_A3_B3 c = Some ab.
Definition user_defined (c : fcfg) : Prop := (exists E B, defines_EB c E B) \/ (exists E ab, defines_EA c E ab).
