(** Reductions over data distributed over ranks. *)
From Coq Require Import Reals List.
Import ListNotations.
Local Open Scope R_scope.

(** All elements, of all ranks *)
Definition everything (D : list (list R)) : list R := concat D.

Definition least (m : R) (l : list R) : Prop := In m l /\ forall x, In x l -> m <= x.
Definition greatest (m : R) (l : list R) : Prop := In m l /\ forall x, In x l -> x <= m.
Definition average (m : R) (l : list R) : Prop :=
  INR (length l) * m = fold_right Rplus 0 l /\ l <> [].
