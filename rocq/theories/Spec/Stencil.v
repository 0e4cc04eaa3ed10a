(** Neighbouring elements of an array along an axis, with periodic wrap-around. *)
From Coq Require Import ZArith.
From Verif Require Import Model.Af Model.Reconstruct.
Local Open Scope Z_scope.

(** The element [d] places further along axis [x]. *)
Definition neigh {A} (a : arr A) (x : axis) (d i j k l : Z) : A :=
  match x with
  | Ax0 => el a ((i + d) mod d0 a) j k l
  | Ax1 => el a i ((j + d) mod d1 a) k l
  | Ax2 => el a i j ((k + d) mod d2 a) l
  | Ax3 => el a i j k ((l + d) mod d3 a)
  end.
