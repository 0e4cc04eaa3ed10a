(** Reflection at a wall: which cell and which momentum a ghost cell mirrors. *)
From Coq Require Import ZArith Bool.
From Verif Require Import Model.Config.
Local Open Scope Z_scope.

(** Ghost slab of an edge in a local array of n1 x n2 cells with g ghost zones. *)
Definition in_slab (e : edge) (g n1 n2 i j : Z) : bool :=
  match e with
  | ELeft => i <? g
  | ERight => n1 - g <=? i
  | EBottom => j <? g
  | ETop => n2 - g <=? j
  end.

(** The cell seen in the mirror: the wall is between g-1 and g (left, bottom), or
    between n-g-1 and n-g (right, top). *)
Definition mirror_cell (e : edge) (g n1 n2 i j : Z) : Z * Z :=
  match e with
  | ELeft => (2 * g - 1 - i, j)
  | ERight => (2 * (n1 - g) - 1 - i, j)
  | EBottom => (i, 2 * g - 1 - j)
  | ETop => (i, 2 * (n2 - g) - 1 - j)
  end.

(** Row of momentum (i1, i2, i3). *)
Definition prow (N1 N2 i1 i2 i3 : Z) : Z := i1 + N1 * (i2 + N2 * i3).

(** Row x with the index of the momentum normal to the wall reversed. *)
Definition reverse_normal (e : edge) (N1 N2 x : Z) : Z :=
  let i1 := x mod N1 in let i2 := (x / N1) mod N2 in let i3 := x / N1 / N2 in
  match e with
  | ELeft | ERight => prow N1 N2 (N1 - 1 - i1) i2 i3
  | EBottom | ETop => prow N1 N2 i1 (N2 - 1 - i2) i3
  end.

(** The same on a polar grid (p1 radius, p2 angle, N2 even): theta -> pi - theta
    at left and right walls, theta -> - theta at bottom and top walls. *)
Definition reflect_angle (e : edge) (N1 N2 x : Z) : Z :=
  let i1 := x mod N1 in let i2 := (x / N1) mod N2 in let i3 := x / N1 / N2 in
  match e with
  | ELeft | ERight => prow N1 N2 i1 ((N2 / 2 - 1 - i2) mod N2) i3
  | EBottom | ETop => prow N1 N2 i1 (N2 - 1 - i2) i3
  end.
