(** Electromagnetic fields in a box with mirror walls.

    The conditions a named wall imposes on the cells behind it, and the Yee scheme
    in a box whose walls are mirrors, written without arrays or ranks. *)
From Coq Require Import ZArith Reals List Bool String.
From Verif Require Import Base.Prelude Model.Af Model.Petsc Model.Config Model.Em Spec.Domain Spec.Yee.
Import ListNotations.
Local Open Scope R_scope.

(** Components (0-2 electric, 3-5 magnetic) a mirror reflects: all of them when the
    fields are cell centred; on the staggered grid the electric components that sit
    half a cell away from the wall. *)
Definition reflects (on_yee : bool) (e : edge) (k : Z) : bool :=
  if on_yee then
    match e with ELeft | ERight => (k =? 1) || (k =? 2) | EBottom | ETop => (k =? 0) || (k =? 2) end%Z%bool
  else true.

(** Value behind a wall: [m] is the value at the mirror image, [b] the user's, [f]
    the one found there. *)
Definition field_value (name : string) (reflected : bool) (m b f : R) : R :=
  if String.eqb name "dirichlet" then b
  else if String.eqb name "mirror" then (if reflected then m else f)
  else if String.eqb name "mirror+dirichlet" then b
  else f.

Definition usable_names : list string :=
  ["dirichlet"; "mirror"; "mirror+dirichlet"; "periodic"; "none"]%string.

(** ** The Yee scheme between mirrors.  Cells are counted periodically; [w1] and
    [w2] say whether the walls normal to q1 and q2 are mirrors.  Behind a mirror an
    electric component has the value of the first cell in front of it. *)
Definition before1 (w : bool) (n : Z) (u : grid) : grid :=
  fun i j => if (w && (i mod n =? 0)%Z)%bool then u i j else u (i - 1)%Z j.
Definition before2 (w : bool) (n : Z) (u : grid) : grid :=
  fun i j => if (w && (j mod n =? 0)%Z)%bool then u i j else u i (j - 1)%Z.

Definition faraday_walls (w1 w2 : bool) (n1 n2 : Z) (h1 h2 dt : R) (Y : lattice) : lattice :=
  let D1 u i j := (u i j - before1 w1 n1 u i j) / h1 in
  let D2 u i j := (u i j - before2 w2 n2 u i j) / h2 in
  Lattice (E1 Y) (E2 Y) (E3 Y)
    (fun i j => B1 Y i j - dt * D2 (E3 Y) i j)
    (fun i j => B2 Y i j + dt * D1 (E3 Y) i j)
    (fun i j => B3 Y i j - dt * (D1 (E2 Y) i j - D2 (E1 Y) i j)).

Definition wall_step (w1 w2 : bool) (n1 n2 : Z) (h1 h2 eps mu dt : R) (J1 J2 J3 : grid) (Y : lattice) : lattice :=
  faraday_walls w1 w2 n1 n2 h1 h2 dt (ampere h1 h2 eps mu dt J1 J2 J3 Y).

Fixpoint wall_run (w1 w2 : bool) (n1 n2 : Z) (h1 h2 eps mu : R) (l : list (R * grid * grid * grid)) (Y : lattice) : lattice :=
  match l with
  | [] => Y
  | (dt, J1, J2, J3) :: l =>
      wall_run w1 w2 n1 n2 h1 h2 eps mu l (wall_step w1 w2 n1 n2 h1 h2 eps mu dt J1 J2 J3 Y)
  end.

(** A box whose walls are mirrors along the axes marked by [w1], [w2] and periodic
    along the others, with parameters for which the equations make sense. *)
Definition boxed (c : fcfg) (w1 w2 : bool) : Prop :=
  periodic_layout (flay c) /\ fN_g c = ng1 (flay c) /\ fN_g c = ng2 (flay c)
  /\ (forall e, fin_q c e = match e with
                            | ELeft | ERight => if w1 then "mirror" else "periodic"
                            | EBottom | ETop => if w2 then "mirror" else "periodic"
                            end%string)
  /\ mu c <> 0 /\ eps c <> 0 /\ fdq1 c <> 0 /\ fdq2 c <> 0.

(** ** Mirror images.  A box of [n] cells and its image behind the wall make a
    periodic box of [2 n] cells: quantities that sit half a cell from the walls
    are continued evenly, those that sit on the walls oddly. *)
Definition even1 (n : Z) (u : grid) : grid := fun i j =>
  let x := (i mod (2 * n))%Z in if (x <? n)%Z then u x j else u (2 * n - 1 - x)%Z j.
Definition odd1 (n : Z) (u : grid) : grid := fun i j =>
  let x := (i mod (2 * n))%Z in if (x <? n)%Z then u x j else - u (2 * n - x)%Z j.
Definition even2 (n : Z) (u : grid) : grid := fun i j => even1 n (fun y x => u x y) j i.
Definition odd2 (n : Z) (u : grid) : grid := fun i j => odd1 n (fun y x => u x y) j i.

Definition images1 (n : Z) (Y : lattice) : lattice :=
  Lattice (odd1 n (E1 Y)) (even1 n (E2 Y)) (even1 n (E3 Y)) (even1 n (B1 Y)) (odd1 n (B2 Y)) (odd1 n (B3 Y)).
Definition images2 (n : Z) (Y : lattice) : lattice :=
  Lattice (even2 n (E1 Y)) (odd2 n (E2 Y)) (even2 n (E3 Y)) (odd2 n (B1 Y)) (even2 n (B2 Y)) (odd2 n (B3 Y)).

(** An odd quantity vanishes on the wall. *)
Definition quiet1 (n : Z) (Y : lattice) : Prop := forall i j, (i mod n = 0)%Z ->
  E1 Y i j = 0 /\ B2 Y i j = 0 /\ B3 Y i j = 0.
Definition quiet2 (n : Z) (Y : lattice) : Prop := forall i j, (j mod n = 0)%Z ->
  E2 Y i j = 0 /\ B1 Y i j = 0 /\ B3 Y i j = 0.

Definition quiet_walls (w1 w2 : bool) (n1 n2 : Z) (Y : lattice) : Prop :=
  (w1 = true -> quiet1 n1 Y) /\ (w2 = true -> quiet2 n2 Y).

(** Steps (dt, J1, J2, J3) whose currents do not cross the walls, and their images. *)
Definition no_crossing1 (n : Z) (l : list (R * grid * grid * grid)) : Prop :=
  Forall (fun '(_, J1, _, _) => forall i j, (i mod n = 0)%Z -> J1 i j = 0) l.
Definition no_crossing2 (n : Z) (l : list (R * grid * grid * grid)) : Prop :=
  Forall (fun '(_, _, J2, _) => forall i j, (j mod n = 0)%Z -> J2 i j = 0) l.
Definition same_steps (l l' : list (R * grid * grid * grid)) : Prop :=
  Forall2 (fun '(dt, J1, J2, J3) '(dt', K1, K2, K3) => dt = dt' /\ (forall i j, J1 i j = K1 i j)
    /\ (forall i j, J2 i j = K2 i j) /\ (forall i j, J3 i j = K3 i j)) l l'.
Definition step_images1 (n : Z) : list (R * grid * grid * grid) -> list (R * grid * grid * grid) :=
  map (fun '(dt, J1, J2, J3) => (dt, odd1 n J1, even1 n J2, even1 n J3)).
Definition step_images2 (n : Z) : list (R * grid * grid * grid) -> list (R * grid * grid * grid) :=
  map (fun '(dt, J1, J2, J3) => (dt, even2 n J1, odd2 n J2, even2 n J3)).

(** Two boxes with the same walls, cells and parameters, possibly on different
    process grids. *)
Definition same_box (c c' : fcfg) : Prop :=
  gN1 (flay c') = gN1 (flay c) /\ gN2 (flay c') = gN2 (flay c)
  /\ fdq1 c' = fdq1 c /\ fdq2 c' = fdq2 c /\ eps c' = eps c /\ mu c' = mu c.

(** A box and one twice as long (high) with the same cells. *)
Definition doubled1 (c c' : fcfg) : Prop :=
  gN1 (flay c') = (2 * gN1 (flay c))%Z /\ gN2 (flay c') = gN2 (flay c)
  /\ fdq1 c' = fdq1 c /\ fdq2 c' = fdq2 c /\ eps c' = eps c /\ mu c' = mu c.
Definition doubled2 (c c' : fcfg) : Prop :=
  gN1 (flay c') = gN1 (flay c) /\ gN2 (flay c') = (2 * gN2 (flay c))%Z
  /\ fdq1 c' = fdq1 c /\ fdq2 c' = fdq2 c /\ eps c' = eps c /\ mu c' = mu c.
