(** The Yee scheme on an infinite lattice with periodic data.

    Positions in cell (i, j): E1 at (i, j+1/2), E2 at (i+1/2, j), E3 at
    (i+1/2, j+1/2); B1 at (i+1/2, j), B2 at (i, j+1/2), B3 at (i, j).
    Written from the textbook scheme; no reference to arrays or ranks. *)
From Coq Require Import ZArith Reals List.
From Coq Require Import String.
From Verif Require Import Base.ZSum Model.Af Model.Petsc Model.Em Spec.Domain.
Import ListNotations.
Local Open Scope R_scope.

Definition grid : Type := Z -> Z -> R.

Record lattice : Type := Lattice { E1 : grid; E2 : grid; E3 : grid; B1 : grid; B2 : grid; B3 : grid }.

(** Forward and backward differences. *)
Definition fwd1 (h : R) (u : grid) : grid := fun i j => (u (i + 1)%Z j - u i j) / h.
Definition fwd2 (h : R) (u : grid) : grid := fun i j => (u i (j + 1)%Z - u i j) / h.
Definition bwd1 (h : R) (u : grid) : grid := fun i j => (u i j - u (i - 1)%Z j) / h.
Definition bwd2 (h : R) (u : grid) : grid := fun i j => (u i j - u i (j - 1)%Z) / h.

(** E <- E + dt (curl B / (mu eps) - J / eps) *)
Definition ampere (h1 h2 eps mu dt : R) (J1 J2 J3 : grid) (Y : lattice) : lattice :=
  Lattice
    (fun i j => E1 Y i j + dt * (fwd2 h2 (B3 Y) i j / (mu * eps) - J1 i j / eps))
    (fun i j => E2 Y i j + dt * (- fwd1 h1 (B3 Y) i j / (mu * eps) - J2 i j / eps))
    (fun i j => E3 Y i j + dt * ((fwd1 h1 (B2 Y) i j - fwd2 h2 (B1 Y) i j) / (mu * eps) - J3 i j / eps))
    (B1 Y) (B2 Y) (B3 Y).

(** B <- B - dt curl E *)
Definition faraday (h1 h2 dt : R) (Y : lattice) : lattice :=
  Lattice (E1 Y) (E2 Y) (E3 Y)
    (fun i j => B1 Y i j - dt * bwd2 h2 (E3 Y) i j)
    (fun i j => B2 Y i j + dt * bwd1 h1 (E3 Y) i j)
    (fun i j => B3 Y i j - dt * (bwd1 h1 (E2 Y) i j - bwd2 h2 (E1 Y) i j)).

Definition yee_step (h1 h2 eps mu dt : R) (J1 J2 J3 : grid) (Y : lattice) : lattice :=
  faraday h1 h2 dt (ampere h1 h2 eps mu dt J1 J2 J3 Y).

Definition div_B (h1 h2 : R) (Y : lattice) : grid :=
  fun i j => bwd1 h1 (B1 Y) i j + bwd2 h2 (B2 Y) i j.
Definition div_E (h1 h2 : R) (Y : lattice) : grid :=
  fun i j => fwd1 h1 (E1 Y) i j + fwd2 h2 (E2 Y) i j.

Definition same (Y Z : lattice) : Prop :=
  (forall i j, E1 Y i j = E1 Z i j) /\ (forall i j, E2 Y i j = E2 Z i j)
  /\ (forall i j, E3 Y i j = E3 Z i j) /\ (forall i j, B1 Y i j = B1 Z i j)
  /\ (forall i j, B2 Y i j = B2 Z i j) /\ (forall i j, B3 Y i j = B3 Z i j).

(** What the staggered arrays of all ranks hold: rows 0-5 at every global cell,
    continued periodically. *)
Definition view (L : layout) (F : dist R) : lattice :=
  Lattice (gper L F 0 0) (gper L F 1 0) (gper L F 2 0) (gper L F 3 0) (gper L F 4 0) (gper L F 5 0).

(** A current array (one row). *)
Definition grid_of (L : layout) (F : dist R) : grid := gper L F 0 0.

(** Staggered energy of electric fields at one time level and magnetic fields
    half a step before and after. *)
Definition total (n1 n2 : Z) (u : grid) : R := zsum n1 (fun i => zsum n2 (fun j => u i j)).

Definition energy (n1 n2 : Z) (eps mu : R) (before after : lattice) : R :=
  total n1 n2 (fun i j =>
    eps * (E1 after i j ^ 2 + E2 after i j ^ 2 + E3 after i j ^ 2)
    + (B1 before i j * B1 after i j + B2 before i j * B2 after i j + B3 before i j * B3 after i j) / mu).

(** The plain (unstaggered) energy norm, and the square of the Courant number. *)
Definition field_norm2 (n1 n2 : Z) (eps mu : R) (Y : lattice) : R :=
  total n1 n2 (fun i j => eps * (E1 Y i j ^ 2 + E2 Y i j ^ 2 + E3 Y i j ^ 2)
                          + (B1 Y i j ^ 2 + B2 Y i j ^ 2 + B3 Y i j ^ 2) / mu).

Definition courant2 (h1 h2 eps mu dt : R) : R := dt ^ 2 * (/ h1 ^ 2 + / h2 ^ 2) / (mu * eps).

(** Charge left by discrete continuity after a list of (dt, J1, J2) steps. *)
Fixpoint charge_after (h1 h2 : R) (rho : grid) (steps : list (R * grid * grid)) : grid :=
  match steps with
  | [] => rho
  | (dt, J1, J2) :: rest =>
      charge_after h1 h2 (fun i j => rho i j - dt * (fwd1 h1 J1 i j + fwd2 h2 J2 i j)) rest
  end.

(** Positions of the six components inside a cell, in cell widths; and a family
    of affine fields, one per component. *)
Definition yee_position (k : Z) : R * R :=
  if (k =? 0)%Z then (0, 1/2) else if (k =? 1)%Z then (1/2, 0) else if (k =? 2)%Z then (1/2, 1/2)
  else if (k =? 3)%Z then (1/2, 0) else if (k =? 4)%Z then (0, 1/2) else (0, 0).

Definition affine (u0 u1 u2 : Z -> R) (k : Z) (x y : R) : R := u0 k + u1 k * x + u2 k * y.

(** Interpolation to the cell centre (i+1/2, j+1/2) from the 1, 2 or 4 nearest
    positions, and back. *)
Definition centred (Y : lattice) : lattice :=
  Lattice (fun i j => (E1 Y i j + E1 Y (i + 1)%Z j) / 2)
          (fun i j => (E2 Y i j + E2 Y i (j + 1)%Z) / 2)
          (E3 Y)
          (fun i j => (B1 Y i j + B1 Y i (j + 1)%Z) / 2)
          (fun i j => (B2 Y i j + B2 Y (i + 1)%Z j) / 2)
          (fun i j => (B3 Y i j + B3 Y i (j + 1)%Z + B3 Y (i + 1)%Z j + B3 Y (i + 1)%Z (j + 1)%Z) / 4).

Definition staggered (Y : lattice) : lattice :=
  Lattice (fun i j => (E1 Y i j + E1 Y (i - 1)%Z j) / 2)
          (fun i j => (E2 Y i j + E2 Y i (j - 1)%Z) / 2)
          (E3 Y)
          (fun i j => (B1 Y i j + B1 Y i (j - 1)%Z) / 2)
          (fun i j => (B2 Y i j + B2 Y (i - 1)%Z j) / 2)
          (fun i j => (B3 Y i j + B3 Y (i - 1)%Z j + B3 Y i (j - 1)%Z + B3 Y (i - 1)%Z (j - 1)%Z) / 4).

(** Electric part of one, magnetic part of the other. *)
Definition EB (Y Z : lattice) : lattice := Lattice (E1 Y) (E2 Y) (E3 Y) (B1 Z) (B2 Z) (B3 Z).

Definition mid (Y Z : lattice) : lattice :=
  Lattice (fun i j => (E1 Y i j + E1 Z i j) / 2) (fun i j => (E2 Y i j + E2 Z i j) / 2)
          (fun i j => (E3 Y i j + E3 Z i j) / 2) (fun i j => (B1 Y i j + B1 Z i j) / 2)
          (fun i j => (B2 Y i j + B2 Z i j) / 2) (fun i j => (B3 Y i j + B3 Z i j) / 2).

(** A doubly periodic box: all four boundaries named 'periodic'. *)
Definition periodic_fields (c : fcfg) : Prop :=
  periodic_layout (flay c) /\ forall e, fin_q c e = "periodic"%string.
