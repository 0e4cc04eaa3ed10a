(** Moments as integrals over momentum space: midpoint sums over the grid. *)
From Coq Require Import ZArith Reals String.
From Verif Require Import Base.ZSum.
Local Open Scope R_scope.

(** Grid of n1 x n2 x n3 momentum cells with the given lower corner and widths. *)
Record momentum_grid : Type := MGrid {
  mn1 : Z; mn2 : Z; mn3 : Z;
  lo1 : R; lo2 : R; lo3 : R; w1 : R; w2 : R; w3 : R }.

Definition v_of (lo w : R) (i : Z) : R := lo + (1/2 + IZR i) * w.

(** integral of weight * g over momentum space; g is a function of the three
    cell indices, the weight of the velocity at the cell centre. *)
Definition integral (G : momentum_grid) (weight : R -> R -> R -> R) (g : Z -> Z -> Z -> R) : R :=
  zsum (mn3 G) (fun i3 => zsum (mn2 G) (fun i2 => zsum (mn1 G) (fun i1 =>
    weight (v_of (lo1 G) (w1 G) i1) (v_of (lo2 G) (w2 G) i2) (v_of (lo3 G) (w3 G) i3) * g i1 i2 i3)))
  * (w1 G * w2 G * w3 G).

(** What each moment weights f with. *)
Definition moment_weight (name : string) (x y z : R) : option R :=
  let v2 := x * x + y * y + z * z in
  if String.eqb name "density" then Some 1
  else if String.eqb name "mom_v1_bulk" then Some x
  else if String.eqb name "mom_v2_bulk" then Some y
  else if String.eqb name "mom_v3_bulk" then Some z
  else if String.eqb name "energy" then Some (v2 / 2)
  else if String.eqb name "energy_q1" then Some (x * x / 2)
  else if String.eqb name "energy_q2" then Some (y * y / 2)
  else if String.eqb name "energy_q3" then Some (z * z / 2)
  else if String.eqb name "q_q1" then Some (x * v2)
  else if String.eqb name "q_q2" then Some (y * v2)
  else if String.eqb name "q_q3" then Some (z * v2)
  else None.

(** ** The momentum grid of a configuration *)
From Coq Require Import List.
From Verif Require Import Model.Config.

Definition momentum_grid_ok (c : cfg) : Prop :=
  (0 < N_p1 c)%Z /\ (0 < N_p2 c)%Z /\ (0 < N_p3 c)%Z /\ (0 < N_species c)%Z
  /\ Z.of_nat (length (p1_start c)) = N_species c
  /\ Z.of_nat (length (p2_start c)) = N_species c
  /\ Z.of_nat (length (p3_start c)) = N_species c.

Definition species_grid (c : cfg) (s : Z) : momentum_grid :=
  let at_ l := nth (Z.to_nat s) l 0 in
  MGrid (N_p1 c) (N_p2 c) (N_p3 c) (at_ (p1_start c)) (at_ (p2_start c)) (at_ (p3_start c))
        (at_ (dp1 c)) (at_ (dp2 c)) (at_ (dp3 c)).
