(** Wave numbers of a periodic grid. *)
From Coq Require Import ZArith Reals.
Local Open Scope R_scope.

(** 2 pi m / L for the mode index i of a grid of N cells of width dq, L = N dq:
    m = i in the lower half, i - N in the upper half. *)
Definition signed_mode (N i : Z) : Z := (if 2 * i <? N then i else i - N)%Z.
Definition wavenumber (N : Z) (dq : R) (i : Z) : R := 2 * PI * IZR (signed_mode N i) / (IZR N * dq).

(** The mode at the grid frequency of an even grid represents both +k and -k. *)
Definition resolved (N1 N2 i j : Z) : Prop := (2 * i)%Z <> N1 /\ (2 * j)%Z <> N2.

(** The mean over the grid. *)
From Verif Require Import Base.ZSum.
Definition mean2 (N1 N2 : Z) (x : Z -> Z -> R) : R :=
  zsum N1 (fun i => zsum N2 (fun j => x i j)) / (IZR N1 * IZR N2).
