(** N equal cells covering an interval. *)
From Coq Require Import ZArith Reals.
Local Open Scope R_scope.

Definition tile_interval (start stop : R) (N : Z) (lo mid : Z -> R) : Prop :=
  exists h, 0 < h /\ h * IZR N = stop - start /\
  forall i, (0 <= i < N)%Z ->
    mid i = lo i + h / 2                              (* centre of [lo, lo + h] *)
    /\ start <= lo i /\ lo i + h <= stop              (* inside the domain *)
    /\ (i = 0%Z -> lo i = start)                      (* first cell at the start *)
    /\ ((i + 1)%Z = N -> lo i + h = stop)             (* last cell at the end *)
    /\ ((i + 1 < N)%Z -> lo (i + 1)%Z = lo i + h).    (* no gaps, no overlaps *)
