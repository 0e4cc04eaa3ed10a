(** What the swss method is meant to do with f and the fields. *)
From Coq Require Import ZArith Reals.
From Verif Require Import Base.Prelude Model.Af Model.Petsc Model.Fvm Model.Em Model.Solver.
Local Open Scope R_scope.

(** The solver after the first ordering, with f and the field arrays of the start again. *)
Definition rewound (start after : solver) : solver :=
  let e := fields after in
  Solver (FState (f_of start) (sbuf (fpart after)))
         (Em (mem e) (next e) (cc (fields start)) (yee (fields start)) (cc_n e) (cc_nh e) (at_n e) (fbuf e) (ftime e))
         (time_elapsed after) (cur_dt after).

(** z is the mean of x and y, element by element. *)
Definition halfway (x y z : dist R) : Prop := forall r1 r2,
  (d0 (z r1 r2) = d0 (x r1 r2) /\ d1 (z r1 r2) = d1 (x r1 r2) /\ d2 (z r1 r2) = d2 (x r1 r2) /\ d3 (z r1 r2) = d3 (x r1 r2))
  /\ forall i j k l, el (z r1 r2) i j k l = (el (x r1 r2) i j k l + el (y r1 r2) i j k l) / 2.
