(** Reductions over all ranks.  Models
    /repo/bolt/lib/utils/parallel_reduction_ops.py.  The argument lists, for each
    rank, the elements of its array. *)
From Coq Require Import Reals List.
From Verif Require Import Base.Prelude.
Import ListNotations.
Local Open Scope R_scope.

(** np.min, np.max: ValueError on an empty array. *)
Definition np_min (l : list R) : res R :=
  match l with [] => Err ValueError | x :: l => Ok (fold_left Rmin l x) end.

Fixpoint rsum (l : list R) : R := match l with [] => 0 | x :: l => x + rsum l end.

(** np.mean; that of an empty array is not a number, an error here. *)
Definition np_mean (l : list R) : res R :=
  match l with [] => Err ValueError | _ => Ok (rsum l / INR (length l)) end.

(** The same expression evaluated on every rank. *)
Fixpoint on_ranks {A} (g : list R -> res A) (D : list (list R)) : res (list A) :=
  match D with
  | [] => Ok []
  | l :: D => let? x := g l in let? r := on_ranks g D in Ok (x :: r)
  end.

(** comm.allreduce with MPI.SUM and MPI.MIN *)
Definition allreduce_sum (l : list R) : R := rsum l.
Definition allreduce_min (l : list R) : R :=
  match l with [] => 0 | x :: l => fold_left Rmin l x end.

(** global_mean, lines 5-12 *)
Definition global_mean (D : list (list R)) : res R :=
  let? local_mean := on_ranks np_mean D in
  Ok (allreduce_sum local_mean / INR (length D)).

(** global_min, lines 14-20 *)
Definition global_min (D : list (list R)) : res R :=
  let? local_min := on_ranks np_min D in
  Ok (allreduce_min local_min).

(** global_max, lines 22-28: local_max is the minimum, and line 26 reads the
    undefined name local_min. *)
Definition global_max (D : list (list R)) : res R :=
  let? local_max := on_ranks np_min D in
  Err NameError.
