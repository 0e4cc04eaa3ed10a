(** One time step of the nonlinear solver.  Models
    /repo/bolt/lib/nonlinear/timestep.py.

    The four methods touch the solver object through self.dt, self.time_elapsed,
    self.f and the operators; [stepper] lists these accesses.  The element type
    [A] of self.f is left open, because the check below is about values that are
    not real numbers. *)
From Coq Require Import ZArith Reals String List Bool.
From Verif Require Import Base.Prelude Model.Af Model.Petsc Model.Fvm Model.Splitting.
Import ListNotations.
Local Open Scope R_scope.

Record stepper (S A V : Type) : Type := Stepper {
  st_lay : layout;
  method_q : string;                (* params.solver_method_in_q *)
  method_p : string;                (* params.solver_method_in_p *)
  with_fields : bool;               (* params.fields_enabled == True *)
  st_host : host S V;
  local_f : S -> dist A;            (* self.f on every rank, ghost zones included *)
  isinf : A -> bool;
  isnan : A -> bool;
  set_dt : R -> S -> S;             (* self.dt = dt *)
  clock : S -> R;                   (* self.time_elapsed *)
  set_clock : R -> S -> S;
  op_fvm : operator S;
  op_advect_q : operator S;
  op_solve_src : operator S;
  op_fields : operator S }.
Arguments Stepper {S A V}. Arguments st_lay {S A V}. Arguments method_q {S A V}.
Arguments method_p {S A V}. Arguments with_fields {S A V}. Arguments st_host {S A V}.
Arguments local_f {S A V}. Arguments isinf {S A V}. Arguments isnan {S A V}.
Arguments set_dt {S A V}. Arguments clock {S A V}. Arguments set_clock {S A V}.
Arguments op_fvm {S A V}. Arguments op_advect_q {S A V}. Arguments op_solve_src {S A V}.
Arguments op_fields {S A V}.

(** af.any_true over all four axes. *)
Definition indices (n : Z) : list Z := zrange 0 (Z.to_nat n).
Definition any_true (a : arr bool) : bool :=
  existsb (fun i => existsb (fun j => existsb (fun k => existsb (fun l => el a i j k l)
    (indices (d3 a))) (indices (d2 a))) (indices (d1 a))) (indices (d0 a)).

(** check_divergence, lines 28-38, on all ranks: the run stops when any of them
    raises. *)
Definition diverged {S A V} (M : stepper S A V) (s : S) : bool :=
  existsb (fun r => let f := local_f M s (fst r) (snd r) in
                    any_true (amap (isinf M) f) || any_true (amap (isnan M) f))
          (ranks (st_lay M)).

(** The branches on the methods, the same in the four steps (lines 56-87,
    118-149, 180-211, 242-273), for the splitting method [split]. *)
Definition advance {S A V} (M : stepper S A V)
    (split : operator S -> operator S -> operator S) : operator S := fun dt s =>
  if String.eqb (method_q M) "FVM" then
    if String.eqb (method_p M) "ASL" && with_fields M
    then split (op_fvm M) (op_fields M) dt s
    else op_fvm M dt s
  else if String.eqb (method_q M) "ASL" then
    if with_fields M then
      let op_advect_q_and_solve_src := split (op_advect_q M) (op_solve_src M) in
      if String.eqb (method_p M) "ASL"
      then split op_advect_q_and_solve_src (op_fields M) dt s
      else split op_advect_q_and_solve_src (op_fvm M) dt s
    else split (op_advect_q M) (op_solve_src M) dt s
  else Ok s.

(** A step.  An exception raised inside an operator is [Err]; otherwise the
    result is the solver as the call leaves it, together with the exception
    check_divergence raised, if any. *)
Definition step {S A V} (M : stepper S A V)
    (split : operator S -> operator S -> operator S) (dt : R) (s : S)
    : res (S * option exn) :=
  let s := set_dt M dt s in
  let? s := advance M split dt s in
  if diverged M s then Ok (s, Some SystemExit)
  else Ok (set_clock M (clock M s + dt) s, None).

Definition lie_step {S A V} (M : stepper S A V) := step M lie.                      (* 40-99 *)
Definition strang_step {S A V} (M : stepper S A V) := step M strang.                (* 101-160 *)
Definition swss_step {S A V} (M : stepper S A V) := step M (swss (st_host M)).      (* 162-221 *)
Definition jia_step {S A V} (M : stepper S A V) := step M (jia (st_host M)).        (* 224-285 *)

Inductive method : Type := Lie | Strang | Swss | Jia.
Definition step_of {S A V} (M : stepper S A V) (m : method) : R -> S -> res (S * option exn) :=
  match m with
  | Lie => lie_step M | Strang => strang_step M | Swss => swss_step M | Jia => jia_step M
  end.

(** A program that calls the step methods one after the other; it ends at the
    first exception. *)
Fixpoint run_steps {S A V} (M : stepper S A V) (h : list (method * R)) (s : S)
    : res (S * option exn) :=
  match h with
  | [] => Ok (s, None)
  | (m, dt) :: h =>
      let? (s, e) := step_of M m dt s in
      match e with None => run_steps M h s | Some _ => Ok (s, e) end
  end.
