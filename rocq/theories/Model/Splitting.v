(** Operator splitting.  Models
    /repo/bolt/lib/nonlinear/temporal_evolution/operator_splitting_methods.py.

    The methods touch the solver object only through self.f and, when
    params.fields_enabled, through two attributes of self.fields_solver that refer
    to arrays.  [host] lists these accesses; an operator changes the whole solver
    and may raise. *)
From Coq Require Import Reals.
From Verif Require Import Base.Prelude Model.Integrators.
Local Open Scope R_scope.

Record host (S V : Type) : Type := Host {
  get_f : S -> V;
  set_f : V -> S -> S;
  axpby : R -> V -> R -> V -> V;                (* a * x + b * y, a new array *)
  fields_on : bool;                             (* params.fields_enabled == True *)
  get_refs : S -> nat * nat;                    (* cell_centered_EM_fields, yee_grid_EM_fields *)
  set_refs : nat * nat -> S -> S;
  mix_refs : R -> nat * nat -> R -> nat * nat -> S -> S }.
      (* bind both attributes to new arrays a * (first) + b * (second) *)
Arguments Host {S V}. Arguments get_f {S V}. Arguments set_f {S V}. Arguments axpby {S V}.
Arguments fields_on {S V}. Arguments get_refs {S V}. Arguments set_refs {S V}.
Arguments mix_refs {S V}.

Definition operator (S : Type) : Type := R -> S -> res S.

(** lines 10-38 *)
Definition strang {S} (op1 op2 : operator S) : operator S := fun dt s =>
  let? s := op1 (1 / 2 * dt) s in
  let? s := op2 dt s in
  op1 (1 / 2 * dt) s.

(** lines 40-67 *)
Definition lie {S} (op1 op2 : operator S) : operator S := fun dt s =>
  let? s := op1 dt s in
  op2 dt s.

(** lines 69-134.  The saved "start" values are the object in self.f and the two
    references. *)
Definition swss {S V} (H : host S V) (op1 op2 : operator S) : operator S := fun dt s =>
  let f_start := get_f H s in
  let refs_start := get_refs H s in
  let? s := op1 dt s in
  let? s := op2 dt s in
  let f_intermediate := get_f H s in
  let refs_intermediate := get_refs H s in
  let s := set_f H f_start s in
  let s := if fields_on H then set_refs H refs_start s else s in
  let? s := op2 dt s in
  let? s := op1 dt s in
  let s := set_f H (axpby H (1 / 2) (get_f H s) (1 / 2) f_intermediate) s in
  let s := if fields_on H
           then mix_refs H (1 / 2) (get_refs H s) (1 / 2) refs_intermediate s else s in
  Ok s.

(** lines 136-216.  With fields enabled line 211 reads
    self.cell_centered_EM_fields, an attribute the solver does not have. *)
Definition jia {S V} (H : host S V) (op1 op2 : operator S) : operator S := fun dt s =>
  let f_start := get_f H s in
  let refs_start := get_refs H s in
  let reset s := let s := set_f H f_start s in
                 if fields_on H then set_refs H refs_start s else s in
  let? s := strang op1 op2 dt s in
  let f_intermediate1 := get_f H s in
  let? s := strang op2 op1 dt (reset s) in
  let f_intermediate2 := get_f H s in
  let? s := swss H op1 op2 dt (reset s) in
  let s := set_f H (axpby H 1 (axpby H (2 / 3) f_intermediate1 (2 / 3) f_intermediate2)
                          (- (1 / 3)) (get_f H s)) s in
  if fields_on H then Err AttributeError else Ok s.

(** The solver reduced to its distribution function, fields off.  Element-wise
    arithmetic. *)
Definition f_only (I : Type) : host (vec I) (vec I) :=
  Host (fun s => s) (fun v _ => v) (fun a x b y => fun i => a * x i + b * y i)
       false (fun _ => (O, O)) (fun _ s => s) (fun _ _ _ _ s => s).

(** An operator that changes f only and never raises. *)
Definition plain {I} (o : R -> vec I -> vec I) : operator (vec I) := fun h x => Ok (o h x).
