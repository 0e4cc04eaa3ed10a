(** Checks made when a physical system and a nonlinear solver are constructed.
    Models /repo/bolt/lib/physical_system.py and the constructor checks of
    /repo/bolt/lib/nonlinear/nonlinear_solver.py. *)
From Coq Require Import ZArith Reals String Ascii List Bool.
From Verif Require Import Base.Prelude Model.Af Model.Petsc Model.Config.
Import ListNotations.
Local Open Scope Z_scope.

(** Python types the constructor asks about. *)
Inductive pytype : Type := TStr | TFunction | TModule | TFloat | TOther.

(** A value that should be a list of numbers: [PList], or something else. *)
Inductive plist : Type := PList (l : list R) | PNotList.

(** The arguments of physical_system(...).  [bc_attrs], [adv_attrs], [mom_attrs]:
    types of the public attributes; [hybrid]: params.hybrid_model_enabled, None
    when the attribute is missing.  Numbers are reals and integers: the code does
    not check the types of the q-domain and of the resolutions. *)
Record inputs : Type := Inputs {
  bc_attrs : list pytype; ic_type : pytype; source_type : pytype;
  adv_attrs : list pytype; mom_attrs : list pytype;
  n_charge : nat; n_mass : nat; hybrid : option bool;
  i_N_q1 : Z; i_q1_start : R; i_q1_end : R;
  i_N_q2 : Z; i_q2_start : R; i_q2_end : R;
  i_N_p1 : Z; i_p1_start : plist; i_p1_end : plist;
  i_N_p2 : Z; i_p2_start : plist; i_p2_end : plist;
  i_N_p3 : Z; i_p3_start : plist; i_p3_end : plist;
  i_N_ghost : Z;
  fields_type : string; fields_solver : string }.

(** The attributes of the constructed object that describe the grid. *)
Record system : Type := System {
  s_species : nat; s_dq1 : R; s_dq2 : R;
  s_dp1 : list R; s_dp2 : list R; s_dp3 : list R }.

Definition raise_if (b : bool) (e : exn) : res unit := if b then Err e else Ok tt.

(** physical_system.py:71-79 *)
Definition bc_attr_ok (t : pytype) : bool :=
  match t with TStr | TFunction | TModule | TFloat => true | TOther => false end.
(** lines 94-110 *)
Definition fun_or_module (t : pytype) : bool :=
  match t with TFunction | TModule => true | _ => false end.
Definition is_module (t : pytype) : bool := match t with TModule => true | _ => false end.
Definition is_function (t : pytype) : bool := match t with TFunction => true | _ => false end.

(** type(x) == list, lines 129-137 *)
Definition as_list (p : plist) : res (list R) :=
  match p with PList l => Ok l | PNotList => Err GenericException end.

(** a > b for Python lists of numbers: lexicographic. *)
Fixpoint list_gt (a b : list R) : bool :=
  match a, b with
  | x :: a', y :: b' => if Req_EM_T x y then list_gt a' b' else Rgtb x y
  | _ :: _, [] => true
  | [], _ => false
  end.

(** x / n for a Python int n. *)
Definition pydiv (x : R) (n : Z) : res R :=
  if n =? 0 then Err ZeroDivisionError else Ok (x / IZR n)%R.

(** The loop of lines 184-187 for one axis; IndexError cannot arise because the
    lists have N_species entries.  (The code interleaves the three axes; the
    outcome is the same because every failure is a ZeroDivisionError.) *)
Fixpoint spacing (s e : list R) (n : Z) : res (list R) :=
  match s, e with
  | x :: s', y :: e' => let? d := pydiv (y - x)%R n in let? r := spacing s' e' n in Ok (d :: r)
  | _, _ => Ok []
  end.

(** str.upper() on ASCII strings. *)
Definition upper_char (c : ascii) : ascii :=
  let n := nat_of_ascii c in if ((97 <=? n) && (n <=? 122))%nat then ascii_of_nat (n - 32) else c.
Fixpoint upper (s : string) : string :=
  match s with EmptyString => EmptyString | String c r => String (upper_char c) (upper r) end.

(** lines 218-230 *)
Definition check_fields (ftype fsolver : string) : res unit :=
  let? _ := raise_if (String.eqb ftype "electrodynamic" && negb (String.eqb (upper fsolver) "FDTD"))
              GenericException in
  raise_if (String.eqb ftype "electrostatic"
            && negb (String.eqb (upper fsolver) "SNES" || String.eqb (upper fsolver) "FFT"))
    GenericException.

(** physical_system.__init__, lines 69-230 (printing not modelled). *)
Definition physical_system (a : inputs) : res system :=
  let? _ := raise_if (negb (forallb bc_attr_ok (bc_attrs a))) TypeError in
  let? _ := raise_if (negb (is_module (ic_type a))) TypeError in
  let? _ := raise_if (negb (is_function (source_type a))) TypeError in
  let? _ := raise_if (negb (forallb fun_or_module (adv_attrs a))) TypeError in
  let? _ := raise_if (negb (forallb fun_or_module (mom_attrs a))) TypeError in
  let ns := n_charge a in
  let? _ := raise_if (negb (Nat.eqb (n_mass a) ns)) GenericException in
  let? _ := match hybrid a with
            | None => Err GenericException
            | Some h => raise_if (h && negb (Nat.eqb ns 1)) GenericException
            end in
  let? p1s := as_list (i_p1_start a) in
  let? p2s := as_list (i_p2_start a) in
  let? p3s := as_list (i_p3_start a) in
  let? p1e := as_list (i_p1_end a) in
  let? p2e := as_list (i_p2_end a) in
  let? p3e := as_list (i_p3_end a) in
  let? _ := raise_if (negb (forallb (fun l : list R => Nat.eqb (List.length l) ns)
                                    [p1s; p2s; p3s; p1e; p2e; p3e])) GenericException in
  let? _ := raise_if ((i_N_q1 a <? 0) || (i_N_q2 a <? 0) || (i_N_p1 a <? 0) || (i_N_p2 a <? 0)
                      || (i_N_p3 a <? 0) || (i_N_ghost a <? 0)) GenericException in
  let? _ := raise_if (Rgtb (i_q1_start a) (i_q1_end a) || Rgtb (i_q2_start a) (i_q2_end a)
                      || list_gt p1s p1e || list_gt p2s p2e || list_gt p3s p3e) GenericException in
  let? dq1 := pydiv (i_q1_end a - i_q1_start a)%R (i_N_q1 a) in
  let? dq2 := pydiv (i_q2_end a - i_q2_start a)%R (i_N_q2 a) in
  let? dp1 := spacing p1s p1e (i_N_p1 a) in
  let? dp2 := spacing p2s p2e (i_N_p2 a) in
  let? dp3 := spacing p3s p3e (i_N_p3 a) in
  let? _ := check_fields (fields_type a) (fields_solver a) in
  Ok (System ns dq1 dq2 dp1 dp2 dp3).

(** ** nonlinear_solver.__init__ *)

(** boundary_type and N_g of an axis from its left/bottom condition
    (nonlinear_solver.py:177-201). *)
Definition axis_type (lo : string) (n_ghost : Z) : pbc * Z :=
  if String.eqb lo "none" then (PNone, 0)
  else if String.eqb lo "periodic" || String.eqb lo "shearing-box" then (PPeriodic, n_ghost)
  else (PGhosted, n_ghost).

(** One assert block: [lo] named [name] requires [hi] named [name]. *)
Definition require_pair (name lo hi : string) : res unit :=
  raise_if (String.eqb lo name && negb (String.eqb hi name)) GenericException.

(** Lines 203-259: the checks in order, then the number of processes forced to 1
    along an axis (None: PETSc decides). *)
Definition check_boundaries (in_q : edge -> string) : res (option Z * option Z) :=
  let? _ := require_pair "periodic" (in_q ELeft) (in_q ERight) in
  let? _ := require_pair "shearing-box" (in_q ELeft) (in_q ERight) in
  let? _ := require_pair "periodic" (in_q EBottom) (in_q ETop) in
  let? _ := require_pair "shearing-box" (in_q EBottom) (in_q ETop) in
  let? _ := require_pair "none" (in_q ELeft) (in_q ERight) in
  let? _ := require_pair "none" (in_q EBottom) (in_q ETop) in
  Ok (if String.eqb (in_q EBottom) "shearing-box" then Some 1 else None,
      if String.eqb (in_q ELeft) "shearing-box" then Some 1 else None).

(** ** Field-solver selection *)
Inductive field_update : Type := UFdtd | UFft.

(** fields.py:559-566: compute_electrostatic_fields does nothing unless the name
    is exactly 'fft'. *)
Definition compute_electrostatic_updates (fsolver : string) : list field_update :=
  if String.eqb fsolver "fft" then [UFft] else [].

(** df_dt_fvm.py:99-242: field updates made by one evaluation of the right-hand
    side (fields enabled, 'FVM' in p). *)
Definition df_dt_updates (ftype fsolver : string) (at_n : bool) : list field_update :=
  (if String.eqb ftype "electrodynamic" && negb at_n then [UFdtd] else [])
  ++ (if String.eqb ftype "electrostatic" && String.eqb fsolver "fft"
      then compute_electrostatic_updates fsolver else []).

(** asl_operators.py:100-229: field updates made by op_fields ('ASL' in p). *)
Definition op_fields_updates (fsolver : string) : list field_update :=
  (if String.eqb fsolver "electrostatic" then compute_electrostatic_updates fsolver else [])
  ++ (if String.eqb fsolver "fdtd" then [UFdtd] else []).

(** fields.py:654: whether get_fields returns the fields staggered in time. *)
Definition time_staggered (fsolver : string) : bool := String.eqb fsolver "fdtd".
