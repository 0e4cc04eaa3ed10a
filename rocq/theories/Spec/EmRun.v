(** Histories of calls on the field solver. *)
From Coq Require Import ZArith Reals List.
From Verif Require Import Base.Prelude Base.ZSum Model.Af Model.Petsc Model.Em Spec.Domain Spec.Yee.
Import ListNotations.
Local Open Scope R_scope.

(** Calls the solver makes on its field solver object during a run. *)
Inductive event : Type :=
| Evolve (J1 J2 J3 : dist R) (dt : R)   (* evolve_electrodynamic_fields *)
| GetFields                             (* get_fields *)
| CheckDivE.                            (* compute_divE *)

Definition do_event (c : fcfg) (e : event) (s : em) : res em :=
  match e with
  | Evolve J1 J2 J3 dt => evolve_electrodynamic_fields c J1 J2 J3 dt s
  | GetFields => Ok (snd (get_fields c s))
  | CheckDivE => Ok (snd (compute_divE c s))
  end.

Fixpoint do_events (c : fcfg) (l : list event) (s : em) : res em :=
  match l with
  | [] => Ok s
  | e :: l => let? s := do_event c e s in do_events c l s
  end.

(** The currents of a history as seen by the charge: dt and the in-plane current
    summed over species. *)
Fixpoint steps_of (L : layout) (l : list event) : list (R * grid * grid) :=
  match l with
  | [] => []
  | Evolve J1 J2 _ dt :: l => (dt, grid_of L (dmap asum1 J1), grid_of L (dmap asum1 J2)) :: steps_of L l
  | _ :: l => steps_of L l
  end.

(** Parameters for which the equations make sense. *)
Definition regular (c : fcfg) : Prop :=
  periodic_fields c /\ mu c <> 0 /\ eps c <> 0 /\ fdq1 c <> 0 /\ fdq2 c <> 0.

(** A potential that repeats with the box. *)
Definition periodic_potential (c : fcfg) (a : R -> R -> R) : Prop :=
  forall q1 q2, a (q1 + IZR (gN1 (flay c)) * fdq1 c) q2 = a q1 q2
             /\ a q1 (q2 + IZR (gN2 (flay c)) * fdq2 c) = a q1 q2.

(** B comes from the out-of-plane vector potential. *)
Definition from_A3 (c : fcfg) (ab : R -> R -> R * R) : Prop :=
  init_B c = None /\ init_A c = None /\ init_A3_B3 c = Some ab.

(** All events of a history are steps of one size without current. *)
Definition no_current (L : layout) (J : dist R) : Prop :=
  forall i j, grid_of L (dmap asum1 J) i j = 0.

Definition vacuum_event (L : layout) (dt : R) (e : event) : Prop :=
  match e with
  | Evolve J1 J2 J3 dt' => dt' = dt /\ no_current L J1 /\ no_current L J2 /\ no_current L J3
  | _ => True
  end.

(** The steps of a history as seen by the Yee scheme: dt and the currents summed
    over species; and the scheme run over them. *)
Fixpoint currents_of (L : layout) (l : list event) : list (R * grid * grid * grid) :=
  match l with
  | [] => []
  | Evolve J1 J2 J3 dt :: l =>
      (dt, grid_of L (dmap asum1 J1), grid_of L (dmap asum1 J2), grid_of L (dmap asum1 J3)) :: currents_of L l
  | _ :: l => currents_of L l
  end.

Fixpoint yee_run (h1 h2 eps mu : R) (l : list (R * grid * grid * grid)) (Y : lattice) : lattice :=
  match l with
  | [] => Y
  | (dt, J1, J2, J3) :: l => yee_run h1 h2 eps mu l (yee_step h1 h2 eps mu dt J1 J2 J3 Y)
  end.
