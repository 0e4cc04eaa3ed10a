(** Whole-cell translations of plasmas: f, the staggered and the centred fields. *)
From Coq Require Import ZArith Reals String List Bool.
From Verif Require Import Base.Prelude Base.ZSum Model.Af Model.Petsc Model.Config Model.Fvm Model.Em
  Model.Moments Model.Timestep Model.Solver
  Spec.Domain Spec.Lattice Spec.FvmProblem Spec.FvmRun Spec.Yee Spec.EmRun Spec.MomentSpec Spec.SolverSpec
  Spec.VlasovMaxwell Spec.Symmetry.
Import ListNotations.
Local Open Scope R_scope.

Definition slid (d1 d2 : Z) (u : grid) : grid := fun i j => u (i - d1)%Z (j - d2)%Z.
Definition slide (d1 d2 : Z) (Y : lattice) : lattice :=
  Lattice (slid d1 d2 (E1 Y)) (slid d1 d2 (E2 Y)) (slid d1 d2 (E3 Y))
          (slid d1 d2 (B1 Y)) (slid d1 d2 (B2 Y)) (slid d1 d2 (B3 Y)).

(** [S'] is [S] moved by (d1, d2) cells. *)
Definition moved_state (P : params) (d1 d2 : Z) (S S' : vm_state) : Prop :=
  (forall x s i j, inb (N_p (pc P)) x -> inb (N_species (pc P)) s ->
     inb (gN1 (lay (pc P))) i -> inb (gN2 (lay (pc P))) j ->
     vm_f S' x s i j = moved (pc P) d1 d2 (vm_f S) x s i j)
  /\ same (vm_yee S') (slide d1 d2 (vm_yee S))
  /\ same (vm_cc S') (slide d1 d2 (vm_cc S)).

(** What a solver holds. *)
Definition contents (P : params) (s : solver) : vm_state :=
  VM (gval (lay (pc P)) (f_of s)) (view (lay (pc P)) (yee_val (fields s))) (view (lay (pc P)) (cc_val (fields s))).

(** The same plasma with other functions for the initial fields. *)
Definition with_fields_from (P : params) (c : fcfg) : params :=
  let b := pf P in
  Params (pc P)
    (FCfg (flay b) (fN_g b) (fq1_start b) (fq2_start b) (fdq1 b) (fdq2 b) (eps b) (mu b) (fin_q b) (em_bc b)
       (fields_solver b) (fields_initialize c) (method_in_p b) (hybrid b)
       (init_E c) (init_A_phi c) (init_B c) (init_A c) (init_A3_B3 c))
    (fields_type P) (charge P) (table P) (initial_mu P) (T_e P)
    (instantaneous P) (source_inst P) (approx_p P).

(** Nothing varies along the direction (d1, d2). *)
Definition constant_along (P : params) (d1 d2 : Z) (S : vm_state) : Prop := moved_state P d1 d2 S S.

(** Nothing varies at all. *)
Definition homogeneous (P : params) (S : vm_state) : Prop := constant_along P 1 0 S /\ constant_along P 0 1 S.

Definition same_B (Y Z : lattice) : Prop :=
  (forall i j, B1 Y i j = B1 Z i j) /\ (forall i j, B2 Y i j = B2 Z i j) /\ (forall i j, B3 Y i j = B3 Z i j).
Definition unmagnetised (Y : lattice) : Prop :=
  (forall i j, B1 Y i j = 0) /\ (forall i j, B2 Y i j = 0) /\ (forall i j, B3 Y i j = 0).
