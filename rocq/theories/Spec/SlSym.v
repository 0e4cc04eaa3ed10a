(** Symmetries of semi-Lagrangian runs. *)
From Coq Require Import ZArith Reals String List Bool.
From Verif Require Import Base.Prelude Base.ZSum Model.Af Model.Petsc Model.Config Model.Timestep
  Model.Solver Spec.Domain Spec.Lattice Spec.FvmProblem Spec.FvmRun Spec.Symmetry Spec.Interp.
Import ListNotations.
Local Open Scope R_scope.

(** Neither velocities nor sources mention the position. *)
Definition sl_everywhere (P : params) : Prop :=
  streams (pc P)
  /\ (forall t q1 q2 q1' q2' w x s, source (pc P) t q1 q2 w x s = source (pc P) t q1' q2' w x s)
  /\ (forall t q1 q2 q1' q2' w x s, source_inst P t q1 q2 w x s = source_inst P t q1' q2' w x s).

(** The sources are linear in f. *)
Definition sl_linear (P : params) : Prop :=
  (forall t q1 q2 w w' a b x s, source (pc P) t q1 q2 (fun y r => a * w y r + b * w' y r) x s
     = a * source (pc P) t q1 q2 w x s + b * source (pc P) t q1 q2 w' x s)
  /\ (forall t q1 q2 w w' a b x s, source_inst P t q1 q2 (fun y r => a * w y r + b * w' y r) x s
     = a * source_inst P t q1 q2 w x s + b * source_inst P t q1 q2 w' x s).

(** The weights do not prefer a direction. *)
Definition even_weights (w : weights) : Prop := forall h a, 0 < h < 1 -> w (1 - h) (1 - a)%Z = w h a.

(** [rho] pairs each momentum with the one whose velocity is reversed along the chosen
    axes, at the mirrored cells. *)
Definition pairs_advection (c : cfg) (b1 b2 : bool) (rho : Z -> Z) : Prop :=
  forall t x s g1 g2, inb (N_p c) x -> inb (N_species c) s -> inb (N_p c) (rho x)
  /\ velocity_a c t (rho x) s (flip b1 (gN1 (lay c)) g1) (flip b2 (gN2 (lay c)) g2)
     = (turn b1 (fst (velocity_a c t x s g1 g2)), turn b2 (snd (velocity_a c t x s g1 g2))).

(** The sources see the mirrored gas at the mirrored cell as the mirror image. *)
Definition pairs_sources (P : params) (b1 b2 : bool) (rho : Z -> Z) : Prop :=
  let c := pc P in
  forall t g1 g2 w w', (forall y r, inb (N_p c) y -> inb (N_species c) r -> w' y r = w (rho y) r) ->
  forall x s, inb (N_p c) x -> inb (N_species c) s ->
  let q1 := pos1 c (1/2) g1 in let q1' := pos1 c (1/2) (flip b1 (gN1 (lay c)) g1) in
  let q2 := pos2 c (1/2) g2 in let q2' := pos2 c (1/2) (flip b2 (gN2 (lay c)) g2) in
  (source_enabled c = true -> source c t q1 q2 w' x s = source c t q1' q2' w (rho x) s)
  /\ (instantaneous P = true -> source_inst P t q1 q2 w' x s = source_inst P t q1' q2' w (rho x) s).

(** The sources for a species look at that species only. *)
Definition sl_own_species (P : params) : Prop :=
  let c := pc P in
  (forall t q1 q2 w w' s, inb (N_species c) s -> (forall y, inb (N_p c) y -> w y s = w' y s) ->
     forall x, inb (N_p c) x -> source c t q1 q2 w x s = source c t q1 q2 w' x s)
  /\ (forall t q1 q2 w w' s, inb (N_species c) s -> (forall y, inb (N_p c) y -> w y s = w' y s) ->
     forall x, inb (N_p c) x -> source_inst P t q1 q2 w x s = source_inst P t q1 q2 w' x s).
