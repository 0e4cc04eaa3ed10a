(** Gases whose source term is the BGK collision operator. *)
From Coq Require Import ZArith Reals List Bool.
From Verif Require Import Base.Prelude Base.ZSum Model.Af Model.Petsc Model.Grid Model.Config Model.Moments Model.NonRel
  Spec.Domain Spec.Lattice Spec.FvmProblem Spec.MomentSpec.
Import ListNotations.
Local Open Scope R_scope.

(** What the collision operator returns for the values [w] of f over momenta and
    species at one cell: the rate of change with flag False, the equilibrium with
    flag True.  The collision time [tau] is a constant. *)
Definition one_cell (c : cfg) (w : Z -> Z -> R) : arr R := Arr (N_p c) (N_species c) 1 1 (fun x s _ _ => w x s).
Definition bgk_cell (c : cfg) (mu : R) (mass : arr R) (k : R) (d : Z) (tau : R) (flag : bool) (w : Z -> Z -> R) : res (arr R) :=
  BGK (compute_moments c nonrel_moments mu) mass k d (p1_center c) (p2_center c) (p3_center c)
    (one_cell c (fun _ _ => tau)) (one_cell c w) flag.

(** The source of the configuration is the collision operator. *)
Definition collides (c : cfg) (mu : R) (mass : arr R) (k : R) (d : Z) (tau : R) : Prop :=
  source_enabled c = true
  /\ forall t q1 q2 w x s, source c t q1 q2 w x s
       = match bgk_cell c mu mass k d tau false w with Ok C => el C x s 0 0 | Err _ => 0 end.

(** The same f in every cell. *)
Definition homogeneous_f (a : Z -> Z -> R) : gstate := fun x s _ _ => a x s.

(** The integral of a weight over the momenta of species s: with weight 1 the
    density, with weight p1 the momentum along q1, ... *)
Definition moment_of_cell (c : cfg) (weight : R -> R -> R -> R) (a : Z -> Z -> R) (s : Z) : R :=
  integral (species_grid c s) weight (fun i1 i2 i3 => a (i1 + N_p1 c * (i2 + N_p2 c * i3))%Z s).

(** The number of particles of species s in the whole domain. *)
Definition number_in (c : cfg) (A : nat -> nat -> arr R) (s : Z) : R :=
  zsum (gN1 (lay c)) (fun g1 => zsum (gN2 (lay c)) (fun g2 =>
    moment_of_cell c (fun _ _ _ => 1) (fun x s => gval (lay c) A x s g1 g2) s)) * (dq1 c * dq2 c).

(** The momentum grid of every species is symmetric about 0. *)
Definition symmetric_momenta (c : cfg) : Prop :=
  forall s, inb (N_species c) s -> let G := species_grid c s in
  lo1 G = - (IZR (N_p1 c) * w1 G) / 2 /\ lo2 G = - (IZR (N_p2 c) * w2 G) / 2 /\ lo3 G = - (IZR (N_p3 c) * w3 G) / 2.

(** As many particles with momentum -p as with p. *)
Definition even_in_p (c : cfg) (a : Z -> Z -> R) : Prop :=
  forall i1 i2 i3 s, inb (N_p1 c) i1 -> inb (N_p2 c) i2 -> inb (N_p3 c) i3 -> inb (N_species c) s ->
  a ((N_p1 c - 1 - i1) + N_p1 c * ((N_p2 c - 1 - i2) + N_p2 c * (N_p3 c - 1 - i3)))%Z s
  = a (i1 + N_p1 c * (i2 + N_p2 c * i3))%Z s.
