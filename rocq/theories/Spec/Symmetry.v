(** Symmetries, domains of dependence and stability of finite-volume runs. *)
From Coq Require Import ZArith Reals String List Bool.
From Verif Require Import Base.Prelude Base.ZSum Model.Af Model.Petsc Model.Config Model.Fvm
  Spec.Domain Spec.Lattice Spec.Mirror Spec.FvmProblem Spec.Walls Spec.FvmRun.
Import ListNotations.
Local Open Scope R_scope.

(** A source term proportional to f. *)
Definition source_scales (c : cfg) : Prop :=
  source_enabled c = false \/
  forall t q1 q2 w a x s, source c t q1 q2 (fun x' s' => a * w x' s') x s = a * source c t q1 q2 w x s.

(** Neither the source nor the force law mentions position. *)
Definition same_everywhere (c : cfg) : Prop :=
  (forall t q1 q2 q1' q2' w x s, source c t q1 q2 w x s = source c t q1' q2' w x s)
  /\ (forall s t q1 q2 q1' q2' p1 p2 p3 E1 E2 E3 B1 B2 B3,
        C_p c s t q1 q2 p1 p2 p3 E1 E2 E3 B1 B2 B3 = C_p c s t q1' q2' p1 p2 p3 E1 E2 E3 B1 B2 B3).

(** The data of [u] moved by (d1, d2) cells on the periodic grid. *)
Definition moved (c : cfg) (d1 d2 : Z) (u : gstate) : gstate := fun x s g1 g2 =>
  u x s ((g1 - d1) mod gN1 (lay c))%Z ((g2 - d2) mod gN2 (lay c))%Z.
Definition moved_fields (c : cfg) (d1 d2 : Z) (E E' : fields3) : Prop :=
  forall pick, In pick [(fun E : fields3 => fst (fst E)); (fun E => snd (fst E)); (fun E => snd E)] ->
  forall n g1 g2, pick E' n g1 g2 = pick E n ((g1 - d1) mod gN1 (lay c))%Z ((g2 - d2) mod gN2 (lay c))%Z.

(** The same call with the fields moved as well. *)
Definition moved_call (c : cfg) (d1 d2 : Z) (k k' : call) : Prop :=
  ct k' = ct k /\ cdt k' = cdt k /\
  exists E0 Eh E0' Eh', shows3 (lay c) (cE0 k) E0 /\ shows3 (lay c) (cEh k) Eh
  /\ shows3 (lay c) (cE0 k') E0' /\ shows3 (lay c) (cEh k') Eh'
  /\ moved_fields c d1 d2 E0 E0' /\ moved_fields c d1 d2 Eh Eh'.

(** Reflection along the chosen axes: cells are counted from the other end and
    [rho] pairs each momentum with the reflected one. *)
Definition flip (b : bool) (n g : Z) : Z := if b then (n - 1 - g)%Z else g.
Definition turn (b : bool) (v : R) : R := if b then - v else v.
Definition reflection (c : cfg) (b1 b2 : bool) (rho : Z -> Z) (u : gstate) : gstate := fun x s g1 g2 =>
  u (rho x) s (flip b1 (gN1 (lay c)) g1) (flip b2 (gN2 (lay c)) g2).
Definition pairs_velocities (c : cfg) (b1 b2 : bool) (rho : Z -> Z) : Prop :=
  forall t q1 q2 x s, inb (N_p c) x -> inb (N_species c) s -> inb (N_p c) (rho x)
  /\ velocity c t (rho x) s q1 q2
     = (turn b1 (fst (velocity c t x s q1 q2)), turn b2 (snd (velocity c t x s q1 q2))).

(** The source for a species looks at that species only. *)
Definition source_own_species (c : cfg) : Prop :=
  source_enabled c = false \/
  forall t q1 q2 w w' s, inb (N_species c) s -> (forall x, inb (N_p c) x -> w x s = w' x s) ->
  forall x, inb (N_p c) x -> source c t q1 q2 w x s = source c t q1 q2 w' x s.

(** [u] and [v] agree, for the (momentum, species) pairs in [K], at all cells
    within [n] steps of (g1, g2) on the periodic grid. *)
Definition agree_near (c : cfg) (K : Z -> Z -> Prop) (n : Z) (u v : gstate) (g1 g2 : Z) : Prop :=
  forall x s d1 d2, K x s -> inb (N_p c) x -> inb (N_species c) s -> (Z.abs d1 + Z.abs d2 <= n)%Z ->
  u x s ((g1 + d1) mod gN1 (lay c))%Z ((g2 + d2) mod gN2 (lay c))%Z
  = v x s ((g1 + d1) mod gN1 (lay c))%Z ((g2 + d2) mod gN2 (lay c))%Z.

(** Convexity (any real function). *)
Definition convex (phi : R -> R) : Prop :=
  forall a x y, 0 <= a <= 1 -> phi (a * x + (1 - a) * y) <= a * phi x + (1 - a) * phi y.

(** Sum of [phi] of the difference over the grid. *)
Definition distance (c : cfg) (phi : R -> R) (u v : gstate) (x s : Z) : R :=
  zsum (gN1 (lay c)) (fun g1 => zsum (gN2 (lay c)) (fun g2 => phi (u x s g1 g2 - v x s g1 g2))).
