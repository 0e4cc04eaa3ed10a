(** Mirror images of plasmas.  Reflection along q1 ([b1]) and along q2 ([b2]):
    cells are counted from the other end, E is a vector, B an axial vector, and
    momenta along a reflected axis change sign. *)
From Coq Require Import ZArith Reals String List Bool.
From Verif Require Import Base.Prelude Base.ZSum Model.Af Model.Petsc Model.Config Model.Fvm Model.Em
  Model.Moments Model.Timestep Model.Solver
  Spec.Domain Spec.Lattice Spec.FvmProblem Spec.FvmRun Spec.Yee Spec.EmRun Spec.MomentSpec Spec.SolverSpec
  Spec.VlasovMaxwell Spec.Symmetry Spec.Slide.
Import ListNotations.
Local Open Scope R_scope.

(** Of n cells, cell i goes to n - 1 - i ([flip]) and lower face i to face n - i. *)
Definition flip_face (b : bool) (n i : Z) : Z := if b then (n - i)%Z else i.

(** The image of fields on the Yee grid, each component at its own place. *)
Definition mirror_yee (n1 n2 : Z) (b1 b2 : bool) (Y : lattice) : lattice :=
  let c1 := flip b1 n1 in let c2 := flip b2 n2 in
  let f1 := flip_face b1 n1 in let f2 := flip_face b2 n2 in
  Lattice (fun i j => turn b1 (E1 Y (f1 i) (c2 j)))
          (fun i j => turn b2 (E2 Y (c1 i) (f2 j)))
          (fun i j => E3 Y (c1 i) (c2 j))
          (fun i j => turn b2 (B1 Y (c1 i) (f2 j)))
          (fun i j => turn b1 (B2 Y (f1 i) (c2 j)))
          (fun i j => turn (xorb b1 b2) (B3 Y (f1 i) (f2 j))).
(** The image of fields at the cell centres. *)
Definition mirror_centre (n1 n2 : Z) (b1 b2 : bool) (Y : lattice) : lattice :=
  let at_ (b : bool) (u : grid) : grid := fun i j => turn b (u (flip b1 n1 i) (flip b2 n2 j)) in
  Lattice (at_ b1 (E1 Y)) (at_ b2 (E2 Y)) (at_ false (E3 Y))
          (at_ b2 (B1 Y)) (at_ b1 (B2 Y)) (at_ (xorb b1 b2) (B3 Y)).

(** The momentum cell opposite to x along the reflected axes. *)
Definition opposite (c : cfg) (b1 b2 : bool) (x : Z) : Z :=
  (flip b1 (N_p1 c) (x mod N_p1 c)
   + N_p1 c * (flip b2 (N_p2 c) ((x / N_p1 c) mod N_p2 c) + N_p2 c * (x / N_p1 c / N_p2 c)))%Z.

(** [S'] is the mirror image of [S]. *)
Definition mirror_state (P : params) (b1 b2 : bool) (S S' : vm_state) : Prop :=
  let c := pc P in let L := lay c in
  (forall x s i j, inb (N_p c) x -> inb (N_species c) s -> inb (gN1 L) i -> inb (gN2 L) j ->
     vm_f S' x s i j = reflection c b1 b2 (opposite c b1 b2) (vm_f S) x s i j)
  /\ same (vm_yee S') (mirror_yee (gN1 L) (gN2 L) b1 b2 (vm_yee S))
  /\ same (vm_cc S') (mirror_centre (gN1 L) (gN2 L) b1 b2 (vm_cc S)).

(** Momentum grids with zero in the middle of the reflected axes; a force law and a
    source that know no handedness; the force along a reflected axis does not depend
    on the momentum along it, as for the Lorentz force. *)
Record mirror_law (c : cfg) (b1 b2 : bool) : Prop := MirrorLaw {
  ml_grid1 : b1 = true -> forall s, inb (N_species c) s ->
    2 * nth (Z.to_nat s) (p1_start c) 0 + IZR (N_p1 c) * nth (Z.to_nat s) (dp1 c) 0 = 0;
  ml_grid2 : b2 = true -> forall s, inb (N_species c) s ->
    2 * nth (Z.to_nat s) (p2_start c) 0 + IZR (N_p2 c) * nth (Z.to_nat s) (dp2 c) 0 = 0;
  ml_force : forall s t q1 q2 p1 p2 p3 e1 e2 e3 m1 m2 m3,
    let '(a1, a2, a3) := C_p c s t q1 q2 p1 p2 p3 e1 e2 e3 m1 m2 m3 in
    C_p c s t q1 q2 (turn b1 p1) (turn b2 p2) p3 (turn b1 e1) (turn b2 e2) e3
        (turn b2 m1) (turn b1 m2) (turn (xorb b1 b2) m3) = (turn b1 a1, turn b2 a2, a3);
  ml_own1 : b1 = true -> forall s t q1 q2 p1 p1' p2 p3 e1 e2 e3 m1 m2 m3,
    fst (fst (C_p c s t q1 q2 p1 p2 p3 e1 e2 e3 m1 m2 m3)) = fst (fst (C_p c s t q1 q2 p1' p2 p3 e1 e2 e3 m1 m2 m3));
  ml_own2 : b2 = true -> forall s t q1 q2 p1 p2 p2' p3 e1 e2 e3 m1 m2 m3,
    snd (fst (C_p c s t q1 q2 p1 p2 p3 e1 e2 e3 m1 m2 m3)) = snd (fst (C_p c s t q1 q2 p1 p2' p3 e1 e2 e3 m1 m2 m3));
  ml_source : source_enabled c = false \/
    forall t q1 q2 w x s, inb (N_p c) x -> inb (N_species c) s ->
    source c t q1 q2 (fun y s' => w (opposite c b1 b2 y) s') x s = source c t q1 q2 w (opposite c b1 b2 x) s }.

(** No momentum cell of a reflected axis is centred on zero. *)
Definition no_rest_cells (c : cfg) (b1 b2 : bool) : Prop :=
  (b1 = true -> forall x s, inb (N_p c) x -> inb (N_species c) s -> mom1 c (1/2) x s <> 0)
  /\ (b2 = true -> forall x s, inb (N_p c) x -> inb (N_species c) s -> mom2 c (1/2) x s <> 0).
