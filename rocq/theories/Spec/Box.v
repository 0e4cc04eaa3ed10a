(** The same textbook method on a rectangular box whose sides are periodic or
    walls.  Beyond a wall each line of cells is continued by its mirror image with
    reflected momentum or, at a 'mirror+dirichlet' wall and for incoming
    particles, by prescribed values.  No ranks, no ghost cells. *)
From Coq Require Import ZArith Reals String List Bool.
From Verif Require Import Base.Prelude Base.ZSum Model.Af Model.Petsc Model.Config Model.Fvm
  Spec.Domain Spec.Lattice Spec.Mirror Spec.FvmProblem Spec.Walls Spec.FvmRun.
Import ListNotations.
Local Open Scope R_scope.

(** Values prescribed beyond an edge: time, momentum, species, cell. *)
Definition inflow_values : Type := edge -> R -> Z -> Z -> Z -> Z -> R.

(** A line of [n] cells continued to all integers. *)
Definition continued (per : bool) (n : Z) (lo inn hi : Z -> R) (z : Z) : R :=
  if per then inn (z mod n)%Z
  else if (z <? 0)%Z then lo z else if (z <? n)%Z then inn z else hi z.

Section Box.
Variables (c : cfg) (bv : inflow_values) (t : R).
Let N1 := gN1 (lay c).
Let N2 := gN2 (lay c).

(** Value beyond edge [e] at cell (g1, g2), whose mirror image is (m1, m2). *)
Definition beyond (u : gstate) (e : edge) (x s g1 g2 m1 m2 : Z) : R :=
  wall_value (in_q c e) (inflow_dec e (bc_velocity c t x s g1 g2))
    (u (reflected c e x) s m1 m2) (bv e t x s g1 g2) 0.

Definition line1 (u : gstate) (x s g2 : Z) : Z -> R :=
  continued (String.eqb (in_q c ELeft) "periodic") N1
    (fun z => beyond u ELeft x s z g2 (-1 - z) g2)
    (fun z => u x s z g2)
    (fun z => beyond u ERight x s z g2 (2 * N1 - 1 - z) g2).
Definition line2 (u : gstate) (x s g1 : Z) : Z -> R :=
  continued (String.eqb (in_q c EBottom) "periodic") N2
    (fun z => beyond u EBottom x s g1 z g1 (-1 - z))
    (fun z => u x s g1 z)
    (fun z => beyond u ETop x s g1 z g1 (2 * N2 - 1 - z)).

Definition advect_box (P : problem) (u : gstate) : gstate := fun x s g1 g2 =>
  advect (kq P) (h1 P) (fun i => vel1 P x s i g2) (line1 u x s g2) g1
  + advect (kq P) (h2 P) (fun j => vel2 P x s g1 j) (line2 u x s g1) g2.

Definition rhs_box (P : problem) (u : gstate) : gstate := fun x s g1 g2 =>
  advect_box P u x s g1 g2
  + src P g1 g2 (fun x' s' => u x' s' g1 g2) x s
  + advect_p P g1 g2 (fun x' s' => u x' s' g1 g2) x s.

Definition midpoint_box (P0 Ph : problem) (dt : R) (u : gstate) : gstate :=
  let uh : gstate := fun x s g1 g2 => u x s g1 g2 + dt / 2 * rhs_box P0 u x s g1 g2 in
  fun x s g1 g2 => u x s g1 g2 + dt * rhs_box Ph uh x s g1 g2.
End Box.

(** The sides of an axis: both periodic, or both walls. *)
Definition wall (b : string) : Prop := b = "mirror"%string \/ b = "mirror+dirichlet"%string.
Definition sides (p : pbc) (lo hi : string) : Prop :=
  (p = PPeriodic /\ lo = "periodic"%string /\ hi = "periodic"%string)
  \/ (p = PGhosted /\ wall lo /\ wall hi).

(** A box on an admissible decomposition: enough ghost zones for the
    reconstruction, no block narrower than the ghost zones (PETSc refuses those),
    a momentum grid that can be reflected. *)
Definition box_fvm (c : cfg) (k_q : scheme) : Prop :=
  let L := lay c in
  solver_method_in_q c = "FVM"%string
  /\ tiles (gN1 L) (blk1 L) /\ tiles (gN2 L) (blk2 L)
  /\ ng1 L = N_ghost c /\ ng2 L = N_ghost c /\ (radius k_q < N_ghost c)%Z
  /\ Forall (fun b => (N_ghost c <= b)%Z) (blk1 L) /\ Forall (fun b => (N_ghost c <= b)%Z) (blk2 L)
  /\ sides (pbc1 L) (in_q c ELeft) (in_q c ERight) /\ sides (pbc2 L) (in_q c EBottom) (in_q c ETop)
  /\ (p_space_grid c = "cartesian"%string
      \/ (p_space_grid c = "polar2D"%string /\ Z.even (N_p2 c) = true)).

(** f_left, f_right, f_bottom and f_top return [bv] at the ghost cells of the
    walls that use them. *)
Definition prescribes (c : cfg) (bv : inflow_values) : Prop :=
  forall e t r1 r2 f, in_q c e = "mirror+dirichlet"%string -> rank_ok (lay c) r1 r2 ->
  (d0 f = N_p c /\ d1 f = N_species c /\ d2 f = n1g (lay c) r1 /\ d3 f = n2g (lay c) r2) ->
  let f' := prescribed c r1 r2 e t f in
  (d0 f' = N_p c /\ d1 f' = N_species c /\ d2 f' = n1g (lay c) r1 /\ d3 f' = n2g (lay c) r2)
  /\ forall x s i j, inb (N_p c) x -> inb (N_species c) s ->
     inb (n1g (lay c) r1) i -> inb (n2g (lay c) r2) j ->
     el f' x s i j = bv e t x s (off (blk1 (lay c)) r1 + i - ng1 (lay c))%Z
                                (off (blk2 (lay c)) r2 + j - ng2 (lay c))%Z.

(** A closed box: every wall is a mirror. *)
Definition closed_box (c : cfg) : Prop := forall e, in_q c e <> "mirror+dirichlet"%string.

(** Velocities through a wall change sign when the momentum is reflected;
    velocities through faces one period apart are equal on a periodic axis. *)
Definition velocity_fits (c : cfg) : Prop :=
  let v t x s q1 q2 := velocity c t x s q1 q2 in
  let Q1 g := pos1 c 0 g in let Q2 g := pos2 c 0 g in
  forall t x s g, inb (N_p c) x -> inb (N_species c) s ->
  (in_q c ELeft = "periodic"%string ->
     fst (v t x s (Q1 (gN1 (lay c))) (Q2 g)) = fst (v t x s (Q1 0%Z) (Q2 g)))
  /\ (in_q c ELeft <> "periodic"%string -> forall w, w = 0%Z \/ w = gN1 (lay c) ->
     fst (v t (reflected c ELeft x) s (Q1 w) (Q2 g)) = - fst (v t x s (Q1 w) (Q2 g)))
  /\ (in_q c EBottom = "periodic"%string ->
     snd (v t x s (pos1 c (1/2) g) (Q2 (gN2 (lay c)))) = snd (v t x s (pos1 c (1/2) g) (Q2 0%Z)))
  /\ (in_q c EBottom <> "periodic"%string -> forall w, w = 0%Z \/ w = gN2 (lay c) ->
     snd (v t (reflected c EBottom x) s (pos1 c (1/2) g) (Q2 w)) = - snd (v t x s (pos1 c (1/2) g) (Q2 w))).

(** The history on the global grid. *)
Fixpoint run_box (c : cfg) (bv : inflow_values) (k1 k2 : scheme) (l : list (call * fields3 * fields3)) (u : gstate) : gstate :=
  match l with
  | [] => u
  | (k, E0, Eh) :: l =>
      run_box c bv k1 k2 l
        (midpoint_box c bv (ct k) (prob c k1 k2 (ct k) E0) (prob c k1 k2 (ct k) Eh) (cdt k) u)
  end.

(** A distribution that does not depend on q and looks the same in every mirror;
    prescribed inflow carries the same values. *)
Definition at_rest (c : cfg) (bv : inflow_values) (a : Z -> Z -> R) : Prop :=
  forall e x s, inb (N_p c) x -> inb (N_species c) s -> wall (in_q c e) ->
  a (reflected c e x) s = a x s
  /\ (in_q c e = "mirror+dirichlet"%string -> forall t g1 g2, bv e t x s g1 g2 = a x s).

(** Speeds are the same for reflected momenta. *)
Definition speed_reflects (c : cfg) : Prop :=
  forall e t x s q1 q2, inb (N_p c) x -> inb (N_species c) s -> wall (in_q c e) ->
  Rabs (fst (velocity c t (reflected c e x) s q1 q2)) = Rabs (fst (velocity c t x s q1 q2))
  /\ Rabs (snd (velocity c t (reflected c e x) s q1 q2)) = Rabs (snd (velocity c t x s q1 q2)).

(** Bounds that look the same in every mirror and hold for the prescribed inflow. *)
Definition bounds_fit (c : cfg) (bv : inflow_values) (m M : Z -> Z -> R) : Prop :=
  forall e x s, inb (N_p c) x -> inb (N_species c) s -> wall (in_q c e) ->
  m (reflected c e x) s = m x s /\ M (reflected c e x) s = M x s
  /\ (in_q c e = "mirror+dirichlet"%string -> forall t g1 g2, m x s <= bv e t x s g1 g2 <= M x s).

(** A Cartesian momentum grid that is symmetric about zero along the normal of
    every wall, and velocities that are odd in that momentum and periodic along a
    periodic axis. *)
Definition symmetric_grid (c : cfg) : Prop :=
  p_space_grid c = "cartesian"%string
  /\ (in_q c ELeft <> "periodic"%string -> forall s, inb (N_species c) s ->
        nth (Z.to_nat s) (p1_start c) 0 = - IZR (N_p1 c) * nth (Z.to_nat s) (dp1 c) 0 / 2)
  /\ (in_q c EBottom <> "periodic"%string -> forall s, inb (N_species c) s ->
        nth (Z.to_nat s) (p2_start c) 0 = - IZR (N_p2 c) * nth (Z.to_nat s) (dp2 c) 0 / 2).
Definition velocity_odd (c : cfg) : Prop :=
  forall s t q1 q2 p1 p2 p3,
  (in_q c ELeft <> "periodic"%string ->
     fst (C_q c s t q1 q2 (- p1) p2 p3) = - fst (C_q c s t q1 q2 p1 p2 p3))
  /\ (in_q c ELeft = "periodic"%string ->
     fst (C_q c s t (q1 + IZR (gN1 (lay c)) * dq1 c) q2 p1 p2 p3) = fst (C_q c s t q1 q2 p1 p2 p3))
  /\ (in_q c EBottom <> "periodic"%string ->
     snd (C_q c s t q1 q2 p1 (- p2) p3) = - snd (C_q c s t q1 q2 p1 p2 p3))
  /\ (in_q c EBottom = "periodic"%string ->
     snd (C_q c s t q1 (q2 + IZR (gN2 (lay c)) * dq2 c) p1 p2 p3) = snd (C_q c s t q1 q2 p1 p2 p3)).

(** A polar momentum grid with angles over a full turn from -pi, and velocities
    along the direction of the momentum with any speed v. *)
Definition polar_circle (c : cfg) (v : Z -> R -> R) : Prop :=
  p_space_grid c = "polar2D"%string
  /\ (forall s, inb (N_species c) s -> nth (Z.to_nat s) (p2_start c) 0 = - PI
        /\ nth (Z.to_nat s) (dp2 c) 0 = 2 * PI / IZR (N_p2 c))
  /\ forall s t q1 q2 p1 p2 p3, C_q c s t q1 q2 p1 p2 p3 = (v s p1 * cos p2, v s p1 * sin p2).
