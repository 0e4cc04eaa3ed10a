(** Cubic interpolation on a grid, and semi-Lagrangian transport on the global
    grid: the new value at a cell is the old one at the foot of the
    characteristic.  No ranks, no ghost cells. *)
From Coq Require Import ZArith Reals String List Bool.
From Verif Require Import Base.Prelude Base.ZSum Model.Af Model.Petsc Model.Config Model.Timestep
  Model.Solver Spec.Domain Spec.Lattice Spec.FvmProblem Spec.FvmRun.
Import ListNotations.
Local Open Scope R_scope.

(** Weights of the four nodes around a position: fraction of a cell, node -1, 0,
    1 or 2.  Interpolation in a table indexed by integers, position in cells. *)
Definition weights : Type := R -> Z -> R.
Definition interp2 (w : weights) (u : Z -> Z -> R) (X Y : R) : R :=
  zsum 4 (fun a => zsum 4 (fun b =>
    w (frac_part X) (a - 1)%Z * w (frac_part Y) (b - 1)%Z
    * u (Int_part X + (a - 1))%Z (Int_part Y + (b - 1))%Z)).

(** Exact at nodes; exact for constants. *)
Definition nodal (w : weights) : Prop := forall a, w 0 a = if Z.eqb a 0 then 1 else 0.
Definition normalised (w : weights) : Prop := forall h, zsum 4 (fun a => w h (a - 1)%Z) = 1.

(** The Catmull-Rom weights, which ArrayFire's cubic "spline" uses. *)
Definition catmull_rom : weights := fun h a =>
  match a with
  | (-1)%Z => (- h + 2 * h ^ 2 - h ^ 3) / 2
  | 0%Z => (2 - 5 * h ^ 2 + 3 * h ^ 3) / 2
  | 1%Z => (h + 4 * h ^ 2 - 3 * h ^ 3) / 2
  | 2%Z => (- h ^ 2 + h ^ 3) / 2
  | _ => 0
  end.

(** The position is a node, or its four nodes lie in a table of [n] entries. *)
Definition fits (n : Z) (X : R) : Prop :=
  (1 <= Int_part X /\ Int_part X + 2 < n)%Z \/ (frac_part X = 0 /\ (0 <= Int_part X < n)%Z).
Definition off_table (n : Z) (X : R) : Prop := X < 0 \/ IZR (n - 1) < X.

(** What is used of approx2(values, x, y) with cubic splines, positions in cells
    along the first two axes.  Nothing is said about positions next to the edge,
    where ArrayFire extrapolates the missing nodes. *)
Record interpolates (w : weights) (ap : arr R -> arr R -> arr R -> arr R) : Prop := Interpolates {
  it_nodal : nodal w;
  it_dims : forall v x y, same_dims v x -> same_dims v y -> same_dims (ap v x y) x;
  it_inner : forall v x y i j k l, same_dims v x -> same_dims v y -> inside x i j k l ->
    fits (d0 v) (el x i j k l) -> fits (d1 v) (el y i j k l) ->
    el (ap v x y) i j k l = interp2 w (fun a b => el v a b k l) (el x i j k l) (el y i j k l);
  it_off : forall v x y i j k l, same_dims v x -> same_dims v y -> inside x i j k l ->
    off_table (d0 v) (el x i j k l) \/ off_table (d1 v) (el y i j k l) ->
    el (ap v x y) i j k l = 0 }.

(** The same with the positions xp, yp of the nodes given: arrayfire.py counts in
    cells from the first node, with the distance of the first two. *)
Definition in_cells (ap : arr R -> arr R -> arr R -> arr R) (v x y xp yp : arr R) : arr R :=
  let x0 := el xp 0 0 0 0 in let h1 := el xp 1 0 0 0 - x0 in
  let y0 := el yp 0 0 0 0 in let h2 := el yp 0 1 0 0 - y0 in
  ap v (amap (fun a => (a - x0) / h1) x) (amap (fun a => (a - y0) / h2) y).

(** The approx2 of a configuration is that one. *)
Definition uses (c : cfg) (ap : arr R -> arr R -> arr R -> arr R) : Prop :=
  forall v x y xp yp, approx2 c v x y xp yp = in_cells ap v x y xp yp.

(** ** Transport on the global grid *)
Section Transport.
Variables (c : cfg) (w : weights).

(** Velocity at a cell centre, and displacements in cells during [dt]. *)
Definition velocity_a (t : R) (x s g1 g2 : Z) : R * R :=
  A_q c s t (pos1 c (1/2) g1) (pos2 c (1/2) g2) (mom1 c (1/2) x s) (mom2 c (1/2) x s) (mom3 c (1/2) x s).
Definition moved1 (t dt : R) (x s g1 g2 : Z) : R := fst (velocity_a t x s g1 g2) * dt / dq1 c.
Definition moved2 (t dt : R) (x s g1 g2 : Z) : R := snd (velocity_a t x s g1 g2) * dt / dq2 c.

(** The state at the foot of the characteristic through (g1, g2). *)
Definition characteristics (t dt : R) (u : gstate) : gstate := fun x s g1 g2 =>
  interp2 w (fun a b => u x s (a mod gN1 (lay c))%Z (b mod gN2 (lay c))%Z)
    (IZR g1 - moved1 t dt x s g1 g2) (IZR g2 - moved2 t dt x s g1 g2).

(** A displacement the ghost zones can serve: less than N_g - 1 cells, or a whole
    number of cells up to N_g. *)
Definition served (n : Z) (d : R) : Prop :=
  Rabs d < IZR (n - 1) \/ (frac_part d = 0 /\ Rabs d <= IZR n).
Definition reach (t dt : R) : Prop := forall x s g1 g2,
  inb (N_p c) x -> inb (N_species c) s -> inb (gN1 (lay c)) g1 -> inb (gN2 (lay c)) g2 ->
  served (ng1 (lay c)) (moved1 t dt x s g1 g2) /\ served (ng2 (lay c)) (moved2 t dt x s g1 g2).
End Transport.

(** The source during [dt], cell by cell: relaxation by the midpoint rule, or
    replacement by the equilibrium. *)
Definition collide (P : params) (t dt : R) (u : gstate) : gstate := fun x s g1 g2 =>
  let c := pc P in
  let q1 := pos1 c (1/2) g1 in let q2 := pos2 c (1/2) g2 in
  let v x s := u x s g1 g2 in
  if instantaneous P then source_inst P t q1 q2 v x s
  else if source_enabled c then
    let S := source c t q1 q2 in v x s + dt * S (fun x s => v x s + dt / 2 * S v x s) x s
  else v x s.

(** Two sub-steps [g1], [g2] combined by each splitting method. *)
Definition compose (m : method) (g1 g2 : R -> gstate -> gstate) (dt : R) (u : gstate) : gstate :=
  let lie g1 g2 := g2 dt (g1 dt u) in
  let strang g1 g2 := g1 (1/2 * dt) (g2 dt (g1 (1/2 * dt) u)) in
  let mean x s i j := 1/2 * lie g2 g1 x s i j + 1/2 * lie g1 g2 x s i j in
  match m with
  | Lie => lie g1 g2
  | Strang => strang g1 g2
  | Swss => mean
  | Jia => fun x s i j => 2/3 * strang g1 g2 x s i j + 2/3 * strang g2 g1 x s i j - 1/3 * mean x s i j
  end.

(** The advection sub-steps of one step stay within reach of the ghost zones. *)
Definition reach_step (c : cfg) (t : R) (m : method) (dt : R) : Prop :=
  match m with
  | Lie | Swss => reach c t dt
  | Strang => reach c t (1/2 * dt)
  | Jia => reach c t dt /\ reach c t (1/2 * dt)
  end.
Fixpoint reach_run (c : cfg) (t : R) (h : list (method * R)) : Prop :=
  match h with
  | [] => True
  | (m, dt) :: h => reach_step c t m dt /\ reach_run c (t + dt) h
  end.

(** A history of steps without fields. *)
Fixpoint transport (P : params) (w : weights) (t : R) (h : list (method * R)) (u : gstate) : gstate :=
  match h with
  | [] => u
  | (m, dt) :: h =>
      transport P w (t + dt) h (compose m (characteristics (pc P) w t) (collide P t) dt u)
  end.

(** Semi-Lagrangian advection in q, periodic, fields off. *)
Record streaming (P : params) : Prop := Streaming {
  st_q : solver_method_in_q (pc P) = "ASL"%string;
  st_off : fields_enabled (pc P) = false;
  st_edges : forall e, in_q (pc P) e = "periodic"%string;
  st_layout : periodic_layout (lay (pc P));
  st_dq : dq1 (pc P) <> 0 /\ dq2 (pc P) <> 0;
  st_inst : instantaneous P = true -> forall t q1 q2 w w',
    (forall x s, inb (N_p (pc P)) x -> inb (N_species (pc P)) s -> w x s = w' x s) ->
    forall x s, inb (N_p (pc P)) x -> inb (N_species (pc P)) s ->
    source_inst P t q1 q2 w x s = source_inst P t q1 q2 w' x s }.

(** No collisions. *)
Definition quiet (P : params) : Prop := source_enabled (pc P) = false /\ instantaneous P = false.

(** The velocity does not depend on the position. *)
Definition streams (c : cfg) : Prop := forall s t q1 q2 q1' q2' p1 p2 p3,
  A_q c s t q1 q2 p1 p2 p3 = A_q c s t q1' q2' p1 p2 p3.

(** The same solver on another process grid. *)
Definition on_layout (P : params) (L : layout) : params :=
  Params (with_layout (pc P) L) (pf P) (fields_type P) (charge P) (table P) (initial_mu P) (T_e P)
    (instantaneous P) (source_inst P) (approx_p P).

(** Sums over the grid. *)
Definition grid_sum (c : cfg) (u : gstate) (x s : Z) : R :=
  zsum (gN1 (lay c)) (fun g1 => zsum (gN2 (lay c)) (fun g2 => u x s g1 g2)).

(** A rank's array of data. *)
Definition on_rank (c : cfg) (r1 r2 : nat) (f : arr R) : Prop :=
  d0 f = N_p c /\ d1 f = N_species c /\ d2 f = n1g (lay c) r1 /\ d3 f = n2g (lay c) r2.

(** ** Momentum space, one species: displacements in cells of p2 and p3 during [dt]
    at the space cell (g1, g2), where the fields are [E].  The force is taken on
    the lower face along its own axis. *)
Definition moved_p2 (c : cfg) (t dt : R) (E : Z -> R) (g1 g2 x s : Z) : R :=
  snd (fst (A_p c s t (pos1 c (1/2) g1) (pos2 c (1/2) g2) (mom1 c (1/2) x s) (mom2 c 0 x s) (mom3 c (1/2) x s)
              (E 0%Z) (E 1%Z) (E 2%Z) (E 3%Z) (E 4%Z) (E 5%Z))) * dt / nth 0 (dp2 c) 0.
Definition moved_p3 (c : cfg) (t dt : R) (E : Z -> R) (g1 g2 x s : Z) : R :=
  snd (A_p c s t (pos1 c (1/2) g1) (pos2 c (1/2) g2) (mom1 c (1/2) x s) (mom2 c (1/2) x s) (mom3 c 0 x s)
              (E 0%Z) (E 1%Z) (E 2%Z) (E 3%Z) (E 4%Z) (E 5%Z)) * dt / nth 0 (dp3 c) 0.
