(** The textbook method in a shearing box.  Beyond the sheared sides each line of
    cells is continued by its periodic image, displaced along the other axis by
    the shear times the time and interpolated there.  No ranks, no ghost cells,
    no loops. *)
From Coq Require Import ZArith Reals String List Bool.
From Verif Require Import Base.Prelude Base.ZSum Model.Af Model.Petsc Model.Config Model.Fvm
  Spec.Domain Spec.Lattice Spec.FvmProblem Spec.FvmRun Spec.Interp.
Import ListNotations.
Local Open Scope R_scope.

(** A periodic row of [N] values at a position in cells. *)
Definition slid (w : weights) (N : Z) (row : Z -> R) (Y : R) : R :=
  zsum 4 (fun b => w (frac_part Y) (b - 1)%Z * row ((Int_part Y + (b - 1)) mod N)%Z).

(** What is used of approx2 with cubic splines when all layers share one set of
    positions (extent 1 along the last two axes). *)
Record interpolates_layers (w : weights) (ap : arr R -> arr R -> arr R -> arr R) : Prop := InterpolatesLayers {
  il_nodal : nodal w;
  il_dims : forall v x y, d2 x = 1%Z -> d3 x = 1%Z -> same_dims x y ->
    d0 (ap v x y) = d0 x /\ d1 (ap v x y) = d1 x /\ d2 (ap v x y) = d2 v /\ d3 (ap v x y) = d3 v;
  il_inner : forall v x y i j k l, d2 x = 1%Z -> d3 x = 1%Z -> same_dims x y ->
    inb (d0 x) i -> inb (d1 x) j -> inb (d2 v) k -> inb (d3 v) l ->
    fits (d0 v) (el x i j 0 0) -> fits (d1 v) (el y i j 0 0) ->
    el (ap v x y) i j k l = interp2 w (fun a b => el v a b k l) (el x i j 0 0) (el y i j 0 0) }.

Section Shear.
Variables (c : cfg) (w : weights).
(** The sheared sides are left and right ([true]), or bottom and top. *)
Variable lr : bool.
Let N1 := gN1 (lay c).
Let N2 := gN2 (lay c).

(** Displacement of the images at time [t], in cells. *)
Definition drift (t : R) : R :=
  if lr then shear_q c * shear_omega c * (q1_end c - q1_start c) * t / dq2 c
  else shear_q c * shear_omega c * (q2_end c - q2_start c) * t / dq1 c.

Definition shear_line1 (t : R) (u : gstate) (x s g2 z : Z) : R :=
  if lr then
    if (z <? 0)%Z then slid w N2 (fun b => u x s (z + N1)%Z b) (IZR g2 - drift t)
    else if (z <? N1)%Z then u x s z g2
    else slid w N2 (fun b => u x s (z - N1)%Z b) (IZR g2 + drift t)
  else u x s (z mod N1)%Z g2.
Definition shear_line2 (t : R) (u : gstate) (x s g1 z : Z) : R :=
  if lr then u x s g1 (z mod N2)%Z
  else
    if (z <? 0)%Z then slid w N1 (fun a => u x s a (z + N2)%Z) (IZR g1 - drift t)
    else if (z <? N2)%Z then u x s g1 z
    else slid w N1 (fun a => u x s a (z - N2)%Z) (IZR g1 + drift t).

Definition rhs_shear (t : R) (P : problem) (u : gstate) : gstate := fun x s g1 g2 =>
  advect (kq P) (h1 P) (fun i => vel1 P x s i g2) (shear_line1 t u x s g2) g1
  + advect (kq P) (h2 P) (fun j => vel2 P x s g1 j) (shear_line2 t u x s g1) g2
  + src P g1 g2 (fun x' s' => u x' s' g1 g2) x s
  + advect_p P g1 g2 (fun x' s' => u x' s' g1 g2) x s.

(** One step; the displacement is that of its start in both stages. *)
Definition midpoint_shear (t : R) (P0 Ph : problem) (dt : R) (u : gstate) : gstate :=
  let uh : gstate := fun x s g1 g2 => u x s g1 g2 + dt / 2 * rhs_shear t P0 u x s g1 g2 in
  fun x s g1 g2 => u x s g1 g2 + dt * rhs_shear t Ph uh x s g1 g2.

Fixpoint run_shear (k1 k2 : scheme) (l : list (call * fields3 * fields3)) (u : gstate) : gstate :=
  match l with
  | [] => u
  | (k, E0, Eh) :: l =>
      run_shear k1 k2 l
        (midpoint_shear (ct k) (prob c k1 k2 (ct k) E0) (prob c k1 k2 (ct k) Eh) (cdt k) u)
  end.

(** A shearing box as the solver sets it up: the sheared sides in pairs, the
    others periodic, one process along the direction of the shear, no block
    narrower than the ghost zones (PETSc refuses those), at least two ghost zones
    (approx2 takes its unit from the first two nodes). *)
Record shear_fvm (k_q : scheme) : Prop := ShearFvm {
  sh_fvm : solver_method_in_q c = "FVM"%string;
  sh_left : in_q c ELeft = (if lr then "shearing-box" else "periodic")%string;
  sh_right : in_q c ERight = (if lr then "shearing-box" else "periodic")%string;
  sh_bottom : in_q c EBottom = (if lr then "periodic" else "shearing-box")%string;
  sh_top : in_q c ETop = (if lr then "periodic" else "shearing-box")%string;
  sh_layout : periodic_layout (lay c);
  sh_one : if lr then blk2 (lay c) = [N2] else blk1 (lay c) = [N1];
  sh_ng1 : ng1 (lay c) = N_ghost c;
  sh_ng2 : ng2 (lay c) = N_ghost c;
  sh_radius : (radius k_q < N_ghost c)%Z;
  sh_two : (2 <= N_ghost c)%Z;
  sh_wide1 : Forall (fun b => (N_ghost c <= b)%Z) (blk1 (lay c));
  sh_wide2 : Forall (fun b => (N_ghost c <= b)%Z) (blk2 (lay c));
  sh_dq1 : 0 < dq1 c; sh_dq2 : 0 < dq2 c;
  sh_len1 : q1_end c - q1_start c = IZR N1 * dq1 c;
  sh_len2 : q2_end c - q2_start c = IZR N2 * dq2 c }.

(** The loops that bring the displaced coordinates back into the domain have
    enough iterations at time [t]. *)
Definition in_time (t : R) : Prop :=
  Rabs (drift t) + IZR (N_ghost c) <= INR (loop_fuel c) * IZR (if lr then N2 else N1).
(** The velocity through the sheared sides is the same everywhere; the other one
    has the period of the box. *)
Definition velocity_sheared : Prop := forall s t q1 q2 q1' q2' p1 p2 p3,
  if lr then fst (C_q c s t q1 q2 p1 p2 p3) = fst (C_q c s t q1' q2' p1 p2 p3)
    /\ snd (C_q c s t q1 (q2 + IZR N2 * dq2 c) p1 p2 p3) = snd (C_q c s t q1 q2 p1 p2 p3)
  else snd (C_q c s t q1 q2 p1 p2 p3) = snd (C_q c s t q1' q2' p1 p2 p3)
    /\ fst (C_q c s t (q1 + IZR N1 * dq1 c) q2 p1 p2 p3) = fst (C_q c s t q1 q2 p1 p2 p3).

(** The images are displaced by a whole number of cells, or of boxes. *)
Definition whole_cells (t : R) : Prop := exists m, drift t = IZR m.
Definition whole_boxes (t : R) : Prop := exists m, drift t = IZR (m * if lr then N2 else N1).
End Shear.
