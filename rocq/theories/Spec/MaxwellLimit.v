(** Solutions of Maxwell's equations in the plane, and the error of a run against them. *)
From Coq Require Import ZArith Reals List.
From Verif Require Import Base.ZSum Model.Af Model.Petsc Model.Em Spec.Domain Spec.Yee Spec.EmRun Spec.InitFields Spec.Light.
Import ListNotations.
Local Open Scope R_scope.

(** u has the derivative u', which bends no more than M (as when |u'''| <= M). *)
Definition smooth1 (M : R) (u u' : R -> R) : Prop :=
  (forall x, derivable_pt_lim u x (u' x))
  /\ forall x s, Rabs (u' (x + s) + u' (x - s) - 2 * u' x) <= M * s ^ 2.

(** Fields and currents as functions of time and position. *)
Record history : Type := History {
  he1 : R -> R -> R -> R; he2 : R -> R -> R -> R; he3 : R -> R -> R -> R;
  hb1 : R -> R -> R -> R; hb2 : R -> R -> R -> R; hb3 : R -> R -> R -> R;
  hj1 : R -> R -> R -> R; hj2 : R -> R -> R -> R; hj3 : R -> R -> R -> R }.

Definition diff_t (M : R) (u u' : R -> R -> R -> R) : Prop := forall x y, smooth1 M (fun t => u t x y) (fun t => u' t x y).
Definition diff_x (M : R) (u u' : R -> R -> R -> R) : Prop := forall t y, smooth1 M (fun x => u t x y) (fun x => u' t x y).
Definition diff_y (M : R) (u u' : R -> R -> R -> R) : Prop := forall t x, smooth1 M (fun y => u t x y) (fun y => u' t x y).

(** dE/dt = curl B / (mu eps) - J / eps, dB/dt = - curl E, in a plane. *)
Definition obeys_maxwell (eps mu M : R) (H : history) : Prop :=
  exists e1t e1y e2t e2x e3t e3x e3y b1t b1y b2t b2x b3t b3x b3y,
  diff_t M (he1 H) e1t /\ diff_y M (he1 H) e1y /\ diff_t M (he2 H) e2t /\ diff_x M (he2 H) e2x
  /\ diff_t M (he3 H) e3t /\ diff_x M (he3 H) e3x /\ diff_y M (he3 H) e3y
  /\ diff_t M (hb1 H) b1t /\ diff_y M (hb1 H) b1y /\ diff_t M (hb2 H) b2t /\ diff_x M (hb2 H) b2x
  /\ diff_t M (hb3 H) b3t /\ diff_x M (hb3 H) b3x /\ diff_y M (hb3 H) b3y
  /\ forall t x y,
     e1t t x y = b3y t x y / (mu * eps) - hj1 H t x y / eps
     /\ e2t t x y = - b3x t x y / (mu * eps) - hj2 H t x y / eps
     /\ e3t t x y = (b2x t x y - b1y t x y) / (mu * eps) - hj3 H t x y / eps
     /\ b1t t x y = - e3y t x y /\ b2t t x y = e3x t x y /\ b3t t x y = e1y t x y - e2x t x y.

(** The fields repeat with the box. *)
Definition boxed (c : fcfg) (H : history) : Prop := forall t,
  periodic_potential c (he1 H t) /\ periodic_potential c (he2 H t) /\ periodic_potential c (he3 H t)
  /\ periodic_potential c (hb1 H t) /\ periodic_potential c (hb2 H t) /\ periodic_potential c (hb3 H t).

(** The fields on the Yee grid of a run with steps dt: E at t, B at t + dt/2. *)
Definition sampled (c : fcfg) (dt t : R) (H : history) : lattice :=
  leapfrog c dt t (fun t x y => (he1 H t x y, he2 H t x y, he3 H t x y)) (fun t x y => (hb1 H t x y, hb2 H t x y, hb3 H t x y)).

(** The steps of a history all take dt, and the currents handed to a step from t are those of
    the solution at t + dt/2, where the electric field is kept. *)
Fixpoint driven (c : fcfg) (dt : R) (H : history) (t : R) (l : list event) : Prop :=
  match l with
  | [] => True
  | Evolve J1 J2 J3 h :: l => h = dt
      /\ (forall i j, inb (gN1 (flay c)) i -> inb (gN2 (flay c)) j ->
            grid_of (flay c) (dmap asum1 J1) i j = placed c 0 (1/2) (hj1 H (t + dt / 2)) i j
            /\ grid_of (flay c) (dmap asum1 J2) i j = placed c (1/2) 0 (hj2 H (t + dt / 2)) i j
            /\ grid_of (flay c) (dmap asum1 J3) i j = placed c (1/2) (1/2) (hj3 H (t + dt / 2)) i j)
      /\ driven c dt H (t + dt) l
  | _ :: l => driven c dt H t l
  end.

(** Root mean square, in the energy norm, of the difference of two lattices. *)
Definition minus (Y Z : lattice) : lattice :=
  Lattice (fun i j => E1 Y i j - E1 Z i j) (fun i j => E2 Y i j - E2 Z i j) (fun i j => E3 Y i j - E3 Z i j)
          (fun i j => B1 Y i j - B1 Z i j) (fun i j => B2 Y i j - B2 Z i j) (fun i j => B3 Y i j - B3 Z i j).
Definition rms (c : fcfg) (Y Z : lattice) : R :=
  sqrt (field_norm2 (gN1 (flay c)) (gN2 (flay c)) (eps c) (mu c) (minus Y Z) / (IZR (gN1 (flay c)) * IZR (gN2 (flay c)))).

(** The Courant number, and the second-order rate at which errors build up. *)
Definition courant (c : fcfg) (dt : R) : R := sqrt (courant2 (fdq1 c) (fdq2 c) (eps c) (mu c) dt).
Definition error_rate (c : fcfg) (M dt : R) : R :=
  sqrt 3 * (M / 24) * (sqrt (eps c) * (dt ^ 2 + (fdq1 c ^ 2 + fdq2 c ^ 2) / (mu c * eps c))
                       + (dt ^ 2 + fdq1 c ^ 2 + fdq2 c ^ 2) / sqrt (mu c)).
