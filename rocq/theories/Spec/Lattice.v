(** The textbook method of lines on a doubly periodic N1 x N2 grid: limited
    linear or parabolic profiles in each cell, upwind fluxes, flux differences,
    midpoint Runge-Kutta.  Written on global arrays: no ranks, no ghost cells,
    no ArrayFire. *)
From Coq Require Import ZArith Reals String.
From Verif Require Import Spec.Limiters.
Local Open Scope R_scope.

Inductive scheme : Type := FirstOrder | MC | PPM.

Definition scheme_of_name (m : string) : option scheme :=
  if String.eqb m "piecewise-constant" then Some FirstOrder
  else if String.eqb m "minmod" then Some MC
  else if String.eqb m "ppm" then Some PPM
  else None.

(** Cells on each side of a cell that its profile depends on. *)
Definition radius (k : scheme) : Z := match k with FirstOrder => 0 | MC => 1 | PPM => 2 end%Z.

(** Left and right face values of the profile in cell [i]. *)
Definition cell_faces (k : scheme) (u : Z -> R) (i : Z) : R * R :=
  match k with
  | FirstOrder => (u i, u i)
  | MC => let s := mc_slope (u (i - 1)%Z) (u i) (u (i + 1)%Z) in (u i - s / 2, u i + s / 2)
  | PPM => cw_ppm (u (i - 2)%Z) (u (i - 1)%Z) (u i) (u (i + 1)%Z) (u (i + 2)%Z)
  end.

(** State on the upwind side of the face between cells [i-1] and [i]. *)
Definition upwind (k : scheme) (v u : Z -> R) (i : Z) : R :=
  if Rlt_dec 0 (v i) then snd (cell_faces k u (i - 1)) else fst (cell_faces k u i).

Definition flux (k : scheme) (v u : Z -> R) (i : Z) : R := v i * upwind k v u i.

(** Conservative flux difference in cell [i]. *)
Definition advect (k : scheme) (h : R) (v u : Z -> R) (i : Z) : R :=
  - (flux k v u (i + 1) - flux k v u i) / h.

(** Periodic extension of a line of [n] values. *)
Definition periodic (n : Z) (u : Z -> R) (i : Z) : R := u (i mod n)%Z.

(** f as a function of momentum index, species and cell. *)
Definition gstate : Type := Z -> Z -> Z -> Z -> R.

(** A kinetic problem on the grid.  Velocities are given at the lower face of
    each cell, in q and in p; [src] is the source at a cell as a function of the
    values of f over (momentum, species) there; momentum index x stands for
    (i1, i2, i3) with x = i1 + M1 (i2 + M2 i3). *)
Record problem : Type := Problem {
  n1 : Z; n2 : Z; h1 : R; h2 : R; kq : scheme;
  vel1 : gstate; vel2 : gstate;
  src : Z -> Z -> (Z -> Z -> R) -> Z -> Z -> R;
  M1 : Z; M2 : Z; M3 : Z; hp1 : Z -> R; hp2 : Z -> R; hp3 : Z -> R; kp : scheme;
  acc1 : gstate; acc2 : gstate; acc3 : gstate }.

Definition advect_q (P : problem) (u : gstate) : gstate := fun x s g1 g2 =>
  advect (kq P) (h1 P) (fun i => vel1 P x s i g2) (periodic (n1 P) (fun i => u x s i g2)) g1
  + advect (kq P) (h2 P) (fun j => vel2 P x s g1 j) (periodic (n2 P) (fun j => u x s g1 j)) g2.

(** Momentum index of (i1, i2, i3). *)
Definition pidx (P : problem) (i1 i2 i3 : Z) : Z := (i1 + M1 P * (i2 + M2 P * i3))%Z.

(** Advection in momentum space of the values [w] at one cell; the momentum grid
    is treated as periodic. *)
Definition advect_p (P : problem) (g1 g2 : Z) (w : Z -> Z -> R) (x s : Z) : R :=
  let i1 := (x mod M1 P)%Z in
  let i2 := ((x / M1 P) mod M2 P)%Z in
  let i3 := (x / M1 P / M2 P)%Z in
  advect (kp P) (hp1 P s)
    (periodic (M1 P) (fun i => acc1 P (pidx P i i2 i3) s g1 g2))
    (periodic (M1 P) (fun i => w (pidx P i i2 i3) s)) i1
  + advect (kp P) (hp2 P s)
    (periodic (M2 P) (fun i => acc2 P (pidx P i1 i i3) s g1 g2))
    (periodic (M2 P) (fun i => w (pidx P i1 i i3) s)) i2
  + advect (kp P) (hp3 P s)
    (periodic (M3 P) (fun i => acc3 P (pidx P i1 i2 i) s g1 g2))
    (periodic (M3 P) (fun i => w (pidx P i1 i2 i) s)) i3.

Definition rhs (P : problem) (u : gstate) : gstate := fun x s g1 g2 =>
  advect_q P u x s g1 g2
  + src P g1 g2 (fun x' s' => u x' s' g1 g2) x s
  + advect_p P g1 g2 (fun x' s' => u x' s' g1 g2) x s.

(** Midpoint rule; the second evaluation may see other forces. *)
Definition midpoint (P0 Ph : problem) (dt : R) (u : gstate) : gstate :=
  let uh : gstate := fun x s g1 g2 => u x s g1 g2 + dt / 2 * rhs P0 u x s g1 g2 in
  fun x s g1 g2 => u x s g1 g2 + dt * rhs Ph uh x s g1 g2.
