(** Runge-Kutta integrators.  Models
    /repo/bolt/lib/nonlinear/temporal_evolution/integrators.py and
    /repo/bolt/lib/linear/integrators.py.  Array arithmetic is element-wise, so an
    array is a function of its index, of any index type; decimal literals are
    exact fractions; af.eval and the performance timers are not modelled. *)
From Coq Require Import Reals.
Local Open Scope R_scope.

Definition vec (I : Type) : Type := I -> R.

(** ** Nonlinear solver.  The extra arguments (among them the time) are the same in
    every call of [dx_dt], so they are part of [dx_dt]. *)

(** nonlinear integrators.py:6-13, RK2 *)
Definition RK2 {I} (dx_dt : vec I -> vec I) (x_initial : vec I) (dt : R) : vec I :=
  let x := fun i => x_initial i + dx_dt x_initial i * (dt / 2) in
  fun i => x_initial i + dx_dt x i * dt.

(** nonlinear integrators.py:15-28, RK4 *)
Definition RK4 {I} (dx_dt : vec I -> vec I) (x_initial : vec I) (dt : R) : vec I :=
  let k1 := dx_dt x_initial in
  let x := fun i => x_initial i + 1 / 2 * k1 i * dt in
  let k2 := dx_dt x in
  let x := fun i => x_initial i + 1 / 2 * k2 i * dt in
  let k3 := dx_dt x in
  let x := fun i => x_initial i + k3 i * dt in
  let k4 := dx_dt x in
  fun i => x_initial i + ((k1 i + 2 * k2 i + 2 * k3 i + k4 i) / 6) * dt.

(** nonlinear integrators.py:30-58, RK5 *)
Definition RK5 {I} (dx_dt : vec I -> vec I) (x_initial : vec I) (dt : R) : vec I :=
  let k1 := dx_dt x_initial in
  let x := fun i => x_initial i + 1 / 4 * k1 i * dt in
  let k2 := dx_dt x in
  let x := fun i => x_initial i + (3 / 32) * (k1 i + 3 * k2 i) * dt in
  let k3 := dx_dt x in
  let x := fun i => x_initial i + (12 / 2197) * (161 * k1 i - 600 * k2 i + 608 * k3 i) * dt in
  let k4 := dx_dt x in
  let x := fun i => x_initial i + (1 / 4104) * (8341 * k1 i - 32832 * k2 i
                                                + 29440 * k3 i - 845 * k4 i) * dt in
  let k5 := dx_dt x in
  let x := fun i => x_initial i + (- (8 / 27) * k1 i + 2 * k2 i - (3544 / 2565) * k3 i
                                   + (1859 / 4104) * k4 i - (11 / 40) * k5 i) * dt in
  let k6 := dx_dt x in
  fun i => x_initial i + 1 / 5 * ((16 / 27) * k1 i + (6656 / 2565) * k3 i
                                  + (28561 / 11286) * k4 i - (9 / 10) * k5 i
                                  + (2 / 11) * k6 i) * dt.

(** ** Linear solver.  [dx_dt] reads the solver's clock, which the integrators
    advance between the stages.  The result is the new vector and the new clock. *)

(** linear/integrators.py:6-32 *)
Definition lin_RK2 {I} (dx_dt : R -> vec I -> vec I) (x_initial : vec I) (dt t : R) : vec I * R :=
  let k := dx_dt t x_initial in
  let x := fun i => x_initial i + k i * (dt / 2) in
  let t := t + 1 / 2 * dt in
  let k := dx_dt t x in
  let x := fun i => x_initial i + k i * dt in
  let t := t + 1 / 2 * dt in
  (x, t).

(** linear/integrators.py:34-71 *)
Definition lin_RK4 {I} (dx_dt : R -> vec I -> vec I) (x_initial : vec I) (dt t : R) : vec I * R :=
  let k1 := dx_dt t x_initial in
  let x := fun i => x_initial i + 1 / 2 * k1 i * dt in
  let t := t + 1 / 2 * dt in
  let k2 := dx_dt t x in
  let x := fun i => x_initial i + 1 / 2 * k2 i * dt in
  let k3 := dx_dt t x in
  let x := fun i => x_initial i + k3 i * dt in
  let t := t + 1 / 2 * dt in
  let k4 := dx_dt t x in
  let x := fun i => x_initial i + ((k1 i + 2 * k2 i + 2 * k3 i + k4 i) / 6) * dt in
  (x, t).

(** linear/integrators.py:73-121 *)
Definition lin_RK5 {I} (dx_dt : R -> vec I -> vec I) (x_initial : vec I) (dt t : R) : vec I * R :=
  let k1 := dx_dt t x_initial in
  let x := fun i => x_initial i + 1 / 4 * k1 i * dt in
  let t := t + 1 / 4 * dt in
  let k2 := dx_dt t x in
  let x := fun i => x_initial i + (1 / 8) * (k1 i + k2 i) * dt in
  let k3 := dx_dt t x in
  let x := fun i => x_initial i - (1 / 2 * k2 i - k3 i) * dt in
  let t := t + 1 / 4 * dt in
  let k4 := dx_dt t x in
  let x := fun i => x_initial i + (3 * k1 i + 9 * k4 i) * dt / 16 in
  let t := t + 1 / 4 * dt in
  let k5 := dx_dt t x in
  let x := fun i => x_initial i - (3 * k1 i - 2 * k2 i - 12 * k3 i + 12 * k4 i - 8 * k5 i) * dt / 7 in
  let t := t + 1 / 4 * dt in
  let k6 := dx_dt t x in
  let x := fun i => x_initial i + (7 * k1 i + 32 * k3 i + 12 * k4 i + 32 * k5 i + 7 * k6 i) * dt / 90 in
  (x, t).

(** linear/integrators.py:126-179 *)
Definition lin_RK2_coupled {I J} (dx_dt : R -> vec I -> vec J -> vec I) (x_initial : vec I)
    (dy_dt : R -> vec I -> vec J -> vec J) (y_initial : vec J) (dt t : R) : vec I * vec J * R :=
  let kx := dx_dt t x_initial y_initial in
  let ky := dy_dt t x_initial y_initial in
  let x := fun i => x_initial i + kx i * (dt / 2) in
  let y := fun i => y_initial i + ky i * (dt / 2) in
  let t := t + 1 / 2 * dt in
  let kx := dx_dt t x y in
  let ky := dy_dt t x y in
  let x := fun i => x_initial i + kx i * dt in
  let y := fun i => y_initial i + ky i * dt in
  let t := t + 1 / 2 * dt in
  (x, y, t).

(** linear/integrators.py:181-246 *)
Definition lin_RK4_coupled {I J} (dx_dt : R -> vec I -> vec J -> vec I) (x_initial : vec I)
    (dy_dt : R -> vec I -> vec J -> vec J) (y_initial : vec J) (dt t : R) : vec I * vec J * R :=
  let k1_x := dx_dt t x_initial y_initial in
  let k1_y := dy_dt t x_initial y_initial in
  let t := t + 1 / 2 * dt in
  let x := fun i => x_initial i + 1 / 2 * k1_x i * dt in
  let y := fun i => y_initial i + 1 / 2 * k1_y i * dt in
  let k2_x := dx_dt t x y in
  let k2_y := dy_dt t x y in
  let x := fun i => x_initial i + 1 / 2 * k2_x i * dt in
  let y := fun i => y_initial i + 1 / 2 * k2_y i * dt in
  let k3_x := dx_dt t x y in
  let k3_y := dy_dt t x y in
  let x := fun i => x_initial i + k3_x i * dt in
  let y := fun i => y_initial i + k3_y i * dt in
  let t := t + 1 / 2 * dt in
  let k4_x := dx_dt t x y in
  let k4_y := dy_dt t x y in
  let x := fun i => x_initial i + ((k1_x i + 2 * k2_x i + 2 * k3_x i + k4_x i) / 6) * dt in
  let y := fun i => y_initial i + ((k1_y i + 2 * k2_y i + 2 * k3_y i + k4_y i) / 6) * dt in
  (x, y, t).

(** linear/integrators.py:248-330 *)
Definition lin_RK5_coupled {I J} (dx_dt : R -> vec I -> vec J -> vec I) (x_initial : vec I)
    (dy_dt : R -> vec I -> vec J -> vec J) (y_initial : vec J) (dt t : R) : vec I * vec J * R :=
  let k1_x := dx_dt t x_initial y_initial in
  let k1_y := dy_dt t x_initial y_initial in
  let x := fun i => x_initial i + 1 / 4 * k1_x i * dt in
  let y := fun i => y_initial i + 1 / 4 * k1_y i * dt in
  let t := t + 1 / 4 * dt in
  let k2_x := dx_dt t x y in
  let k2_y := dy_dt t x y in
  let x := fun i => x_initial i + (1 / 8) * (k1_x i + k2_x i) * dt in
  let y := fun i => y_initial i + (1 / 8) * (k1_y i + k2_y i) * dt in
  let k3_x := dx_dt t x y in
  let k3_y := dy_dt t x y in
  let x := fun i => x_initial i - (1 / 2 * k2_x i - k3_x i) * dt in
  let y := fun i => y_initial i - (1 / 2 * k2_y i - k3_y i) * dt in
  let t := t + 1 / 4 * dt in
  let k4_x := dx_dt t x y in
  let k4_y := dy_dt t x y in
  let x := fun i => x_initial i + (3 * k1_x i + 9 * k4_x i) * dt / 16 in
  let y := fun i => y_initial i + (3 * k1_y i + 9 * k4_y i) * dt / 16 in
  let t := t + 1 / 4 * dt in
  let k5_x := dx_dt t x y in
  let k5_y := dy_dt t x y in
  let x := fun i => x_initial i
    - (3 * k1_x i - 2 * k2_x i - 12 * k3_x i + 12 * k4_x i - 8 * k5_x i) * dt / 7 in
  let y := fun i => y_initial i
    - (3 * k1_y i - 2 * k2_y i - 12 * k3_y i + 12 * k4_y i - 8 * k5_y i) * dt / 7 in
  let t := t + 1 / 4 * dt in
  let k6_x := dx_dt t x y in
  let k6_y := dy_dt t x y in
  let x := fun i => x_initial i
    + (7 * k1_x i + 32 * k3_x i + 12 * k4_x i + 32 * k5_x i + 7 * k6_x i) * dt / 90 in
  let y := fun i => y_initial i
    + (7 * k1_y i + 32 * k3_y i + 12 * k4_y i + 32 * k5_y i + 7 * k6_y i) * dt / 90 in
  (x, y, t).
