(** Models /repo/bolt/src/nonrelativistic_boltzmann/units/. *)
From Coq Require Import Reals.
Local Open Scope R_scope.

(** length_scales.py *)
Definition gyroradius (v B e m : R) : R := m * v / (e * B).                          (* 6-21 *)
Definition debye_length (n T e k eps : R) : R := sqrt (eps * k * T / (n * e^2)).      (* 23-40 *)
Definition skin_depth (n e c m eps : R) : R := c * sqrt (eps * m / (n * e^2)).        (* 42-59 *)

(** time_scales.py *)
Definition plasma_frequency (n e m eps : R) : R := sqrt (n * e^2 / (m * eps)).        (* 6-21 *)
Definition cyclotron_frequency (B e m : R) : R := e * B / m.                          (* 23-36 *)
Definition alfven_crossing_time (l B n m mu : R) : R :=                               (* 38-56 *)
  let v_a := B / sqrt (n * m * mu) in l / v_a.
Definition sound_crossing_time (l T k gamma : R) : R :=                               (* 58-74 *)
  let c_s := sqrt (gamma * k * T) in l / c_s.

(** velocity_scales.py *)
Definition thermal_speed (T m k : R) : R := sqrt (k * T / m).                         (* 6-19 *)
Definition sound_speed (T k gamma : R) : R := sqrt (gamma * k * T).                   (* 21-34 *)
Definition alfven_velocity (B n m mu : R) : R := B / sqrt (n * m * mu).               (* 36-51 *)
