(** Free motion in polar coordinates.  Models
    /repo/bolt/src/coordinate_transformation/{advection_terms,source_term}.py. *)
From Coq Require Import Reals.
Local Open Scope R_scope.

(** advection_terms.py:7-13; A_q and C_q have the same text. *)
Definition polar_C_q (r theta rdot thetadot phidot : R) : R * R := (rdot, thetadot).
Definition polar_A_q := polar_C_q.

(** advection_terms.py:15-35; A_p and C_p have the same text. *)
Definition polar_C_p (r theta rdot thetadot phidot : R) : R * R * R :=
  (r * thetadot^2, - 2 * rdot * thetadot / r, 0 * r * thetadot).
Definition polar_A_p := polar_C_p.

(** source_term.py:8-10 *)
Definition polar_source (f r theta rdot thetadot phidot : R) : R := - 2 * rdot * f / r.
