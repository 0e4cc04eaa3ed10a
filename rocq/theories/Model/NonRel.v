(** The non-relativistic Boltzmann system.
    /repo/bolt/src/nonrelativistic_boltzmann/advection_terms.py and
    collision_operator.py. *)
From Coq Require Import ZArith Reals String List Bool.
From Verif Require Import Base.Prelude Base.ZSum Model.Af Model.Moments.
Local Open Scope R_scope.

(** ** advection_terms.py
    The functions at one phase-space point; af.broadcast evaluates them at all
    points.  The signatures are those of [C_q] and [C_p] in Config.v. *)

(** A_q, 29-63 and C_q, 67-100 *)
Definition A_q_nonrel (t q1 q2 v1 v2 v3 : R) : R * R := (v1, v2).
Definition C_q_nonrel (t q1 q2 v1 v2 v3 : R) : R * R := (v1, v2).

(** A_p, 102-144.  [e], [m] are params.charge and params.mass of the species. *)
Definition A_p_nonrel (e m : R) (t q1 q2 v1 v2 v3 E1 E2 E3 B1 B2 B3 : R) : R * R * R :=
  let A_p1 := (e/m) * (E1 + v2 * B3 - v3 * B2) in
  let A_p2 := (e/m) * (E2 + v3 * B1 - v1 * B3) in
  let A_p3 := (e/m) * (E3 + v1 * B2 - v2 * B1) in
  (A_p1, A_p2, A_p3).

(** C_p, 148-187 *)
Definition C_p_nonrel (e m : R) (t q1 q2 v1 v2 v3 E1 E2 E3 B1 B2 B3 : R) : R * R * R :=
  let C_p1 := (e/m) * (E1 + v2 * B3 - v3 * B2) in
  let C_p2 := (e/m) * (E2 + v3 * B1 - v1 * B3) in
  let C_p3 := (e/m) * (E3 + v1 * B2 - v2 * B1) in
  (C_p1, C_p2, C_p3).

(** ** collision_operator.py *)

(** f0, 16-69, at one point.  x**(3/2) is [Rpower]; its base is positive
    whenever m, k and T are. *)
Definition f0 (p_dim : Z) (m k v1 v2 v3 n T v1_bulk v2_bulk v3_bulk : R) : R :=
  if (p_dim =? 3)%Z then
    n * Rpower (m / (2 * PI * k * T)) (3 / 2)
      * exp (- m * (v1 - v1_bulk) ^ 2 / (2 * k * T))
      * exp (- m * (v2 - v2_bulk) ^ 2 / (2 * k * T))
      * exp (- m * (v3 - v3_bulk) ^ 2 / (2 * k * T))
  else if (p_dim =? 2)%Z then
    n * (m / (2 * PI * k * T))
      * exp (- m * (v1 - v1_bulk) ^ 2 / (2 * k * T))
      * exp (- m * (v2 - v2_bulk) ^ 2 / (2 * k * T))
  else
    n * sqrt (m / (2 * PI * k * T))
      * exp (- m * (v1 - v1_bulk) ^ 2 / (2 * k * T)).

(** BGK, 71-132.  [moments] is the solver's compute_moments; [mass] has extents
    (1, N_s); [tau] is params.tau(q1, q2, v1, v2, v3). *)
Definition floor_eps : R := / 10 ^ 30.

Definition BGK (moments : string -> arr R -> res (arr R)) (mass : arr R) (k : R) (p_dim : Z)
    (v1 v2 v3 tau : arr R) (f : arr R) (flag : bool) : res (arr R) :=
  let? n := moments "density"%string f in
  let over_n := fun a : arr R => amap2 (fun x y => x / (y + floor_eps)) a n in
  let? mom1 := moments "mom_v1_bulk"%string f in
  let v1_bulk := over_n mom1 in
  let? mom2 := moments "mom_v2_bulk"%string f in
  let v2_bulk := over_n mom2 in
  let? mom3 := moments "mom_v3_bulk"%string f in
  let v3_bulk := over_n mom3 in
  if (p_dim =? 0)%Z then Err ZeroDivisionError else
  let? en := moments "energy"%string f in
  let nm := bcast2 Rmult n mass in
  let T := amap (fun x => x + floor_eps) (over_n (amap (fun x => / IZR p_dim * x)
             (amap (fun x => 2 * x) (bcast2 Rmult en mass) [-] (nm [*] sq v1_bulk) [-] (nm [*] sq v2_bulk)
                [-] (nm [*] sq v3_bulk)))) in
  let f_MB := Arr (d0 f) (d1 f) (d2 f) (d3 f) (fun i s q1 q2 =>
    f0 p_dim (bel mass i s q1 q2) k (bel v1 i s q1 q2) (bel v2 i s q1 q2) (bel v3 i s q1 q2)
       (bel n i s q1 q2) (bel T i s q1 q2)
       (bel v1_bulk i s q1 q2) (bel v2_bulk i s q1 q2) (bel v3_bulk i s q1 q2)) in
  if negb flag then Ok (amap2 (fun x t => - x / t) (f [-] f_MB) tau)
  else Ok f_MB.
