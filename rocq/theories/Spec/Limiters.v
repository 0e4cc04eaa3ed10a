(** Textbook limiters, written independently of the code, over exact reals. *)
From Coq Require Import Reals.
Local Open Scope R_scope.

(** Monotonised-central (MC) slope in the cell with average [b] between
    neighbours [a] and [c]: the smallest of the centred difference and twice the
    one-sided differences when these agree in sign, zero otherwise. *)
Definition mc_slope (a b c : R) : R :=
  if Rlt_dec a b then
    if Rlt_dec b c then Rmin ((c - a) / 2) (Rmin (2 * (b - a)) (2 * (c - b))) else 0
  else if Rlt_dec b a then
    if Rlt_dec c b then Rmax ((c - a) / 2) (Rmax (2 * (b - a)) (2 * (c - b))) else 0
  else 0.

(** Colella-Woodward (1984) interface value between the cells with averages [b]
    and [c]. *)
Definition cw_face (a b c d : R) : R :=
  (b + c) / 2 - (mc_slope b c d - mc_slope a b c) / 6.

(** Colella-Woodward monotonisation (their equation 1.10) of the parabola with
    edge values [l], [r] and average [m]. *)
Definition cw_limit (l m r : R) : R * R :=
  if Rle_dec ((r - m) * (m - l)) 0 then (m, m)
  else if Rlt_dec ((r - l) ^ 2) ((r - l) * (6 * (m - (l + r) / 2))) then (3 * m - 2 * r, r)
  else if Rlt_dec ((r - l) * (6 * (m - (l + r) / 2))) (- (r - l) ^ 2) then (l, 3 * m - 2 * l)
  else (l, r).

Definition cw_ppm (y0 y1 y2 y3 y4 : R) : R * R :=
  cw_limit (cw_face y0 y1 y2 y3) y2 (cw_face y1 y2 y3 y4).

(** The parabola on the unit cell with edge values [l], [r] and mean [m]. *)
Definition parabola (l m r x : R) : R :=
  l + x * ((r - l) + 6 * (m - (l + r) / 2) * (1 - x)).

(** [x] lies between the smallest and the largest of the given values. *)
Definition between (lo hi x : R) : Prop := Rmin lo hi <= x <= Rmax lo hi.
Definition within3 (a b c x : R) : Prop :=
  Rmin a (Rmin b c) <= x <= Rmax a (Rmax b c).

(** Value at [t] of the quadratic through (0, a), (1, b), (2, c). *)
Definition quad_through (a b c t : R) : R :=
  a * ((t - 1) * (t - 2) / 2) - b * (t * (t - 2)) + c * (t * (t - 1) / 2).
