(** Coordinates.  Models /repo/bolt/lib/utils/calculate_q.py, calculate_p.py. *)
From Coq Require Import ZArith Reals List.
From Verif Require Import Base.Prelude Model.Af.
Local Open Scope R_scope.

(** A (1, 1, N_q1, N_q2) array of coordinates. *)
Definition coord_arr (n1 n2 : Z) (g : Z -> Z -> R) : arr R :=
  Arr 1 1 n1 n2 (fun _ _ k l => g k l).

Record qcoords : Type := QCoords {
  q_left_bot : arr R * arr R;
  q_center_bot : arr R * arr R;
  q_left_center : arr R * arr R;
  q_center : arr R * arr R }.

(** calculate_q, calculate_q.py:7-41.  np.arange(-N_g, N_q + N_g) followed by
    meshgrid, to_array and reorder gives arrays indexed (1, 1, N_q1, N_q2).  The
    second component of the third pair is q2_center_bot, as on line 37. *)
Definition calculate_q (q1_start q2_start : R) (N_q1 N_q2 N_g1 N_g2 : Z) (dq1 dq2 : R) : qcoords :=
  let n1 := (N_q1 + 2 * N_g1)%Z in
  let n2 := (N_q2 + 2 * N_g2)%Z in
  let q1_left_bot := coord_arr n1 n2 (fun k _ => q1_start + IZR (k - N_g1) * dq1) in
  let q2_left_bot := coord_arr n1 n2 (fun _ l => q2_start + IZR (l - N_g2) * dq2) in
  let q1_center_bot := amap (fun x => x + 0.5 * dq1) q1_left_bot in
  let q2_center_bot := q2_left_bot in
  let q1_left_center := q1_left_bot in
  let q1_center := amap (fun x => x + 0.5 * dq1) q1_left_bot in
  let q2_center := amap (fun x => x + 0.5 * dq2) q2_left_bot in
  QCoords (q1_left_bot, q2_left_bot) (q1_center_bot, q2_center_bot)
          (q1_left_center, q2_center_bot) (q1_center, q2_center).

(** Momentum coordinates, calculate_p.py:8-31 (corner) and 33-57 (centre).
    np.meshgrid(p2, p1, p3) has shape (N_p1, N_p2, N_p3), so af.flat puts p1
    fastest, then p2, then p3.  [start] and [dp] are the per-species lists. *)
Definition p_arr (N_p1 N_p2 N_p3 Ns : Z) (g : Z -> Z -> Z -> Z -> R) : arr R :=
  Arr (N_p1 * N_p2 * N_p3) Ns 1 1
      (fun x s _ _ => flat (Arr N_p1 N_p2 N_p3 1 (fun i1 i2 i3 _ => g s i1 i2 i3)) x).

Definition p_line (off : R) (start dp : list R) (s i : Z) : R :=
  nth (Z.to_nat s) start 0 + (off + IZR i) * nth (Z.to_nat s) dp 0.

Definition calculate_p_gen (off : R) (p1_start p2_start p3_start : list R)
    (N_p1 N_p2 N_p3 : Z) (dp1 dp2 dp3 : list R) : arr R * arr R * arr R :=
  let Ns := Z.of_nat (length p1_start) in
  (p_arr N_p1 N_p2 N_p3 Ns (fun s i1 _ _ => p_line off p1_start dp1 s i1),
   p_arr N_p1 N_p2 N_p3 Ns (fun s _ i2 _ => p_line off p2_start dp2 s i2),
   p_arr N_p1 N_p2 N_p3 Ns (fun s _ _ i3 => p_line off p3_start dp3 s i3)).

Definition calculate_p_corner := calculate_p_gen 0.
Definition calculate_p_center := calculate_p_gen 0.5.
