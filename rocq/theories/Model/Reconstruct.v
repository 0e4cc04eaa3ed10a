(** Reconstruction and Riemann solver of the finite-volume method.
    Models /repo/bolt/lib/nonlinear/finite_volume/{reconstruct,riemann}.py and
    /repo/bolt/lib/nonlinear/finite_volume/reconstruction/*.py. *)
From Coq Require Import ZArith Reals String.
From Verif Require Import Base.Prelude Model.Af.
Local Open Scope R_scope.

(** The axis argument of the reconstruction routines. *)
Inductive axis : Type := Ax0 | Ax1 | Ax2 | Ax3.

(** [af.shift] along one axis, as selected by the if/elif chains of
    reconstruction/minmod.py:32-50 and reconstruction/ppm.py:19-48. *)
Definition shift_ax {A} (a : arr A) (x : axis) (s : Z) : arr A :=
  match x with
  | Ax0 => shift a s 0 0 0
  | Ax1 => shift a 0 s 0 0
  | Ax2 => shift a 0 0 s 0
  | Ax3 => shift a 0 0 0 s
  end%Z.

(** ** reconstruction/minmod.py *)

(** minmod, reconstruction/minmod.py:4-16, for one element. *)
Definition minmod (x y z : R) : R :=
  let min_of_all := Rmin (Rmin (Rabs x) (Rabs y)) (Rabs z) in
  let signx := 1 - 2 * af_sign x in
  let signy := 1 - 2 * af_sign y in
  let signz := 1 - 2 * af_sign z in
  0.25 * Rabs (signx + signy) * (signx + signz) * min_of_all.

(** slope_minmod, reconstruction/minmod.py:52-62, for the values at the cell
    ([y2]) and its two neighbours. *)
Definition slope_minmod (y1 y2 y3 : R) : R :=
  let forward_diff := y3 - y2 in
  let backward_diff := y2 - y1 in
  let central_diff := backward_diff + forward_diff in
  let slope_lim_theta := 2 in
  minmod (slope_lim_theta * backward_diff) (0.5 * central_diff)
         (slope_lim_theta * forward_diff).

(** reconstruct_minmod, reconstruction/minmod.py:64-71 *)
Definition minmod_left (y1 y2 y3 : R) : R := y2 - 0.5 * slope_minmod y1 y2 y3.
Definition minmod_right (y1 y2 y3 : R) : R := y2 + 0.5 * slope_minmod y1 y2 y3.

Definition stencil3 (g : R -> R -> R -> R) (a : arr R) (x : axis) : arr R :=
  let ym := shift_ax a x 1 in
  let yp := shift_ax a x (-1) in
  Arr (d0 a) (d1 a) (d2 a) (d3 a)
      (fun i j k l => g (el ym i j k l) (el a i j k l) (el yp i j k l)).

Definition reconstruct_minmod (a : arr R) (x : axis) : arr R * arr R :=
  (stencil3 minmod_left a x, stencil3 minmod_right a x).

(** ** reconstruction/ppm.py *)

(** Limited slope DQ, reconstruction/ppm.py:67-80.  [dm], [dp] are the one-sided
    approximants (twice the difference), [Dc] the centred one. *)
Definition ppm_dq (dm dp Dc : R) : R :=
  let cond_zero_slope := b2r (Rleb (dp * dm) 0) in
  let sign := b2r (Rgtb Dc 0) * 2 - 1 in
  (1 - cond_zero_slope) * sign * Rmin (Rabs Dc) (Rmin (Rabs dm) (Rabs dp)).

(** reconstruct_ppm, reconstruction/ppm.py:57-100, for one five-cell stencil;
    returns (left_value, right_value). *)
Definition ppm (y0 y1 y2 y3 y4 : R) : R * R :=
  let d0 := 2 * (y1 - y0) in
  let d1 := 2 * (y2 - y1) in
  let d2 := 2 * (y3 - y2) in
  let d3 := 2 * (y4 - y3) in
  let D1 := 0.5 * (y2 - y0) in
  let D2 := 0.5 * (y3 - y1) in
  let D3 := 0.5 * (y4 - y2) in
  let DQ1 := ppm_dq d0 d1 D1 in
  let DQ2 := ppm_dq d1 d2 D2 in
  let DQ3 := ppm_dq d2 d3 D3 in
  let left_value := 0.5 * (y2 + y1) - (DQ2 - DQ1) / 6 in
  let right_value := 0.5 * (y3 + y2) - (DQ3 - DQ2) / 6 in
  let corr1 := b2r (Rleb ((right_value - y2) * (y2 - left_value)) 0) in
  let qd := right_value - left_value in
  let qe := 6 * (y2 - 0.5 * (right_value + left_value)) in
  let corr2 := b2r (Rltb (qd * (qd - qe)) 0) in
  let corr3 := b2r (Rltb (qd * (qd + qe)) 0) in
  let left_value := left_value * (1 - corr1) + corr1 * y2 in
  let right_value := right_value * (1 - corr1) + corr1 * y2 in
  let left_value := left_value * (1 - corr2) + corr2 * (3 * y2 - 2 * right_value) in
  let right_value := right_value * corr2 + (1 - corr2) * right_value * (1 - corr3)
                     + (1 - corr2) * corr3 * (3 * y2 - 2 * left_value) in
  (left_value, right_value).

Definition stencil5 (g : R -> R -> R -> R -> R -> R) (a : arr R) (x : axis) : arr R :=
  let y0 := shift_ax a x 2 in
  let y1 := shift_ax a x 1 in
  let y3 := shift_ax a x (-1) in
  let y4 := shift_ax a x (-2) in
  Arr (d0 a) (d1 a) (d2 a) (d3 a)
      (fun i j k l => g (el y0 i j k l) (el y1 i j k l) (el a i j k l)
                        (el y3 i j k l) (el y4 i j k l)).

Definition ppm_left y0 y1 y2 y3 y4 := fst (ppm y0 y1 y2 y3 y4).
Definition ppm_right y0 y1 y2 y3 y4 := snd (ppm y0 y1 y2 y3 y4).

Definition reconstruct_ppm (a : arr R) (x : axis) : arr R * arr R :=
  (stencil5 ppm_left a x, stencil5 ppm_right a x).

(** ** reconstruction/weno5.py *)

(** Smoothness operator, reconstruction/weno5.py:57-71: the same expression is
    used for all three sub-stencils, with the points in increasing order.
    [eps] is the literal 1e-17 of line 18. *)
Definition weno_beta (eps a b c : R) : R :=
  (4/3) * a * a - (19/3) * a * b + (25/3) * b * b + (11/3) * a * c
  - (31/3) * b * c + (10/3) * c * c + eps * (1 + Rabs a + Rabs b + Rabs c).

Definition weno_eps : R := / 100000000000000000.

(** reconstruct_weno5, reconstruction/weno5.py:73-98, for one stencil. *)
Definition weno5_w (y0 y1 y2 y3 y4 : R) : R * R * R * R * R * R :=
  let beta1 := weno_beta weno_eps y0 y1 y2 in
  let beta2 := weno_beta weno_eps y1 y2 y3 in
  let beta3 := weno_beta weno_eps y2 y3 y4 in
  (5 / (16 * beta1 * beta1), 5 / (8 * beta2 * beta2), 1 / (16 * beta3 * beta3),
   1 / (16 * beta1 * beta1), 5 / (8 * beta2 * beta2), 5 / (16 * beta3 * beta3)).

Definition weno5 (y0 y1 y2 y3 y4 : R) : R * R :=
  let '(w1l, w2l, w3l, w1r, w2r, w3r) := weno5_w y0 y1 y2 y3 y4 in
  let denl := w1l + w2l + w3l in
  let denr := w1r + w2r + w3r in
  let u1r := 0.375 * y0 - 1.25 * y1 + 1.875 * y2 in
  let u2r := - 0.125 * y1 + 0.75 * y2 + 0.375 * y3 in
  let u3r := 0.375 * y2 + 0.75 * y3 - 0.125 * y4 in
  let u1l := - 0.125 * y0 + 0.75 * y1 + 0.375 * y2 in
  let u2l := 0.375 * y1 + 0.75 * y2 - 0.125 * y3 in
  let u3l := 1.875 * y2 - 1.25 * y3 + 0.375 * y4 in
  ((w1l * u1l + w2l * u2l + w3l * u3l) / denl,
   (w1r * u1r + w2r * u2r + w3r * u3r) / denr).

Definition weno5_left y0 y1 y2 y3 y4 := fst (weno5 y0 y1 y2 y3 y4).
Definition weno5_right y0 y1 y2 y3 y4 := snd (weno5 y0 y1 y2 y3 y4).

Definition reconstruct_weno5 (a : arr R) (x : axis) : arr R * arr R :=
  (stencil5 weno5_left a x, stencil5 weno5_right a x).

(** ** reconstruct.py *)

(** reconstruct, finite_volume/reconstruct.py:7-51 (timing omitted).  For
    'weno5' the raise on line 40 precedes the call. *)
Definition reconstruct (a : arr R) (x : axis) (method : string) : res (arr R * arr R) :=
  if String.eqb method "piecewise-constant" then Ok (a, a)
  else if String.eqb method "minmod" then Ok (reconstruct_minmod a x)
  else if String.eqb method "ppm" then Ok (reconstruct_ppm a x)
  else if String.eqb method "weno5" then Err SystemExit
  else Err NotImplementedError.

(** ** riemann.py *)

(** riemann_solver, finite_volume/riemann.py:8-58.  The tiling of a velocity
    without spatial extent (lines 38-44) is a broadcast. *)
Definition riemann_solver (left_state right_state velocity : arr R) : arr R :=
  Arr (d0 left_state) (d1 left_state) (d2 left_state) (d3 left_state)
      (fun i j k l => if Rgtb (bel velocity i j k l) 0
                      then el left_state i j k l else el right_state i j k l).
