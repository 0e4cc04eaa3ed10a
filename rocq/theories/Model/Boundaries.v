(** Boundary conditions of the distribution function.
    Models /repo/bolt/lib/nonlinear/boundaries.py. *)
From Coq Require Import ZArith Reals String List Bool.
From Verif Require Import Base.Prelude Model.Af Model.Grid Model.Petsc Model.Config.
Local Open Scope Z_scope.

(** ** Slabs of ghost cells.  The slices are written exactly as in the code:
    [:N_g], [-N_g:], [N_g:2*N_g] and [-2*N_g:-N_g] along the axis of the edge,
    everything along the other axis. *)
Definition get_ghost {A} (e : edge) (g : Z) (a : arr A) : arr A :=
  match e with
  | ELeft => slice23 a 0 g 0 (d3 a)
  | ERight => slice23 a (- g) (d2 a) 0 (d3 a)
  | EBottom => slice23 a 0 (d2 a) 0 g
  | ETop => slice23 a 0 (d2 a) (- g) (d3 a)
  end.

Definition set_ghost {A} (e : edge) (g : Z) (a v : arr A) : arr A :=
  match e with
  | ELeft => set_slice23 a 0 g 0 (d3 a) v
  | ERight => set_slice23 a (- g) (d2 a) 0 (d3 a) v
  | EBottom => set_slice23 a 0 (d2 a) 0 g v
  | ETop => set_slice23 a 0 (d2 a) (- g) (d3 a) v
  end.

Definition get_inner {A} (e : edge) (g : Z) (a : arr A) : arr A :=
  match e with
  | ELeft => slice23 a g (2 * g) 0 (d3 a)
  | ERight => slice23 a (- (2 * g)) (- g) 0 (d3 a)
  | EBottom => slice23 a 0 (d2 a) g (2 * g)
  | ETop => slice23 a 0 (d2 a) (- (2 * g)) (- g)
  end.

Definition flip_normal {A} (e : edge) (a : arr A) : arr A :=
  match e with ELeft | ERight => flip2 a | EBottom | ETop => flip3 a end.

(** ** Dirichlet: apply_dirichlet_bcs_f, boundaries.py:147-225 *)
Definition apply_dirichlet_bcs_f (c : cfg) (r1 r2 : nat) (t : R) (e : edge) (f : arr R) : arr R :=
  let q := q_center (qc c r1 r2) in
  let vel := broadcast_qp c (fst q) (snd q) (p1_center c) (p2_center c) (p3_center c)
               (if String.eqb (solver_method_in_q c) "FVM" then (fun s => C_q c s t) else (fun s => A_q c s t)) in
  let v1 := amap fst vel in
  let v2 := amap snd vel in
  let inflow := match e with
                | ELeft => amap (fun v => Rgtb v 0) v1
                | ERight => amap (fun v => Rltb v 0) v1
                | EBottom => amap (fun v => Rgtb v 0) v2
                | ETop => amap (fun v => Rltb v 0) v2
                end in
  let f_edge := aselect inflow (f_bc c e t (fst q) (snd q) f) f in
  set_ghost e (N_ghost c) f (get_ghost e (N_ghost c) f_edge).

(** ** Mirror: apply_mirror_bcs_f_cartesian, boundaries.py:227-311 *)
Definition flip_p_cartesian {A} (e : edge) (a : arr A) : arr A :=
  match e with ELeft | ERight => flip0 a | EBottom | ETop => flip1 a end.

Definition apply_mirror_bcs_f_cartesian (c : cfg) (r1 r2 : nat) (e : edge) (f : arr R) : arr R :=
  let g := N_ghost c in
  let f := set_ghost e g f (flip_normal e (get_inner e g f)) in
  set_ghost e g f
    (get_ghost e g (convert_to_q_expanded c r1 r2
                      (flip_p_cartesian e (convert_to_p_expanded c r1 r2 f)))).

(** apply_mirror_bcs_f_polar2D, boundaries.py:313-413.  The slices at N_theta/2
    are those of an even N_theta; ArrayFire truncates the float bounds. *)
Definition slice1 {A} (a : arr A) (lo hi : Z) : arr A :=
  Arr (d0 a) (slice_len (d1 a) lo hi) (d2 a) (d3 a)
      (fun i j k l => el a i (slice_bound (d1 a) lo + j) k l).

Definition flip_p_polar2D {A} (e : edge) (n_theta : Z) (a : arr A) : arr A :=
  match e with
  | ELeft | ERight => join1 (flip1 (slice1 a 0 (n_theta / 2)))
                            (flip1 (slice1 a (n_theta / 2) (d1 a)))
  | EBottom | ETop => flip1 a
  end.

Definition apply_mirror_bcs_f_polar2D (c : cfg) (r1 r2 : nat) (e : edge) (f : arr R) : arr R :=
  let g := N_ghost c in
  let f := set_ghost e g f (flip_normal e (get_inner e g f)) in
  set_ghost e g f
    (get_ghost e g (convert_to_q_expanded c r1 r2
                      (flip_p_polar2D e (N_p2 c) (convert_to_p_expanded c r1 r2 f)))).

(** ** Shearing box: apply_shearing_box_bcs_f, boundaries.py:6-145 *)

(** af.sum(cond) != 0 over a coordinate array of extents (1, 1, d2, d3). *)
Definition any (P : R -> bool) (a : arr R) : bool :=
  existsb (fun k => existsb (fun l => P (el a 0 0 k l)) (zrange 0 (Z.to_nat (d3 a)))) (zrange 0 (Z.to_nat (d2 a))).

(** while(af.sum(x > end) != 0): x = af.select(x > end, x - L, x); at most [fuel]
    iterations, None when more are needed. *)
Fixpoint while_above (fuel : nat) (q_end L : R) (x : arr R) : option (arr R) :=
  if any (fun v => Rgtb v q_end) x then
    match fuel with
    | O => None
    | S n => while_above n q_end L (amap (fun v => if Rgtb v q_end then (v - L)%R else v) x)
    end
  else Some x.

Fixpoint while_below (fuel : nat) (q_start L : R) (x : arr R) : option (arr R) :=
  if any (fun v => Rltb v q_start) x then
    match fuel with
    | O => None
    | S n => while_below n q_start L (amap (fun v => if Rltb v q_start then (v + L)%R else v) x)
    end
  else Some x.

Definition wrap_coordinates (fuel : nat) (q_start q_end L : R) (x : arr R) : option (arr R) :=
  match while_above fuel q_end L x with
  | Some y => while_below fuel q_start L y
  | None => None
  end.

(** The sheared coordinates of the four branches, lines 27, 54, 84, 113. *)
Definition sheared_coordinates (c : cfg) (r1 r2 : nat) (t : R) (e : edge) : arr R :=
  let '(q1, q2) := q_center (qc c r1 r2) in
  let g := N_ghost c in
  let L_q1 := (q1_end c - q1_start c)%R in
  let L_q2 := (q2_end c - q2_start c)%R in
  match e with
  | ELeft => amap (fun x => x - shear_q c * shear_omega c * L_q1 * t)%R (get_ghost ELeft g q2)
  | ERight => amap (fun x => x + shear_q c * shear_omega c * L_q1 * t)%R (get_ghost ERight g q2)
  | EBottom => amap (fun x => x - shear_q c * shear_omega c * L_q2 * t)%R (get_ghost EBottom g q1)
  | ETop => amap (fun x => x + shear_q c * shear_omega c * L_q2 * t)%R (get_ghost ETop g q1)
  end.

Definition wrapped_coordinates (c : cfg) (r1 r2 : nat) (t : R) (e : edge) : option (arr R) :=
  match e with
  | ELeft | ERight => wrap_coordinates (loop_fuel c) (q2_start c) (q2_end c)
                        (q2_end c - q2_start c) (sheared_coordinates c r1 r2 t e)
  | EBottom | ETop => wrap_coordinates (loop_fuel c) (q1_start c) (q1_end c)
                        (q1_end c - q1_start c) (sheared_coordinates c r1 r2 t e)
  end.

(** Running out of fuel stands for a loop that does not end. *)
Definition apply_shearing_box_bcs_f (c : cfg) (r1 r2 : nat) (t : R) (e : edge) (f : arr R)
    : res (arr R) :=
  let '(q1, q2) := q_center (qc c r1 r2) in
  let g := N_ghost c in
  let q1g := reorder2301 (get_ghost e g q1) in
  let q2g := reorder2301 (get_ghost e g q2) in
  match wrapped_coordinates c r1 r2 t e with
  | None => Err GenericException
  | Some x =>
      let xr := reorder2301 x in
      let '(pos0, pos1) := match e with ELeft | ERight => (q1g, xr) | EBottom | ETop => (xr, q2g) end in
      Ok (set_ghost e g f
            (reorder2301 (approx2 c (reorder2301 (get_ghost e g f)) pos0 pos1 q1g q2g)))
  end.

(** ** apply_bcs_f, boundaries.py:415-577 *)

Definition apply_mirror (c : cfg) (r1 r2 : nat) (e : edge) (f : arr R) : res (arr R) :=
  if String.eqb (p_space_grid c) "cartesian" then Ok (apply_mirror_bcs_f_cartesian c r1 r2 e f)
  else if String.eqb (p_space_grid c) "polar2D" then Ok (apply_mirror_bcs_f_polar2D c r1 r2 e f)
  else Err NotImplementedError.

(** One of the four if-blocks (lines 433-464, 467-497, 500-530, 533-563). *)
Definition apply_edge (c : cfg) (r1 r2 : nat) (t : R) (e : edge) (f : arr R) : res (arr R) :=
  let b := in_q c e in
  if String.eqb b "dirichlet" then Ok (apply_dirichlet_bcs_f c r1 r2 t e f)
  else if String.eqb b "mirror" then apply_mirror c r1 r2 e f
  else if String.eqb b "mirror+dirichlet" then
    let? f := apply_mirror c r1 r2 e f in Ok (apply_dirichlet_bcs_f c r1 r2 t e f)
  else if String.eqb b "periodic" || String.eqb b "none" then Ok f
  else if String.eqb b "shearing-box" then apply_shearing_box_bcs_f c r1 r2 t e f
  else Err NotImplementedError.

(** Whether the rank's zone includes that edge of the domain (lines 426-430 and
    the four conditions). *)
Definition touches (L : layout) (r1 r2 : nat) (e : edge) : bool :=
  match e with
  | ELeft => off (blk1 L) r1 =? 0
  | ERight => off (blk1 L) r1 + bsize (blk1 L) r1 - 1 =? gN1 L - 1
  | EBottom => off (blk2 L) r2 =? 0
  | ETop => off (blk2 L) r2 + bsize (blk2 L) r2 - 1 =? gN2 L - 1
  end.

Definition maybe_edge (c : cfg) (r1 r2 : nat) (t : R) (e : edge) (f : arr R) : res (arr R) :=
  if touches (lay c) r1 r2 e then apply_edge c r1 r2 t e f else Ok f.

Definition apply_bcs_f (c : cfg) (r1 r2 : nat) (t : R) (f : arr R) : res (arr R) :=
  let? f := maybe_edge c r1 r2 t ELeft f in
  let? f := maybe_edge c r1 r2 t ERight f in
  let? f := maybe_edge c r1 r2 t EBottom f in
  maybe_edge c r1 r2 t ETop f.
