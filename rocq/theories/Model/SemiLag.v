(** Semi-Lagrangian interpolation.  Models
    /repo/bolt/lib/nonlinear/semi_lagrangian/interpolation_routines.py, on rank
    (r1, r2). *)
From Coq Require Import ZArith Reals String List Bool.
From Verif Require Import Base.Prelude Model.Af Model.Grid Model.Petsc Model.Config
  Model.Boundaries Model.Fvm.
Local Open Scope R_scope.

(** af.reorder(a, 2, 3, 1, 0), af.reorder(a, 3, 2, 0, 1), af.reorder(a, 1, 2, 0, 3),
    af.reorder(a, 2, 0, 1, 3): result axis m is the source axis at place m. *)
Definition reorder2310 {A} (a : arr A) : arr A :=
  Arr (d2 a) (d3 a) (d1 a) (d0 a) (fun i j k l => el a l k i j).
Definition reorder3201 {A} (a : arr A) : arr A :=
  Arr (d3 a) (d2 a) (d0 a) (d1 a) (fun i j k l => el a k l j i).
Definition reorder1203 {A} (a : arr A) : arr A :=
  Arr (d1 a) (d2 a) (d0 a) (d3 a) (fun i j k l => el a k i j l).
Definition reorder2013 {A} (a : arr A) : arr A :=
  Arr (d2 a) (d0 a) (d1 a) (d3 a) (fun i j k l => el a j k i l).

(** f_interp_2d, lines 9-58. *)
Definition f_interp_2d (c : cfg) (r1 r2 : nat) (t dt : R) (f : arr R) : arr R :=
  let q := q_center (qc c r1 r2) in
  let A := broadcast_qp c (fst q) (snd q) (p1_center c) (p2_center c) (p3_center c) (fun s => A_q c s t) in
  let q1_center_new := bcast2 Rplus (fst q) (amap (fun a => - fst a * dt) A) in
  let q2_center_new := bcast2 Rplus (snd q) (amap (fun a => - snd a * dt) A) in
  reorder3201 (approx2 c (reorder2310 f) (reorder2310 q1_center_new) (reorder2310 q2_center_new)
                       (reorder2310 (fst q)) (reorder2310 (snd q))).

(** The velocities A_p at one kind of momentum position, lines 82-98; [E] is what
    get_fields returns to that call.  A_p1 is computed and never used. *)
Definition velocity_p (c : cfg) (r1 r2 : nat) (t : R) (E : arr R) (p1 p2 p3 : arr R)
    (pick : R * R * R -> R) : arr R :=
  let q := q_center (qc c r1 r2) in
  Arr (N_p c) (N_species c) (n1g (lay c) r1) (n2g (lay c) r2)
      (fun x s i j => pick (A_p c s t (bel (fst q) x s i j) (bel (snd q) x s i j)
                                (bel p1 x s i j) (bel p2 x s i j) (bel p3 x s i j)
                                (el E 0 0 i j) (el E 1 0 i j) (el E 2 0 i j)
                                (el E 3 0 i j) (el E 4 0 i j) (el E 5 0 i j))).
Definition velocity_p2 c r1 r2 t E :=
  velocity_p c r1 r2 t E (p1_center c) (p2_bottom c) (p3_center c) (fun u => snd (fst u)).
Definition velocity_p3 c r1 r2 t E :=
  velocity_p c r1 r2 t E (p1_center c) (p2_center c) (p3_back c) snd.

(** af.broadcast of a p-expanded array with one of extents (1, N_s): ArrayFire
    broadcasts two extents that agree or of which one is 1, and raises otherwise. *)
Definition bcompat (m n : Z) : bool := ((m =? n) || (m =? 1) || (n =? 1))%Z%bool.
Definition bcast_species (g : R -> R -> R) (a w : arr R) : res (arr R) :=
  if bcompat (d1 a) (d1 w) then Ok (bcast2 g a w) else Err ValueError.

(** Lines 158-174: position in units of cells, counted from the first centre. *)
Definition interpolant (c : cfg) (r1 r2 : nat) (p_new : arr R) (start dp : list R) : res (arr R) :=
  let p_new := convert_to_p_expanded c r1 r2 p_new in
  let lower := bcast2 Rplus (dp_arr start) (amap (Rmult 0.5) (dp_arr dp)) in
  let? x := bcast_species (fun p b => p + - b) p_new lower in
  bcast_species Rmult x (amap (fun h => 1 / h) (dp_arr dp)).

(** f_interp_p_3d, lines 60-195, without the dead lines 100-153.  [approx] is
    af.approx2 with bicubic splines, without xp and yp; [E2] and [E3] are the
    fields seen by the second and third call of A_p. *)
Definition f_interp_p_3d (c : cfg) (approx : arr R -> arr R -> arr R -> arr R)
    (r1 r2 : nat) (t dt : R) (E2 E3 f : arr R) : res (arr R) :=
  let A_p2 := velocity_p2 c r1 r2 t E2 in
  let A_p3 := velocity_p3 c r1 r2 t E3 in
  let p2_new := bcast2 Rplus (p2_center c) (amap (fun a => - dt * a) A_p2) in
  let p3_new := bcast2 Rplus (p3_center c) (amap (fun a => - dt * a) A_p3) in
  let? p2_interpolant := interpolant c r1 r2 p2_new (p2_start c) (dp2 c) in
  let? p3_interpolant := interpolant c r1 r2 p3_new (p3_start c) (dp3 c) in
  let f := convert_to_p_expanded c r1 r2 f in
  let f := approx (reorder1203 f) (reorder1203 p2_interpolant) (reorder1203 p3_interpolant) in
  Ok (convert_to_q_expanded c r1 r2 (reorder2013 f)).
