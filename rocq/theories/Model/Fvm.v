(** Finite-volume right-hand side and time step.
    Models /repo/bolt/lib/nonlinear/finite_volume/{df_dt_fvm,fvm_operator}.py. *)
From Coq Require Import ZArith Reals String List Bool.
From Verif Require Import Base.Prelude Model.Af Model.Grid Model.Petsc Model.Config
  Model.Reconstruct Model.Boundaries.
Local Open Scope R_scope.

(** ** q-space part, df_dt_fvm.py:56-97, on rank (r1, r2).  Returns
    (df_dt, f_left, f_bot); f_left and f_bot are used later for the currents. *)

(** Lines 67-79. *)
Definition face_velocity_q1 (c : cfg) (r1 r2 : nat) (t : R) : arr R :=
  let q := q_left_center (qc c r1 r2) in
  amap fst (broadcast_qp c (fst q) (snd q) (p1_center c) (p2_center c) (p3_center c) (fun s => C_q c s t)).
Definition face_velocity_q2 (c : cfg) (r1 r2 : nat) (t : R) : arr R :=
  let q := q_center_bot (qc c r1 r2) in
  amap snd (broadcast_qp c (fst q) (snd q) (p1_center c) (p2_center c) (p3_center c) (fun s => C_q c s t)).

(** Source term at every cell, lines 91-97. *)
Definition source_term (c : cfg) (r1 r2 : nat) (t : R) (f : arr R) : arr R :=
  let q := q_center (qc c r1 r2) in
  Arr (d0 f) (d1 f) (d2 f) (d3 f)
      (fun x s i j => source c t (bel (fst q) x s i j) (bel (snd q) x s i j)
                             (fun x' s' => el f x' s' i j) x s).

Definition df_dt_q (c : cfg) (r1 r2 : nat) (t : R) (f : arr R) : res (arr R * arr R * arr R) :=
  let? (f_left_plus_eps, f_right_minus_eps) := reconstruct f Ax2 (reconstruction_method_in_q c) in
  let? (f_bot_plus_eps, f_top_minus_eps) := reconstruct f Ax3 (reconstruction_method_in_q c) in
  let f_left_minus_eps := shift f_right_minus_eps 0 0 1 0 in
  let f_bot_minus_eps := shift f_top_minus_eps 0 0 0 1 in
  let C_q1 := face_velocity_q1 c r1 r2 t in
  let C_q2 := face_velocity_q2 c r1 r2 t in
  let f_left := riemann_solver f_left_minus_eps f_left_plus_eps C_q1 in
  let f_bot := riemann_solver f_bot_minus_eps f_bot_plus_eps C_q2 in
  let left_flux := bcast2 Rmult C_q1 f_left in
  let bot_flux := bcast2 Rmult C_q2 f_bot in
  let right_flux := shift left_flux 0 0 (-1) 0 in
  let top_flux := shift bot_flux 0 0 0 (-1) in
  let df_dt := amap2 (fun a b => - a / dq1 c - b / dq2 c)
                     (right_flux [-] left_flux) (top_flux [-] bot_flux) in
  let df_dt := if source_enabled c then df_dt [+] source_term c r1 r2 t f else df_dt in
  Ok (df_dt, f_left, f_bot).

(** ** p-space part, df_dt_fvm.py:263-323.  [E] holds the six cell-centred fields
    as an array of extents (6, 1, N_q1, N_q2). *)

(** Lines 263-279: C_p at the three kinds of momentum faces. *)
Definition force (c : cfg) (r1 r2 : nat) (t : R) (E : arr R) (p1 p2 p3 : arr R)
    (pick : R * R * R -> R) : arr R :=
  let q := q_center (qc c r1 r2) in
  Arr (N_p c) (N_species c) (n1g (lay c) r1) (n2g (lay c) r2)
      (fun x s i j => pick (C_p c s t (bel (fst q) x s i j) (bel (snd q) x s i j)
                                (bel p1 x s i j) (bel p2 x s i j) (bel p3 x s i j)
                                (el E 0 0 i j) (el E 1 0 i j) (el E 2 0 i j)
                                (el E 3 0 i j) (el E 4 0 i j) (el E 5 0 i j))).

Definition force_p1 c r1 r2 t E :=
  force c r1 r2 t E (p1_left c) (p2_center c) (p3_center c) (fun u => fst (fst u)).
Definition force_p2 c r1 r2 t E :=
  force c r1 r2 t E (p1_center c) (p2_bottom c) (p3_center c) (fun u => snd (fst u)).
Definition force_p3 c r1 r2 t E :=
  force c r1 r2 t E (p1_center c) (p2_center c) (p3_back c) snd.

(** The three flux differences, lines 281-321, for forces [C1], [C2], [C3] in
    q-expanded form. *)
Definition dp_arr (l : list R) : arr R :=
  Arr 1 (Z.of_nat (List.length l)) 1 1 (fun _ s _ _ => nth (Z.to_nat s) l 0).

Definition d_flux_p (c : cfg) (r1 r2 : nat) (x : axis) (dp : list R) (C f : arr R) : res (arr R) :=
  let C := convert_to_p_expanded c r1 r2 C in
  let f := convert_to_p_expanded c r1 r2 f in
  let? (f_plus_eps, f_minus_eps) := reconstruct f x (reconstruction_method_in_p c) in
  let f_minus_eps := shift_ax f_minus_eps x 1 in
  let f_face := riemann_solver f_minus_eps f_plus_eps C in
  let flux := bcast2 Rmult C f_face in
  let flux_next := shift_ax flux x (-1) in
  let flux := convert_to_q_expanded c r1 r2 flux in
  let flux_next := convert_to_q_expanded c r1 r2 flux_next in
  Ok (bcast2 Rmult (flux_next [-] flux) (amap (fun h => 1 / h) (dp_arr dp))).

Definition df_dt_p (c : cfg) (r1 r2 : nat) (C1 C2 C3 f : arr R) : res (arr R) :=
  let? d1 := d_flux_p c r1 r2 Ax0 (dp1 c) C1 f in
  let? d2 := d_flux_p c r1 r2 Ax1 (dp2 c) C2 f in
  let? d3 := d_flux_p c r1 r2 Ax2 (dp3 c) C3 f in
  Ok (amap Ropp (d1 [+] d2 [+] d3)).

(** ** df_dt_fvm, df_dt_fvm.py:36-339, for term_to_return = 'all', with the fields
    the field solver hands out.  The field update itself is in the field models;
    [E] is what get_fields returns to the three calls of C_p.  Python's 0 for
    df_dt is the zero array. *)
Definition azero (f : arr R) : arr R := amap (fun _ => 0) f.

Definition df_dt_fvm (c : cfg) (r1 r2 : nat) (t : R) (E1 E2 E3 f : arr R) : res (arr R) :=
  let? dq := (if String.eqb (solver_method_in_q c) "FVM"
              then let? (d, _, _) := df_dt_q c r1 r2 t f in Ok d
              else Ok (azero f)) in
  if String.eqb (solver_method_in_p c) "FVM" && fields_enabled c then
    let? dp := df_dt_p c r1 r2 (force_p1 c r1 r2 t E1) (force_p2 c r1 r2 t E2)
                       (force_p3 c r1 r2 t E3) f in
    Ok (dq [+] dp)
  else Ok dq.

(** ** All ranks in lockstep *)

Definition ranks (L : layout) : list (nat * nat) :=
  list_prod (seq 0 (List.length (blk1 L))) (seq 0 (List.length (blk2 L))).

Definition dummy : arr R := Arr 0 0 0 0 (fun _ _ _ _ => 0).

(** Each rank computes; if any raises, the run stops. *)
Definition all_ranks (L : layout) (F : nat -> nat -> res (arr R)) : res (dist R) :=
  fold_right (fun r k => match F (fst r) (snd r) with Ok _ => k | Err e => Err e end)
    (Ok (fun r1 r2 => match F r1 r2 with Ok a => a | Err _ => dummy end)) (ranks L).

(** Distribution function and local PETSc buffers of all ranks. *)
Record fstate : Type := FState { sf : dist R; sbuf : nat -> nat -> Z -> R }.

(** _communicate_f on all ranks, nonlinear/communicate.py:8-38. *)
Definition communicate_f (c : cfg) (s : fstate) : fstate :=
  let F := communicate (lay c) (N_p c) (N_species c) (sbuf s) (sf s) in
  FState F (fun r1 r2 => flat (F r1 r2)).

(** The field values C_p sees in the first and second evaluation, per rank and
    per momentum axis. *)
Definition fieldseq : Type := nat -> nat -> arr R * arr R * arr R.

(** timestep_fvm, fvm_operator.py:6-35.  [E0] and [Eh] are the fields seen by the
    two evaluations of df_dt. *)
Definition timestep_fvm (c : cfg) (t dt : R) (E0 Eh : fieldseq) (s : fstate) : res fstate :=
  let L := lay c in
  let s := communicate_f c s in
  let? f_initial := all_ranks L (fun r1 r2 => apply_bcs_f c r1 r2 t (sf s r1 r2)) in
  let? fh := all_ranks L (fun r1 r2 =>
      let '(a1, a2, a3) := E0 r1 r2 in
      let? d := df_dt_fvm c r1 r2 t a1 a2 a3 (f_initial r1 r2) in
      Ok (amap2 (fun f d => f + d * (dt / 2)) (f_initial r1 r2) d)) in
  let s := communicate_f c (FState fh (sbuf s)) in
  let? fh := all_ranks L (fun r1 r2 => apply_bcs_f c r1 r2 t (sf s r1 r2)) in
  let? f1 := all_ranks L (fun r1 r2 =>
      let '(a1, a2, a3) := Eh r1 r2 in
      let? d := df_dt_fvm c r1 r2 t a1 a2 a3 (fh r1 r2) in
      Ok (amap2 (fun f d => f + d * dt) (f_initial r1 r2) d)) in
  Ok (FState f1 (sbuf s)).
