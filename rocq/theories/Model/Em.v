(** The electromagnetic fields of the nonlinear solver.
    Models /repo/bolt/lib/nonlinear/fields/fields.py, fields/boundaries.py,
    fields/electrodynamic/fdtd_explicit.py and communicate_fields of
    /repo/bolt/lib/nonlinear/communicate.py.

    The solver keeps four attributes that refer to mutable arrays.  They are
    modelled as locations in a heap, so that two attributes bound to the same
    Python object share their content.  All ranks run the same statements, so a
    location holds the arrays of all ranks. *)
From Coq Require Import ZArith Reals String List Bool.
From Verif Require Import Base.Prelude Base.ZSum Model.Af Model.Grid Model.Petsc Model.Config
  Model.Boundaries Model.Fvm Model.Fft.
Local Open Scope R_scope.

Definition dmap {A B} (f : arr A -> arr B) (F : dist A) : dist B := fun r1 r2 => f (F r1 r2).
Definition dmap2 {A B C} (f : arr A -> arr B -> arr C) (F : dist A) (G : dist B) : dist C :=
  fun r1 r2 => f (F r1 r2) (G r1 r2).

(** ** Configuration of the field solver (fields.py:102-278). *)
Record fcfg : Type := FCfg {
  flay : layout;                 (* _da_fields *)
  fN_g : Z;                      (* N_g = N_ghost *)
  fq1_start : R; fq2_start : R; fdq1 : R; fdq2 : R;
  eps : R; mu : R;
  fin_q : edge -> string;        (* boundary_conditions.in_q1_left, ... *)
  em_bc : nat -> nat -> edge -> Z -> R -> arr R -> arr R;
      (* E1_left ... B3_top on rank (r1, r2): component, time, current array *)
  fields_solver : string; fields_initialize : string;
  method_in_p : string;          (* params.solver_method_in_p *)
  hybrid : bool;                 (* params.hybrid_model_enabled *)
  init_E : option (R -> R -> R * R * R);
  init_A_phi : option (R -> R -> R * R * R * R);
  init_B : option (R -> R -> R * R * R);
  init_A : option (R -> R -> R * R * R);
  init_A3_B3 : option (R -> R -> R * R) }.

(** DMDA boundary type and ghost zones of an axis, fields.py:127-153: unlike for
    f, a mirror axis is 'periodic'. *)
Definition fields_axis_type (lo : string) (n_ghost : Z) : pbc * Z :=
  if String.eqb lo "none" then (PNone, 0%Z)
  else if String.eqb lo "periodic" || String.eqb lo "shearing-box" || String.eqb lo "mirror"
  then (PPeriodic, n_ghost)
  else (PGhosted, n_ghost).

Definition comm_size (c : fcfg) : nat := length (blk1 (flay c)) * length (blk2 (flay c)).

(** ** State *)
Record em : Type := Em {
  mem : nat -> dist R;     (* the heap *)
  next : nat;              (* first location never used *)
  cc : nat;                (* cell_centered_EM_fields *)
  yee : nat;               (* yee_grid_EM_fields *)
  cc_n : nat;              (* cell_centered_EM_fields_at_n *)
  cc_nh : nat;             (* cell_centered_EM_fields_at_n_plus_half *)
  at_n : bool;
  fbuf : nat -> nat -> Z -> R;   (* _local_fields_array *)
  ftime : R }.             (* time_elapsed of the field solver *)

Definition write (l : nat) (v : dist R) (s : em) : em :=
  Em (fun x => if Nat.eqb x l then v else mem s x) (next s) (cc s) (yee s) (cc_n s) (cc_nh s)
     (at_n s) (fbuf s) (ftime s).

(** self.attr = fresh array *)
Definition bind_yee (v : dist R) (s : em) : em :=
  let s := write (next s) v s in
  Em (mem s) (S (next s)) (cc s) (next s) (cc_n s) (cc_nh s) (at_n s) (fbuf s) (ftime s).
Definition bind_cc (v : dist R) (s : em) : em :=
  let s := write (next s) v s in
  Em (mem s) (S (next s)) (next s) (yee s) (cc_n s) (cc_nh s) (at_n s) (fbuf s) (ftime s).

Definition set_fbuf (b : nat -> nat -> Z -> R) (s : em) : em :=
  Em (mem s) (next s) (cc s) (yee s) (cc_n s) (cc_nh s) (at_n s) b (ftime s).
Definition set_at_n (b : bool) (s : em) : em :=
  Em (mem s) (next s) (cc s) (yee s) (cc_n s) (cc_nh s) b (fbuf s) (ftime s).
Definition set_ftime (t : R) (s : em) : em :=
  Em (mem s) (next s) (cc s) (yee s) (cc_n s) (cc_nh s) (at_n s) (fbuf s) t.

Definition cc_val (s : em) : dist R := mem s (cc s).
Definition yee_val (s : em) : dist R := mem s (yee s).

(** ** Indexing along axis 0: a[k], a[lo:hi], a[k] = v, a[lo:hi] = v. *)
Definition row (k : Z) (a : arr R) : arr R :=
  Arr 1 (d1 a) (d2 a) (d3 a) (fun _ s i j => el a k s i j).
Definition rows (lo hi : Z) (a : arr R) : arr R :=
  Arr (hi - lo) (d1 a) (d2 a) (d3 a) (fun x s i j => el a (lo + x)%Z s i j).
Definition set_row (k : Z) (v a : arr R) : arr R :=
  Arr (d0 a) (d1 a) (d2 a) (d3 a)
      (fun x s i j => if (x =? k)%Z then el v 0%Z s i j else el a x s i j).
Definition set_rows (lo hi : Z) (v a : arr R) : arr R :=
  Arr (d0 a) (d1 a) (d2 a) (d3 a)
      (fun x s i j => if ((lo <=? x) && (x <? hi))%Z%bool then el v (x - lo)%Z s i j else el a x s i j).

Definition join3 (a b c : arr R) : arr R := join0 (join0 a b) c.
Definition adiv (a : arr R) (c : R) : arr R := amap (fun x => x / c) a.
Definition aneg (a : arr R) : arr R := amap Ropp a.

(** ** communicate_fields, communicate.py:40-77: the attribute is rebound. *)
Definition communicate_fields (c : fcfg) (on_yee : bool) (s : em) : em :=
  let F := communicate (flay c) 6 1 (fbuf s) (if on_yee then yee_val s else cc_val s) in
  let s := set_fbuf (fun r1 r2 => flat (F r1 r2)) s in
  if on_yee then bind_yee F s else bind_cc F s.

(** ** Boundary conditions, fields/boundaries.py *)

(** apply_dirichlet_bcs_fields, 212-417. *)
Definition dirichlet_fields (c : fcfg) (r1 r2 : nat) (t : R) (e : edge) (a : arr R) : arr R :=
  let v k := get_ghost e (fN_g c) (em_bc c r1 r2 e k t (row k a)) in
  set_ghost e (fN_g c) a
    (join0 (join3 (v 0%Z) (v 1%Z) (v 2%Z)) (join3 (v 3%Z) (v 4%Z) (v 5%Z))).

(** apply_mirror_bcs_fields, 419-567: on the cell-centred grid all components are
    reflected; on the Yee grid components 1 and 2 at the left and right walls,
    components 0 and 2 at the bottom and top walls. *)
Definition mirror_row (c : fcfg) (e : edge) (k : Z) (a : arr R) : arr R :=
  let r := row k a in
  set_row k (set_ghost e (fN_g c) r (flip_normal e (get_inner e (fN_g c) r))) a.

Definition mirror_fields (c : fcfg) (on_yee : bool) (e : edge) (a : arr R) : arr R :=
  if on_yee then
    match e with
    | ELeft | ERight => mirror_row c e 2 (mirror_row c e 1 a)
    | EBottom | ETop => mirror_row c e 2 (mirror_row c e 0 a)
    end
  else set_ghost e (fN_g c) a (flip_normal e (get_inner e (fN_g c) a)).

(** apply_bcs_fields, 569-691, one edge.  apply_shearing_box_bcs_fields (6-210)
    reads self.q1_end or self.q2_end first, attributes the field solver does not
    have. *)
Definition edge_fields (c : fcfg) (on_yee : bool) (r1 r2 : nat) (t : R) (e : edge) (a : arr R)
    : res (arr R) :=
  let b := fin_q c e in
  if String.eqb b "dirichlet" then Ok (dirichlet_fields c r1 r2 t e a)
  else if String.eqb b "mirror" then Ok (mirror_fields c on_yee e a)
  else if String.eqb b "mirror+dirichlet" then
    Ok (dirichlet_fields c r1 r2 t e (mirror_fields c on_yee e a))
  else if String.eqb b "periodic" || String.eqb b "none" then Ok a
  else if String.eqb b "shearing-box" then Err AttributeError
  else Err NotImplementedError.

Definition maybe_edge_fields (c : fcfg) (on_yee : bool) (r1 r2 : nat) (t : R) (e : edge) (a : arr R)
    : res (arr R) :=
  if touches (flay c) r1 r2 e then edge_fields c on_yee r1 r2 t e a else Ok a.

Definition bcs_fields_rank (c : fcfg) (on_yee : bool) (t : R) (r1 r2 : nat) (a : arr R) : res (arr R) :=
  let? a := maybe_edge_fields c on_yee r1 r2 t ELeft a in
  let? a := maybe_edge_fields c on_yee r1 r2 t ERight a in
  let? a := maybe_edge_fields c on_yee r1 r2 t EBottom a in
  maybe_edge_fields c on_yee r1 r2 t ETop a.

(** The boundary routines assign to slices: the attribute keeps its location. *)
Definition apply_bcs_fields (c : fcfg) (on_yee : bool) (s : em) : res em :=
  let l := if on_yee then yee s else cc s in
  let? F := all_ranks (flay c) (fun r1 r2 => bcs_fields_rank c on_yee (ftime s) r1 r2 (mem s l r1 r2)) in
  Ok (write l F s).

(** ** FDTD, fields/electrodynamic/fdtd_explicit.py *)

(** Lines 29-51: curl of B at the positions of E. *)
Definition curlB (c : fcfg) (a : arr R) : arr R * arr R * arr R :=
  let B1 := row 3 a in
  let B2 := row 4 a in
  let B3 := row 5 a in
  let B1_plus_q2 := shift B1 0 0 0 (-1) in
  let B2_plus_q1 := shift B2 0 0 (-1) 0 in
  let B3_plus_q1 := shift B3 0 0 (-1) 0 in
  let B3_plus_q2 := shift B3 0 0 0 (-1) in
  (adiv (B3_plus_q2 [-] B3) (fdq2 c),
   adiv (aneg (B3_plus_q1 [-] B3)) (fdq1 c),
   adiv (B2_plus_q1 [-] B2) (fdq1 c) [-] adiv (B1_plus_q2 [-] B1) (fdq2 c)).

(** af.mean(af.abs(x)) over the rank's whole array. *)
Definition mean_abs (a : arr R) : R :=
  zsum (d0 a) (fun i => zsum (d1 a) (fun j => zsum (d2 a) (fun k => zsum (d3 a) (fun l =>
    Rabs (el a i j k l))))) / (IZR (d0 a) * IZR (d1 a) * IZR (d2 a) * IZR (d3 a)).

Definition currents : Type := (dist R * dist R * dist R)%type.

(** fdtd_evolve_E, 9-82.  [J] are the summed currents self.J1, J2, J3.  In hybrid
    mode the electric field is left alone and J = curl B / mu is asserted. *)
Definition evolve_E_rank (c : fcfg) (dt : R) (J1 J2 J3 : arr R) (a : arr R) : res (arr R) :=
  let '(cB1, cB2, cB3) := curlB c a in
  if hybrid c then
    let ok J cB := Rltb (mean_abs (J [-] adiv cB (mu c))) (/ 10 ^ 14) in
    if ok J1 cB1 && ok J2 cB2 && ok J3 cB3 then Ok a else Err AssertionError
  else
    let inc cB J := ascale (dt / (mu c * eps c)) cB [-] adiv (amap (fun x => x * dt) J) (eps c) in
    let a := set_row 0 (row 0 a [+] inc cB1 J1) a in
    let a := set_row 1 (row 1 a [+] inc cB2 J2) a in
    Ok (set_row 2 (row 2 a [+] inc cB3 J3) a).

(** fdtd_evolve_B, 84-138 *)
Definition evolve_B_rank (c : fcfg) (dt : R) (a : arr R) : arr R :=
  let E1 := row 0 a in
  let E2 := row 1 a in
  let E3 := row 2 a in
  let E1_minus_q2 := shift E1 0 0 0 1 in
  let E2_minus_q1 := shift E2 0 0 1 0 in
  let E3_minus_q1 := shift E3 0 0 1 0 in
  let E3_minus_q2 := shift E3 0 0 0 1 in
  let cE1 := adiv (E3 [-] E3_minus_q2) (fdq2 c) in
  let cE2 := adiv (aneg (E3 [-] E3_minus_q1)) (fdq1 c) in
  let cE3 := adiv (E2 [-] E2_minus_q1) (fdq1 c) [-] adiv (E1 [-] E1_minus_q2) (fdq2 c) in
  let a := set_row 3 (row 3 a [+] ascale (- dt) cE1) a in
  let a := set_row 4 (row 4 a [+] ascale (- dt) cE2) a in
  set_row 5 (row 5 a [+] ascale (- dt) cE3) a.

(** fdtd, 141-177 *)
Definition fdtd (c : fcfg) (dt : R) (J : currents) (s : em) : res em :=
  let '(J1, J2, J3) := J in
  let s := communicate_fields c true s in
  let? s := apply_bcs_fields c true s in
  let? F := all_ranks (flay c) (fun r1 r2 =>
              evolve_E_rank c dt (J1 r1 r2) (J2 r1 r2) (J3 r1 r2) (yee_val s r1 r2)) in
  let s := write (yee s) F s in
  let s := communicate_fields c true s in
  let? s := apply_bcs_fields c true s in
  Ok (write (yee s) (dmap (evolve_B_rank c dt) (yee_val s)) s).

(** ** Interpolation between the grids, fields.py:497-557 *)
Definition mean2 (a b : arr R) : arr R := ascale (1/2) (a [+] b).
Definition mean4 (a b c d : arr R) : arr R := ascale (1/4) (a [+] b [+] c [+] d).

Inductive which : Type := OnlyE | OnlyB | Both.
Definition does_E (w : which) : bool := match w with OnlyB => false | _ => true end.
Definition does_B (w : which) : bool := match w with OnlyE => false | _ => true end.

(** cell_centered_grid_to_yee_grid, 497-525: [a] cell-centred, [y] the Yee array
    that is written. *)
Definition cc_to_yee_rank (w : which) (a y : arr R) : arr R :=
  let E k := row k a in
  let y := if does_E w then
      let y := set_row 0 (mean2 (E 0%Z) (shift (E 0%Z) 0 0 1 0)) y in
      let y := set_row 1 (mean2 (E 1%Z) (shift (E 1%Z) 0 0 0 1)) y in
      set_row 2 (E 2%Z) y
    else y in
  if does_B w then
      let y := set_row 3 (mean2 (E 3%Z) (shift (E 3%Z) 0 0 0 1)) y in
      let y := set_row 4 (mean2 (E 4%Z) (shift (E 4%Z) 0 0 1 0)) y in
      set_row 5 (mean4 (E 5%Z) (shift (E 5%Z) 0 0 1 0) (shift (E 5%Z) 0 0 0 1) (shift (E 5%Z) 0 0 1 1)) y
    else y.

(** yee_grid_to_cell_centered_grid, 527-557: [y] on the Yee grid, [a] the
    cell-centred array that is written. *)
Definition yee_to_cc_rank (w : which) (y a : arr R) : arr R :=
  let E k := row k y in
  let a := if does_E w then
      let a := set_row 0 (mean2 (E 0%Z) (shift (E 0%Z) 0 0 (-1) 0)) a in
      let a := set_row 1 (mean2 (E 1%Z) (shift (E 1%Z) 0 0 0 (-1))) a in
      set_row 2 (E 2%Z) a
    else a in
  if does_B w then
      let a := set_row 3 (mean2 (E 3%Z) (shift (E 3%Z) 0 0 0 (-1))) a in
      let a := set_row 4 (mean2 (E 4%Z) (shift (E 4%Z) 0 0 (-1) 0)) a in
      set_row 5 (mean4 (E 5%Z) (shift (E 5%Z) 0 0 0 (-1)) (shift (E 5%Z) 0 0 (-1) 0)
                       (shift (E 5%Z) 0 0 (-1) (-1))) a
    else a.

Definition cell_centered_grid_to_yee_grid (w : which) (s : em) : em :=
  write (yee s) (dmap2 (cc_to_yee_rank w) (cc_val s) (yee_val s)) s.
Definition yee_grid_to_cell_centered_grid (w : which) (s : em) : em :=
  write (cc s) (dmap2 (yee_to_cc_rank w) (yee_val s) (cc_val s)) s.

(** ** evolve_electrodynamic_fields, fields.py:568-647.  The arguments are the
    currents per species (axis 1). *)
Definition evolve_electrodynamic_fields (c : fcfg) (J1 J2 J3 : dist R) (dt : R) (s : em) : res em :=
  let J := (dmap asum1 J1, dmap asum1 J2, dmap asum1 J3) in
  let E_at_n := dmap (rows 0 3) (cc_val s) in
  let s := write (cc_n s) (dmap2 (set_rows 0 3) E_at_n (mem s (cc_n s))) s in
  let B_at_n_minus_half := dmap (rows 3 6) (mem s (cc_nh s)) in
  let B_at_n_plus_half := dmap (rows 3 6) (cc_val s) in
  let B_at_n := dmap2 mean2 B_at_n_minus_half B_at_n_plus_half in
  let s := write (cc_n s) (dmap2 (set_rows 3 6) B_at_n (mem s (cc_n s))) s in
  let s := write (cc_nh s) (dmap2 (set_rows 3 6) B_at_n_plus_half (mem s (cc_nh s))) s in
  let? s := fdtd c dt J s in
  let s := yee_grid_to_cell_centered_grid Both s in
  let E_at_n_plus_one := dmap (rows 0 3) (cc_val s) in
  let E_at_n_plus_half := dmap2 mean2 E_at_n E_at_n_plus_one in
  let s := write (cc_nh s) (dmap2 (set_rows 0 3) E_at_n_plus_half (mem s (cc_nh s))) s in
  Ok (set_ftime (ftime s + dt) s).

(** ** get_fields, fields.py:649-690: the six returned arrays (rows of one
    array), and the state afterwards. *)
Definition get_fields (c : fcfg) (s : em) : dist R * em :=
  let F := if negb (String.eqb (fields_solver c) "fdtd") then cc_val s
           else if at_n s then mem s (cc_n s) else mem s (cc_nh s) in
  (F, if String.eqb (method_in_p c) "FVM" then set_at_n (negb (at_n s)) s else s).

(** ** Electrostatics: fft_poisson (fft.py:9-78) and compute_electrostatic_fields
    (fields.py:559-566). *)
Definition set_interior (g : Z) (a v : arr R) : arr R := set_slice23 a g (- g) g (- g) v.

Definition fft_poisson (c : fcfg) (rho : dist R) (s : em) : res em :=
  if negb (Nat.eqb (comm_size c) 1) then Err GenericException
  else
    let F := dmap2 (fun r a =>
        let '(E1, E2) := fft_poisson_E (fN_g c) (fdq1 c) (fdq2 c) (eps c) r in
        let a := set_row 0 (set_interior (fN_g c) (row 0 a) E1) a in
        set_row 1 (set_interior (fN_g c) (row 1 a) E2) a) rho (cc_val s) in
    Ok (write (cc s) F s).

Definition electrostatic_update (c : fcfg) (rho : dist R) (s : em) : res em :=
  let? s := fft_poisson c rho s in
  apply_bcs_fields c false (communicate_fields c false s).

Definition compute_electrostatic_fields (c : fcfg) (rho : dist R) (s : em) : res em :=
  if String.eqb (fields_solver c) "fft" then electrostatic_update c (dmap asum1 rho) s else Ok s.

(** ** Initial fields, fields.py:280-495.  A user function is applied to
    coordinate arrays element by element. *)
Definition fq (c : fcfg) (r1 r2 : nat) : qcoords :=
  let L := flay c in
  calculate_q (fq1_start c + IZR (off (blk1 L) r1) * fdq1 c)
              (fq2_start c + IZR (off (blk2 L) r2) * fdq2 c)
              (bsize (blk1 L) r1) (bsize (blk2 L) r2) (ng1 L) (ng2 L) (fdq1 c) (fdq2 c).

Definition sample (g : R -> R -> R) (q : arr R * arr R) : arr R := amap2 g (fst q) (snd q).

(** initialize_electric_fields, 280-338: the three arrays that are joined. *)
Definition initial_E_rank (c : fcfg) (r1 r2 : nat) : res (arr R * arr R * arr R) :=
  let q := fq c r1 r2 in
  match init_E c, init_A_phi c with
  | Some E, _ =>
      Ok (sample (fun x y => fst (fst (E x y))) (q_left_center q),
          sample (fun x y => snd (fst (E x y))) (q_center_bot q),
          sample (fun x y => snd (E x y)) (q_center q))
  | None, Some A =>
      let A1 := sample (fun x y => fst (fst (fst (A x y)))) (q_center_bot q) in
      let A2 := sample (fun x y => snd (fst (fst (A x y)))) (q_left_center q) in
      let A3 := sample (fun x y => snd (fst (A x y))) (q_left_bot q) in
      let phi := sample (fun x y => snd (A x y)) (q_center q) in
      let dA3_dq2 := adiv (shift A3 0 0 0 (-1) [-] A3) (fdq2 c) in
      let dA3_dq1 := adiv (shift A3 0 0 (-1) 0 [-] A3) (fdq1 c) in
      let dA2_dq1 := adiv (shift A2 0 0 (-1) 0 [-] A2) (fdq1 c) in
      let dA1_dq2 := adiv (shift A1 0 0 0 (-1) [-] A1) (fdq2 c) in
      let dphi_dq1 := adiv (aneg (shift phi 0 0 1 0 [-] phi)) (fdq1 c) in
      let dphi_dq2 := adiv (aneg (shift phi 0 0 0 1 [-] phi)) (fdq2 c) in
      Ok (dA3_dq2 [-] dphi_dq1, aneg dA3_dq1 [-] dphi_dq2, dA2_dq1 [-] dA1_dq2)
  | None, None => Err NotImplementedError
  end.

(** initialize_magnetic_fields, 340-411. *)
Definition initial_B_rank (c : fcfg) (r1 r2 : nat) : res (arr R * arr R * arr R) :=
  let q := fq c r1 r2 in
  match init_B c, init_A3_B3 c, init_A c with
  | Some _, Some _, _ => Err GenericException
  | Some B, None, _ =>
      Ok (sample (fun x y => fst (fst (B x y))) (q_center_bot q),
          sample (fun x y => snd (fst (B x y))) (q_left_center q),
          sample (fun x y => snd (B x y)) (q_left_bot q))
  | None, _, Some A =>
      let A1 := sample (fun x y => fst (fst (A x y))) (q_left_center q) in
      let A2 := sample (fun x y => snd (fst (A x y))) (q_center_bot q) in
      let A3 := sample (fun x y => snd (A x y)) (q_center q) in
      let B1 := adiv (shift A3 0 0 0 (-1) [-] A3) (fdq2 c) in
      let B2 := adiv (aneg (shift A3 0 0 (-1) 0 [-] A3)) (fdq1 c) in
      let dA2_dq1 := adiv (shift A2 0 0 (-1) 0 [-] A2) (fdq1 c) in
      let dA1_dq2 := adiv (shift A1 0 0 0 (-1) [-] A1) (fdq2 c) in
      Ok (B1, B2, dA2_dq1 [-] dA1_dq2)
  | None, Some A, None =>
      let A3 := sample (fun x y => fst (A x y)) (q_center q) in
      let A3_minus_q2 := shift A3 0 0 0 1 in
      let A3_minus_q1 := shift A3 0 0 1 0 in
      let B1 := adiv (A3 [-] A3_minus_q2) (fdq2 c) in
      let B2 := adiv (aneg (A3 [-] A3_minus_q1)) (fdq1 c) in
      Ok (B1, B2, sample (fun x y => snd (A x y)) (q_left_bot q))
  | None, None, None => Err NotImplementedError
  end.

Definition set_joined (c : fcfg) (lo hi : Z)
    (f : nat -> nat -> res (arr R * arr R * arr R)) (s : em) : res em :=
  let? F := all_ranks (flay c) (fun r1 r2 =>
      let? v := f r1 r2 in
      let '(a, b, d) := v in Ok (set_rows lo hi (join3 a b d) (yee_val s r1 r2))) in
  Ok (write (yee s) F s).

Definition initialize_electric_fields (c : fcfg) (s : em) : res em :=
  set_joined c 0 3 (initial_E_rank c) s.
Definition initialize_magnetic_fields (c : fcfg) (s : em) : res em :=
  set_joined c 3 6 (initial_B_rank c) s.

(** _initialize, 421-495.  Lines 493-494 make the two time-level attributes refer
    to the cell-centred array. *)
Definition zero_fields (c : fcfg) : dist R :=
  fun r1 r2 => Arr 6 1 (n1g (flay c) r1) (n2g (flay c) r2) (fun _ _ _ _ => 0).

Definition fresh (c : fcfg) : em :=
  Em (fun _ => zero_fields c) 4%nat 0%nat 3%nat 1%nat 2%nat true (fun _ _ _ => 0) 0.

Definition initialize_fields (c : fcfg) (rho_initial : dist R) : res em :=
  let s := fresh c in
  let? s :=
    if String.eqb (fields_initialize c) "fft" then
      let? s := electrostatic_update c rho_initial s in
      Ok (cell_centered_grid_to_yee_grid OnlyE s)
    else if String.eqb (fields_initialize c) "user-defined" then
      let? s := initialize_electric_fields c s in
      let? s := initialize_magnetic_fields c s in
      Ok (yee_grid_to_cell_centered_grid Both s)
    else if String.eqb (fields_initialize c) "fft + user-defined magnetic fields" then
      let? s := electrostatic_update c rho_initial s in
      let s := cell_centered_grid_to_yee_grid OnlyE s in
      let? s := initialize_magnetic_fields c s in
      Ok (yee_grid_to_cell_centered_grid OnlyB s)
    else Err NotImplementedError in
  Ok (Em (mem s) (next s) (cc s) (yee s) (cc s) (cc s) (at_n s) (fbuf s) (ftime s)).

(** ** Checks, fields.py:22-46 *)
Definition compute_divB (c : fcfg) (s : em) : dist R :=
  dmap (fun a =>
    let B1 := row 3 a in
    let B2 := row 4 a in
    adiv (B1 [-] shift B1 0 0 1 0) (fdq1 c) [+] adiv (B2 [-] shift B2 0 0 0 1) (fdq2 c)) (yee_val s).

Definition compute_divE (c : fcfg) (s : em) : dist R * em :=
  let s := communicate_fields c true s in
  (dmap (fun a =>
    let E1 := row 0 a in
    let E2 := row 1 a in
    adiv (shift E1 0 0 (-1) 0 [-] E1) (fdq1 c) [+] adiv (shift E2 0 0 0 (-1) [-] E2) (fdq2 c))
    (yee_val s), s).

(** fields_solver.__init__, 272-278: the initial density is summed over species;
    check_maxwells_contraint_equations (48-63) only prints, but its compute_divE
    rebinds the Yee array. *)
Definition fields_solver_init (c : fcfg) (rho_initial : dist R) : res em :=
  let? s := initialize_fields c (dmap asum1 rho_initial) in
  Ok (snd (compute_divE c s)).
