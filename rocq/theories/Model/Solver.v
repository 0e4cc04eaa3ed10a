(** The nonlinear solver object: the distribution function together with the
    field solver, and the operators a time step is made of.  Models
    /repo/bolt/lib/nonlinear/finite_volume/{fvm_operator,df_dt_fvm}.py,
    semi_lagrangian/asl_operators.py and the calls in timestep.py. *)
From Coq Require Import ZArith Reals String List Bool.
From Verif Require Import Base.Prelude Base.ZSum Model.Af Model.Grid Model.Petsc Model.Config
  Model.Boundaries Model.Fvm Model.Em Model.Moments Model.Integrators Model.Splitting
  Model.SemiLag Model.Timestep.
Local Open Scope R_scope.

Record params : Type := Params {
  pc : cfg;
  pf : fcfg;
  fields_type : string;
  charge : list R;
  table : moment_table;
  initial_mu : R;
  T_e : R;                                   (* fluid_electron_temperature *)
  instantaneous : bool;                      (* instantaneous_collisions == True *)
  source_inst : R -> R -> R -> (Z -> Z -> R) -> Z -> Z -> R;
      (* the source function called with its last argument True, as [source] *)
  approx_p : arr R -> arr R -> arr R -> arr R }.

Record solver : Type := Solver {
  fpart : fstate;
  fields : em;
  time_elapsed : R;
  cur_dt : R }.                              (* self.dt *)

Definition set_fpart (x : fstate) (s : solver) : solver := Solver x (fields s) (time_elapsed s) (cur_dt s).
Definition set_fields (x : em) (s : solver) : solver := Solver (fpart s) x (time_elapsed s) (cur_dt s).
Definition f_of (s : solver) : dist R := sf (fpart s).
Definition set_f_of (f : dist R) (s : solver) : solver := set_fpart (FState f (sbuf (fpart s))) s.

(** self.compute_moments(name, f = f) on all ranks, and multiply(charge, .). *)
Definition moment (P : params) (name : string) (f : dist R) : res (dist R) :=
  all_ranks (lay (pc P)) (fun r1 r2 =>
    compute_moments (pc P) (table P) (initial_mu P) name (f r1 r2)).
Definition times_charge (P : params) (m : dist R) : dist R :=
  dmap (bcast2 Rmult (Fvm.dp_arr (charge P))) m.

(** ** The hybrid model: generalised Ohm's law, df_dt_fvm.py:105-207 and
    asl_operators.py:110-205.  [a] is the Yee array; [vl], [nl] are momentum
    moments and density of the values of f at the left faces, [vb], [nb] at the
    bottom faces, [v], [n] at the centres.  The two texts differ only in the
    values at the faces. *)
Definition ohm_J (c : fcfg) (a : arr R) : arr R * arr R * arr R :=
  let '(cB1, cB2, cB3) := curlB c a in
  (adiv cB1 (mu c), adiv cB2 (mu c), adiv cB3 (mu c)).

Definition amul (a b : arr R) : arr R := amap2 Rmult a b.
Definition aquot (a b : arr R) : arr R := amap2 Rdiv a b.

Definition ohm_E (c : fcfg) (Te : R) (q : arr R) (a : arr R)
    (v2l v3l nl v3b v1b nb v1 v2 n n_i : arr R) : arr R * arr R * arr R :=
  let B1 := row 3 a in
  let B2 := row 4 a in
  let B3 := row 5 a in
  let B1_plus_q2 := shift B1 0 0 0 (-1) in
  let B2_plus_q1 := shift B2 0 0 (-1) 0 in
  let B3_plus_q1 := shift B3 0 0 (-1) 0 in
  let B3_plus_q2 := shift B3 0 0 0 (-1) in
  let '(J1, J2, J3) := ohm_J c a in
  let v_cross_B_1 := aquot (amul (mean2 B3_plus_q2 B3) v2l) nl [-] aquot (amul B2 v3l) nl in
  let v_cross_B_2 := aquot (amul B1 v3b) nb [-] aquot (amul (mean2 B3_plus_q1 B3) v1b) nb in
  let v_cross_B_3 := aquot (amul (mean2 B2_plus_q1 B2) v1) n [-] aquot (amul (mean2 B1_plus_q2 B1) v2) n in
  let J_cross_B_1 :=
    ascale (1/4) (amul (mean2 B3_plus_q2 B3)
       (J2 [+] shift J2 0 0 0 (-1) [+] shift J2 0 0 1 0 [+] shift J2 0 0 1 (-1)))
    [-] ascale (1/2) (amul B2 (shift J3 0 0 1 0 [+] J3)) in
  let J_cross_B_2 :=
    ascale (1/2) (amul B1 (shift J3 0 0 0 1 [+] J3))
    [-] ascale (1/4) (amul (mean2 B3_plus_q1 B3)
       (J1 [+] shift J1 0 0 0 1 [+] shift J1 0 0 (-1) 0 [+] shift J1 0 0 (-1) 1)) in
  let J_cross_B_3 :=
    ascale (1/2) (amul (mean2 B2_plus_q1 B2) (shift J1 0 0 (-1) 0 [+] J1))
    [-] ascale (1/2) (amul (mean2 B1_plus_q2 B1) (shift J2 0 0 0 (-1) [+] J2)) in
  let stencil sh := ascale 8 (sh (-1)%Z) [-] sh (-2)%Z [-] ascale 8 (sh 1%Z) [+] sh 2%Z in
  let dn_q1 := adiv (stencil (fun k => shift n_i 0 0 k 0)) (12 * fdq1 c) in
  let dn_q2 := adiv (stencil (fun k => shift n_i 0 0 0 k)) (12 * fdq2 c) in
  let en m := bcast2 Rmult q m in
  (aneg v_cross_B_1 [+] aquot J_cross_B_1 (en nl)
     [-] aquot (ascale (1/2 * Te) (dn_q1 [+] shift dn_q1 0 0 1 0)) (en n_i),
   aneg v_cross_B_2 [+] aquot J_cross_B_2 (en nb)
     [-] aquot (ascale (1/2 * Te) (dn_q2 [+] shift dn_q2 0 0 0 1)) (en n_i),
   aneg v_cross_B_3 [+] aquot J_cross_B_3 (en n)).

Definition fst3 {A B C} (x : A * B * C) : A := fst (fst x).
Definition snd3 {A B C} (x : A * B * C) : B := snd (fst x).

Definition hybrid_fields (P : params) (fl fb f : dist R) (e : em) : res (currents * em) :=
  let c := pf P in
  let e := communicate_fields c true e in
  let a := yee_val e in
  let? v2l := moment P "mom_v2_bulk" fl in
  let? nl := moment P "density" fl in
  let? v3l := moment P "mom_v3_bulk" fl in
  let? v3b := moment P "mom_v3_bulk" fb in
  let? nb := moment P "density" fb in
  let? v1b := moment P "mom_v1_bulk" fb in
  let? v1 := moment P "mom_v1_bulk" f in
  let? n := moment P "density" f in
  let? v2 := moment P "mom_v2_bulk" f in
  let E r1 r2 := ohm_E c (T_e P) (Fvm.dp_arr (charge P)) (a r1 r2) (v2l r1 r2) (v3l r1 r2) (nl r1 r2)
                   (v3b r1 r2) (v1b r1 r2) (nb r1 r2) (v1 r1 r2) (v2 r1 r2) (n r1 r2) (n r1 r2) in
  let J r1 r2 := ohm_J c (a r1 r2) in
  let y r1 r2 := set_row 2 (snd (E r1 r2)) (set_row 1 (snd3 (E r1 r2))
                   (set_row 0 (fst3 (E r1 r2)) (a r1 r2))) in
  Ok ((fun r1 r2 => fst3 (J r1 r2), fun r1 r2 => snd3 (J r1 r2), fun r1 r2 => snd (J r1 r2)),
      write (yee e) y e).

(** The currents of the full model, df_dt_fvm.py:213-223. *)
Definition kinetic_currents (P : params) (fl fb f : dist R) : res currents :=
  let? J1 := moment P "mom_v1_bulk" fl in
  let? J2 := moment P "mom_v2_bulk" fb in
  let? J3 := moment P "mom_v3_bulk" f in
  Ok (times_charge P J1, times_charge P J2, times_charge P J3).

(** ** Fields inside df_dt_fvm, lines 99-279: the field update, and the fields the
    three calls of C_p obtain.  f_left and f_bot exist only when the q-space part
    has run; it is evaluated here and again in the update of f. *)
Definition face_values (P : params) (t : R) (f : dist R) : res (option (dist R * dist R)) :=
  let c := pc P in
  if String.eqb (solver_method_in_q c) "FVM" then
    let? fl := all_ranks (lay c) (fun r1 r2 =>
      let? (_, l, _) := df_dt_q c r1 r2 t (f r1 r2) in Ok l) in
    let? fb := all_ranks (lay c) (fun r1 r2 =>
      let? (_, _, b) := df_dt_q c r1 r2 t (f r1 r2) in Ok b) in
    Ok (Some (fl, fb))
  else Ok None.

Definition update_fields (P : params) (t dt : R) (f : dist R) (e : em) : res em :=
  let? faces := face_values P t f in
  let? e := (if String.eqb (fields_type P) "electrodynamic" && negb (at_n e) then
      match faces with
      | None => Err UnboundLocalError
      | Some (fl, fb) =>
          let? (J, e) := (if hybrid (pf P) then hybrid_fields P fl fb f e
                          else let? J := kinetic_currents P fl fb f in Ok (J, e)) in
          evolve_electrodynamic_fields (pf P) (fst3 J) (snd3 J) (snd J) dt e
      end
    else Ok e) in
  if String.eqb (fields_type P) "electrostatic" && String.eqb (fields_solver (pf P)) "fft" then
    let? n := moment P "density" f in
    compute_electrostatic_fields (pf P) (times_charge P n) e
  else Ok e.

Definition fields_seen (P : params) (t dt : R) (f : dist R) (e : em) : res (fieldseq * em) :=
  let c := pc P in
  if String.eqb (solver_method_in_p c) "FVM" && fields_enabled c then
    let? e := update_fields P t dt f e in
    let (F1, e) := get_fields (pf P) e in
    let (F2, e) := get_fields (pf P) e in
    let (F3, e) := get_fields (pf P) e in
    Ok (fun r1 r2 => (F1 r1 r2, F2 r1 r2, F3 r1 r2), e)
  else Ok (fun _ _ => (dummy, dummy, dummy), e).

(** ** op_fvm, fvm_operator.py:6-50.  The field update uses self.dt, which a
    splitting method may have called with a fraction of. *)
Definition half_update (P : params) (t : R) (h : R) (E : fieldseq) (f0 f : dist R) : res (dist R) :=
  let c := pc P in
  all_ranks (lay c) (fun r1 r2 =>
    let '(a1, a2, a3) := E r1 r2 in
    let? d := df_dt_fvm c r1 r2 t a1 a2 a3 (f r1 r2) in
    Ok (amap2 (fun f d => f + d * h) (f0 r1 r2) d)).

(** _communicate_f and _apply_bcs_f *)
Definition refresh_f (P : params) (t : R) (s : fstate) : res fstate :=
  let s := communicate_f (pc P) s in
  let? f := all_ranks (lay (pc P)) (fun r1 r2 => apply_bcs_f (pc P) r1 r2 t (sf s r1 r2)) in
  Ok (FState f (sbuf s)).

Definition op_fvm (P : params) : operator solver := fun dt s =>
  let t := time_elapsed s in
  let? x := refresh_f P t (fpart s) in
  let f_initial := sf x in
  let? (E, e) := fields_seen P t (cur_dt s) f_initial (fields s) in
  let? f := half_update P t (dt / 2) E f_initial f_initial in
  let? x := refresh_f P t (FState f (sbuf x)) in
  let? (E, e) := fields_seen P t (cur_dt s) (sf x) e in
  let? f := half_update P t dt E f_initial (sf x) in
  Ok (set_fields e (set_fpart (FState f (sbuf x)) s)).

(** ** op_advect_q, asl_operators.py:20-37 *)
Definition op_advect_q (P : params) : operator solver := fun dt s =>
  let? x := refresh_f P (time_elapsed s) (fpart s) in
  Ok (set_fpart (FState (fun r1 r2 => f_interp_2d (pc P) r1 r2 (time_elapsed s) dt (sf x r1 r2))
                        (sbuf x)) s).

(** ** op_solve_src, asl_operators.py:40-83.  RK2 works cell by cell: the source
    at a cell depends on f at that cell only. *)
Definition with_source (src : R -> R -> R -> (Z -> Z -> R) -> Z -> Z -> R)
    (g : R -> R -> ((Z -> Z -> R) -> Z -> Z -> R) -> (Z -> Z -> R) -> Z -> Z -> R)
    (c : cfg) (r1 r2 : nat) (t : R) (f : arr R) : arr R :=
  let q := q_center (qc c r1 r2) in
  Arr (d0 f) (d1 f) (d2 f) (d3 f)
      (fun x s i j => g (bel (fst q) x s i j) (bel (snd q) x s i j)
                        (src t (bel (fst q) x s i j) (bel (snd q) x s i j))
                        (fun x' s' => el f x' s' i j) x s).

(** [RK2] on a function of two indices. *)
Definition RK2_cell (dx_dt : (Z -> Z -> R) -> Z -> Z -> R) (x : Z -> Z -> R) (dt : R) : Z -> Z -> R :=
  fun i j => RK2 (fun (v : vec (Z * Z)) p => dx_dt (fun a b => v (a, b)) (fst p) (snd p))
                 (fun p => x (fst p) (snd p)) dt (i, j).

Definition op_solve_src (P : params) : operator solver := fun dt s =>
  let c := pc P in
  let t := time_elapsed s in
  let s := if instantaneous P then
      set_f_of (fun r1 r2 => with_source (source_inst P) (fun _ _ src f => src f) c r1 r2 t (f_of s r1 r2)) s
    else s in
  if source_enabled c && negb (instantaneous P) then
    Ok (set_f_of (fun r1 r2 => with_source (source c) (fun _ _ src f => RK2_cell src f dt)
                                 c r1 r2 t (f_of s r1 r2)) s)
  else Ok s.

(** ** op_fields, asl_operators.py:85-239.  Line 102 compares fields_solver with
    'electrostatic'; line 226 reads an undefined name f. *)
Definition half_sum_q1 (f : dist R) : dist R := dmap (fun a => mean2 a (shift a 0 0 1 0)) f.
Definition half_sum_q2 (f : dist R) : dist R := dmap (fun a => mean2 a (shift a 0 0 0 1)) f.

Definition op_fields (P : params) : operator solver := fun dt s =>
  let c := pc P in
  let f := f_of s in
  let e := fields s in
  let? e := (if String.eqb (fields_solver (pf P)) "electrostatic" then
      let? n := moment P "density" f in
      compute_electrostatic_fields (pf P) (times_charge P n) e
    else Ok e) in
  let? e := (if String.eqb (fields_solver (pf P)) "fdtd" then
      let? (J, e) := (if hybrid (pf P)
        then hybrid_fields P (half_sum_q1 f) (half_sum_q2 f) f e
        else let? _ := moment P "mom_v1_bulk" (half_sum_q1 f) in
             let? _ := moment P "mom_v2_bulk" (half_sum_q2 f) in
             Err NameError) in
      evolve_electrodynamic_fields (pf P) (fst3 J) (snd3 J) (snd J) (cur_dt s) e
    else Ok e) in
  let (_, e) := get_fields (pf P) e in
  let (F2, e) := get_fields (pf P) e in
  let (F3, e) := get_fields (pf P) e in
  let? f' := all_ranks (lay c) (fun r1 r2 =>
    f_interp_p_3d c (approx_p P) r1 r2 (time_elapsed s) dt (F2 r1 r2) (F3 r1 r2) (f r1 r2)) in
  Ok (set_fields e (set_f_of f' s)).

(** ** The solver as a host for the splitting methods and as a stepper. *)
Definition rebind_both (v w : dist R) (e : em) : em := bind_yee w (bind_cc v e).

Definition solver_host (P : params) : host solver (dist R) :=
  Host f_of set_f_of
    (fun a x b y => dmap2 (amap2 (fun u v => a * u + b * v)) x y)
    (fields_enabled (pc P))
    (fun s => (cc (fields s), yee (fields s)))
    (fun l s => let e := fields s in
       set_fields (Em (mem e) (next e) (fst l) (snd l) (cc_n e) (cc_nh e) (at_n e) (fbuf e) (ftime e)) s)
    (fun a l b m s =>
       let e := fields s in
       let mix x y := dmap2 (amap2 (fun u v => a * u + b * v)) (mem e x) (mem e y) in
       set_fields (rebind_both (mix (fst l) (fst m)) (mix (snd l) (snd m)) e) s).

Definition solver_stepper (P : params) : stepper solver R (dist R) :=
  Stepper (lay (pc P)) (solver_method_in_q (pc P)) (solver_method_in_p (pc P))
    (fields_enabled (pc P)) (solver_host P) f_of (fun _ => false) (fun _ => false)
    (fun dt s => Solver (fpart s) (fields s) (time_elapsed s) dt)
    time_elapsed
    (fun t s => Solver (fpart s) (fields s) t (cur_dt s))
    (op_fvm P) (op_advect_q P) (op_solve_src P) (op_fields P).
