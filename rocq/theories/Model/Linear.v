(** The linear solver.  Models /repo/bolt/lib/linear and the helpers it uses,
    /repo/bolt/lib/utils/fft_funcs.py and calculate_k.py.

    The physical system is the [cfg] of the nonlinear model; its global grid is
    gN1 x gN2 cells.  params.charge and params.mass enter per species.  What the
    module calls calculate_q_center (which calculate_q.py does not define) is
    taken to be the cell centres.  The hybrid model is in LinearHybrid.v. *)
From Coq Require Import ZArith Reals String List Bool.
From Verif Require Import Base.Prelude Base.ZSum Base.Cplx Model.Af Model.Grid Model.Petsc Model.Config
  Model.Fft Model.Moments Model.Integrators.
Import ListNotations.
Local Open Scope R_scope.

(** fft_funcs.py:15-23 and 25-33 *)
Definition fft2q (a : arr cplx) : arr cplx := reorder2301 (fft2 (reorder2301 a)).
Definition ifft2q (a : arr cplx) : arr cplx :=
  let a := reorder2301 a in
  reorder2301 (amap (cscale (/ (IZR (d0 a) * IZR (d1 a)))) (ifft2_scaled 1 a)).

(** calculate_k.py:7-24 (and linear_solver.py:200-217): extents (1, 1, N_q1, N_q2) *)
Definition calculate_k (N1 N2 : Z) (dq1 dq2 : R) : arr R * arr R :=
  (Arr 1 1 N1 N2 (fun _ _ i _ => 2 * PI * fftfreq N1 dq1 i),
   Arr 1 1 N1 N2 (fun _ _ _ j => 2 * PI * fftfreq N2 dq2 j)).

(** ** The solver *)

(** How the magnetic field is initialised, fields.py:51-97: which function the
    initial-conditions module has. *)
Inductive b_init : Type :=
| InitB (B1 B2 B3 : R -> R -> R)
| InitA3B3 (A3 B3 : R -> R -> R)
| InitNone.

(** [lA_p] s t q1 q2 p1 p2 p3 and the six mode amplitudes: A_p for species s.
    [lsource] f t flag: params' source with the flag for instantaneous
    collisions. *)
Record lcfg : Type := LCfg {
  ph : cfg;
  charge : list R; mass : list R;
  eps : R; mu : R;
  fields_type : string;
  fields_initialize : string;
  instantaneous : bool;
  lA_p : Z -> R -> R -> R -> R -> R -> R -> cplx -> cplx -> cplx -> cplx -> cplx -> cplx -> cplx * cplx * cplx;
  lsource : arr R -> R -> bool -> arr R;
  init_f : arr R;
  init_E : (R -> R -> R) * (R -> R -> R) * (R -> R -> R);
  init_B : b_init }.

Definition lN1 (c : lcfg) : Z := gN1 (lay (ph c)).
Definition lN2 (c : lcfg) : Z := gN2 (lay (ph c)).
Definition k_q1 (c : lcfg) : arr R := fst (calculate_k (lN1 c) (lN2 c) (dq1 (ph c)) (dq2 (ph c))).
Definition k_q2 (c : lcfg) : arr R := snd (calculate_k (lN1 c) (lN2 c) (dq1 (ph c)) (dq2 (ph c))).
Definition per_species (c : lcfg) (l : list R) : arr R :=
  Arr 1 (N_species (ph c)) 1 1 (fun _ s _ _ => nth (Z.to_nat s) l 0).

(** Cell centres, linear_solver.py:158-162. *)
Definition lq1 (c : lcfg) (k : Z) : R := q1_start (ph c) + (IZR k + 1 / 2) * dq1 (ph c).
Definition lq2 (c : lcfg) (l : Z) : R := q2_start (ph c) + (IZR l + 1 / 2) * dq2 (ph c).

(** linear_solver.py:105-113, the check of the boundary conditions. *)
Definition check_periodic (c : cfg) : res unit :=
  if (negb (String.eqb (in_q c ELeft) "periodic") && negb (String.eqb (in_q c ERight) "periodic")
      && negb (String.eqb (in_q c EBottom) "periodic") && negb (String.eqb (in_q c ETop) "periodic"))%bool
  then Err GenericException else Ok tt.

(** 0.5 * N_q2 * N_q1 * x and 2 * x / (N_q1 * N_q2) *)
Definition half_N (c : lcfg) : R := 1 / 2 * IZR (lN2 c) * IZR (lN1 c).
Definition from_hat (c : lcfg) (a : arr cplx) : arr R :=
  amap re (ifft2q (amap (cscale (half_N c)) a)).
Definition to_hat (c : lcfg) (a : arr cplx) : arr cplx :=
  amap (fun z => cscale (/ (IZR (lN1 c) * IZR (lN2 c))) (cscale 2 z)) (fft2q a).

(** linear_solver.py:188-198; the factor is applied after the transform here. *)
Definition get_dist_func (c : lcfg) (f_hat : arr cplx) : arr R :=
  amap (Rmult (half_N c)) (amap re (ifft2q f_hat)).

(** compute_moments.py:9-77.  Python's None is [None]; with neither argument the
    solver's own f_hat is used. *)
Definition moment_of {K} (c : lcfg) (S : scalar K) (m : moment_def) (f : arr K) : arr K :=
  m K S f (p1_center (ph c)) (p2_center (ph c)) (p3_center (ph c)) (measure (ph c)).

Inductive moment_value : Type := Moment (m : arr R) | MomentHat (m : arr cplx).

Definition lin_compute_moments (c : lcfg) (T : moment_table) (self_f_hat : arr cplx) (name : string)
    (f : option (arr R)) (f_hat : option (arr cplx)) : res moment_value :=
  match f_hat, f with
  | None, None =>
      let? m := getattr T name in
      Ok (Moment (from_hat c (moment_of c cplx_scalar m self_f_hat)))
  | Some f_hat, None =>
      let? m := getattr T name in
      Ok (MomentHat (moment_of c cplx_scalar m f_hat))
  | None, Some f =>
      let? m := getattr T name in
      Ok (Moment (moment_of c real_scalar m f))
  | Some _, Some _ => Err GenericException
  end.

(** multiply(charge, compute_moments(name, f_hat = f_hat)), extents (1, N_s, N_q1, N_q2) *)
Definition charge_times (c : lcfg) (m : moment_def) (f_hat : arr cplx) : arr cplx :=
  bcast2 cscale (per_species c (charge c)) (moment_of c cplx_scalar m f_hat).

(** af.sum(a, 1) of a complex array *)
Definition csum1 (a : arr cplx) : arr cplx :=
  Arr (d0 a) 1 (d2 a) (d3 a) (fun i _ k l => csum (d1 a) (fun j => el a i j k l)).

(** ** Fields *)

(** The attributes E1_hat ... B3_hat and the joined array fields_hat. *)
Record fields : Type := Fields {
  E1h : arr cplx; E2h : arr cplx; E3h : arr cplx;
  B1h : arr cplx; B2h : arr cplx; B3h : arr cplx;
  fields_hat : arr cplx }.

Definition zero_like (a : arr cplx) : arr cplx := amap (cscale 0) a.

(** electrostatic_solver.py:9-41.  At the zero mode the code divides by zero and
    then overwrites the result. *)
Definition phi_hat (c : lcfg) (rho_hat : arr cplx) : arr cplx :=
  let p := bcast2 (fun z w => cscale w z) (csum1 rho_hat)
             (amap2 (fun x y => / (x ^ 2 + y ^ 2)) (k_q1 c) (k_q2 c)) in
  Arr (d0 p) (d1 p) (d2 p) (d3 p) (fun i j k l => if ((k =? 0) && (l =? 0))%Z%bool then c0 else el p i j k l).

(** -phi_hat * 1j * k / eps *)
Definition grad_hat (c : lcfg) (k : arr R) (phi : arr cplx) : arr cplx :=
  amap2 (fun p k => cscale (/ eps c) (cscale k (cmul (copp p) ci))) phi k.

Definition compute_electrostatic_fields (c : lcfg) (rho_hat : arr cplx) (old : arr cplx) : fields :=
  let phi := phi_hat c rho_hat in
  let E1 := grad_hat c (k_q1 c) phi in
  let E2 := grad_hat c (k_q2 c) phi in
  Fields E1 E2 (zero_like E1) (zero_like E1) (zero_like E1) (zero_like E1) old.

(** A function of the coordinates on the cell centres. *)
Definition on_cells (c : lcfg) (g : R -> R -> R) : arr cplx :=
  Arr 1 1 (lN1 c) (lN2 c) (fun _ _ k l => RtoC (g (lq1 c k) (lq2 c l))).

(** a * 1j * k *)
Definition ik (k : arr R) (a : arr cplx) : arr cplx := amap2 (fun z k => cscale k (cmul z ci)) a k.

(** fields.py:51-97 *)
Definition initialize_magnetic_fields (c : lcfg) : res (arr cplx * arr cplx * arr cplx) :=
  match init_B c with
  | InitB B1 B2 B3 => Ok (on_cells c B1, on_cells c B2, on_cells c B3)
  | InitA3B3 A3 B3 =>
      let A3_hat := fft2q (on_cells c A3) in
      Ok (ifft2q (ik (k_q2 c) A3_hat), amap copp (ifft2q (ik (k_q1 c) A3_hat)), on_cells c B3)
  | InitNone => Err NotImplementedError
  end.

Definition join6 (a b d e f g : arr cplx) : arr cplx := join0 (join0 (join0 (join0 (join0 a b) d) e) f) g.

(** fields.py:99-132 *)
Definition initialize_fields (c : lcfg) (rho_hat : arr cplx) : res fields :=
  let with_join F := Fields (E1h F) (E2h F) (E3h F) (B1h F) (B2h F) (B3h F)
                            (join6 (E1h F) (E2h F) (E3h F) (B1h F) (B2h F) (B3h F)) in
  let el_static := compute_electrostatic_fields c rho_hat (Arr 0 0 0 0 (fun _ _ _ _ => c0)) in
  if String.eqb (fields_initialize c) "user-defined" then
    let? (B1, B2, B3) := initialize_magnetic_fields c in
    let '(e1, e2, e3) := init_E c in
    Ok (with_join (Fields (to_hat c (on_cells c e1)) (to_hat c (on_cells c e2)) (to_hat c (on_cells c e3))
                          (to_hat c B1) (to_hat c B2) (to_hat c B3) (fields_hat el_static)))
  else if String.eqb (fields_initialize c) "fft + user-defined magnetic fields" then
    let? (B1, B2, B3) := initialize_magnetic_fields c in
    Ok (with_join (Fields (E1h el_static) (E2h el_static) (E3h el_static)
                          (to_hat c B1) (to_hat c B2) (to_hat c B3) (fields_hat el_static)))
  else Ok (with_join el_static).

(** fields_hat[i] *)
Definition comp (F : arr cplx) (i : Z) : arr cplx :=
  Arr 1 (d1 F) (d2 F) (d3 F) (fun _ j k l => el F i j k l).

(** fields.py:134-149 *)
Definition get_fields (c : lcfg) (F : fields) : fields :=
  if String.eqb (fields_type c) "electrodynamic" then
    let a := fields_hat F in
    Fields (comp a 0) (comp a 1) (comp a 2) (comp a 3) (comp a 4) (comp a 5) a
  else F.

(** ** Initial state *)

(** linear_solver.py:242-247 *)
Definition f_background (c : lcfg) (f : arr R) : arr R :=
  let f_hat := fft2q (amap RtoC f) in
  Arr (d0 f_hat) (d1 f_hat) 1 1 (fun x s _ _ =>
    let z := el f_hat x s 0%Z 0%Z in sqrt (re z ^ 2 + im z ^ 2) / (IZR (lN1 c) * IZR (lN2 c))).

(** -shift(-2) + 8 shift(-1) + shift(2) - 8 shift(1) along one axis *)
Definition stencil4r (sh : Z -> arr R) : arr R :=
  amap2 Rminus (amap2 Rplus (amap2 Rplus (amap Ropp (sh (-2)%Z)) (amap (Rmult 8) (sh (-1)%Z))) (sh 2%Z))
        (amap (Rmult 8) (sh 1%Z)).
Definition stencil4 (sh : Z -> arr cplx) : arr cplx :=
  amap2 csub (amap2 cadd (amap2 cadd (amap copp (sh (-2)%Z)) (amap (cscale 8) (sh (-1)%Z))) (sh 2%Z))
        (amap (cscale 8) (sh 1%Z)).

(** af.shift along axis 0, 1 or 2 *)
Definition shift_axis {A} (axis : nat) (a : arr A) (d : Z) : arr A :=
  match axis with
  | 0%nat => shift a d 0 0 0
  | 1%nat => shift a 0 d 0 0
  | _ => shift a 0 0 d 0
  end.

(** calculate_dfdp_background.py:7-63 for the axis of one momentum *)
Definition dfdp_background (c : lcfg) (axis : nat) (dp : list R) (f_b : arr R) : arr R :=
  let p := ph c in
  let f_b := moddims f_b (N_p1 p) (N_p2 p) (N_p3 p) (N_species p) in
  let w := Arr 1 1 1 (N_species p) (fun _ _ _ s => / (12 * nth (Z.to_nat s) dp 0)) in
  moddims (bcast2 Rmult (stencil4r (shift_axis axis f_b)) w) (N_p p) (N_species p) 1 1.

(** What is computed once, from the initial f. *)
Record background : Type := Background { dfdp1 : arr R; dfdp2 : arr R; dfdp3 : arr R }.
Definition make_background (c : lcfg) (f : arr R) : background :=
  let b := f_background c f in
  Background (dfdp_background c 0 (dp1 (ph c)) b) (dfdp_background c 1 (dp2 (ph c)) b)
             (dfdp_background c 2 (dp3 (ph c)) b).

(** The state that evolves: f_hat, the field solver, time_elapsed. *)
Record lstate : Type := LState { f_hat : arr cplx; fsol : fields; lt : R }.

(** linear_solver.py:219-265 *)
Definition initialize (c : lcfg) : res (background * lstate) :=
  let f := init_f c in
  let fh := to_hat c (amap RtoC f) in
  let? F := initialize_fields c (charge_times c density fh) in
  Ok (make_background c f, LState fh F 0).

Definition linear_solver (c : lcfg) : res (background * lstate) :=
  let? _ := check_periodic (ph c) in initialize c.

(** ** df_hat_dt.py *)

(** Lines 28-36 *)
Definition free_streaming (c : lcfg) (t : R) (fh : arr cplx) : arr cplx :=
  Arr (d0 fh) (d1 fh) (d2 fh) (d3 fh) (fun x s k l =>
    let '(a1, a2) := A_q (ph c) s t (lq1 c k) (lq2 c l)
        (el (p1_center (ph c)) x s 0 0) (el (p2_center (ph c)) x s 0 0) (el (p3_center (ph c)) x s 0 0) in
    cmul (cscale (el (k_q1 c) 0 0 k l * a1 + el (k_q2 c) 0 0 k l * a2) (copp ci)) (el fh x s k l)).

(** Lines 38-54 *)
Definition source_hat (c : lcfg) (t : R) (fh : arr cplx) : arr cplx :=
  to_hat c (amap RtoC (lsource c (from_hat c fh) t false)).

(** Lines 58-74: which fields the force sees; 'electrodynamic' and 'None' leave
    the field solver as it is. *)
Definition fields_seen (c : lcfg) (F : fields) (fh : arr cplx) : res fields :=
  if String.eqb (fields_type c) "electrostatic" then
    Ok (compute_electrostatic_fields c (charge_times c density fh) (fields_hat F))
  else if String.eqb (fields_type c) "electrodynamic" then Ok F
  else if String.eqb (fields_type c) "None" then Ok F
  else Err NotImplementedError.

(** Lines 78-86 *)
Definition fields_term (c : lcfg) (b : background) (t : R) (F : fields) (fh : arr cplx) : arr cplx :=
  let F := get_fields c F in
  Arr (d0 fh) (d1 fh) (d2 fh) (d3 fh) (fun x s k l =>
    let '(a1, a2, a3) := lA_p c s t (lq1 c k) (lq2 c l)
        (el (p1_center (ph c)) x s 0 0) (el (p2_center (ph c)) x s 0 0) (el (p3_center (ph c)) x s 0 0)
        (el (E1h F) 0 0 k l) (el (E2h F) 0 0 k l) (el (E3h F) 0 0 k l)
        (el (B1h F) 0 0 k l) (el (B2h F) 0 0 k l) (el (B3h F) 0 0 k l) in
    cadd (cadd (cscale (el (dfdp1 b) x s 0 0) a1) (cscale (el (dfdp2 b) x s 0 0) a2))
         (cscale (el (dfdp3 b) x s 0 0) a3)).

(** Lines 100-135: the momentum derivative of f_hat.  1/(12 dp) has extents
    (1, N_species), and is broadcast against (N_p1, N_p2, N_p3, N_species * N_q1 * N_q2). *)
Definition ddelta_f_dp (c : lcfg) (axis : nat) (dp : list R) (fh : arr cplx) : arr cplx :=
  let p := ph c in
  let e := moddims fh (N_p1 p) (N_p2 p) (N_p3 p) (N_species p * lN1 c * lN2 c) in
  let w := Arr 1 (N_species p) 1 1 (fun _ s _ _ => / (12 * nth (Z.to_nat s) dp 0)) in
  moddims (bcast2 (fun z w => cscale w z) (stencil4 (shift_axis axis e)) w)
          (N_p p) (N_species p) (lN1 c) (lN2 c).

(** ArrayFire broadcasts two extents that agree or of which one is 1, and moddims
    keeps the number of elements; otherwise it raises an error. *)
Definition bcompat (m n : Z) : bool := ((m =? n) || (m =? 1) || (n =? 1))%Z%bool.
Definition ddelta_check (c : lcfg) : res unit :=
  let p := ph c in
  if bcompat (N_p2 p) (N_species p) then
    if (N_p1 p * Z.max (N_p2 p) (N_species p) * N_p3 p * (N_species p * lN1 c * lN2 c)
        =? N_p p * N_species p * lN1 c * lN2 c)%Z then Ok tt else Err ValueError
  else Err ValueError.

(** Lines 92-94, 137-142.  The mean of a single element is that element. *)
Definition mean_B_term (c : lcfg) (F : fields) (fh : arr cplx) : arr cplx :=
  let Bm i := cscale (/ 2) (el (fields_hat F) i 0%Z 0%Z 0%Z) in
  let '(B1, B2, B3) := (Bm 3%Z, Bm 4%Z, Bm 5%Z) in
  let p := ph c in
  let e1 := ddelta_f_dp c 0 (dp1 p) fh in
  let e2 := ddelta_f_dp c 1 (dp2 p) fh in
  let e3 := ddelta_f_dp c 2 (dp3 p) fh in
  Arr (d0 fh) (d1 fh) (d2 fh) (d3 fh) (fun x s k l =>
    let p1 := el (p1_center p) x s 0 0 in
    let p2 := el (p2_center p) x s 0 0 in
    let p3 := el (p3_center p) x s 0 0 in
    cscale (nth (Z.to_nat s) (charge c) 0 / nth (Z.to_nat s) (mass c) 0)
      (cadd (cadd (cmul (csub (cscale p2 B3) (cscale p3 B2)) (el e1 x s k l))
                  (cmul (csub (cscale p3 B1) (cscale p1 B3)) (el e2 x s k l)))
            (cmul (csub (cscale p1 B2) (cscale p2 B1)) (el e3 x s k l)))).

(** Which errors a call of df_hat_dt raises; they do not depend on f_hat. *)
Definition df_hat_check (c : lcfg) (F : fields) (fh : arr cplx) : res unit :=
  if fields_enabled (ph c) then
    let? _ := fields_seen c F fh in ddelta_check c
  else Ok tt.

(** The value.  The second argument of the Python function, fields_hat, is not
    used in its body. *)
Definition df_hat_value (c : lcfg) (b : background) (F : fields) (t : R) (fh : arr cplx) : arr cplx :=
  let df := free_streaming c t fh in
  let df := if source_enabled (ph c) then amap2 cadd df (source_hat c t fh) else df in
  if fields_enabled (ph c) then
    match fields_seen c F fh with
    | Ok F => amap2 csub df (amap2 cadd (fields_term c b t F fh) (mean_B_term c F fh))
    | Err _ => df
    end
  else df.

Definition df_hat_dt (c : lcfg) (b : background) (F : fields) (t : R) (fh fields_hat : arr cplx) : res (arr cplx) :=
  let? _ := df_hat_check c F fh in Ok (df_hat_value c b F t fh).

(** ** dfields_hat_dt.py:37-42, 58-73, 171-196, without the hybrid model *)
Definition dfields_hat_value (c : lcfg) (fh F : arr cplx) : arr cplx :=
  let J m := csum1 (charge_times c m fh) in
  let J1 := J mom_v1_bulk in let J2 := J mom_v2_bulk in let J3 := J mom_v3_bulk in
  let E1 := comp F 0 in let E2 := comp F 1 in let E3 := comp F 2 in
  let B1 := comp F 3 in let B2 := comp F 4 in let B3 := comp F 5 in
  let k1 := k_q1 c in let k2 := k_q2 c in
  let over x := amap (cscale (/ x)) in
  let me := mu c * eps c in
  let dE1 := amap2 csub (over me (ik k2 B3)) (over (eps c) J1) in
  let dE2 := amap2 csub (over me (ik k1 (amap copp B3))) (over (eps c) J2) in
  let dE3 := amap2 csub (over me (amap2 csub (ik k1 B2) (ik k2 B1))) (over (eps c) J3) in
  let dB1 := ik k2 (amap copp E3) in
  let dB2 := ik k1 E3 in
  let dB3 := amap2 csub (ik k2 E1) (ik k1 E2) in
  join6 dE1 dE2 dE3 dB1 dB2 dB3.

(** ** timestep.py *)

(** Arrays of complex numbers as vectors of reals, for the integrators. *)
Definition cidx : Type := (bool * Z * Z * Z * Z)%type.
Definition vec_of (a : arr cplx) : vec cidx := fun '(b, i, j, k, l) =>
  let z := el a i j k l in if b : bool then im z else re z.
Definition arr_of (n0 n1 n2 n3 : Z) (v : vec cidx) : arr cplx :=
  Arr n0 n1 n2 n3 (fun i j k l => (v (false, i, j, k, l), v (true, i, j, k, l))).
Definition arr_like (a : arr cplx) : vec cidx -> arr cplx := arr_of (d0 a) (d1 a) (d2 a) (d3 a).

(** The six integrators. *)
Inductive rk : Type := RK2_ | RK4_ | RK5_.
Definition lin_RK (m : rk) {I} : (R -> vec I -> vec I) -> vec I -> R -> R -> vec I * R :=
  match m with RK2_ => lin_RK2 | RK4_ => lin_RK4 | RK5_ => lin_RK5 end.
Definition lin_RK_coupled (m : rk) {I J} : (R -> vec I -> vec J -> vec I) -> vec I ->
    (R -> vec I -> vec J -> vec J) -> vec J -> R -> R -> vec I * vec J * R :=
  match m with RK2_ => lin_RK2_coupled | RK4_ => lin_RK4_coupled | RK5_ => lin_RK5_coupled end.

(** RK5_step (11-57), RK4_step (59-103), RK2_step (105-149).  During a step the
    field solver's fields_hat stays as it was; it is replaced at the end. *)
Definition set_fields_hat (F : fields) (a : arr cplx) : fields :=
  Fields (E1h F) (E2h F) (E3h F) (B1h F) (B2h F) (B3h F) a.

Definition lin_timestep (m : rk) (c : lcfg) (b : background) (dt : R) (s : lstate) : res lstate :=
  let fh := if instantaneous c
            then to_hat c (amap RtoC (lsource c (get_dist_func c (f_hat s)) (lt s) true))
            else f_hat s in
  let F := fsol s in
  let? _ := df_hat_check c F fh in
  let A := arr_like fh in
  let df t v := vec_of (df_hat_value c b F t (A v)) in
  if (fields_enabled (ph c) && String.eqb (fields_type c) "electrodynamic")%bool then
    let B := arr_like (fields_hat F) in
    let '(x, y, t) := lin_RK_coupled m (fun t x _ => df t x) (vec_of fh)
                        (fun _ x y => vec_of (dfields_hat_value c (A x) (B y))) (vec_of (fields_hat F)) dt (lt s) in
    Ok (LState (A x) (set_fields_hat F (B y)) t)
  else
    let '(x, t) := lin_RK m df (vec_of fh) dt (lt s) in
    Ok (LState (A x) F t).

(** ** file_io *)

(** dump.py:79-125: the buffer of the global vector; on one process (the linear
    solver's DMDAs are not distributed over af arrays) the DMDA's own order is the
    order of the buffer. *)
Definition dump_f (c : lcfg) (fh : arr cplx) : Z -> R := flat (get_dist_func c fh).

(** numpy: buffer.reshape(n0, n1, n2, n3), row-major, then af.to_array, which
    keeps the logical index. *)
Definition reshape_rowmajor {A} (n0 n1 n2 n3 : Z) (buf : Z -> A) : arr A :=
  Arr n0 n1 n2 n3 (fun i j k l => buf (l + n3 * (k + n2 * (j + n1 * i)))%Z).

(** load.py:28-34 *)
Definition load_f (c : lcfg) (buf : Z -> R) : arr cplx :=
  to_hat c (amap RtoC (reshape_rowmajor (N_p (ph c)) (N_species (ph c)) (lN1 c) (lN2 c) buf)).

(** dump.py:60-75: the moments, joined along axis 1 in the order of dir(). *)
Fixpoint join_moments (c : lcfg) (T : moment_table) (acc : option (arr R)) (fh : arr cplx) : option (arr R) :=
  match T with
  | nil => acc
  | (_, m) :: T =>
      let a := from_hat c (moment_of c cplx_scalar m fh) in
      join_moments c T (Some (match acc with None => a | Some p => join1 p a end)) fh
  end.
