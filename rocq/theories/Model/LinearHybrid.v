(** The hybrid model (fluid electrons) in the linear solver.  Models
    /repo/bolt/lib/linear/fields/dfields_hat_dt.py:44-56, 88-169 and what the
    integrators do with it: during each evaluation of the slope the rows 0, 1, 2 of
    the field solver's own array fields_hat are overwritten, and that array is the
    y_initial of the integrator. *)
From Coq Require Import ZArith Reals String List Bool.
From Verif Require Import Base.Prelude Base.ZSum Base.Cplx Model.Af Model.Grid Model.Petsc Model.Config
  Model.Fft Model.Moments Model.Integrators Model.Linear.
Import ListNotations.
Local Open Scope R_scope.

(** af.mean(a), over all elements *)
Definition mean_all (a : arr R) : R :=
  zsum (d3 a) (fun l => zsum (d2 a) (fun k => zsum (d1 a) (fun j => zsum (d0 a) (fun i => el a i j k l))))
  / (IZR (d0 a) * IZR (d1 a) * IZR (d2 a) * IZR (d3 a)).

(** Lines 46-56, 70-73: J = curl B / mu, summed along axis 1 *)
Definition curl_B_over_mu (c : lcfg) (F : arr cplx) : arr cplx * arr cplx * arr cplx :=
  let B1 := comp F 3 in let B2 := comp F 4 in let B3 := comp F 5 in
  let over := amap (cscale (/ mu c)) in
  (csum1 (over (ik (k_q2 c) B3)), csum1 (over (ik (k_q1 c) (amap copp B3))),
   csum1 (over (amap2 csub (ik (k_q1 c) B2) (ik (k_q2 c) B1)))).

(** Lines 91-96: n_i and v1, v2, v3 *)
Definition n_hat (c : lcfg) (fh : arr cplx) : arr cplx := moment_of c cplx_scalar density fh.
Definition n_real (c : lcfg) (fh : arr cplx) : arr R := from_hat c (n_hat c fh).
Definition v_real (c : lcfg) (m : moment_def) (fh : arr cplx) : arr R :=
  amap2 Rdiv (from_hat c (moment_of c cplx_scalar m fh)) (n_real c fh).

(** Lines 144-165: E1_hat, E2_hat, E3_hat.  [n0]: af.mean(n_i); [u]: the means of v;
    [w]: the means of J. *)
Definition ohm_hat (c : lcfg) (Te : R) (fh F : arr cplx) : arr cplx * arr cplx * arr cplx :=
  let B1 := comp F 3 in let B2 := comp F 4 in let B3 := comp F 5 in
  let '(J1, J2, J3) := curl_B_over_mu c F in
  let n0 := mean_all (n_real c fh) in
  let u1 := mean_all (v_real c mom_v1_bulk fh) in
  let u2 := mean_all (v_real c mom_v2_bulk fh) in
  let u3 := mean_all (v_real c mom_v3_bulk fh) in
  let w1 := mean_all (from_hat c J1) in
  let w2 := mean_all (from_hat c J2) in
  let w3 := mean_all (from_hat c J3) in
  let cross X a Y b := amap2 csub (amap (cscale a) X) (amap (cscale b) Y) in
  let hall X := amap (cscale (/ n0)) (bcast2 (fun z q => cscale q z) X (per_species c (map Rinv (charge c)))) in
  let pressure k := amap (cscale (/ n0)) (amap2 (fun z k => cscale k z) (amap (cscale Te) (n_hat c fh)) k) in
  (amap2 csub (amap2 cadd (amap copp (cross B3 u2 B2 u3)) (hall (cross B3 w2 B2 w3))) (pressure (k_q1 c)),
   amap2 csub (amap2 cadd (amap copp (cross B1 u3 B3 u1)) (hall (cross B1 w3 B3 w1))) (pressure (k_q2 c)),
   amap2 cadd (amap copp (cross B2 u1 B1 u2)) (hall (cross B2 w1 B1 w2))).

(** Lines 177-196: the slope *)
Definition dfields_hybrid (c : lcfg) (Te : R) (fh F : arr cplx) : arr cplx :=
  let B1 := comp F 3 in let B2 := comp F 4 in let B3 := comp F 5 in
  let '(J1, J2, J3) := curl_B_over_mu c F in
  let '(E1, E2, E3) := ohm_hat c Te fh F in
  let k1 := k_q1 c in let k2 := k_q2 c in
  let over x := amap (cscale (/ x)) in
  let me := mu c * eps c in
  let dE1 := amap2 csub (over me (ik k2 B3)) (over (eps c) J1) in
  let dE2 := amap2 csub (over me (ik k1 (amap copp B3))) (over (eps c) J2) in
  let dE3 := amap2 csub (over me (amap2 csub (ik k1 B2) (ik k2 B1))) (over (eps c) J3) in
  let dB1 := ik k2 (amap copp E3) in
  let dB2 := ik k1 E3 in
  let dB3 := amap2 csub (ik k2 E1) (ik k1 E2) in
  join6 dE1 dE2 dE3 dB1 dB2 dB3.

(** Lines 167-169: fields_solver.fields_hat[0], [1], [2] = E1_hat, E2_hat, E3_hat; [old]
    is that array before. *)
Definition put_E (c : lcfg) (Te : R) (fh F old : arr cplx) : arr cplx :=
  let '(E1, E2, E3) := ohm_hat c Te fh F in
  Arr (d0 old) (d1 old) (d2 old) (d3 old) (fun i j k l =>
    if (i =? 0)%Z then el E1 0 j k l else if (i =? 1)%Z then el E2 0 j k l
    else if (i =? 2)%Z then el E3 0 j k l else el old i j k l).

(** linear/integrators.py:126-179, 181-246, 248-330 with a slope [dy] of y that first
    overwrites y_initial ([put], of the arguments of the slope), and a slope [dx] of x
    that looks at y_initial as it is at that moment (df_hat_dt takes the fields from the
    field solver). *)
Definition hyb_RK2 {I J} (dx : R -> vec I -> vec J -> vec I) (dy : vec I -> vec J -> vec J)
    (put : vec I -> vec J -> vec J -> vec J) (x0 : vec I) (y0 : vec J) (dt t : R) : vec I * vec J * R :=
  let kx := dx t x0 y0 in
  let ky := dy x0 y0 in
  let y0 := put x0 y0 y0 in
  let x := fun i => x0 i + kx i * (dt / 2) in
  let y := fun i => y0 i + ky i * (dt / 2) in
  let t := t + 1 / 2 * dt in
  let kx := dx t x y0 in
  let ky := dy x y in
  let y0 := put x y y0 in
  let x := fun i => x0 i + kx i * dt in
  let y := fun i => y0 i + ky i * dt in
  let t := t + 1 / 2 * dt in
  (x, y, t).

Definition hyb_RK4 {I J} (dx : R -> vec I -> vec J -> vec I) (dy : vec I -> vec J -> vec J)
    (put : vec I -> vec J -> vec J -> vec J) (x0 : vec I) (y0 : vec J) (dt t : R) : vec I * vec J * R :=
  let k1x := dx t x0 y0 in
  let k1y := dy x0 y0 in
  let y0 := put x0 y0 y0 in
  let t := t + 1 / 2 * dt in
  let x := fun i => x0 i + 1 / 2 * k1x i * dt in
  let y := fun i => y0 i + 1 / 2 * k1y i * dt in
  let k2x := dx t x y0 in
  let k2y := dy x y in
  let y0 := put x y y0 in
  let x := fun i => x0 i + 1 / 2 * k2x i * dt in
  let y := fun i => y0 i + 1 / 2 * k2y i * dt in
  let k3x := dx t x y0 in
  let k3y := dy x y in
  let y0 := put x y y0 in
  let x := fun i => x0 i + k3x i * dt in
  let y := fun i => y0 i + k3y i * dt in
  let t := t + 1 / 2 * dt in
  let k4x := dx t x y0 in
  let k4y := dy x y in
  let y0 := put x y y0 in
  let x := fun i => x0 i + (k1x i + 2 * k2x i + 2 * k3x i + k4x i) / 6 * dt in
  let y := fun i => y0 i + (k1y i + 2 * k2y i + 2 * k3y i + k4y i) / 6 * dt in
  (x, y, t).

Definition hyb_RK5 {I J} (dx : R -> vec I -> vec J -> vec I) (dy : vec I -> vec J -> vec J)
    (put : vec I -> vec J -> vec J -> vec J) (x0 : vec I) (y0 : vec J) (dt t : R) : vec I * vec J * R :=
  let k1x := dx t x0 y0 in
  let k1y := dy x0 y0 in
  let y0 := put x0 y0 y0 in
  let x := fun i => x0 i + 1 / 4 * k1x i * dt in
  let y := fun i => y0 i + 1 / 4 * k1y i * dt in
  let t := t + 1 / 4 * dt in
  let k2x := dx t x y0 in
  let k2y := dy x y in
  let y0 := put x y y0 in
  let x := fun i => x0 i + 1 / 8 * (k1x i + k2x i) * dt in
  let y := fun i => y0 i + 1 / 8 * (k1y i + k2y i) * dt in
  let k3x := dx t x y0 in
  let k3y := dy x y in
  let y0 := put x y y0 in
  let x := fun i => x0 i - (1 / 2 * k2x i - k3x i) * dt in
  let y := fun i => y0 i - (1 / 2 * k2y i - k3y i) * dt in
  let t := t + 1 / 4 * dt in
  let k4x := dx t x y0 in
  let k4y := dy x y in
  let y0 := put x y y0 in
  let x := fun i => x0 i + (3 * k1x i + 9 * k4x i) * dt / 16 in
  let y := fun i => y0 i + (3 * k1y i + 9 * k4y i) * dt / 16 in
  let t := t + 1 / 4 * dt in
  let k5x := dx t x y0 in
  let k5y := dy x y in
  let y0 := put x y y0 in
  let x := fun i => x0 i - (3 * k1x i - 2 * k2x i - 12 * k3x i + 12 * k4x i - 8 * k5x i) * dt / 7 in
  let y := fun i => y0 i - (3 * k1y i - 2 * k2y i - 12 * k3y i + 12 * k4y i - 8 * k5y i) * dt / 7 in
  let t := t + 1 / 4 * dt in
  let k6x := dx t x y0 in
  let k6y := dy x y in
  let y0 := put x y y0 in
  let x := fun i => x0 i + (7 * k1x i + 32 * k3x i + 12 * k4x i + 32 * k5x i + 7 * k6x i) * dt / 90 in
  let y := fun i => y0 i + (7 * k1y i + 32 * k3y i + 12 * k4y i + 32 * k5y i + 7 * k6y i) * dt / 90 in
  (x, y, t).

Definition hyb_RK (m : rk) {I J} : (R -> vec I -> vec J -> vec I) -> (vec I -> vec J -> vec J) ->
    (vec I -> vec J -> vec J -> vec J) -> vec I -> vec J -> R -> R -> vec I * vec J * R :=
  match m with RK2_ => hyb_RK2 | RK4_ => hyb_RK4 | RK5_ => hyb_RK5 end.

(** timestep.py:11-149 with hybrid_model_enabled.  The electric field adds arrays of
    extents (1, 1, N_q1, N_q2) and (1, N_species, N_q1, N_q2) outside any broadcast:
    ArrayFire refuses this unless there is one species. *)
Definition hybrid_check (c : lcfg) : res unit :=
  if (N_species (ph c) =? 1)%Z then Ok tt else Err ValueError.

Definition lin_timestep_hybrid (m : rk) (c : lcfg) (Te : R) (b : background) (dt : R) (s : lstate) : res lstate :=
  let fh := if instantaneous c
            then to_hat c (amap RtoC (lsource c (get_dist_func c (f_hat s)) (lt s) true))
            else f_hat s in
  let F := fsol s in
  let? _ := df_hat_check c F fh in
  let A := arr_like fh in
  if (fields_enabled (ph c) && String.eqb (fields_type c) "electrodynamic")%bool then
    let? _ := hybrid_check c in
    let B := arr_like (fields_hat F) in
    let '(x, y, t) := hyb_RK m (fun t x y => vec_of (df_hat_value c b (set_fields_hat F (B y)) t (A x)))
                        (fun x y => vec_of (dfields_hybrid c Te (A x) (B y)))
                        (fun x y old => vec_of (put_E c Te (A x) (B y) (B old)))
                        (vec_of fh) (vec_of (fields_hat F)) dt (lt s) in
    Ok (LState (A x) (set_fields_hat F (B y)) t)
  else
    let '(x, t) := lin_RK m (fun t v => vec_of (df_hat_value c b F t (A v))) (vec_of fh) dt (lt s) in
    Ok (LState (A x) F t).
