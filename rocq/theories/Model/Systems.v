(** The physical systems that come with the code, as the solvers use them: the
    calls of advection terms, and the moments by name.  Models
    /repo/bolt/src/{nonrelativistic_boltzmann,electronic_boltzmann,
    coordinate_transformation,beam_optics}/advection_terms.py,
    /repo/bolt/src/electronic_boltzmann/moment_defs.py,
    /repo/bolt/src/coordinate_transformation/moments.py and
    /repo/bolt/src/beam_optics/moment_defs.py. *)
From Coq Require Import ZArith Reals String List Bool.
From Verif Require Import Base.Prelude Model.Af Model.Moments Model.NonRel Model.Polar Model.Validate.
Import ListNotations.
Local Open Scope R_scope.

(** ** electronic_boltzmann *)

(** What the terms take from params, at one momentum: vel_band, charge_electron,
    speed_of_light and B3_mean. *)
Record band : Type := Band { vel1 : R; vel2 : R; charge_electron : R; speed_of_light : R; B3_mean : R }.

(** advection_terms.py:26-54 and 56-85 *)
Definition A_q_electronic (b : band) (t q1 q2 p1 p2 p3 : R) : R * R := (vel1 b, vel2 b).
Definition C_q_electronic (b : band) (t q1 q2 p1 p2 p3 : R) : R * R := (vel1 b, vel2 b).

(** advection_terms.py:90-132 *)
Definition A_p_electronic (b : band) (t q1 q2 p1 p2 p3 E1 E2 E3 B1 B2 B3 : R) : R * R * R :=
  let e := charge_electron b in
  let c := speed_of_light b in
  let dp1_dt := e * (E1 + vel2 b * B3_mean b / c) in
  let dp2_dt := e * (E2 - vel1 b * B3_mean b / c) in
  let dp3_dt := 0 * p1 in
  (dp1_dt, dp2_dt, dp3_dt).
(** advection_terms.py:134-176, the same text *)
Definition C_p_electronic (b : band) (t q1 q2 p1 p2 p3 E1 E2 E3 B1 B2 B3 : R) : R * R * R :=
  let e := charge_electron b in
  let c := speed_of_light b in
  let dp1_dt := e * (E1 + vel2 b * B3_mean b / c) in
  let dp2_dt := e * (E2 - vel1 b * B3_mean b / c) in
  let dp3_dt := 0 * p1 in
  (dp1_dt, dp2_dt, dp3_dt).

(** The band of graphene as the example defines it,
    /repo/example_problems/electronic_boltzmann/graphene/
    L_5.0_10.0_tau_ee_0.2_tau_eph_1.0/params.py:115-155.  A p_space_grid that is
    neither name raises NotImplementedError. *)
Definition p_xy (grid : string) (p1 p2 : R) : res (R * R) :=
  if String.eqb grid "cartesian" then Ok (p1, p2)
  else if String.eqb grid "polar2D" then Ok (p1 * cos p2, p1 * sin p2)
  else Err NotImplementedError.
Definition band_energy (fermi_velocity : R) (grid : string) (p1 p2 : R) : res R :=
  let? pxy := p_xy grid p1 p2 in
  let '(p_x, p_y) := pxy in
  let p := sqrt (p_x ^ 2 + p_y ^ 2) in
  Ok (p * fermi_velocity).
Definition band_velocity (fermi_velocity : R) (grid : string) (p1 p2 : R) : res (R * R) :=
  let? pxy := p_xy grid p1 p2 in
  let '(p_x, p_y) := pxy in
  let p := sqrt (p_x ^ 2 + p_y ^ 2) in
  let p_hat_0 := p_x / (p + / 10 ^ 20) in
  let p_hat_1 := p_y / (p + / 10 ^ 20) in
  Ok (fermi_velocity * p_hat_0, fermi_velocity * p_hat_1).

(** moment_defs.py:10-17.  The literals are 3.1415926535 and 1.0545718e-4. *)
Definition el_factor : R :=
  4 / (2 * (31415926535 / 10 ^ 10) * (10545718 / 10 ^ 11)) ^ 2.
Definition scaled {K} (S : scalar K) (x : R) (f : arr K) : arr K := amap (s_scale S x) f.
Definition el_density : moment_def := fun K S f v1 v2 v3 measure =>
  integral_over_v S f measure.
Definition el_j_x : moment_def := fun K S f v1 v2 v3 measure =>
  integral_over_v S (times S (scaled S el_factor f) v1) measure.
Definition el_j_y : moment_def := fun K S f v1 v2 v3 measure =>
  integral_over_v S (times S (scaled S el_factor f) v2) measure.
Definition electronic_moments : moment_table :=
  (("density", el_density) :: ("j_x", el_j_x) :: ("j_y", el_j_y) :: nil)%string.

(** ** coordinate_transformation/moments.py:6-58.  The definitions have the text
    of the non-relativistic ones with (rdot, thetadot, phidot) for (v1, v2, v3). *)
Definition polar_moments : moment_table :=
  (("density", density) :: ("energy", energy) :: ("energy_q1", energy_q1) :: ("energy_q2", energy_q2)
   :: ("energy_q3", energy_q3) :: ("mom_phidot_bulk", mom_v3_bulk) :: ("mom_rdot_bulk", mom_v1_bulk)
   :: ("mom_thetadot_bulk", mom_v2_bulk) :: ("q_q1", q_q1) :: ("q_q2", q_q2) :: ("q_q3", q_q3) :: nil)%string.

(** ** beam_optics *)

(** moment_defs.py: moment_coeffs and moment_exponents are dictionaries *)
Definition optics_moment_attrs : list pytype := [TOther; TOther].

(** ** Calls

    Arguments at one point of phase space: numbers, the fields solver with what
    its get_fields returns there, params.  A function called with a number of
    arguments that is not the number of its parameters raises TypeError. *)
Inductive val : Type :=
| Num (x : R)
| Fields (E1 E2 E3 B1 B2 B3 : R)
| ParamsV.

Definition pyfun (A : Type) : Type := list val -> res A.

(** [def f(t, q1, q2, p1, p2, p3, params)] *)
Definition def_q {A} (f : R -> R -> R -> R -> R -> R -> A) : pyfun A := fun args =>
  match args with
  | [Num t; Num q1; Num q2; Num p1; Num p2; Num p3; ParamsV] => Ok (f t q1 q2 p1 p2 p3)
  | _ => Err TypeError
  end.

(** [def f(t, q1, q2, p1, p2, p3, fields_solver, params)] with
    E1, E2, E3, B1, B2, B3 = fields_solver.get_fields() as its first line *)
Definition def_solver {A} (f : R -> R -> R -> R -> R -> R -> R -> R -> R -> R -> R -> R -> A) : pyfun A := fun args =>
  match args with
  | [Num t; Num q1; Num q2; Num p1; Num p2; Num p3; Fields E1 E2 E3 B1 B2 B3; ParamsV] =>
      Ok (f t q1 q2 p1 p2 p3 E1 E2 E3 B1 B2 B3)
  | _ => Err TypeError
  end.

(** [def f(t, q1, q2, p1, p2, p3, E1, E2, E3, B1, B2, B3, params)] *)
Definition def_EB {A} (f : R -> R -> R -> R -> R -> R -> R -> R -> R -> R -> R -> R -> A) : pyfun A := fun args =>
  match args with
  | [Num t; Num q1; Num q2; Num p1; Num p2; Num p3; Num E1; Num E2; Num E3; Num B1; Num B2; Num B3; ParamsV] =>
      Ok (f t q1 q2 p1 p2 p3 E1 E2 E3 B1 B2 B3)
  | _ => Err TypeError
  end.

(** A module with advection terms; None: no such function. *)
Record terms : Type := Terms {
  t_A_q : option (pyfun (R * R)); t_C_q : option (pyfun (R * R));
  t_A_p : option (pyfun (R * R * R)); t_C_p : option (pyfun (R * R * R)) }.

Definition nonrel_terms (e m : R) : terms :=
  Terms (Some (def_q A_q_nonrel)) (Some (def_q C_q_nonrel))
        (Some (def_solver (A_p_nonrel e m))) (Some (def_solver (C_p_nonrel e m))).

Definition electronic_terms (b : band) : terms :=
  Terms (Some (def_q (A_q_electronic b))) (Some (def_q (C_q_electronic b)))
        (Some (def_EB (A_p_electronic b))) (Some (def_EB (C_p_electronic b))).

(** coordinate_transformation/advection_terms.py:7-35; the fields solver is not used *)
Definition polar_terms : terms :=
  Terms (Some (def_q (fun t r th rd td phid => polar_A_q r th rd td phid)))
        (Some (def_q (fun t r th rd td phid => polar_C_q r th rd td phid)))
        (Some (def_solver (fun t r th rd td phid _ _ _ _ _ _ => polar_A_p r th rd td phid)))
        (Some (def_solver (fun t r th rd td phid _ _ _ _ _ _ => polar_C_p r th rd td phid))).

(** beam_optics/advection_terms.py:6-35: no time among the parameters, no
    conservative terms.  Division by the refractive index n = 0 of lines 6-8
    gives inf or nan in floating point; the model leaves the value [v] open. *)
Definition optics_terms (v : R -> R -> R -> R -> R -> R * R) (e m : R) : terms :=
  Terms (Some (fun args => match args with
                | [Num q1; Num q2; Num p1; Num p2; Num p3; ParamsV] => Ok (v q1 q2 p1 p2 p3)
                | _ => Err TypeError end))
        None
        (Some (fun args => match args with
                | [Num q1; Num q2; Num p1; Num p2; Num p3; Num E1; Num E2; Num E3; Num B1; Num B2; Num B3; ParamsV] =>
                    Ok (e / m * (E1 + p2 * B3 - p3 * B2), e / m * (E2 - p1 * B3 + p3 * B1),
                        e / m * (E3 - p2 * B1 + p1 * B2))
                | _ => Err TypeError end))
        None.

(** lib/physical_system.py:202-206: the system's A_q, C_q, A_p, C_p are the
    module's, an AttributeError if one is missing. *)
Definition attr {A} (x : option A) : res A := match x with Some a => Ok a | None => Err AttributeError end.
Record linked : Type := Linked {
  l_A_q : pyfun (R * R); l_C_q : pyfun (R * R); l_A_p : pyfun (R * R * R); l_C_p : pyfun (R * R * R) }.
Definition link (T : terms) : res linked :=
  let? a := attr (t_A_q T) in
  let? b := attr (t_C_q T) in
  let? c := attr (t_A_p T) in
  let? d := attr (t_C_p T) in
  Ok (Linked a b c d).

(** The calls: boundaries.py:161-175, df_dt_fvm.py:67-77,
    interpolation_routines.py:27-31, linear/df_hat_dt.py:28-32. *)
Definition call_q {A} (f : pyfun A) (t q1 q2 p1 p2 p3 : R) : res A :=
  f [Num t; Num q1; Num q2; Num p1; Num p2; Num p3; ParamsV].
(** df_dt_fvm.py:251-267, interpolation_routines.py:84-100, linear/df_hat_dt.py:78-82.
    [F] is what get_fields returns. *)
Definition call_p {A} (f : pyfun A) (t q1 q2 p1 p2 p3 : R) (F : R * R * R * R * R * R) : res A :=
  let '(E1, E2, E3, B1, B2, B3) := F in
  f [Num t; Num q1; Num q2; Num p1; Num p2; Num p3; Fields E1 E2 E3 B1 B2 B3; ParamsV].
