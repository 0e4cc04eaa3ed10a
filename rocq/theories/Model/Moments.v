(** Moments of the distribution function.
    /repo/bolt/src/utils/integral_over_v.py,
    /repo/bolt/src/nonrelativistic_boltzmann/moments.py and
    /repo/bolt/lib/nonlinear/compute_moments.py.

    The moment definitions are Python functions that work on real arrays (the
    nonlinear solver) and on complex ones (f_hat of the linear solver), so they
    are modelled over any type of elements that can be summed and multiplied by
    real numbers. *)
From Coq Require Import ZArith Reals String List Bool.
From Verif Require Import Base.Prelude Base.ZSum Base.Cplx Model.Af Model.Grid Model.Petsc Model.Config.
Local Open Scope R_scope.

Record scalar (K : Type) : Type := Scalar {
  s_sum : Z -> (Z -> K) -> K;
  s_scale : R -> K -> K }.
Arguments s_sum {K} _ _ _. Arguments s_scale {K} _ _ _.

Definition real_scalar : scalar R := Scalar R zsum Rmult.
Definition cplx_scalar : scalar cplx := Scalar cplx csum cscale.

(** array * w for a real array w, broadcast *)
Definition times {K} (S : scalar K) (a : arr K) (w : arr R) : arr K :=
  bcast2 (fun x v => s_scale S v x) a w.

(** integral_over_v.py:6-7: af.sum(array, 0) * integral_measure *)
Definition integral_over_v {K} (S : scalar K) (a : arr K) (measure : arr R) : arr K :=
  times S (Arr 1 (d1 a) (d2 a) (d3 a) (fun _ j k l => s_sum S (d0 a) (fun i => el a i j k l))) measure.

Definition moment_def : Type := forall K, scalar K -> arr K -> arr R -> arr R -> arr R -> arr R -> arr K.

Definition sq (v : arr R) : arr R := amap (fun x => x ^ 2) v.
Definition v_sq (v1 v2 v3 : arr R) : arr R := sq v1 [+] sq v2 [+] sq v3.

(** moments.py:6-7 *)
Definition density : moment_def := fun K S f v1 v2 v3 measure =>
  integral_over_v S f measure.
(** moments.py:9-16 *)
Definition mom_v1_bulk : moment_def := fun K S f v1 v2 v3 measure =>
  integral_over_v S (times S f v1) measure.
Definition mom_v2_bulk : moment_def := fun K S f v1 v2 v3 measure =>
  integral_over_v S (times S f v2) measure.
Definition mom_v3_bulk : moment_def := fun K S f v1 v2 v3 measure =>
  integral_over_v S (times S f v3) measure.
(** moments.py:18-40 *)
Definition half_f {K} (S : scalar K) (f : arr K) : arr K := amap (s_scale S (1/2)) f.
Definition energy : moment_def := fun K S f v1 v2 v3 measure =>
  integral_over_v S (times S (half_f S f) (v_sq v1 v2 v3)) measure.
Definition energy_q1 : moment_def := fun K S f v1 v2 v3 measure =>
  integral_over_v S (times S (half_f S f) (sq v1)) measure.
Definition energy_q2 : moment_def := fun K S f v1 v2 v3 measure =>
  integral_over_v S (times S (half_f S f) (sq v2)) measure.
Definition energy_q3 : moment_def := fun K S f v1 v2 v3 measure =>
  integral_over_v S (times S (half_f S f) (sq v3)) measure.
(** moments.py:42-58 *)
Definition q_q1 : moment_def := fun K S f v1 v2 v3 measure =>
  integral_over_v S (times S (times S f v1) (v_sq v1 v2 v3)) measure.
Definition q_q2 : moment_def := fun K S f v1 v2 v3 measure =>
  integral_over_v S (times S (times S f v2) (v_sq v1 v2 v3)) measure.
Definition q_q3 : moment_def := fun K S f v1 v2 v3 measure =>
  integral_over_v S (times S (times S f v3) (v_sq v1 v2 v3)) measure.

(** The module's public names in the order of dir(), without integral_over_v. *)
Definition moment_table : Type := list (string * moment_def).
Definition nonrel_moments : moment_table :=
  (("density", density) :: ("energy", energy) :: ("energy_q1", energy_q1) :: ("energy_q2", energy_q2)
   :: ("energy_q3", energy_q3) :: ("mom_v1_bulk", mom_v1_bulk) :: ("mom_v2_bulk", mom_v2_bulk)
   :: ("mom_v3_bulk", mom_v3_bulk) :: ("q_q1", q_q1) :: ("q_q2", q_q2) :: ("q_q3", q_q3) :: nil)%string.

(** getattr(moments, name) *)
Fixpoint getattr (T : moment_table) (name : string) : res moment_def :=
  match T with
  | nil => Err AttributeError
  | (n, m) :: T => if String.eqb n name then Ok m else getattr T name
  end.

(** self.dp3 * self.dp2 * self.dp1, each of extents (1, N_species)
    (nonlinear_solver.py:387-389). *)
Definition dp_arr (c : cfg) (dp : list R) : arr R :=
  Arr 1 (N_species c) 1 1 (fun _ s _ _ => nth (Z.to_nat s) dp 0).
Definition measure (c : cfg) : arr R := dp_arr c (dp3 c) [*] dp_arr c (dp2 c) [*] dp_arr c (dp1 c).

(** compute_moments.py:7-59 with f given; [mu] is params.initial_mu. *)
Definition compute_moments (c : cfg) (T : moment_table) (mu : R) (name : string) (f : arr R) : res (arr R) :=
  let moment := fun m : moment_def =>
    m R real_scalar f (p1_center c) (p2_center c) (p3_center c) (measure c) in
  if String.eqb (p_space_grid c) "cartesian" then
    let? m := getattr T name in Ok (moment m)
  else if String.eqb (p_space_grid c) "polar2D" then
    let? m := getattr T name in Ok (amap (Rmult mu) (moment m))
  else Err NotImplementedError.
