(** Hybrid plasmas in the linear solver: Ohm's law linearised about uniform ions of
    density n0 and drift u without magnetic field,
      E = - u x B - T_e grad n / (e n0),
    mode by mode. *)
From Coq Require Import ZArith Reals List String Bool.
From Verif Require Import Base.Prelude Base.ZSum Base.Cplx Model.Af Model.Config Model.Linear Model.LinearHybrid
  Spec.MomentSpec Spec.Waves Spec.LinearSpec.
Import ListNotations.
Local Open Scope R_scope.

Fixpoint hybrid_lin_run (c : lcfg) (Te : R) (b : background) (steps : list (rk * R)) (s : lstate) : res lstate :=
  match steps with
  | [] => Ok s
  | (m, dt) :: steps => let? s := lin_timestep_hybrid m c Te b dt s in hybrid_lin_run c Te b steps s
  end.

(** Moments of the ions in each cell; mean density and mean velocity. *)
Definition ion_moment (c : lcfg) (w : R -> R -> R -> R) (f : arr R) (i j : Z) : R :=
  integral (species_grid (ph c) 0) w (fun i1 i2 i3 => el f (i1 + N_p1 (ph c) * (i2 + N_p2 (ph c) * i3))%Z 0%Z i j).
Definition ion_density (c : lcfg) (f : arr R) : Z -> Z -> R := ion_moment c (fun _ _ _ => 1) f.
Definition mean_density (c : lcfg) (f : arr R) : R := mean2 (lN1 c) (lN2 c) (ion_density c f).
Definition drift (c : lcfg) (w : R -> R -> R -> R) (f : arr R) : R :=
  mean2 (lN1 c) (lN2 c) (fun i j => ion_moment c w f i j / ion_density c f i j).

(** The electric field of a mode; [F]: the array (E1, E2, E3, B1, B2, B3). *)
Definition linear_ohm (c : lcfg) (Te : R) (fh F : arr cplx) (k l : Z) : cplx * cplx * cplx :=
  let f := get_dist_func c fh in
  let u1 := drift c (fun v _ _ => v) f in
  let u2 := drift c (fun _ v _ => v) f in
  let u3 := drift c (fun _ _ v => v) f in
  let B1 := el F 3 0 k l in let B2 := el F 4 0 k l in let B3 := el F 5 0 k l in
  let push q := cmul ci (cscale (q * Te / (nth 0 (charge c) 0 * mean_density c f)) (number_hat c fh 0 k l)) in
  (csub (copp (csub (cscale u2 B3) (cscale u3 B2))) (push (kx c k)),
   csub (copp (csub (cscale u3 B1) (cscale u1 B3))) (push (ky c l)),
   copp (csub (cscale u1 B2) (cscale u2 B1)))%Z.

(** The electric field found by the solver for a distribution function and a magnetic
    field, as functions on the grid. *)
Definition solver_E (c : lcfg) (Te : R) (fh F : arr cplx) : arr R * arr R * arr R :=
  let '(E1, E2, E3) := ohm_hat c Te fh F in (from_hat c E1, from_hat c E2, from_hat c E3).
Definition E_mode (F : arr cplx) (k l : Z) : cplx * cplx * cplx := (el F 0 0 k l, el F 1 0 k l, el F 2 0 k l)%Z.

(** No magnetic field in any mode. *)
Definition no_B (c : lcfg) (F : arr cplx) : Prop := forall i k l, (3 <= i < 6)%Z -> mode_in c k l -> el F i 0 k l = c0.

(** Half an Euler step: the distribution function [f] and the magnetic field of [F]
    after dt/2 with the slopes at the beginning of the step. *)
Definition half_way (c : lcfg) (Te : R) (b : background) (dt : R) (s : lstate) (f F : arr cplx) : Prop :=
  (d0 f = d0 (f_hat s) /\ d1 f = d1 (f_hat s) /\ d2 f = d2 (f_hat s) /\ d3 f = d3 (f_hat s))
  /\ (d0 F = 6 /\ d1 F = 1 /\ d2 F = lN1 c /\ d3 F = lN2 c)%Z
  /\ (forall x sp k l, el f x sp k l
       = cadd (el (f_hat s) x sp k l) (cscale (dt / 2) (el (df_hat_value c b (fsol s) (lt s) (f_hat s)) x sp k l)))
  /\ (forall i k l, (3 <= i < 6)%Z -> el F i 0 k l
       = cadd (el (fields_hat (fsol s)) i 0 k l)
              (cscale (dt / 2) (el (dfields_hybrid c Te (f_hat s) (fields_hat (fsol s))) i 0 k l))).

(** One kinetic species, electrodynamic. *)
Definition hybrid_lin (c : lcfg) : Prop :=
  lin_ok c /\ N_species (ph c) = 1%Z /\ fields_enabled (ph c) = true /\ fields_type c = "electrodynamic"%string.
