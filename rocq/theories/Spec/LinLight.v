(** Light in the linear solver: electromagnetic waves of one Fourier mode. *)
From Coq Require Import ZArith Reals String List Bool.
From Verif Require Import Base.Prelude Base.Cplx Model.Af Model.Config Model.Linear Spec.LinearSpec Spec.FreeStream.
Import ListNotations.
Local Open Scope R_scope.

(** The particles carry no charge: nothing drives the fields. *)
Definition no_charges (c : lcfg) : Prop := forall n, nth n (charge c) 0 = 0.
Definition evolves_fields (c : lcfg) : Prop :=
  fields_enabled (ph c) = true /\ fields_type c = "electrodynamic"%string /\ 0 < mu c /\ 0 < eps c.

(** |k|, and the frequency of light, |k| / sqrt (mu eps). *)
Definition k_norm (c : lcfg) (k l : Z) : R := sqrt (kx c k ^ 2 + ky c l ^ 2).
Definition light_speed (c : lcfg) : R := / sqrt (mu c * eps c).
Definition light_omega (c : lcfg) (k l : Z) : R := light_speed c * k_norm c k l.

(** The amplitudes of the four light waves of mode (k, l) in the array (E1, E2, E3, B1, B2, B3):
    E along q3, or E in the plane; travelling along k (g = -1) or against it (g = 1).  In exact
    solutions they are multiplied with exp (i g omega t). *)
Definition wave_E3 (c : lcfg) (g : R) (F : arr cplx) (k l : Z) : cplx :=
  cadd (cscale (k_norm c k l) (el F 2 0 k l))
       (cscale (g * light_speed c) (csub (cscale (kx c k) (el F 4 0 k l)) (cscale (ky c l) (el F 3 0 k l))))%Z.
Definition wave_B3 (c : lcfg) (g : R) (F : arr cplx) (k l : Z) : cplx :=
  cadd (cscale (k_norm c k l * light_speed c) (el F 5 0 k l))
       (cscale g (csub (cscale (ky c l) (el F 0 0 k l)) (cscale (kx c k) (el F 1 0 k l))))%Z.

(** k . E, and the energy of the mode. *)
Definition k_dot_E (c : lcfg) (F : arr cplx) (k l : Z) : cplx := cadd (cscale (kx c k) (el F 0 0 k l)) (cscale (ky c l) (el F 1 0 k l))%Z.
Definition k_dot_B (c : lcfg) (F : arr cplx) (k l : Z) : cplx := cadd (cscale (kx c k) (el F 3 0 k l)) (cscale (ky c l) (el F 4 0 k l))%Z.
Definition mode_energy (c : lcfg) (F : arr cplx) (k l : Z) : R :=
  let m i := cmod2 (el F i 0 k l) in
  eps c * (m 0%Z + m 1%Z + m 2%Z) + / mu c * (m 3%Z + m 4%Z + m 5%Z).

(** What a run multiplies squared moduli with. *)
Definition run_gain2 (w : R) (steps : list (rk * R)) : R := fold_right (fun p g => gain2 (fst p) (w * snd p) * g) 1 steps.
