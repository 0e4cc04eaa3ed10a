(** Free streaming of Fourier modes: what an exact solver does, and how much the
    Runge-Kutta methods of the linear solver amplify a mode. *)
From Coq Require Import ZArith Reals String List Bool.
From Verif Require Import Base.Prelude Base.Cplx Model.Af Model.Grid Model.Config Model.Linear Spec.LinearSpec.
Import ListNotations.
Local Open Scope R_scope.

(** |z|^2 and |z| *)
Definition cmod2 (z : cplx) : R := re z ^ 2 + im z ^ 2.
Definition cmod (z : cplx) : R := sqrt (cmod2 z).

(** k . v: particles of momentum x and species s turn the phase of mode (k, l) at
    this rate; the exact solution is exp(- i omega t) times the initial one. *)
Definition omega (c : lcfg) (x s k l : Z) : R :=
  kx c k * el (p1_center (ph c)) x s 0 0 + ky c l * el (p2_center (ph c)) x s 0 0.

(** No fields, no collisions. *)
Definition streams_freely (c : lcfg) : Prop :=
  advects_with_p c /\ fields_enabled (ph c) = false /\ source_enabled (ph c) = false /\ instantaneous c = false.

(** Time covered by a list of steps. *)
Definition lin_duration (steps : list (rk * R)) : R := fold_right (fun p T => snd p + T) 0 steps.

(** Squared factor by which one step multiplies |f_hat|, with y = omega dt. *)
Definition gain2 (m : rk) (y : R) : R :=
  match m with
  | RK2_ => 1 + y ^ 4 / 4
  | RK4_ => 1 - y ^ 6 / 72 + y ^ 8 / 576
  | RK5_ => 1 - y ^ 6 / 2880 + y ^ 8 / 1920 - 7 * y ^ 10 / 115200 + y ^ 12 / 409600
  end.

(** Step sizes for which the error bound below is stated, and the error of one
    step relative to |f_hat|. *)
Definition small_step (m : rk) (y : R) : Prop :=
  match m with RK2_ => False | RK4_ => Rabs y <= 2 | RK5_ => y ^ 2 <= 1 / 2 end.
Definition step_error (m : rk) (y : R) : R :=
  match m with RK2_ => Rabs y ^ 3 | RK4_ => Rabs y ^ 5 / 100 | RK5_ => y ^ 6 / 2000 end.
Definition total_error (w : R) (steps : list (rk * R)) : R :=
  fold_right (fun p e => step_error (fst p) (w * snd p) + e) 0 steps.
