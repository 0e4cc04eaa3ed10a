(** Sources of the linear solver that depend on time, place, momentum and species, but
    not on f. *)
From Coq Require Import ZArith Reals String List Bool.
From Verif Require Import Base.Prelude Base.Cplx Model.Af Model.Grid Model.Config Model.Linear Spec.Waves Spec.LinearSpec.
Import ListNotations.
Local Open Scope R_scope.

(** No fields; the source is [g] t x s i j. *)
Definition lin_driven (c : lcfg) (g : R -> Z -> Z -> Z -> Z -> R) : Prop :=
  fields_enabled (ph c) = false /\ source_enabled (ph c) = true /\ instantaneous c = false
  /\ forall f t, d0 f = N_p (ph c) -> d1 f = N_species (ph c) -> d2 f = lN1 c -> d3 f = lN2 c ->
     lsource c f t false = Arr (N_p (ph c)) (N_species (ph c)) (lN1 c) (lN2 c) (g t).

(** Mean over the domain of f at one momentum, as the solver returns it. *)
Definition mean_f (c : lcfg) (st : lstate) (x s : Z) : R :=
  mean2 (lN1 c) (lN2 c) (fun i j => el (get_dist_func c (f_hat st)) x s i j).

(** a_0 + a_1 t + ... + a_n t^n and its integral from t to t'. *)
Definition poly (a : nat -> R) (n : nat) (t : R) : R := sum_f_R0 (fun k => a k * t ^ k) n.
Definition poly_integral (a : nat -> R) (n : nat) (t t' : R) : R :=
  sum_f_R0 (fun k => a k * ((t' ^ S k - t ^ S k) / INR (S k))) n.

(** Degree of the polynomials each method integrates: at least its order less one. *)
Definition degree (m : rk) : nat := match m with RK2_ => 1%nat | RK4_ => 3%nat | RK5_ => 5%nat end.

(** [g] has at every time a Taylor polynomial of degree n with remainder at most
    M |u - t|^(n+1). *)
Definition smooth (n : nat) (M : R) (g : R -> R) : Prop :=
  forall t, exists a, forall u, Rabs (g u - poly a n u) <= M * Rabs (u - t) ^ S n.
Definition driven_error (M : R) (n : nat) (h : list (rk * R)) : R :=
  fold_right (fun k e => 2 * M * snd k ^ S (S n) + e) 0 h.
