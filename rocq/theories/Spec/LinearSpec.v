(** What the linear solver's conservation laws are about. *)
From Coq Require Import ZArith Reals List String Bool.
From Verif Require Import Base.Prelude Base.ZSum Base.Cplx Model.Af Model.Config Model.Linear Spec.MomentSpec Spec.Waves.
Import ListNotations.
Local Open Scope R_scope.

(** Momentum cells and species are given consistently, the q-grid has cells of
    positive size. *)
Definition lin_ok (c : lcfg) : Prop :=
  momentum_grid_ok (ph c) /\ (0 < lN1 c)%Z /\ (0 < lN2 c)%Z /\ 0 < dq1 (ph c) /\ 0 < dq2 (ph c).

(** Extents of the evolved arrays. *)
Definition lin_state_ok (c : lcfg) (s : lstate) : Prop :=
  d0 (f_hat s) = N_p (ph c) /\ d1 (f_hat s) = N_species (ph c) /\ d2 (f_hat s) = lN1 c /\ d3 (f_hat s) = lN2 c.
Definition lin_fields_ok (c : lcfg) (s : lstate) : Prop :=
  let F := fields_hat (fsol s) in
  d0 F = 6%Z /\ d1 F = 1%Z /\ d2 F = lN1 c /\ d3 F = lN2 c.

(** Several time steps, each with its own method and step size. *)
Fixpoint lin_run (c : lcfg) (b : background) (steps : list (rk * R)) (s : lstate) : res lstate :=
  match steps with
  | [] => Ok s
  | (m, dt) :: steps => let? s := lin_timestep m c b dt s in lin_run c b steps s
  end.

(** A mode of the grid and its wave numbers. *)
Definition mode_in (c : lcfg) (k l : Z) : Prop := (0 <= k < lN1 c)%Z /\ (0 <= l < lN2 c)%Z.
Definition kx (c : lcfg) (k : Z) : R := wavenumber (lN1 c) (dq1 (ph c)) k.
Definition ky (c : lcfg) (l : Z) : R := wavenumber (lN2 c) (dq2 (ph c)) l.

(** i k . B of the mode, from the array (E1, E2, E3, B1, B2, B3) *)
Definition div_B (c : lcfg) (F : arr cplx) (k l : Z) : cplx :=
  cmul ci (cadd (cscale (kx c k) (el F 3 0 k l)) (cscale (ky c l) (el F 4 0 k l)))%Z.

(** Number density of a species and charge density of a mode. *)
Definition csum3 (c : cfg) (g : Z -> Z -> Z -> cplx) : cplx :=
  csum (N_p3 c) (fun i3 => csum (N_p2 c) (fun i2 => csum (N_p1 c) (fun i1 => g i1 i2 i3))).
Definition number_hat (c : lcfg) (fh : arr cplx) (s k l : Z) : cplx :=
  let G := species_grid (ph c) s in
  cscale (w1 G * w2 G * w3 G)
    (csum3 (ph c) (fun i1 i2 i3 => el fh (i1 + N_p1 (ph c) * (i2 + N_p2 (ph c) * i3)) s k l)).
Definition charge_hat (c : lcfg) (fh : arr cplx) (k l : Z) : cplx :=
  csum (N_species (ph c)) (fun s => cscale (nth (Z.to_nat s) (charge c) 0) (number_hat c fh s k l)).

(** eps i k . E - rho of the mode *)
Definition gauss_defect (c : lcfg) (fh F : arr cplx) (k l : Z) : cplx :=
  csub (cscale (eps c) (cmul ci (cadd (cscale (kx c k) (el F 0 0 k l)) (cscale (ky c l) (el F 1 0 k l)))))%Z
       (charge_hat c fh k l).

(** The number of particles of a species in the whole domain. *)
Definition particles (c : lcfg) (f : arr R) (s : Z) : R :=
  let G := species_grid (ph c) s in
  dq1 (ph c) * dq2 (ph c) * (w1 G * w2 G * w3 G)
  * zsum (lN1 c) (fun k => zsum (lN2 c) (fun l => zsum (N_p (ph c)) (fun x => el f x s k l))).

(** Velocity and momentum coincide: f is advected with (p1, p2). *)
Definition advects_with_p (c : lcfg) : Prop :=
  forall s t q1 q2 p1 p2 p3, A_q (ph c) s t q1 q2 p1 p2 p3 = (p1, p2).

(** No component of the force depends on its own momentum, as in the Lorentz force. *)
Definition force_divergence_free (c : lcfg) : Prop :=
  forall s t q1 q2 p1 p2 p3 p e1 e2 e3 b1 b2 b3,
    let a p1 p2 p3 := lA_p c s t q1 q2 p1 p2 p3 e1 e2 e3 b1 b2 b3 in
    fst (fst (a p1 p2 p3)) = fst (fst (a p p2 p3))
    /\ snd (fst (a p1 p2 p3)) = snd (fst (a p1 p p3))
    /\ snd (a p1 p2 p3) = snd (a p1 p2 p).

(** All species use the same cell size in p2. *)
Definition uniform_dp2 (c : lcfg) : Prop :=
  forall s, (0 <= s < N_species (ph c))%Z -> nth (Z.to_nat s) (dp2 (ph c)) 0 = nth 0 (dp2 (ph c)) 0.

(** The coupled system the electrodynamic step is meant to solve: at each stage f
    is pushed by the fields of that stage. *)
From Verif Require Import Model.Integrators Spec.RungeKutta.
Definition tableau_of (m : rk) : tableau :=
  match m with RK2_ => midpoint_tableau | RK4_ => classical_tableau | RK5_ => butcher_tableau end.
Definition intended_f (m : rk) (c : lcfg) (b : background) (dt : R) (s : lstate) : arr cplx :=
  let A := arr_like (f_hat s) in
  let B := arr_like (fields_hat (fsol s)) in
  let z := rk_step (tableau_of m)
             (coupled (fun t x y => vec_of (df_hat_value c b (set_fields_hat (fsol s) (B y)) t (A x)))
                      (fun _ x y => vec_of (dfields_hat_value c (A x) (B y))))
             (lt s) (both (vec_of (f_hat s)) (vec_of (fields_hat (fsol s)))) dt in
  A (fun i => z (inl i)).
(** The same with the fields of the beginning of the step at every stage. *)
Definition frozen_f (m : rk) (c : lcfg) (b : background) (dt : R) (s : lstate) : arr cplx :=
  let A := arr_like (f_hat s) in
  A (rk_step (tableau_of m) (fun t x => vec_of (df_hat_value c b (fsol s) t (A x))) (lt s) (vec_of (f_hat s)) dt).

(** Z = a X + b Y *)
Definition combination (a b : R) (X Y Z : arr cplx) : Prop :=
  same_dims X Z /\ same_dims Y Z
  /\ forall i j k l, el Z i j k l = cadd (cscale a (el X i j k l)) (cscale b (el Y i j k l)).

Definition force_linear_in_fields (c : lcfg) : Prop :=
  forall s t q1 q2 p1 p2 p3 a b e1 e2 e3 b1 b2 b3 e1' e2' e3' b1' b2' b3',
    let m z z' := cadd (cscale a z) (cscale b z') in
    let A := lA_p c s t q1 q2 p1 p2 p3 e1 e2 e3 b1 b2 b3 in
    let A' := lA_p c s t q1 q2 p1 p2 p3 e1' e2' e3' b1' b2' b3' in
    lA_p c s t q1 q2 p1 p2 p3 (m e1 e1') (m e2 e2') (m e3 e3') (m b1 b1') (m b2 b2') (m b3 b3')
    = (m (fst (fst A)) (fst (fst A')), m (snd (fst A)) (snd (fst A')), m (snd A) (snd A')).

(** The system is linear: no source, and the fields, if any, are those of f. *)
Definition linear_system (c : lcfg) : Prop :=
  source_enabled (ph c) = false /\ instantaneous c = false
  /\ (fields_enabled (ph c) = true -> fields_type c = "electrostatic"%string /\ force_linear_in_fields c).
(** s3 = a s1 + b s2, at the same time and with the same stored field array. *)
Definition superposed (a b : R) (s1 s2 s3 : lstate) : Prop :=
  combination a b (f_hat s1) (f_hat s2) (f_hat s3) /\ lt s1 = lt s3 /\ lt s2 = lt s3
  /\ fields_hat (fsol s1) = fields_hat (fsol s3) /\ fields_hat (fsol s2) = fields_hat (fsol s3).
