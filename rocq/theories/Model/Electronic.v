(** Collisions of electrons.  Models
    /repo/bolt/src/electronic_boltzmann/{matrix_inverse,collision_operator}.py.

    All array expressions there act on one cell of q-space and one species at a
    time, apart from the sums over axis 0, which run over the N momenta; the model
    is the computation at one cell.  Printing and the error norms are left out.
    collision_operator.py has two syntax errors (lines 648 and 654, a colon is
    missing); the model takes the colons to be there. *)
From Coq Require Import ZArith Reals List String Bool.
From Verif Require Import Base.Prelude Base.ZSum.
Import ListNotations.
Local Open Scope R_scope.

Definition matrix : Type := nat -> nat -> R.

Local Notation "A .[ i , j ]" := (A i%nat j%nat) (at level 2, left associativity).

Definition of_rows (rows : list (list R)) : matrix := fun i j => nth j (nth i rows []) 0.

(** matrix_inverse.py:4-199 *)
Definition det4 (A : matrix) : R :=
  A.[0,0] * A.[1,1] * A.[2,2] * A.[3,3]
  + A.[0,0] * A.[1,2] * A.[2,3] * A.[3,1]
  + A.[0,0] * A.[1,3] * A.[2,1] * A.[3,2]
  + A.[0,1] * A.[1,0] * A.[2,3] * A.[3,2]
  + A.[0,1] * A.[1,2] * A.[2,0] * A.[3,3]
  + A.[0,1] * A.[1,3] * A.[2,2] * A.[3,0]
  + A.[0,2] * A.[1,0] * A.[2,1] * A.[3,3]
  + A.[0,2] * A.[1,1] * A.[2,3] * A.[3,0]
  + A.[0,2] * A.[1,3] * A.[2,0] * A.[3,1]
  + A.[0,3] * A.[1,0] * A.[2,2] * A.[3,1]
  + A.[0,3] * A.[1,1] * A.[2,0] * A.[3,2]
  + A.[0,3] * A.[1,2] * A.[2,1] * A.[3,0]
  - A.[0,0] * A.[1,1] * A.[2,3] * A.[3,2]
  - A.[0,0] * A.[1,2] * A.[2,1] * A.[3,3]
  - A.[0,0] * A.[1,3] * A.[2,2] * A.[3,1]
  - A.[0,1] * A.[1,0] * A.[2,2] * A.[3,3]
  - A.[0,1] * A.[1,2] * A.[2,3] * A.[3,0]
  - A.[0,1] * A.[1,3] * A.[2,0] * A.[3,2]
  - A.[0,2] * A.[1,0] * A.[2,3] * A.[3,1]
  - A.[0,2] * A.[1,1] * A.[2,0] * A.[3,3]
  - A.[0,2] * A.[1,3] * A.[2,1] * A.[3,0]
  - A.[0,3] * A.[1,0] * A.[2,1] * A.[3,2]
  - A.[0,3] * A.[1,1] * A.[2,2] * A.[3,0]
  - A.[0,3] * A.[1,2] * A.[2,0] * A.[3,1].

Definition inverse_4x4_matrix (A : matrix) : matrix :=
  let det := det4 A in
  of_rows
    [[(A.[1,1] * A.[2,2] * A.[3,3] + A.[1,2] * A.[2,3] * A.[3,1] + A.[1,3] * A.[2,1] * A.[3,2]
        - A.[1,1] * A.[2,3] * A.[3,2] - A.[1,2] * A.[2,1] * A.[3,3] - A.[1,3] * A.[2,2] * A.[3,1]) / det;
      (A.[0,1] * A.[2,3] * A.[3,2] + A.[0,2] * A.[2,1] * A.[3,3] + A.[0,3] * A.[2,2] * A.[3,1]
        - A.[0,1] * A.[2,2] * A.[3,3] - A.[0,2] * A.[2,3] * A.[3,1] - A.[0,3] * A.[2,1] * A.[3,2]) / det;
      (A.[0,1] * A.[1,2] * A.[3,3] + A.[0,2] * A.[1,3] * A.[3,1] + A.[0,3] * A.[1,1] * A.[3,2]
        - A.[0,1] * A.[1,3] * A.[3,2] - A.[0,2] * A.[1,1] * A.[3,3] - A.[0,3] * A.[1,2] * A.[3,1]) / det;
      (A.[0,1] * A.[1,3] * A.[2,2] + A.[0,2] * A.[1,1] * A.[2,3] + A.[0,3] * A.[1,2] * A.[2,1]
        - A.[0,1] * A.[1,2] * A.[2,3] - A.[0,2] * A.[1,3] * A.[2,1] - A.[0,3] * A.[1,1] * A.[2,2]) / det];
     [(A.[1,0] * A.[2,3] * A.[3,2] + A.[1,2] * A.[2,0] * A.[3,3] + A.[1,3] * A.[2,2] * A.[3,0]
        - A.[1,0] * A.[2,2] * A.[3,3] - A.[1,2] * A.[2,3] * A.[3,0] - A.[1,3] * A.[2,0] * A.[3,2]) / det;
      (A.[0,0] * A.[2,2] * A.[3,3] + A.[0,2] * A.[2,3] * A.[3,0] + A.[0,3] * A.[2,0] * A.[3,2]
        - A.[0,0] * A.[2,3] * A.[3,2] - A.[0,2] * A.[2,0] * A.[3,3] - A.[0,3] * A.[2,2] * A.[3,0]) / det;
      (A.[0,0] * A.[1,3] * A.[3,2] + A.[0,2] * A.[1,0] * A.[3,3] + A.[0,3] * A.[1,2] * A.[3,0]
        - A.[0,0] * A.[1,2] * A.[3,3] - A.[0,2] * A.[1,3] * A.[3,0] - A.[0,3] * A.[1,0] * A.[3,2]) / det;
      (A.[0,0] * A.[1,2] * A.[2,3] + A.[0,2] * A.[1,3] * A.[2,0] + A.[0,3] * A.[1,0] * A.[2,2]
        - A.[0,0] * A.[1,3] * A.[2,2] - A.[0,2] * A.[1,0] * A.[2,3] - A.[0,3] * A.[1,2] * A.[2,0]) / det];
     [(A.[1,0] * A.[2,1] * A.[3,3] + A.[1,1] * A.[2,3] * A.[3,0] + A.[1,3] * A.[2,0] * A.[3,1]
        - A.[1,0] * A.[2,3] * A.[3,1] - A.[1,1] * A.[2,0] * A.[3,3] - A.[1,3] * A.[2,1] * A.[3,0]) / det;
      (A.[0,0] * A.[2,3] * A.[3,1] + A.[0,1] * A.[2,0] * A.[3,3] + A.[0,3] * A.[2,1] * A.[3,0]
        - A.[0,0] * A.[2,1] * A.[3,3] - A.[0,1] * A.[2,3] * A.[3,0] - A.[0,3] * A.[2,0] * A.[3,1]) / det;
      (A.[0,0] * A.[1,1] * A.[3,3] + A.[0,1] * A.[1,3] * A.[3,0] + A.[0,3] * A.[1,0] * A.[3,1]
        - A.[0,0] * A.[1,3] * A.[3,1] - A.[0,1] * A.[1,0] * A.[3,3] - A.[0,3] * A.[1,1] * A.[3,0]) / det;
      (A.[0,0] * A.[1,3] * A.[2,1] + A.[0,1] * A.[1,0] * A.[2,3] + A.[0,3] * A.[1,1] * A.[2,0]
        - A.[0,0] * A.[1,1] * A.[2,3] - A.[0,1] * A.[1,3] * A.[2,0] - A.[0,3] * A.[1,0] * A.[2,1]) / det];
     [(A.[1,0] * A.[2,2] * A.[3,1] + A.[1,1] * A.[2,0] * A.[3,2] + A.[1,2] * A.[2,1] * A.[3,0]
        - A.[1,0] * A.[2,1] * A.[3,2] - A.[1,1] * A.[2,2] * A.[3,0] - A.[1,2] * A.[2,0] * A.[3,1]) / det;
      (A.[0,0] * A.[2,1] * A.[3,2] + A.[0,1] * A.[2,2] * A.[3,0] + A.[0,2] * A.[2,0] * A.[3,1]
        - A.[0,0] * A.[2,2] * A.[3,1] - A.[0,1] * A.[2,0] * A.[3,2] - A.[0,2] * A.[2,1] * A.[3,0]) / det;
      (A.[0,0] * A.[1,2] * A.[3,1] + A.[0,1] * A.[1,0] * A.[3,2] + A.[0,2] * A.[1,1] * A.[3,0]
        - A.[0,0] * A.[1,1] * A.[3,2] - A.[0,1] * A.[1,2] * A.[3,0] - A.[0,2] * A.[1,0] * A.[3,1]) / det;
      (A.[0,0] * A.[1,1] * A.[2,2] + A.[0,1] * A.[1,2] * A.[2,0] + A.[0,2] * A.[1,0] * A.[2,1]
        - A.[0,0] * A.[1,2] * A.[2,1] - A.[0,1] * A.[1,0] * A.[2,2] - A.[0,2] * A.[1,1] * A.[2,0]) / det]].

(** matrix_inverse.py:202-285 *)
Definition det3 (A : matrix) : R :=
  A.[0,0] * A.[1,1] * A.[2,2]
  - A.[0,0] * A.[1,2] * A.[2,1]
  - A.[0,1] * A.[1,0] * A.[2,2]
  + A.[0,1] * A.[1,2] * A.[2,0]
  + A.[0,2] * A.[1,0] * A.[2,1]
  - A.[0,2] * A.[1,1] * A.[2,0].

Definition inverse_3x3_matrix (A : matrix) : matrix :=
  let det := det3 A in
  let cofactors := of_rows
    [[(A.[1,1] * A.[2,2] - A.[1,2] * A.[2,1]);
      -(A.[1,0] * A.[2,2] - A.[1,2] * A.[2,0]);
      (A.[1,0] * A.[2,1] - A.[1,1] * A.[2,0])];
     [-(A.[0,1] * A.[2,2] - A.[0,2] * A.[2,1]);
      (A.[0,0] * A.[2,2] - A.[0,2] * A.[2,0]);
      -(A.[0,0] * A.[2,1] - A.[0,1] * A.[2,0])];
     [(A.[0,1] * A.[1,2] - A.[0,2] * A.[1,1]);
      -(A.[0,0] * A.[1,2] - A.[0,2] * A.[1,0]);
      (A.[0,0] * A.[1,1] - A.[0,1] * A.[1,0])]] in
  let adjoint := fun i j => cofactors j i in
  fun i j => adjoint i j / det.

(** ** Chemical potential, temperature and drift of the local equilibrium.
    [E] params.E_band, [px], [py] momenta, [f] the distribution at the cell,
    [k] Boltzmann's constant. *)
Section Cell.
  Context (N : Z) (k : R) (E px py f : Z -> R).

  Definition total (g : Z -> R) : R := zsum N g.        (* af.sum(., 0) *)

  Definition fermi_dirac (mu T : R) (x : Z) : R := 1 / (exp ((E x - mu) / (k * T)) + 1).

  (** One pass of the loop of f0_defect_constant_T, lines 37-69 *)
  Definition defect_mu_step (T mu : R) : R :=
    let tmp x := (E x - mu) / (k * T) in
    let denominator x := k * T^2 * (exp (tmp x) + 2 + exp (- tmp x)) in
    let a00 := total (fun x => T / denominator x) in
    let eqn_mass_conservation := total (fun x => f x - fermi_dirac mu T x) in
    let res := eqn_mass_conservation in
    let dres_dmu := - a00 in
    let delta_mu := - res / dres_dmu in
    mu + delta_mu.

  (** f0_defect_constant_T, lines 11-94.  Without iterations E_upper is unbound.
      The result also gives the new params.mu. *)
  Definition f0_defect_constant_T (iters : nat) (T mu : R) : res (R * (Z -> R)) :=
    if Nat.eqb iters 0 then Err UnboundLocalError
    else let mu := Nat.iter iters (defect_mu_step T) mu in Ok (mu, fermi_dirac mu T).

  (** One pass of the loop of f0_defect, lines 129-182 *)
  Definition defect_step (s : R * R) : R * R :=
    let (mu, T) := s in
    let tmp x := (E x - mu) / (k * T) in
    let denominator x := k * T^2 * (exp (tmp x) + 2 + exp (- tmp x)) in
    let a00 := total (fun x => T / denominator x) in
    let a01 := total (fun x => (E x - mu) / denominator x) in
    let a10 := total (fun x => E x * T / denominator x) in
    let a11 := total (fun x => E x * (E x - mu) / denominator x) in
    let b0 := total (fun x => f x - fermi_dirac mu T x) in
    let b1 := total (fun x => E x * (f x - fermi_dirac mu T x)) in
    let det := a01 * a10 - a00 * a11 in
    let delta_mu := - (a11 * b0 - a01 * b1) / det in
    let delta_T := (a10 * b0 - a00 * b1) / det in
    (mu + delta_mu, T + delta_T).

  (** f0_defect, lines 102-208 *)
  Definition f0_defect (iters : nat) (s : R * R) : res ((R * R) * (Z -> R)) :=
    if Nat.eqb iters 0 then Err UnboundLocalError
    else let s := Nat.iter iters defect_step s in Ok (s, fermi_dirac (fst s) (snd s)).

  (** With a drift velocity *)
  Record drifting : Type := Drifting { mu_ee : R; T_ee : R; vel_drift_x : R; vel_drift_y : R }.

  Definition fermi_dirac_ee (s : drifting) (x : Z) : R :=
    1 / (exp ((E x - mu_ee s - vel_drift_x s * px x - vel_drift_y s * py x) / (k * T_ee s)) + 1).

  Definition ee_denominator (s : drifting) (x : Z) : R :=
    let tmp1 := E x - mu_ee s - px x * vel_drift_x s - py x * vel_drift_y s in
    let tmp := tmp1 / (k * T_ee s) in
    k * (T_ee s)^2 * (exp tmp + 2 + exp (- tmp)).
  Definition a_0 (s : drifting) (x : Z) : R := T_ee s / ee_denominator s x.
  Definition a_1 (s : drifting) (x : Z) : R :=
    (E x - mu_ee s - px x * vel_drift_x s - py x * vel_drift_y s) / ee_denominator s x.
  Definition a_2 (s : drifting) (x : Z) : R := T_ee s * px x / ee_denominator s x.
  Definition a_3 (s : drifting) (x : Z) : R := T_ee s * py x / ee_denominator s x.

  (** One pass of the loop of f0_ee, lines 240-350 *)
  Definition ee_matrix (s : drifting) : matrix := of_rows
    [[total (a_0 s); total (a_1 s); total (a_2 s); total (a_3 s)];
     [total (fun x => E x * a_0 s x); total (fun x => E x * a_1 s x);
      total (fun x => E x * a_2 s x); total (fun x => E x * a_3 s x)];
     [total (fun x => px x * a_0 s x); total (fun x => px x * a_1 s x);
      total (fun x => px x * a_2 s x); total (fun x => px x * a_3 s x)];
     [total (fun x => py x * a_0 s x); total (fun x => py x * a_1 s x);
      total (fun x => py x * a_2 s x); total (fun x => py x * a_3 s x)]].

  Definition ee_step (s : drifting) : drifting :=
    let b := [total (fun x => f x - fermi_dirac_ee s x);
              total (fun x => E x * (f x - fermi_dirac_ee s x));
              total (fun x => px x * (f x - fermi_dirac_ee s x));
              total (fun x => py x * (f x - fermi_dirac_ee s x))] in
    let A_inv := inverse_4x4_matrix (ee_matrix s) in
    let x i := A_inv i 0%nat * nth 0 b 0 + A_inv i 1%nat * nth 1 b 0
             + A_inv i 2%nat * nth 2 b 0 + A_inv i 3%nat * nth 3 b 0 in
    Drifting (mu_ee s + x 0%nat) (T_ee s + x 1%nat) (vel_drift_x s + x 2%nat) (vel_drift_y s + x 3%nat).

  (** f0_ee, lines 211-399 *)
  Definition f0_ee (iters : nat) (s : drifting) : res (drifting * (Z -> R)) :=
    if Nat.eqb iters 0 then Err UnboundLocalError
    else let s := Nat.iter iters ee_step s in Ok (s, fermi_dirac_ee s).

  (** One pass of the loop of f0_ee_constant_T, lines 431-540 *)
  Definition ee_matrix_T (s : drifting) : matrix := of_rows
    [[total (a_0 s); total (a_2 s); total (a_3 s)];
     [total (fun x => px x * a_0 s x); total (fun x => px x * a_2 s x); total (fun x => px x * a_3 s x)];
     [total (fun x => py x * a_0 s x); total (fun x => py x * a_2 s x); total (fun x => py x * a_3 s x)]].

  Definition ee_step_T (s : drifting) : drifting :=
    let b := [total (fun x => f x - fermi_dirac_ee s x);
              total (fun x => px x * (f x - fermi_dirac_ee s x));
              total (fun x => py x * (f x - fermi_dirac_ee s x))] in
    let A_inv := inverse_3x3_matrix (ee_matrix_T s) in
    let x i := A_inv i 0%nat * nth 0 b 0 + A_inv i 1%nat * nth 1 b 0 + A_inv i 2%nat * nth 2 b 0 in
    Drifting (mu_ee s + x 0%nat) (T_ee s) (vel_drift_x s + x 1%nat) (vel_drift_y s + x 2%nat).

  (** f0_ee_constant_T, lines 402-587 *)
  Definition f0_ee_constant_T (iters : nat) (s : drifting) : res (drifting * (Z -> R)) :=
    if Nat.eqb iters 0 then Err UnboundLocalError
    else let s := Nat.iter iters ee_step_T s in Ok (s, fermi_dirac_ee s).
End Cell.

(** Momenta in the plane, RTA lines 623-632 *)
Definition in_plane (grid : string) (p1 p2 : Z -> R) : res ((Z -> R) * (Z -> R)) :=
  if String.eqb grid "cartesian" then Ok (p1, p2)
  else if String.eqb grid "polar2D" then Ok (fun x => p1 x * cos (p2 x), fun x => p1 x * sin (p2 x))
  else Err NotImplementedError.

(** RTA, lines 589-679.  [any_zero]: params.tau_defect is 0 somewhere.  The
    currents stored in params at the end are left out.  [ed], [ee]: the state kept
    in params between calls. *)
Definition RTA (N : Z) (k : R) (iters : nat) (grid : string) (p_dim : Z) (disabled any_zero flag : bool)
    (tau_defect tau_ee E p1 p2 f : Z -> R) (ed : R * R) (ee : drifting)
    : res ((R * R) * drifting * (Z -> R)) :=
  let? (px, py) := in_plane grid p1 p2 in
  if any_zero then
    if negb flag then Ok (ed, ee, fun x => 0 * f x)
    else let? (mu, g) := f0_defect_constant_T N k E f iters (snd ed) (fst ed) in
         Ok ((mu, snd ed), ee, g)
  else if disabled then Ok (ed, ee, fun x => 0 * f x)
  else if Z.eqb p_dim 1 then
    let? (mu, g) := f0_defect_constant_T N k E f iters (snd ed) (fst ed) in
    let? (ee, h) := f0_ee_constant_T N k E px py f iters ee in
    Ok ((mu, snd ed), ee, fun x => - (f x - g x) / tau_defect x - (f x - h x) / tau_ee x)
  else if Z.eqb p_dim 2 then
    let? (ed, g) := f0_defect N k E f iters ed in
    let? (ee, h) := f0_ee_constant_T N k E px py f iters ee in
    Ok (ed, ee, fun x => - (f x - g x) / tau_defect x - (f x - h x) / tau_ee x)
  else Err UnboundLocalError.
