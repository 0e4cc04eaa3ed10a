(** What the solvers need of a physical system, and the motion of electrons in a
    crystal. *)
From Coq Require Import ZArith Reals String List.
From Verif Require Import Base.Prelude Base.ZSum Spec.MomentSpec Spec.Motion.
From Verif Require Model.Systems Model.Moments Model.Config Model.Af.
Import ListNotations.
Local Open Scope R_scope.

(** A system can be simulated: it has all four advection terms, and every call
    the solvers make returns values. *)
Definition returns {A} (r : res A) : Prop := exists v, r = Ok v.
Definition usable (T : Systems.terms) : Prop :=
  exists L, Systems.link T = Ok L
  /\ forall t q1 q2 p1 p2 p3 F,
     returns (Systems.call_q (Systems.l_A_q L) t q1 q2 p1 p2 p3)
     /\ returns (Systems.call_q (Systems.l_C_q L) t q1 q2 p1 p2 p3)
     /\ returns (Systems.call_p (Systems.l_A_p L) t q1 q2 p1 p2 p3 F)
     /\ returns (Systems.call_p (Systems.l_C_p L) t q1 q2 p1 p2 p3 F).

(** The moments that the solvers of Maxwell's equations ask for *)
Definition current_moments : list string := ["mom_v1_bulk"; "mom_v2_bulk"; "mom_v3_bulk"]%string.

(** Force on a charge [e] of velocity (v1, v2) in the plane, the magnetic field
    across it: e (E + v x B / c). *)
Definition lorentz2 (e c E1 E2 v1 v2 B : R) : R * R :=
  (e * (E1 + (v2 * B - 0 * 0) / c), e * (E2 + (0 * 0 - v1 * B) / c)).

(** Length of a planar momentum; Dirac electrons of speed [v_f] have energy
    v_f |p| and move along their momentum with that speed. *)
Definition size (x y : R) : R := sqrt (x * x + y * y).
Definition dirac_energy (v_f x y : R) : R := v_f * size x y.

(** [d] is the rate at which [g] changes at the point (x, y) that moves with the
    velocity (u, v) *)
Definition rate (g : R -> R -> R) (x y u v d : R) : Prop :=
  derivable_pt_lim (fun h => g (x + h * u) (y + h * v)) 0 d.

(** Speed squared over two of a particle at polar coordinates (r, th), from its
    Cartesian velocity *)
Definition kinetic (x' y' : R) : R := (x' * x' + y' * y') / 2.

(** The moments of the polar system, by weight *)
Definition polar_weight (name : string) (rd td pd : R) : option R :=
  let v2 := rd * rd + td * td + pd * pd in
  if String.eqb name "density" then Some 1
  else if String.eqb name "mom_rdot_bulk" then Some rd
  else if String.eqb name "mom_thetadot_bulk" then Some td
  else if String.eqb name "mom_phidot_bulk" then Some pd
  else if String.eqb name "energy" then Some (v2 / 2)
  else if String.eqb name "energy_q1" then Some (rd * rd / 2)
  else if String.eqb name "energy_q2" then Some (td * td / 2)
  else if String.eqb name "energy_q3" then Some (pd * pd / 2)
  else if String.eqb name "q_q1" then Some (rd * v2)
  else if String.eqb name "q_q2" then Some (td * v2)
  else if String.eqb name "q_q3" then Some (pd * v2)
  else None.

(** The moments of the electronic system, by weight: the currents count 4 states
    (two spins, two valleys) per (2 pi hbar)^2, with pi = 3.1415926535 and
    hbar = 1.0545718e-4; the density counts one. *)
Definition states : R := 4 / (2 * (31415926535 / 10 ^ 10) * (10545718 / 10 ^ 11)) ^ 2.
Definition el_weight (name : string) (x y z : R) : option R :=
  if String.eqb name "density" then Some 1
  else if String.eqb name "j_x" then Some (states * x)
  else if String.eqb name "j_y" then Some (states * y) else None.

(** [a] holds one particle, in the momentum cell [x0]: the distribution is one
    there and zero in the other cells *)
Definition one_particle (a : Af.arr R) (x0 : Z) : Prop :=
  forall x s k l, Af.el a x s k l = if Z.eqb x x0 then 1 else 0.
