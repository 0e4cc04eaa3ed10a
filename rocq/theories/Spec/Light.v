(** Light in vacuum on the Yee grid: plane and standing waves of any direction and
    polarisation, and the relation between their wave number and frequency. *)
From Coq Require Import ZArith Reals List.
From Verif Require Import Base.ZSum Model.Af Model.Petsc Model.Em Spec.Domain Spec.Yee Spec.EmRun Spec.InitFields.
Import ListNotations.
Local Open Scope R_scope.

(** Wave vector (k1, k2), frequency w, phase d, electric amplitude (a1, a2, a3). *)
Record lwave : Type := LWave { k1 : R; k2 : R; w : R; phase0 : R; a1 : R; a2 : R; a3 : R }.

(** What a centred difference over a width h makes of a wave number k: k as h -> 0. *)
Definition seen (h k : R) : R := 2 / h * sin (k * h / 2).

Section Wave.
  Variables (c : fcfg) (dt : R) (v : lwave).

  Definition K1 : R := seen (fdq1 c) (k1 v).
  Definition K2 : R := seen (fdq2 c) (k2 v).
  Definition W : R := seen dt (w v).

  (** Light in vacuum: W^2 = c^2 K^2 with c^2 = 1 / (mu eps), and E across K. *)
  Definition light : Prop :=
    W ^ 2 = (K1 ^ 2 + K2 ^ 2) / (mu c * eps c) /\ K1 * a1 v + K2 * a2 v = 0.

  (** The wave repeats with the box. *)
  Definition fits : Prop := exists m1 m2 : Z,
    k1 v * (IZR (gN1 (flay c)) * fdq1 c) = 2 * PI * IZR m1 /\ k2 v * (IZR (gN2 (flay c)) * fdq2 c) = 2 * PI * IZR m2.

  (** The magnetic amplitude K x a / W. *)
  Definition b1 : R := K2 * a3 v / W.
  Definition b2 : R := - (K1 * a3 v / W).
  Definition b3 : R := (K1 * a2 v - K2 * a1 v) / W.

  Definition angle (x y : R) : R := k1 v * x + k2 v * y + phase0 v.

  (** A plane wave travelling along (k1, k2). *)
  Definition plane_E (t x y : R) : R * R * R :=
    let u := cos (angle x y - w v * t) in (a1 v * u, a2 v * u, a3 v * u).
  Definition plane_B (t x y : R) : R * R * R :=
    let u := cos (angle x y - w v * t) in (b1 * u, b2 * u, b3 * u).

  (** A standing wave, with E at its largest at the time t0. *)
  Definition standing_E (t0 t x y : R) : R * R * R :=
    let u := cos (angle x y) * cos (w v * (t - t0)) in (a1 v * u, a2 v * u, a3 v * u).
  Definition standing_B (t0 t x y : R) : R * R * R :=
    let u := sin (angle x y) * sin (w v * (t - t0)) in (b1 * u, b2 * u, b3 * u).
End Wave.

(** The staggered grid of a run of steps dt at time t: E at t, B at t + dt/2. *)
Definition leapfrog (c : fcfg) (dt t : R) (E B : R -> R -> R -> R * R * R) : lattice :=
  on_yee_grid c (E t) (B (t + dt / 2)).

(** The time a history takes. *)
Fixpoint passed (l : list event) : R :=
  match l with
  | [] => 0
  | Evolve _ _ _ dt :: l => dt + passed l
  | _ :: l => passed l
  end.

(** All components of two lattices within e of each other, on the cells of the grid. *)
Definition within (n1 n2 : Z) (e : R) (Y Z : lattice) : Prop :=
  forall i j, inb n1 i -> inb n2 j ->
  Rabs (E1 Y i j - E1 Z i j) <= e /\ Rabs (E2 Y i j - E2 Z i j) <= e /\ Rabs (E3 Y i j - E3 Z i j) <= e
  /\ Rabs (B1 Y i j - B1 Z i j) <= e /\ Rabs (B2 Y i j - B2 Z i j) <= e /\ Rabs (B3 Y i j - B3 Z i j) <= e.

(** The same wave with its electric amplitude multiplied by g. *)
Definition louder (g : R) (v : lwave) : lwave :=
  LWave (k1 v) (k2 v) (w v) (phase0 v) (g * a1 v) (g * a2 v) (g * a3 v).

(** No field. *)
Definition nothing (x y : R) : R * R * R := (0, 0, 0).
