(** C51-C53: moments, the BGK operator, the Lorentz force. *)
From Coq Require Import ZArith Reals Lra Lia String List Bool.
From Verif Require Import Base.Prelude Base.ZSum Model.Af Model.Grid Model.Petsc Model.Config Model.Moments Model.NonRel
  Spec.MomentSpec Spec.Maxwellian Spec.Lattice Spec.FvmProblem
  Proofs.ConvLemmas Proofs.MomentLemmas Proofs.BgkLemmas Proofs.PhysicsProps Props.ExFvm.
Import ListNotations.
Local Open Scope R_scope.

(** C51.  [integral G w g] is the midpoint sum of w(v) g over the momentum grid;
    [moment_weight] lists the textbook weight of each moment.  [row] is the
    momentum index of a triple.  Each moment of the non-relativistic module is
    the integral of f, species by species and cell by cell, in a Cartesian
    momentum space, and [mu] times that in polar2D; other names and other grids
    raise errors. *)
Theorem C51_moments_are_integrals : forall c n1 n2 mu name w f,
  momentum_grid_ok c -> (0 < n1)%Z -> (0 < n2)%Z -> dims4 f (N_p c) (N_species c) n1 n2 ->
  (forall x y z, moment_weight name x y z = Some (w x y z)) ->
  let I s k l := integral (species_grid c s) w (fun i1 i2 i3 => el f (row c i1 i2 i3) s k l) in
  (p_space_grid c = "cartesian"%string ->
     exists M, compute_moments c nonrel_moments mu name f = Ok M /\ moment_is c n1 n2 M I)
  /\ (p_space_grid c = "polar2D"%string ->
     exists M, compute_moments c nonrel_moments mu name f = Ok M
       /\ moment_is c n1 n2 M (fun s k l => mu * I s k l)).
Proof. exact moments_are_integrals. Qed.
Print Assumptions C51_moments_are_integrals.

Theorem C51_errors : forall c mu name f,
  (moment_weight name 0 0 0 = None -> p_space_grid c = "cartesian"%string \/ p_space_grid c = "polar2D"%string ->
     compute_moments c nonrel_moments mu name f = Err AttributeError)
  /\ (p_space_grid c <> "cartesian"%string -> p_space_grid c <> "polar2D"%string ->
     compute_moments c nonrel_moments mu name f = Err NotImplementedError).
Proof. exact moment_errors. Qed.
Print Assumptions C51_errors.

(** Moments are linear in f. *)
Theorem C51_linear : forall c n1 n2 mu name a b f g,
  momentum_grid_ok c -> (0 < n1)%Z -> (0 < n2)%Z ->
  dims4 f (N_p c) (N_species c) n1 n2 -> dims4 g (N_p c) (N_species c) n1 n2 ->
  moment_weight name 0 0 0 <> None ->
  p_space_grid c = "cartesian"%string \/ p_space_grid c = "polar2D"%string ->
  exists F G H, compute_moments c nonrel_moments mu name f = Ok F
  /\ compute_moments c nonrel_moments mu name g = Ok G
  /\ compute_moments c nonrel_moments mu name (amap2 (fun x y => a * x + b * y) f g) = Ok H
  /\ moment_is c n1 n2 H (fun s k l => a * el F 0 s k l + b * el G 0 s k l).
Proof. exact moments_linear. Qed.
Print Assumptions C51_linear.

(** The value at a cell depends on f at that cell and species only. *)
Theorem C51_local : forall c n1 n2 mu name f g s k l,
  momentum_grid_ok c -> (0 < n1)%Z -> (0 < n2)%Z ->
  dims4 f (N_p c) (N_species c) n1 n2 -> dims4 g (N_p c) (N_species c) n1 n2 ->
  moment_weight name 0 0 0 <> None ->
  p_space_grid c = "cartesian"%string \/ p_space_grid c = "polar2D"%string ->
  inb (N_species c) s -> inb n1 k -> inb n2 l ->
  (forall x, inb (N_p c) x -> el f x s k l = el g x s k l) ->
  exists F G, compute_moments c nonrel_moments mu name f = Ok F
  /\ compute_moments c nonrel_moments mu name g = Ok G /\ el F 0 s k l = el G 0 s k l.
Proof. exact moments_local. Qed.
Print Assumptions C51_local.

(** For f >= 0: n >= 0, E >= 0 and |momentum|^2 <= n * 2E, i.e. the temperature
    is not negative. *)
Theorem C51_realizable : forall c n1 n2 mu f,
  momentum_grid_ok c -> (0 < n1)%Z -> (0 < n2)%Z -> dims4 f (N_p c) (N_species c) n1 n2 ->
  p_space_grid c = "cartesian"%string ->
  (forall s, inb (N_species c) s -> let G := species_grid c s in 0 <= w1 G /\ 0 <= w2 G /\ 0 <= w3 G) ->
  (forall i s q1 q2, inside f i s q1 q2 -> 0 <= el f i s q1 q2) ->
  let moment name := compute_moments c nonrel_moments mu name f in
  exists n m1 m2 m3 e, moment "density"%string = Ok n /\ moment "mom_v1_bulk"%string = Ok m1
  /\ moment "mom_v2_bulk"%string = Ok m2 /\ moment "mom_v3_bulk"%string = Ok m3 /\ moment "energy"%string = Ok e
  /\ forall s k l, inb (N_species c) s -> inb n1 k -> inb n2 l ->
     0 <= el n 0 s k l /\ 0 <= el e 0 s k l
     /\ el m1 0 s k l ^ 2 + el m2 0 s k l ^ 2 + el m3 0 s k l ^ 2 <= el n 0 s k l * (2 * el e 0 s k l).
Proof. exact moments_realizable. Qed.
Print Assumptions C51_realizable.

(** A 2 x 2 x 1 momentum grid with two species; f(x, s, i, j) = x + 2 s + i j. *)
Definition ex_f : arr R := Arr 4 2 3 2 (fun x s i j => IZR (x + 2 * s + i * j)).
Lemma ex_grid_ok : momentum_grid_ok (ex_cfg "ppm" true).
Proof. unfold momentum_grid_ok; cbn; repeat split; lia. Qed.
Example C51_applies : let c := ex_cfg "ppm" true in
  momentum_grid_ok c /\ dims4 ex_f (N_p c) (N_species c) 3 2
  /\ (forall i s q1 q2, inside ex_f i s q1 q2 -> 0 <= el ex_f i s q1 q2)
  /\ exists M, compute_moments c nonrel_moments 0 "density" ex_f = Ok M /\ el M 0 1 2 1 = 352.
Proof.
  intros c. split; [exact ex_grid_ok|]. split; [repeat split|]. split.
  - intros i s q1 q2 (A&B&C&D). apply IZR_le. unfold inb in *. nia.
  - eexists; split; [reflexivity|]. cbn. change (Pos.to_nat 4) with 4%nat. change (Pos.to_nat 1) with 1%nat. cbn. lra.
Qed.

(** C52.  [maxwellian d n th u x y z] is the normalised Gaussian with variance
    th; [fluid_*] are density, bulk velocity and k_B T of the distribution g of
    one species at one cell.  The equilibrium is such a Gaussian with the density
    of f, its bulk velocity and its k_B T up to the code's floor of 1e-30; with
    flag False the source is (equilibrium - f)/tau and vanishes exactly where f
    equals the equilibrium.  Missing: the variance is params.boltzmann_constant
    times k_B T / m instead of k_B T / m. *)
Theorem C52_bgk_partial : forall c n1 n2, momentum_grid_ok c -> (0 < n1)%Z -> (0 < n2)%Z ->
  p_space_grid c = "cartesian"%string -> forall mu k d, (1 <= d <= 3)%Z -> 0 < k -> forall mass tau f,
  dims4 mass 1 (N_species c) 1 1 -> dims4 f (N_p c) (N_species c) n1 n2 ->
  (forall s, inb (N_species c) s -> 0 < el mass 0 s 0 0) ->
  (forall s, inb (N_species c) s ->
     0 <= w1 (species_grid c s) /\ 0 <= w2 (species_grid c s) /\ 0 <= w3 (species_grid c s)) ->
  (forall i s q1 q2, inside f i s q1 q2 -> 0 <= el f i s q1 q2) ->
  (forall i s q1 q2, inside f i s q1 q2 -> el tau i s q1 q2 <> 0) ->
  exists C F,
    BGK (compute_moments c nonrel_moments mu) mass k d (p1_center c) (p2_center c) (p3_center c) tau f false = Ok C
    /\ BGK (compute_moments c nonrel_moments mu) mass k d (p1_center c) (p2_center c) (p3_center c) tau f true = Ok F
    /\ forall s q1 q2, inb (N_species c) s -> inb n1 q1 -> inb n2 q2 ->
       let G := species_grid c s in
       let g := fun i1 i2 i3 => el f (row c i1 i2 i3) s q1 q2 in
       let m := el mass 0 s 0 0 in
       exists u1 u2 u3 kT, 0 < kT
       /\ (0 < fluid_n G g ->
           let n := fluid_n G g in
           let P := fluid_m1 G g ^ 2 + fluid_m2 G g ^ 2 + fluid_m3 G g ^ 2 in
           Rabs (u1 - fluid_u1 G g) <= / 10 ^ 30 * (Rabs (fluid_m1 G g) / (n * n))
           /\ Rabs (u2 - fluid_u2 G g) <= / 10 ^ 30 * (Rabs (fluid_m2 G g) / (n * n))
           /\ Rabs (u3 - fluid_u3 G g) <= / 10 ^ 30 * (Rabs (fluid_m3 G g) / (n * n))
           /\ Rabs (kT - fluid_kT d m G g)
              <= / 10 ^ 30 * (1 + m / IZR d * (2 * integral G (fun x y z => (x * x + y * y + z * z) / 2) g / n ^ 2 + 3 * P / n ^ 3)))
       /\ forall i1 i2 i3, inb (N_p1 c) i1 -> inb (N_p2 c) i2 -> inb (N_p3 c) i3 ->
          let x := row c i1 i2 i3 in
          el F x s q1 q2 = maxwellian d (fluid_n G g) (k * kT / m) u1 u2 u3
                             (v_of (lo1 G) (w1 G) i1) (v_of (lo2 G) (w2 G) i2) (v_of (lo3 G) (w3 G) i3)
          /\ 0 <= el F x s q1 q2
          /\ el C x s q1 q2 = (el F x s q1 q2 - el f x s q1 q2) / el tau x s q1 q2
          /\ (el C x s q1 q2 = 0 <-> el f x s q1 q2 = el F x s q1 q2).
Proof. exact bgk_final. Qed.
Print Assumptions C52_bgk_partial.

(** The equilibrium changes with params.boltzmann_constant although nothing in f
    or in the mass does: at a cell whose bulk velocity is a grid velocity the
    peak for k > 1 is lower than the one for k = 1. *)
Theorem C52_temperature_refuted : forall c n1 n2 mu k d mass tau f s q1 q2 i1 i2 i3,
  momentum_grid_ok c -> (0 < n1)%Z -> (0 < n2)%Z -> p_space_grid c = "cartesian"%string ->
  (1 <= d <= 3)%Z -> 1 < k ->
  dims4 mass 1 (N_species c) 1 1 -> dims4 f (N_p c) (N_species c) n1 n2 ->
  inb (N_p1 c) i1 -> inb (N_p2 c) i2 -> inb (N_p3 c) i3 -> inb (N_species c) s -> inb n1 q1 -> inb n2 q2 ->
  0 < el mass 0 s 0 0 ->
  let G := species_grid c s in
  0 <= w1 G -> 0 <= w2 G -> 0 <= w3 G ->
  (forall i s q1 q2, inside f i s q1 q2 -> 0 <= el f i s q1 q2) ->
  let g := fun i1 i2 i3 => el f (row c i1 i2 i3) s q1 q2 in
  0 < fluid_n G g ->
  fluid_m1 G g = 0 -> fluid_m2 G g = 0 -> fluid_m3 G g = 0 ->
  v_of (lo1 G) (w1 G) i1 = 0 -> v_of (lo2 G) (w2 G) i2 = 0 -> v_of (lo3 G) (w3 G) i3 = 0 ->
  exists F F',
    BGK (compute_moments c nonrel_moments mu) mass 1 d (p1_center c) (p2_center c) (p3_center c) tau f true = Ok F
    /\ BGK (compute_moments c nonrel_moments mu) mass k d (p1_center c) (p2_center c) (p3_center c) tau f true = Ok F'
    /\ el F' (row c i1 i2 i3) s q1 q2 < el F (row c i1 i2 i3) s q1 q2.
Proof. exact bgk_depends_on_k. Qed.
Print Assumptions C52_temperature_refuted.

(** Three velocities -1, 0, 1 with weights 1, 2, 1; k = 2. *)
Definition ex_bgk : cfg :=
  Cfg ex_lay 3 3 1 1 1 0 4 0 3 1 1 [-3/2] [-1/2] [-1/2] [1] [1] [1]
    "FVM" "FVM" "ppm" "ppm" "cartesian" true true
    (fun _ => C_q_nonrel) (fun _ => A_q_nonrel) (fun _ => C_p_nonrel 1 2) (fun _ => A_p_nonrel 1 2)
    (fun _ _ _ w x s => 0) (fun _ => "periodic"%string) (fun _ _ _ _ f => f) 0 0 (fun v _ _ _ _ => v) 0.
Definition ex_bgk_f : arr R := Arr 3 1 2 2 (fun x _ i j => if (x =? 1)%Z then 2 else 1).
Definition ex_mass : arr R := Arr 1 1 1 1 (fun _ _ _ _ => 2).
Example C52_applies : exists F F',
    BGK (compute_moments ex_bgk nonrel_moments 0) ex_mass 1 1 (p1_center ex_bgk) (p2_center ex_bgk) (p3_center ex_bgk)
        ex_bgk_f ex_bgk_f true = Ok F
    /\ BGK (compute_moments ex_bgk nonrel_moments 0) ex_mass 2 1 (p1_center ex_bgk) (p2_center ex_bgk) (p3_center ex_bgk)
        ex_bgk_f ex_bgk_f true = Ok F'
    /\ el F' 1 0 1 1 < el F 1 0 1 1.
Proof.
  apply (C52_temperature_refuted ex_bgk 2 2 0 2 1 ex_mass ex_bgk_f ex_bgk_f 0 1 1 1 0 0);
  try (unfold inb; cbn; lia); try (cbn; lra); try (unfold momentum_grid_ok, dims4; cbn; repeat split; lia); try reflexivity.
  { intros i s q1 q2 _. cbn. destruct (i =? 1)%Z; lra. }
  all: unfold fluid_n, fluid_m1, fluid_m2, fluid_m3, integral, v_of; cbn;
    try (change (Pos.to_nat 3) with 3%nat; change (Pos.to_nat 1) with 1%nat; cbn); try lra.
Qed.

(** C53.  The magnetic part of the force does no work; each component is
    independent of its own momentum coordinate; the conservative and the
    advective form of the module are the same function; the q-velocities are the
    momenta. *)
Theorem C53_lorentz_force : forall e m t q1 q2 v1 v2 v3 E1 E2 E3 B1 B2 B3,
  let F := fun v1 v2 v3 => C_p_nonrel e m t q1 q2 v1 v2 v3 E1 E2 E3 B1 B2 B3 in
  let F1 v1 v2 v3 := fst (fst (F v1 v2 v3)) in
  let F2 v1 v2 v3 := snd (fst (F v1 v2 v3)) in
  let F3 v1 v2 v3 := snd (F v1 v2 v3) in
  v1 * F1 v1 v2 v3 + v2 * F2 v1 v2 v3 + v3 * F3 v1 v2 v3 = e / m * (v1 * E1 + v2 * E2 + v3 * E3)
  /\ (forall w, F1 w v2 v3 = F1 v1 v2 v3) /\ (forall w, F2 v1 w v3 = F2 v1 v2 v3) /\ (forall w, F3 v1 v2 w = F3 v1 v2 v3)
  /\ A_p_nonrel e m t q1 q2 v1 v2 v3 E1 E2 E3 B1 B2 B3 = F v1 v2 v3
  /\ A_q_nonrel t q1 q2 v1 v2 v3 = (v1, v2) /\ C_q_nonrel t q1 q2 v1 v2 v3 = (v1, v2)
  (* e/m (E + v x B) *)
  /\ F1 v1 v2 v3 = e / m * (E1 + (v2 * B3 - v3 * B2))
  /\ F2 v1 v2 v3 = e / m * (E2 + (v3 * B1 - v1 * B3))
  /\ F3 v1 v2 v3 = e / m * (E3 + (v1 * B2 - v2 * B1)).
Proof. exact lorentz_force. Qed.
Print Assumptions C53_lorentz_force.

(** On the grid: in the scheme that the finite-volume solver implements (C02) a
    distribution that does not depend on momentum is not changed by the force,
    whatever the fields. *)
Theorem C53_uniform_distribution_feels_no_force : forall c e m k_q k_p t E1 E2 E3 g1 g2 (w : Z -> Z -> R) x s,
  (forall s, C_p c s = C_p_nonrel (e s) (m s)) -> pos_cfg c -> inb (N_p c) x ->
  (forall x y, w x s = w y s) ->
  advect_p (problem_of c k_q k_p t E1 E2 E3) g1 g2 w x s = 0.
Proof. exact lorentz_uniform. Qed.
Print Assumptions C53_uniform_distribution_feels_no_force.

Example C53_applies : (forall s, C_p ex_bgk s = C_p_nonrel 1 2) /\ pos_cfg ex_bgk /\ p_is_fvm ex_bgk = true.
Proof. split; [reflexivity|]. split; [repeat split|reflexivity]. Qed.
