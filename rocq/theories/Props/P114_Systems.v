(** C114-C117: the physical systems that come with the code. *)
From Coq Require Import ZArith Reals String List Bool Lra Lia.
From Verif Require Import Base.Prelude Base.ZSum Model.Af Model.Grid Model.Petsc Model.Config Model.Moments
  Model.Polar Model.Validate Model.Systems
  Spec.MomentSpec Spec.Motion Spec.Systems
  Proofs.ConvLemmas Proofs.MomentLemmas Proofs.PolarLemmas Proofs.SystemsLemmas Proofs.SystemsWitness.
Import ListNotations.
Local Open Scope R_scope.

(** ** C114.  A system is [usable] when it has the four advection terms and every
    call the solvers make of them returns values.  The non-relativistic and the
    polar system are; the electronic and the optical one are not. *)
Theorem C114_usable_partial : (forall e m, usable (nonrel_terms e m)) /\ usable polar_terms.
Proof. exact (conj nonrel_usable polar_usable). Qed.
Print Assumptions C114_usable_partial.

(** What the calls return *)
Theorem C114_values_partial :
  (forall e m, exists L, link (nonrel_terms e m) = Ok L /\ forall t q1 q2 v1 v2 v3 E1 E2 E3 B1 B2 B3,
     let F := (E1, E2, E3, B1, B2, B3) in
     let force := (e / m * (E1 + (v2 * B3 - v3 * B2)), e / m * (E2 + (v3 * B1 - v1 * B3)), e / m * (E3 + (v1 * B2 - v2 * B1))) in
     call_q (l_A_q L) t q1 q2 v1 v2 v3 = Ok (v1, v2) /\ call_q (l_C_q L) t q1 q2 v1 v2 v3 = Ok (v1, v2)
     /\ call_p (l_A_p L) t q1 q2 v1 v2 v3 F = Ok force /\ call_p (l_C_p L) t q1 q2 v1 v2 v3 F = Ok force)
  /\ (forall b, exists L, link (electronic_terms b) = Ok L /\ forall t q1 q2 p1 p2 p3,
     call_q (l_A_q L) t q1 q2 p1 p2 p3 = Ok (vel1 b, vel2 b)
     /\ call_q (l_C_q L) t q1 q2 p1 p2 p3 = Ok (vel1 b, vel2 b))
  /\ (exists L, link polar_terms = Ok L /\ forall t r th rd td phid F,
     call_q (l_A_q L) t r th rd td phid = Ok (rd, td) /\ call_q (l_C_q L) t r th rd td phid = Ok (rd, td)
     /\ call_p (l_A_p L) t r th rd td phid F = Ok (r * td ^ 2, - 2 * rd * td / r, 0 * r * td)
     /\ call_p (l_C_p L) t r th rd td phid F = Ok (r * td ^ 2, - 2 * rd * td / r, 0 * r * td)).
Proof. exact systems_values. Qed.
Print Assumptions C114_values_partial.

(** Electrons: with fields switched on every call of a momentum term fails *)
Theorem C114_electronic_refuted : forall b, ~ usable (electronic_terms b)
  /\ forall L, link (electronic_terms b) = Ok L -> forall t q1 q2 p1 p2 p3 F,
     call_p (l_A_p L) t q1 q2 p1 p2 p3 F = Err TypeError /\ call_p (l_C_p L) t q1 q2 p1 p2 p3 F = Err TypeError.
Proof. exact (fun b => conj (electronic_not_usable b) (electronic_no_force b)). Qed.
Print Assumptions C114_electronic_refuted.

(** Optics: the terms are incomplete, those that exist do not take the time, and
    the moments are refused whatever the other inputs are *)
Theorem C114_optics_refuted : forall v e m,
  link (optics_terms v e m) = Err AttributeError
  /\ (forall f, t_A_q (optics_terms v e m) = Some f ->
        forall t q1 q2 p1 p2 p3, call_q f t q1 q2 p1 p2 p3 = Err TypeError)
  /\ (forall a, mom_attrs a = optics_moment_attrs -> exists x, physical_system a = Err x).
Proof. exact (fun v e m => conj (optics_link v e m) (conj (optics_calls v e m) optics_refused)). Qed.
Print Assumptions C114_optics_refuted.

(** Neither the electronic nor the polar system offers the currents that Maxwell's
    equations need *)
Theorem C114_currents_refuted : forall c mu name f, In name current_moments ->
  p_space_grid c = "cartesian"%string \/ p_space_grid c = "polar2D"%string ->
  compute_moments c electronic_moments mu name f = Err AttributeError
  /\ compute_moments c polar_moments mu name f = Err AttributeError.
Proof. exact no_currents. Qed.
Print Assumptions C114_currents_refuted.

(** ** C115.  The terms of the electronic system, called with the arguments they
    name: force e (E + v x B / c) with the band velocity v, power e E . v. *)
Theorem C115_force : forall b t q1 q2 p1 p2 p3 E1 E2 E3 B1 B2 B3,
  let F := C_p_electronic b t q1 q2 p1 p2 p3 E1 E2 E3 B1 B2 B3 in
  (fst F = lorentz2 (charge_electron b) (speed_of_light b) E1 E2 (vel1 b) (vel2 b) (B3_mean b) /\ snd F = 0)
  /\ A_p_electronic b t q1 q2 p1 p2 p3 E1 E2 E3 B1 B2 B3 = F
  /\ vel1 b * fst (fst F) + vel2 b * snd (fst F) = charge_electron b * (vel1 b * E1 + vel2 b * E2).
Proof. exact electron_force. Qed.
Print Assumptions C115_force.

(** Graphene in Cartesian momenta.  Along every motion of the momentum that the
    force drives, away from p = 0, the energy v_f |p| grows at the rate e E . v, up
    to the factor 1 + 1e-20/|p| that stems from the guard in the band velocity;
    without an electric field it is constant for all time. *)
Theorem C115_energy_partial : forall v_f (b : R -> band) p1 p2 d1 d2 E1 E2 E3,
  has_derivative p1 d1 -> has_derivative p2 d2 ->
  (forall t, 0 < p1 t * p1 t + p2 t * p2 t) ->
  (forall t, band_velocity v_f "cartesian" (p1 t) (p2 t) = Ok (vel1 (b t), vel2 (b t))) ->
  (forall t, exists t' q1 q2 p3 B1 B2 B3,
     C_p_electronic (b t) t' q1 q2 (p1 t) (p2 t) p3 (E1 t) (E2 t) (E3 t) B1 B2 B3 = (d1 t, d2 t, 0)) ->
  (forall t, band_energy v_f "cartesian" (p1 t) (p2 t) = Ok (dirac_energy v_f (p1 t) (p2 t)))
  /\ has_derivative (fun t => dirac_energy v_f (p1 t) (p2 t))
       (fun t => (1 + / 10 ^ 20 / size (p1 t) (p2 t)) * (charge_electron (b t) * (vel1 (b t) * E1 t + vel2 (b t) * E2 t)))
  /\ ((forall t, E1 t = 0) -> (forall t, E2 t = 0) ->
        forall t, dirac_energy v_f (p1 t) (p2 t) = dirac_energy v_f (p1 0) (p2 0)).
Proof.
  exact (fun v_f b p1 p2 d1 d2 E1 E2 E3 H1 H2 NZ HV HF =>
    conj (fun t => proj1 (band_energy_is v_f (p1 t) (p2 t)))
      (conj (dirac_power v_f b p1 p2 d1 d2 E1 E2 E3 H1 H2 NZ HV HF)
            (dirac_conserved v_f b p1 p2 d1 d2 E1 E2 E3 H1 H2 NZ HV HF))).
Qed.
Print Assumptions C115_energy_partial.

(** The cyclotron orbit *)
Example C115_orbit :
  let p1 t := cos (omega * t) in let p2 t := - sin (omega * t) in
  let d1 t := - (omega * sin (omega * t)) in let d2 t := - (omega * cos (omega * t)) in
  has_derivative p1 d1 /\ has_derivative p2 d2
  /\ (forall t, 0 < p1 t * p1 t + p2 t * p2 t)
  /\ (forall t, band_velocity 1 "cartesian" (p1 t) (p2 t) = Ok (vel1 (orbit_band t), vel2 (orbit_band t)))
  /\ (forall t, C_p_electronic (orbit_band t) t 0 0 (p1 t) (p2 t) 0 0 0 0 0 0 1 = (d1 t, d2 t, 0)).
Proof. exact orbit. Qed.

(** In polar momenta (p1 = |p|, p2 = angle) the Cartesian components of the force
    are used as the rates of |p| and of the angle: a magnetic field alone changes
    the energy. *)
Theorem C115_polar2D_refuted : exists v_f b p1 p2 d,
  band_velocity v_f "polar2D" p1 p2 = Ok (vel1 b, vel2 b)
  /\ (forall x y, band_energy v_f "polar2D" x y = Ok (dirac_energy v_f (x * cos y) (x * sin y)))
  /\ let F := C_p_electronic b 0 0 0 p1 p2 0 0 0 0 0 0 1 in
     d <> 0 /\ rate (fun x y => dirac_energy v_f (x * cos y) (x * sin y)) p1 p2 (fst (fst F)) (snd (fst F)) d.
Proof.
  destruct bump_gains as (d&H&G).
  exact (ex_intro _ 1 (ex_intro _ bump_band (ex_intro _ 1 (ex_intro _ (PI / 2) (ex_intro _ d
    (conj bump_velocity (conj (fun x y => proj2 (band_energy_is 1 x y)) (conj H G)))))))).
Qed.
Print Assumptions C115_polar2D_refuted.

(** ** C116.  Moments of the electronic system are the integrals listed in
    [el_weight]. *)
Theorem C116_integrals_partial : forall c n1 n2 mu name w f,
  momentum_grid_ok c -> (0 < n1)%Z -> (0 < n2)%Z -> dims4 f (N_p c) (N_species c) n1 n2 ->
  (forall x y z, el_weight name x y z = Some (w x y z)) ->
  let I s k l := integral (species_grid c s) w (fun i1 i2 i3 => el f (row c i1 i2 i3) s k l) in
  (p_space_grid c = "cartesian"%string ->
     exists M, compute_moments c electronic_moments mu name f = Ok M /\ moment_is c n1 n2 M I)
  /\ (p_space_grid c = "polar2D"%string ->
     exists M, compute_moments c electronic_moments mu name f = Ok M
       /\ moment_is c n1 n2 M (fun s k l => mu * I s k l)).
Proof. exact el_moment. Qed.
Print Assumptions C116_integrals_partial.

(** The currents count [states] > 1 states where the density counts one: electrons
    that all have momentum 3/2 carry a current that is not 3/2 times the density, *)
Theorem C116_normalisation_refuted : exists N J,
  compute_moments two_speeds electronic_moments 0 "density" (single 2 1) = Ok N
  /\ compute_moments two_speeds electronic_moments 0 "j_x" (single 2 1) = Ok J
  /\ one_particle (single 2 1) 1 /\ el (p1_center two_speeds) 1 0 0 0 = 3/2
  /\ el N 0 0 0 0 = 1 /\ el J 0 0 0 0 = states * (3/2 * el N 0 0 0 0) /\ 3/2 * el N 0 0 0 0 < el J 0 0 0 0.
Proof.
  destruct two_norm as (N&J&A&B&C&D).
  exact (ex_intro _ N (ex_intro _ J (conj A (conj B (conj (fun _ _ _ _ => eq_refl) (conj C D)))))).
Qed.
Print Assumptions C116_normalisation_refuted.

(** and they weigh f with the momentum, not the velocity: for graphene on a grid
    of two momenta no constant factor makes j_x the flux of particles. *)
Theorem C116_velocity_refuted : forall v_f, momentum_grid_ok two_speeds /\ ~ exists kappa vx,
  (forall i, inb 2 i -> exists vy, band_velocity v_f "cartesian" (v_of 0 1 i) (v_of (- (1/2)) 1 0) = Ok (vx i, vy))
  /\ forall f, dims4 f (N_p two_speeds) 1 1 1 -> exists J,
     compute_moments two_speeds electronic_moments 0 "j_x" f = Ok J
     /\ el J 0 0 0 0 = kappa * integral (species_grid two_speeds 0) (fun _ _ _ => 1)
          (fun i1 i2 i3 => vx i1 * el f (row two_speeds i1 i2 i3) 0 0 0).
Proof. exact (fun v_f => conj two_ok (no_current_factor v_f)). Qed.
Print Assumptions C116_velocity_refuted.

Example C116_applies : momentum_grid_ok two_speeds /\ dims4 (single 2 1) (N_p two_speeds) (N_species two_speeds) 1 1
  /\ exists J, compute_moments two_speeds electronic_moments 0 "j_x" (single 2 1) = Ok J
     /\ el J 0 0 0 0 = states * (1/2 + 1).
Proof. exact (conj two_ok (conj (conj eq_refl (conj eq_refl (conj eq_refl eq_refl))) (two_j 1 (or_intror eq_refl)))). Qed.

(** ** C117.  Moments of the polar system are the integrals listed in
    [polar_weight]. *)
Theorem C117_integrals_partial : forall c n1 n2 mu name w f,
  momentum_grid_ok c -> (0 < n1)%Z -> (0 < n2)%Z -> dims4 f (N_p c) (N_species c) n1 n2 ->
  (forall x y z, polar_weight name x y z = Some (w x y z)) ->
  let I s k l := integral (species_grid c s) w (fun i1 i2 i3 => el f (row c i1 i2 i3) s k l) in
  (p_space_grid c = "cartesian"%string ->
     exists M, compute_moments c polar_moments mu name f = Ok M /\ moment_is c n1 n2 M I)
  /\ (p_space_grid c = "polar2D"%string ->
     exists M, compute_moments c polar_moments mu name f = Ok M
       /\ moment_is c n1 n2 M (fun s k l => mu * I s k l)).
Proof. exact polar_moment. Qed.
Print Assumptions C117_integrals_partial.

(** The energy moment is not the kinetic energy: a particle in uniform motion
    along x = 1 passes, at times 0 and 1, through the centres of two cells of the
    momentum grid; the energy moment of the distribution differs. *)
Theorem C117_energy_refuted :
  (uniform (fun t => line_r t * cos (atan t)) /\ uniform (fun t => line_r t * sin (atan t)))
  /\ has_derivative line_r line_rd /\ has_derivative atan line_td
  /\ (let G := species_grid line_cfg 0 in
      let at_ i1 i2 i3 := (v_of (lo1 G) (w1 G) i1, v_of (lo2 G) (w2 G) i2, v_of (lo3 G) (w3 G) i3) in
      at_ 0%Z 1%Z 0%Z = (line_rd 0, line_td 0, 0) /\ at_ 1%Z 0%Z 0%Z = (line_rd 1, line_td 1, 0)
      /\ row line_cfg 0 1 0 = 2%Z /\ row line_cfg 1 0 0 = 1%Z)
  /\ exists M0 M1, compute_moments line_cfg polar_moments 0 "energy" (single 4 2) = Ok M0
     /\ compute_moments line_cfg polar_moments 0 "energy" (single 4 1) = Ok M1
     /\ one_particle (single 4 2) 2 /\ one_particle (single 4 1) 1
     /\ el M1 0 0 0 0 < el M0 0 0 0 0.
Proof.
  destruct polar_line as (H1&H2&_&_&_&U1&U2).
  destruct (line_energy 2 (1/2) (or_introl (conj eq_refl eq_refl))) as (M0&A0&V0).
  destruct (line_energy 1 (3/8) (or_intror (conj eq_refl eq_refl))) as (M1&A1&V1).
  split; [exact (conj U1 U2)|]. split; [exact H1|]. split; [exact H2|]. split; [exact line_cells|].
  exists M0, M1. split; [exact A0|]. split; [exact A1|]. split; [intros x s k l; reflexivity|].
  split; [intros x s k l; reflexivity|]. rewrite V0, V1.
  assert (P : 0 < 1 / sqrt 2) by (apply Rdiv_lt_0_compat; [lra|apply sqrt_lt_R0; lra]). nra.
Qed.
Print Assumptions C117_energy_refuted.

Example C117_applies : momentum_grid_ok line_cfg /\ dims4 (single 4 2) (N_p line_cfg) (N_species line_cfg) 1 1.
Proof. exact (conj line_ok (conj eq_refl (conj eq_refl (conj eq_refl eq_refl)))). Qed.
