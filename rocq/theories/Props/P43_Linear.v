(** C43-C47, C49, C50, C64-C66: the linear solver. *)
From Coq Require Import ZArith Reals Lra Lia String List Bool.
From Verif Require Import Base.Prelude Base.ZSum Base.Cplx Model.Af Model.Grid Model.Petsc Model.Config Model.Moments Model.Linear
  Spec.Waves Spec.MomentSpec Spec.LinearSpec
  Proofs.AfLemmas Proofs.MomentLemmas Proofs.LinearLemmas Proofs.LinearMore Proofs.LinearProps Proofs.LinearWitness.
Import ListNotations.
Local Open Scope R_scope.

(** An example: 3 x 2 cells, 3 x 2 momentum cells, two species. *)
Definition ex_f0 : arr R := Arr 6 2 3 2 (fun x s i j => IZR (1 + x + s * i + j)).
Definition ex_lin (ft : string) : lcfg := w_cfg 3 2 3 2 2 [-(3/2); -3] [1; 1] true periodic_box ft ex_f0.
Lemma ex_lin_ok ft : lin_ok (ex_lin ft).
Proof. unfold lin_ok, momentum_grid_ok, lN1, lN2. cbn. repeat split; lia || lra. Qed.
Lemma ex_run_ok ft steps s : In ft ["electrostatic"; "electrodynamic"; "None"]%string ->
  exists s', lin_run (ex_lin ft) (make_background (ex_lin ft) ex_f0) steps s = Ok s'.
Proof.
  intros H. revert s. induction steps as [|(m&dt) steps IH]; intros s; [exists s; reflexivity|]. cbn [lin_run].
  destruct (proj2 (multi_species m (ex_lin ft) (make_background (ex_lin ft) ex_f0) dt s (ex_lin_ok ft)) (fun _ => conj H (or_intror eq_refl))) as (s1&E).
  rewrite E. apply IH.
Qed.
Lemma ex_start ft : exists s, linear_solver (ex_lin ft) = Ok (make_background (ex_lin ft) ex_f0, s) /\ lin_state_ok (ex_lin ft) s.
Proof. eexists. split; [reflexivity|]. repeat split. Qed.

(** C43.  The solver is meant to refuse boundaries that are not periodic; it does
    so only when none of the four is periodic. *)
Theorem C43_what_is_checked_partial : forall c,
  (check_periodic c = Ok tt <-> exists e, in_q c e = "periodic"%string)
  /\ (check_periodic c = Err GenericException <-> forall e, in_q c e <> "periodic"%string).
Proof. exact periodic_check. Qed.
Print Assumptions C43_what_is_checked_partial.

Theorem C43_refuted : exists c, lin_ok c /\ in_q (ph c) ELeft = "mirror"%string /\ in_q (ph c) ERight = "mirror"%string
  /\ exists b s, linear_solver c = Ok (b, s).
Proof. exact not_periodic. Qed.
Print Assumptions C43_refuted.

(** C44.  The distribution function the solver returns right after construction is
    the one it was given, and the background is its mean. *)
Theorem C44_initial_f : forall c b s, linear_solver c = Ok (b, s) -> lin_ok c ->
  dims4 (init_f c) (N_p (ph c)) (N_species (ph c)) (lN1 c) (lN2 c) ->
  aeq (get_dist_func c (f_hat s)) (init_f c) /\ lt s = 0 /\ lin_state_ok c s
  /\ forall x s, el (f_background c (init_f c)) x s 0 0 = Rabs (mean2 (lN1 c) (lN2 c) (fun i j => el (init_f c) x s i j))
     /\ ((forall i j, (0 <= i < lN1 c)%Z -> (0 <= j < lN2 c)%Z -> 0 <= el (init_f c) x s i j) ->
         el (f_background c (init_f c)) x s 0 0 = mean2 (lN1 c) (lN2 c) (fun i j => el (init_f c) x s i j)).
Proof. exact initial_f. Qed.
Print Assumptions C44_initial_f.

Theorem C44_round_trip : forall c (f : arr R), lin_ok c -> dims4 f (d0 f) (d1 f) (lN1 c) (lN2 c) ->
  aeq (get_dist_func c (to_hat c (amap RtoC f))) f.
Proof. exact round_trip. Qed.
Print Assumptions C44_round_trip.

Example C44_applies : exists b s, linear_solver (ex_lin "electrostatic") = Ok (b, s)
  /\ el (get_dist_func (ex_lin "electrostatic") (f_hat s)) 2 1 2 1 = 6.
Proof.
  destruct (ex_start "electrostatic") as (s&H&_). eexists. exists s. split; [exact H|].
  destruct (C44_initial_f _ _ _ H (ex_lin_ok _)) as ((_&E)&_); [repeat split|].
  rewrite E; [cbn; lra|]. destruct (solver_inv _ _ _ H) as (_&_&FH&_). rewrite FH. unfold inside, inb. cbn. lia.
Qed.

(** C45.  Moments of the solver's own state, of the distribution function it
    returns, and in Fourier space agree and are the integrals. *)
Theorem C45_moments_agree : forall c name w fh, lin_ok c ->
  dims4 fh (N_p (ph c)) (N_species (ph c)) (lN1 c) (lN2 c) ->
  (forall x y z, moment_weight name x y z = Some (w x y z)) ->
  exists M M' Mh, lin_compute_moments c nonrel_moments fh name None None = Ok (Moment M)
  /\ lin_compute_moments c nonrel_moments fh name (Some (get_dist_func c fh)) None = Ok (Moment M')
  /\ (forall g, lin_compute_moments c nonrel_moments g name None (Some fh) = Ok (MomentHat Mh))
  /\ aeq M M' /\ aeq (from_hat c Mh) M
  /\ moment_is (ph c) (lN1 c) (lN2 c) M (fun s k l =>
       integral (species_grid (ph c) s) w (fun i1 i2 i3 => el (get_dist_func c fh) (row (ph c) i1 i2 i3) s k l)).
Proof. exact moments_agree. Qed.
Print Assumptions C45_moments_agree.

Theorem C45_errors : forall c name fh g f fh',
  lin_compute_moments c nonrel_moments g name (Some f) (Some fh) = Err GenericException
  /\ (moment_weight name 0 0 0 = None ->
      lin_compute_moments c nonrel_moments g name None None = Err AttributeError
      /\ lin_compute_moments c nonrel_moments g name (Some f) None = Err AttributeError
      /\ lin_compute_moments c nonrel_moments g name None (Some fh') = Err AttributeError).
Proof. exact moments_errors. Qed.
Print Assumptions C45_errors.

Example C45_applies : exists s, linear_solver (ex_lin "electrostatic") = Ok (make_background (ex_lin "electrostatic") ex_f0, s)
  /\ dims4 (f_hat s) 6 2 3 2 /\ (forall x y z, moment_weight "energy" x y z = Some ((x * x + y * y + z * z) / 2)).
Proof. destruct (ex_start "electrostatic") as (s&H&D). exists s. split; [exact H|]. split; [exact D|reflexivity]. Qed.

(** C46.  Over any run, with any mix of methods and steps, div B of every mode
    keeps its value; starting from a vector potential it is zero. *)
Theorem C46_div_B : forall c b steps s s' k l, lin_ok c -> lin_run c b steps s = Ok s' -> mode_in c k l ->
  div_B c (fields_hat (fsol s')) k l = div_B c (fields_hat (fsol s)) k l.
Proof. exact div_B_run. Qed.
Print Assumptions C46_div_B.

Theorem C46_div_B_initial : forall c b s A3 B3 k l, linear_solver c = Ok (b, s) -> lin_ok c ->
  dims4 (init_f c) (N_p (ph c)) (N_species (ph c)) (lN1 c) (lN2 c) ->
  init_B c = InitA3B3 A3 B3 -> mode_in c k l -> div_B c (fields_hat (fsol s)) k l = c0.
Proof. exact initial_div_B. Qed.
Print Assumptions C46_div_B_initial.

(** Gauss's law: the difference between eps div E and the charge density of every
    mode keeps its value; it is zero at the start for every mode but the mean
    when the electric field comes from the Poisson solver. *)
Theorem C46_gauss : forall c f steps s s' k l, lin_ok c -> force_divergence_free c -> uniform_dp2 c -> advects_with_p c ->
  source_enabled (ph c) = false -> instantaneous c = false -> fields_enabled (ph c) = true ->
  fields_type c = "electrodynamic"%string -> eps c <> 0 -> lin_state_ok c s ->
  lin_run c (make_background c f) steps s = Ok s' -> mode_in c k l ->
  gauss_defect c (f_hat s') (fields_hat (fsol s')) k l = gauss_defect c (f_hat s) (fields_hat (fsol s)) k l.
Proof. exact gauss_run. Qed.
Print Assumptions C46_gauss.

Theorem C46_gauss_initial : forall c b s k l, linear_solver c = Ok (b, s) -> lin_ok c -> eps c <> 0 ->
  dims4 (init_f c) (N_p (ph c)) (N_species (ph c)) (lN1 c) (lN2 c) ->
  fields_initialize c <> "user-defined"%string -> mode_in c k l -> ((k, l) <> (0, 0))%Z ->
  gauss_defect c (f_hat s) (fields_hat (fsol s)) k l = c0.
Proof. exact initial_gauss. Qed.
Print Assumptions C46_gauss_initial.

Lemma ex_FD ft : force_divergence_free (ex_lin ft).
Proof. repeat split. Qed.
Lemma ex_U2 ft : uniform_dp2 (ex_lin ft).
Proof. intros s Hs. cbn in *. assert (s = 0 \/ s = 1)%Z as [->| ->] by lia; reflexivity. Qed.
Example C46_applies : exists s s',
  linear_solver (ex_lin "electrodynamic") = Ok (make_background (ex_lin "electrodynamic") ex_f0, s)
  /\ lin_run (ex_lin "electrodynamic") (make_background (ex_lin "electrodynamic") ex_f0) [(RK4_, 1/10); (RK2_, 1/5)] s = Ok s'
  /\ gauss_defect (ex_lin "electrodynamic") (f_hat s') (fields_hat (fsol s')) 1 1 = c0.
Proof.
  destruct (ex_start "electrodynamic") as (s&H&D). exists s.
  destruct (ex_run_ok "electrodynamic" [(RK4_, 1/10); (RK2_, 1/5)] s ltac:(cbn; auto)) as (s'&E). exists s'.
  split; [exact H|]. split; [exact E|]. assert (M : mode_in (ex_lin "electrodynamic") 1 1) by (split; cbn; lia).
  assert (Q : eps (ex_lin "electrodynamic") <> 0) by (cbn; lra).
  rewrite (C46_gauss _ ex_f0 _ s s' 1 1 (ex_lin_ok _) (ex_FD _) (ex_U2 _) (fun _ _ _ _ _ _ _ => eq_refl) eq_refl eq_refl eq_refl eq_refl Q D E M).
  apply (C46_gauss_initial _ _ s 1 1 H (ex_lin_ok _) Q); [repeat split|discriminate|exact M|discriminate].
Qed.

(** C47.  The electrostatic fields of any state obey Gauss's law at every mode but
    the mean, are curl free and have no other components. *)
Theorem C47_electrostatic : forall c fh old k l, lin_ok c ->
  dims4 fh (N_p (ph c)) (N_species (ph c)) (lN1 c) (lN2 c) -> eps c <> 0 -> mode_in c k l ->
  let F := compute_electrostatic_fields c (charge_times c density fh) old in
  let E1 := el (E1h F) 0 0 k l in
  let E2 := el (E2h F) 0 0 k l in
  (((k, l) <> (0, 0))%Z -> cscale (eps c) (cmul ci (cadd (cscale (kx c k) E1) (cscale (ky c l) E2))) = charge_hat c fh k l)
  /\ csub (cscale (kx c k) E2) (cscale (ky c l) E1) = c0
  /\ ((k, l) = (0, 0)%Z -> E1 = c0 /\ E2 = c0)
  /\ el (E3h F) 0 0 k l = c0 /\ el (B1h F) 0 0 k l = c0 /\ el (B2h F) 0 0 k l = c0 /\ el (B3h F) 0 0 k l = c0.
Proof. exact electrostatic. Qed.
Print Assumptions C47_electrostatic.

Example C47_applies : exists s, linear_solver (ex_lin "electrostatic") = Ok (make_background (ex_lin "electrostatic") ex_f0, s)
  /\ dims4 (f_hat s) 6 2 3 2 /\ mode_in (ex_lin "electrostatic") 2 1.
Proof. destruct (ex_start "electrostatic") as (s&H&D). exists s. split; [exact H|]. split; [exact D|]. split; cbn; lia. Qed.

(** C49.  An electrodynamic step should advance f and the fields as one coupled
    system ([intended_f]).  The code pushes f with the fields of the beginning of
    the step at every stage. *)
Theorem C49_what_a_step_does_partial : forall m c b dt s s',
  lin_timestep m c b dt s = Ok s' -> instantaneous c = false -> f_hat s' = frozen_f m c b dt s.
Proof. exact frozen. Qed.
Print Assumptions C49_what_a_step_does_partial.

Theorem C49_refuted : exists c b s s' dt, linear_solver c = Ok (b, s) /\ lin_ok c
  /\ fields_enabled (ph c) = true /\ fields_type c = "electrodynamic"%string
  /\ lin_timestep RK2_ c b dt s = Ok s'
  /\ el (f_hat s') 0 0 0 0 <> el (intended_f RK2_ c b dt s) 0 0 0 0.
Proof. exact uncoupled_step. Qed.
Print Assumptions C49_refuted.

(** C50.  Loading a dumped distribution function should give it back.  Every
    element is read from the position it has in an array stored in the opposite
    order. *)
Theorem C50_what_is_loaded_partial : forall c fh x s i j, lin_ok c ->
  dims4 fh (N_p (ph c)) (N_species (ph c)) (lN1 c) (lN2 c) -> inb (N_p (ph c)) x -> inb (N_species (ph c)) s ->
  inb (lN1 c) i -> inb (lN2 c) j ->
  el (get_dist_func c (load_f c (dump_f c fh))) x s i j
  = flat (get_dist_func c fh) (j + lN2 c * (i + lN1 c * (s + N_species (ph c) * x)))%Z.
Proof. exact load_dump. Qed.
Print Assumptions C50_what_is_loaded_partial.

Theorem C50_refuted : exists c b s, linear_solver c = Ok (b, s) /\ lin_ok c
  /\ ~ aeq (get_dist_func c (load_f c (dump_f c (f_hat s)))) (get_dist_func c (f_hat s)).
Proof. exact load_transposed. Qed.
Print Assumptions C50_refuted.

(** C64.  Without a source the number of particles of each species in the domain
    is the same after any run, with or without fields. *)
Theorem C64_particles : forall c f steps s s' sp, lin_ok c -> force_divergence_free c -> uniform_dp2 c ->
  source_enabled (ph c) = false -> instantaneous c = false -> lin_state_ok c s -> (0 <= sp < N_species (ph c))%Z ->
  lin_run c (make_background c f) steps s = Ok s' ->
  particles c (get_dist_func c (f_hat s')) sp = particles c (get_dist_func c (f_hat s)) sp.
Proof. exact particles_run. Qed.
Print Assumptions C64_particles.

Example C64_applies : exists s s',
  linear_solver (ex_lin "electrostatic") = Ok (make_background (ex_lin "electrostatic") ex_f0, s)
  /\ lin_run (ex_lin "electrostatic") (make_background (ex_lin "electrostatic") ex_f0) [(RK5_, 1/10); (RK2_, 1/5)] s = Ok s'
  /\ particles (ex_lin "electrostatic") (get_dist_func (ex_lin "electrostatic") (f_hat s')) 1
     = particles (ex_lin "electrostatic") (get_dist_func (ex_lin "electrostatic") (f_hat s)) 1.
Proof.
  destruct (ex_start "electrostatic") as (s&H&D). exists s.
  destruct (ex_run_ok "electrostatic" [(RK5_, 1/10); (RK2_, 1/5)] s ltac:(cbn; auto)) as (s'&E). exists s'.
  split; [exact H|]. split; [exact E|].
  apply (C64_particles _ ex_f0 _ s s' 1 (ex_lin_ok _) (ex_FD _) (ex_U2 _) eq_refl eq_refl D ltac:(cbn; lia) E).
Qed.

(** C65.  With fields switched on, a step should work for any number of species.
    It works exactly for one species, or for as many species as there are cells
    in p2. *)
Theorem C65_which_steps_work_partial : forall m c b dt s, lin_ok c ->
  (exists s', lin_timestep m c b dt s = Ok s') <->
  (fields_enabled (ph c) = true ->
     In (fields_type c) ["electrostatic"; "electrodynamic"; "None"]%string
     /\ (N_species (ph c) = 1 \/ N_species (ph c) = N_p2 (ph c))%Z).
Proof. exact multi_species. Qed.
Print Assumptions C65_which_steps_work_partial.

Theorem C65_refuted : exists c b s, linear_solver c = Ok (b, s) /\ lin_ok c /\ N_species (ph c) = 2%Z
  /\ fields_type c = "electrostatic"%string /\ forall m dt, lin_timestep m c b dt s = Err ValueError.
Proof.
  exists (w_cfg 3 2 3 1 2 [-(3/2); -3] [1; 1] true periodic_box "electrostatic" (Arr 3 2 3 2 (fun x s i j => 1))).
  eexists. eexists. split; [reflexivity|]. split; [|split; [reflexivity|split; [reflexivity|]]].
  - unfold lin_ok, momentum_grid_ok, lN1, lN2. cbn. repeat split; lia || lra.
  - intros [] dt; reflexivity.
Qed.
Print Assumptions C65_refuted.

(** C66.  Superposition: without a source, and with no fields or electrostatic
    ones, the run started from a f1 + b f2 is a times the run from f1 plus b times
    the run from f2. *)
Theorem C66_superposition : forall c a b, linear_system c ->
  forall bg steps s1 s2 s3 s1' s2' s3', superposed a b s1 s2 s3 ->
  lin_run c bg steps s1 = Ok s1' -> lin_run c bg steps s2 = Ok s2' -> lin_run c bg steps s3 = Ok s3' ->
  superposed a b s1' s2' s3'.
Proof. exact run_super. Qed.
Print Assumptions C66_superposition.

Example C66_applies : linear_system (ex_lin "electrostatic") /\ exists s1 s2 s3, superposed 2 3 s1 s2 s3
  /\ el (f_hat s3) 1 0 1 1 = (2, 3)
  /\ exists s3', lin_run (ex_lin "electrostatic") (make_background (ex_lin "electrostatic") ex_f0) [(RK4_, 1/10)] s3 = Ok s3'.
Proof.
  split.
  - split; [reflexivity|]. split; [reflexivity|]. intros _. split; [reflexivity|]. intros ?; intros. reflexivity.
  - destruct (ex_start "electrostatic") as (s&_&_).
    set (st z := LState (Arr 6 2 3 2 (fun _ _ _ _ => z)) (fsol s) 0).
    exists (st c1), (st ci), (st (2, 3)). split; [|split; [reflexivity|apply ex_run_ok; cbn; auto]].
    split; [|auto]. split; [repeat split|]. split; [repeat split|]. intros. cbn. cplx_ring.
Qed.
