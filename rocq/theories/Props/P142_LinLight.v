(** C142, C143: light in the linear solver. *)
From Coq Require Import ZArith Reals Lra Lia String List Bool.
From Verif Require Import Base.Prelude Base.Cplx Model.Af Model.Config Model.Linear
  Spec.Waves Spec.LinearSpec Spec.FreeStream Spec.LinLight Proofs.FreeStream Proofs.LinLight.
Import ListNotations.
Local Open Scope R_scope.

(** C142.  Without charges the energy of a light wave does not grow.  What a run does to the
    energy of a transverse mode; gain2 is at most 1 for the step sizes of
    C100_stable_steps_partial. *)
Theorem C142_energy_partial : forall c, lin_ok c -> no_charges c -> evolves_fields c -> forall k l, mode_in c k l ->
  forall steps b s s', lin_run c b steps s = Ok s' ->
  k_dot_E c (fields_hat (fsol s)) k l = c0 -> k_dot_B c (fields_hat (fsol s)) k l = c0 ->
  mode_energy c (fields_hat (fsol s')) k l = run_gain2 (light_omega c k l) steps * mode_energy c (fields_hat (fsol s)) k l.
Proof. exact energy_gain. Qed.
Print Assumptions C142_energy_partial.

(** The longitudinal parts stay what they are. *)
Theorem C142_longitudinal_partial : forall c, lin_ok c -> no_charges c -> evolves_fields c -> forall k l, mode_in c k l ->
  forall steps b s s', lin_run c b steps s = Ok s' ->
  k_dot_E c (fields_hat (fsol s')) k l = k_dot_E c (fields_hat (fsol s)) k l
  /\ k_dot_B c (fields_hat (fsol s')) k l = k_dot_B c (fields_hat (fsol s)) k l.
Proof. exact still_run. Qed.
Print Assumptions C142_longitudinal_partial.

(** With RK2 the energy grows beyond all bounds, for every step size. *)
Theorem C142_refuted : exists c b s, lin_ok c /\ no_charges c /\ evolves_fields c /\ linear_solver c = Ok (b, s)
  /\ forall dt M, dt <> 0 -> exists n s', lin_run c b (repeat (RK2_, dt) n) s = Ok s' /\ M < mode_energy c (fields_hat (fsol s')) 1 0.
Proof. exact rk2_light. Qed.
Print Assumptions C142_refuted.

Example C142_applies : exists b s s', linear_solver ll_c = Ok (b, s) /\ lin_run ll_c b [(RK4_, 1/2)] s = Ok s'
  /\ mode_energy ll_c (fields_hat (fsol s)) 1 0 = 4 / 9 /\ mode_energy ll_c (fields_hat (fsol s')) 1 0 <= 4 / 9.
Proof.
  destruct ll_start as (b&s&E&HE&HB&C). destruct (ll_run b [(RK4_, 1/2)] s) as (s'&R).
  exists b, s, s'. split; [exact E|split; [exact R|split; [exact C|]]].
  rewrite (C142_energy_partial ll_c ll_ok ll_neutral ll_evolves 1 0 ll_mode [(RK4_, 1/2)] b s s' R HE HB), C.
  cbn [run_gain2 fold_right fst snd]. rewrite ll_omega.
  assert (G : gain2 RK4_ (2 * PI / 3 * (1 / 2)) <= 1).
  { apply gain4. assert (P := PI_RGT_0). assert (P4 := PI_4).
    replace ((2 * PI / 3 * (1 / 2)) ^ 2) with (PI * PI / 9) by field. nra. }
  lra.
Qed.

(** C143.  Runs with small RK4 and RK5 steps follow the exact light waves of each mode, of both
    polarisations and directions. *)
Theorem C143_light_waves : forall c, lin_ok c -> no_charges c -> evolves_fields c -> forall k l, mode_in c k l ->
  forall g b steps s s', g * g = 1 -> (forall m dt, In (m, dt) steps -> small_step m (g * light_omega c k l * dt)) ->
  lin_run c b steps s = Ok s' ->
  let follow (W : arr cplx -> cplx) :=
    cmod (csub (W (fields_hat (fsol s'))) (cmul (cis (g * light_omega c k l * lin_duration steps)) (W (fields_hat (fsol s)))))
    <= total_error (g * light_omega c k l) steps * cmod (W (fields_hat (fsol s))) in
  follow (fun F => wave_E3 c g F k l) /\ follow (fun F => wave_B3 c g F k l).
Proof. exact light_phase. Qed.
Print Assumptions C143_light_waves.

Example C143_applies : exists b s s', linear_solver ll_c = Ok (b, s) /\ lin_run ll_c b [(RK4_, 1/2); (RK5_, 1/10)] s = Ok s'
  /\ cmod (csub (wave_E3 ll_c 1 (fields_hat (fsol s')) 1 0) (cmul (cis (2 * PI / 5)) (wave_E3 ll_c 1 (fields_hat (fsol s)) 1 0)))
     <= total_error (2 * PI / 3) [(RK4_, 1/2); (RK5_, 1/10)] * cmod (wave_E3 ll_c 1 (fields_hat (fsol s)) 1 0).
Proof.
  destruct ll_start as (b&s&E&_). destruct (ll_run b [(RK4_, 1/2); (RK5_, 1/10)] s) as (s'&R).
  exists b, s, s'. split; [exact E|split; [exact R|]].
  pose proof (C143_light_waves ll_c ll_ok ll_neutral ll_evolves 1 0 ll_mode 1 b [(RK4_, 1/2); (RK5_, 1/10)] s s' ltac:(ring)) as Q.
  rewrite ll_omega in Q. rewrite Rmult_1_l in Q. cbv zeta in Q.
  replace (2 * PI / 5) with (2 * PI / 3 * lin_duration [(RK4_, 1/2); (RK5_, 1/10)]) by (unfold lin_duration; cbn [fold_right snd]; field).
  apply Q; [|exact R]. assert (P := PI_RGT_0). assert (P4 := PI_4).
  intros m dt [H|[H|[]]]; inversion H; subst; cbn [small_step].
  - replace (2 * PI / 3 * (1 / 2)) with (PI / 3) by field. rewrite Rabs_pos_eq; lra.
  - replace ((2 * PI / 3 * (1 / 10)) ^ 2) with (PI * PI / 225) by field. nra.
Qed.
