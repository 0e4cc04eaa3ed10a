(** Runs in other units. *)
From Coq Require Import ZArith Reals Lia Lra String List Bool FunctionalExtensionality.
From Verif Require Import Base.Prelude Base.ZSum Model.Af Model.Petsc Model.Config Model.Boundaries
  Model.Fvm Model.Em Model.Moments Model.Splitting Model.Timestep Model.Solver
  Spec.Domain Spec.Lattice Spec.FvmProblem Spec.FvmRun Spec.Yee Spec.EmRun Spec.Waves Spec.MomentSpec Spec.Clock Spec.SolverSpec
  Spec.VlasovMaxwell Spec.InitFields Spec.Poisson Spec.TimeTerms Spec.Rescale
  Proofs.SchemeSym.
Import ListNotations.
Local Open Scope R_scope.

Ltac fext4 := do 4 (apply functional_extensionality; intro).
Ltac fext2 := do 2 (apply functional_extensionality; intro).

Lemma nth_scale a (l : list R) n : nth n (map (Rmult a) l) 0 = a * nth n l 0.
Proof. replace 0 with (a * 0) at 1 by ring. apply map_nth. Qed.

(** Fluxes: velocity times [a] > 0, data times [b], cells [l] times as wide. *)
Lemma upwind_scale k v v' (u w : Z -> R) a b i : 0 < a -> (forall z, v' z = a * v z) -> (forall z, w z = b * u z) ->
  upwind k v' w i = b * upwind k v u i.
Proof.
  intros Ha Hv H. assert (H' : forall z, w z = b * u z + 0) by (intros; rewrite H; ring).
  unfold upwind. rewrite !(faces_affine k u w b 0) by auto. cbn [fst snd]. rewrite Hv.
  destruct (Rlt_dec 0 (a * v i)) as [A|A]; destruct (Rlt_dec 0 (v i)) as [B|B]; try ring; exfalso.
  - apply B. apply (Rmult_lt_reg_l a); auto. rewrite Rmult_0_r. exact A.
  - apply A. apply Rmult_lt_0_compat; auto.
Qed.

Lemma advect_units k h h' v v' (u w : Z -> R) a b l i : 0 < a -> l <> 0 -> h' = l * h -> (forall z, v' z = a * v z) -> (forall z, w z = b * u z) ->
  advect k h' v' w i = a * b / l * advect k h v u i.
Proof.
  intros Ha Hl -> Hv H. unfold advect, flux. rewrite !(upwind_scale k v v' u w a b) by auto. rewrite !Hv.
  unfold Rdiv. rewrite Rinv_mult. ring.
Qed.

Section Units.
  Context (U : units) (UP : proper U) (P : params) (k1 k2 : scheme).
  Let c := pc P.
  Let l := u_len U. Let T := u_time U. Let V := u_vel U. Let F := u_f U. Let Q := u_charge U. Let E := u_E U. Let B := u_B U.

  Lemma facts : 0 < l /\ 0 < T /\ 0 < V /\ F <> 0 /\ Q <> 0 /\ E <> 0 /\ B <> 0 /\ V * T = l.
  Proof using UP.
    destruct UP as (A1&A2&A3&A4&A5). fold l T F Q E in A1, A2, A3, A4, A5.
    assert (0 < V) by (unfold V, u_vel; apply Rdiv_lt_0_compat; auto).
    repeat split; auto.
    - unfold B, u_B. fold E V. unfold Rdiv. apply Rmult_integral_contrapositive. split; auto. apply Rinv_neq_0_compat; lra.
    - unfold V, u_vel. fold l T. field. lra.
  Qed.

  Lemma pos_units o g : pos1 (convert_cfg U c) o g = l * pos1 c o g /\ pos2 (convert_cfg U c) o g = l * pos2 c o g.
  Proof using. unfold pos1, pos2; cbn [convert_cfg q1_start q2_start dq1 dq2]. fold l. split; ring. Qed.
  Lemma mom_units o x s : mom1 (convert_cfg U c) o x s = V * mom1 c o x s /\ mom2 (convert_cfg U c) o x s = V * mom2 c o x s
    /\ mom3 (convert_cfg U c) o x s = V * mom3 c o x s.
  Proof using.
    unfold mom1, mom2, mom3; cbn [convert_cfg p1_start p2_start p3_start dp1 dp2 dp3 N_p1 N_p2]. rewrite !nth_scale. fold V.
    repeat split; ring.
  Qed.

  (** A problem in two systems of units. *)
  Definition units_problem (p p' : problem) : Prop :=
    n1 p' = n1 p /\ n2 p' = n2 p /\ h1 p' = l * h1 p /\ h2 p' = l * h2 p /\ kq p' = kq p /\ kp p' = kp p
    /\ (forall x s i j, vel1 p' x s i j = V * vel1 p x s i j) /\ (forall x s i j, vel2 p' x s i j = V * vel2 p x s i j)
    /\ (forall i j w x s, src p' i j (fun x s => F * w x s) x s = F / T * src p i j w x s)
    /\ M1 p' = M1 p /\ M2 p' = M2 p /\ M3 p' = M3 p
    /\ (forall s, hp1 p' s = V * hp1 p s) /\ (forall s, hp2 p' s = V * hp2 p s) /\ (forall s, hp3 p' s = V * hp3 p s)
    /\ (forall x s i j, acc1 p' x s i j = V / T * acc1 p x s i j) /\ (forall x s i j, acc2 p' x s i j = V / T * acc2 p x s i j)
    /\ (forall x s i j, acc3 p' x s i j = V / T * acc3 p x s i j).

  Lemma problem_units t C : units_problem (vm_problem P k1 k2 t C) (vm_problem (convert U P) k1 k2 (T * t) (convert_fields U C)).
  Proof using UP.
    destruct facts as (Hl&HT&HV&HF&HQ&HE&HB&VT).
    assert (DT : T * t / u_time U = t) by (fold T; field; lra).
    assert (DL : forall r, l * r / u_len U = r) by (intros; fold l; field; lra).
    assert (DV : forall r, V * r / u_vel U = r) by (intros; fold V; field; lra).
    assert (DE : forall r, E * r / u_E U = r) by (intros; fold E; field; auto).
    assert (DB : forall r, B * r / u_B U = r) by (intros; fold B; field; auto).
    assert (AC : forall o1 o2 o3 x s g1 g2, accel (convert_cfg U c) (T * t) (components (convert_fields U C)) o1 o2 o3 x s g1 g2
              = times3 (V / T) (accel c t (components C) o1 o2 o3 x s g1 g2)).
    { intros. unfold accel. 
      rewrite (proj1 (pos_units _ _)), (proj2 (pos_units _ _)), (proj1 (mom_units _ _ _)), (proj1 (proj2 (mom_units _ _ _))), (proj2 (proj2 (mom_units _ _ _))).
      unfold components. cbn [Z.eqb Pos.eqb convert_fields E1 E2 E3 B1 B2 B3].
      cbn [convert_cfg C_p]. unfold in_units. fold E B. rewrite DT, !DL, !DV, !DE, !DB. reflexivity. }
    unfold units_problem, vm_problem, prob, problem_of, problem_at.
    cbn [n1 n2 h1 h2 kq kp vel1 vel2 src M1 M2 M3 hp1 hp2 hp3 acc1 acc2 acc3 fst snd convert pc]. fold c.
    change (p_is_fvm (convert_cfg U c)) with (p_is_fvm c).
    change (source_enabled (convert_cfg U c)) with (source_enabled c).
    change (lay (convert_cfg U c)) with (lay c). change (N_p1 (convert_cfg U c)) with (N_p1 c).
    change (N_p2 (convert_cfg U c)) with (N_p2 c). change (N_p3 (convert_cfg U c)) with (N_p3 c).
    change (dq1 (convert_cfg U c)) with (l * dq1 c). change (dq2 (convert_cfg U c)) with (l * dq2 c).
    assert (CQ : forall s o1 o2 g1 g2 x, C_q (convert_cfg U c) s (T * t) (pos1 (convert_cfg U c) o1 g1) (pos2 (convert_cfg U c) o2 g2)
         (mom1 (convert_cfg U c) (1/2) x s) (mom2 (convert_cfg U c) (1/2) x s) (mom3 (convert_cfg U c) (1/2) x s)
       = times2 V (C_q c s t (pos1 c o1 g1) (pos2 c o2 g2) (mom1 c (1/2) x s) (mom2 c (1/2) x s) (mom3 c (1/2) x s))).
    { intros. rewrite (proj1 (pos_units _ _)), (proj2 (pos_units _ _)), (proj1 (mom_units _ _ _)), (proj1 (proj2 (mom_units _ _ _))), (proj2 (proj2 (mom_units _ _ _))).
      cbn [convert_cfg C_q]. unfold in_units. rewrite DT, !DL, !DV. reflexivity. }
    repeat match goal with |- _ /\ _ => split end; try reflexivity; intros.
    - rewrite CQ. reflexivity.
    - rewrite CQ. reflexivity.
    - destruct (source_enabled c); [|ring]. rewrite (proj1 (pos_units _ _)), (proj2 (pos_units _ _)).
      cbn [convert_cfg source]. rewrite DT, !DL. fold F T. f_equal. f_equal.
      fext2. field. auto.
    - cbn [convert_cfg dp1]. rewrite nth_scale. reflexivity.
    - cbn [convert_cfg dp2]. rewrite nth_scale. reflexivity.
    - cbn [convert_cfg dp3]. rewrite nth_scale. reflexivity.
    - destruct (p_is_fvm c); [|ring]. rewrite AC. reflexivity.
    - destruct (p_is_fvm c); [|ring]. rewrite AC. reflexivity.
    - destruct (p_is_fvm c); [|ring]. rewrite AC. reflexivity.
  Qed.

  Lemma rhs_units p p' u x s i j : units_problem p p' -> rhs p' (convert_f U u) x s i j = F / T * rhs p u x s i j.
  Proof using UP.
    destruct facts as (Hl&HT&HV&HF&HQ&HE&HB&VT).
    intros (N1&N2&H1&H2&K1&K2&V1&V2&S&D1&D2&D3&P1&P2&P3&A1&A2&A3).
    assert (VL : V * F / l = F / T) by (rewrite <- VT; field; split; lra).
    assert (VA : V / T * F / V = F / T) by (field; split; lra).
    assert (HVT : 0 < V / T) by (apply Rdiv_lt_0_compat; auto).
    unfold rhs. rewrite !Rmult_plus_distr_l. f_equal; [f_equal|].
    - unfold advect_q. rewrite K1, N1, N2, Rmult_plus_distr_l. f_equal.
      + rewrite <- VL. apply advect_units; auto; try lra.
      + rewrite <- VL. apply advect_units; auto; try lra.
    - apply S.
    - unfold advect_p, pidx. rewrite K2, D1, D2, D3, !Rmult_plus_distr_l. f_equal; [f_equal|];
      rewrite <- VA; apply advect_units; auto; try lra; intros; try reflexivity; unfold periodic; auto.
  Qed.

  Lemma midpoint_units p p' q q' dt u : units_problem p p' -> units_problem q q' ->
    midpoint p' q' (T * dt) (convert_f U u) = convert_f U (midpoint p q dt u).
  Proof using UP.
    intros H1 H2. destruct facts as (_&HT&_).
    assert (X : (fun x s i j => convert_f U u x s i j + T * dt / 2 * rhs p' (convert_f U u) x s i j)
              = convert_f U (fun x s i j => u x s i j + dt / 2 * rhs p u x s i j)).
    { fext4. rewrite (rhs_units p p') by auto. unfold convert_f. fold F. field. lra. }
    unfold midpoint. rewrite X. fext4. rewrite (rhs_units q q') by auto. unfold convert_f. fold F. field. lra.
  Qed.

  (** ** Currents *)
  Lemma charge_moment_units w w' a g g' b :
    (forall x y z, w' (V * x) (V * y) (V * z) = a * w x y z) -> (forall x s, g' x s = b * g x s) ->
    charge_moment (convert U P) w' g' = Q * a * b * V ^ 3 * charge_moment P w g.
  Proof using.
    intros Hw Hg. unfold charge_moment. cbn [convert pc charge]. fold c.
    change (N_species (convert_cfg U c)) with (N_species c). rewrite <- zsum_scal. apply zsum_ext. intros s _.
    rewrite nth_scale. fold Q.
    assert (I : integral (species_grid (convert_cfg U c) s) w'
              (fun i1 i2 i3 => g' (i1 + N_p1 (convert_cfg U c) * (i2 + N_p2 (convert_cfg U c) * i3))%Z s)
            = a * b * V ^ 3 * integral (species_grid c s) w (fun i1 i2 i3 => g (i1 + N_p1 c * (i2 + N_p2 c * i3))%Z s)).
    { unfold integral, species_grid. cbn [mn1 mn2 mn3 lo1 lo2 lo3 w1 w2 w3 convert_cfg N_p1 N_p2 N_p3 p1_start p2_start p3_start dp1 dp2 dp3].
      rewrite !nth_scale. fold V.
      rewrite (zsum_ext (N_p3 c) _ (fun i3 => a * b * zsum (N_p2 c) (fun i2 => zsum (N_p1 c) (fun i1 =>
         w (v_of (nth (Z.to_nat s) (p1_start c) 0) (nth (Z.to_nat s) (dp1 c) 0) i1) (v_of (nth (Z.to_nat s) (p2_start c) 0) (nth (Z.to_nat s) (dp2 c) 0) i2)
           (v_of (nth (Z.to_nat s) (p3_start c) 0) (nth (Z.to_nat s) (dp3 c) 0) i3) * g (i1 + N_p1 c * (i2 + N_p2 c * i3))%Z s)))).
      2:{ intros i3 _. rewrite <- zsum_scal. apply zsum_ext. intros i2 _. rewrite <- zsum_scal. apply zsum_ext. intros i1 _.
          rewrite Hg.
          assert (VO : forall lo w i, v_of (V * lo) (V * w) i = V * v_of lo w i) by (intros; unfold v_of; ring).
          rewrite !VO, Hw. ring. }
      rewrite zsum_scal. ring. }
    rewrite I. ring.
  Qed.

  (** The unit of current density. *)
  Let J := Q * F * V ^ 4.
  Lemma currents_units p p' u : units_problem p p' ->
    (current1 (convert U P) p' (convert_f U u) = fun i j => J * current1 P p u i j)
    /\ (current2 (convert U P) p' (convert_f U u) = fun i j => J * current2 P p u i j)
    /\ (current3 (convert U P) p' (convert_f U u) = fun i j => J * current3 P p u i j).
  Proof using UP.
    destruct facts as (Hl&HT&HV&HF&HQ&HE&HB&VT).
    intros (N1&N2&H1&H2&K1&K2&V1&V2&_).
    unfold current1, current2, current3. rewrite N1, N2. repeat split; fext2.
    - rewrite (charge_moment_units (fun v _ _ => v) _ V (fun y s => through1 p u y s (x mod n1 p)%Z (x0 mod n2 p)%Z) _ F).
      + unfold J. ring.
      + intros; reflexivity.
      + intros. unfold through1. rewrite K1, N1. apply (upwind_scale _ _ _ _ _ V); auto.
    - rewrite (charge_moment_units (fun _ v _ => v) _ V (fun y s => through2 p u y s (x mod n1 p)%Z (x0 mod n2 p)%Z) _ F).
      + unfold J. ring.
      + intros; reflexivity.
      + intros. unfold through2. rewrite K1, N2. apply (upwind_scale _ _ _ _ _ V); auto.
    - rewrite (charge_moment_units (fun _ _ v => v) _ V (fun y s => u y s (x mod n1 p)%Z (x0 mod n2 p)%Z) _ F).
      + unfold J. ring.
      + intros; reflexivity.
      + intros. reflexivity.
  Qed.

  Lemma eps_units : u_eps U <> 0 /\ u_mu U * u_eps U * V ^ 2 = 1 /\ T * J / u_eps U = E.
  Proof using UP.
    destruct facts as (Hl&HT&HV&HF&HQ&HE&HB&VT).
    assert (X : u_eps U = Q * F * V ^ 3 * l / E) by reflexivity.
    assert (NZ : u_eps U <> 0).
    { rewrite X. assert (V3 : V ^ 3 <> 0) by (apply pow_nonzero; lra). assert (L0 : l <> 0) by lra.
      assert (E0 : / E <> 0) by (apply Rinv_neq_0_compat; auto). clear - HF HQ V3 L0 E0.
      intros Z. unfold Rdiv in Z.
      apply Rmult_integral in Z as [Z|Z]; [|auto]. apply Rmult_integral in Z as [Z|Z]; [|auto].
      apply Rmult_integral in Z as [Z|Z]; [|auto]. apply Rmult_integral in Z as [Z|Z]; auto. }
    split; [exact NZ|]. split.
    - unfold u_mu. fold V. field. split; [lra|auto].
    - rewrite X. unfold J. rewrite <- VT. field. repeat split; auto; lra.
  Qed.

  Lemma yee_units h1 h2 e m dt J1 J2 J3 Y : e <> 0 -> m <> 0 -> h1 <> 0 -> h2 <> 0 ->
    yee_step (l * h1) (l * h2) (u_eps U * e) (u_mu U * m) (T * dt)
      (fun i j => J * J1 i j) (fun i j => J * J2 i j) (fun i j => J * J3 i j) (convert_fields U Y)
    = convert_fields U (yee_step h1 h2 e m dt J1 J2 J3 Y).
  Proof using UP.
    intros He Hm Hh1 Hh2. destruct facts as (Hl&HT&HV&HF&HQ&HE&HB&VT). destruct eps_units as (NE&MU&TJ).
    assert (EB1 : E = B * V) by (unfold B, u_B; fold E V; field; lra).
    assert (NM : u_mu U <> 0). { intros Z. rewrite Z in MU. lra. }
    assert (MUI : / (u_mu U * m * (u_eps U * e)) = V ^ 2 / (m * e)).
    { replace (u_mu U * m * (u_eps U * e)) with ((u_mu U * u_eps U) * (m * e)) by ring.
      replace (u_mu U * u_eps U) with (/ V ^ 2). { field. repeat split; auto; lra. }
      apply (Rmult_eq_reg_r (V ^ 2)); [|apply pow_nonzero; lra]. rewrite MU. field. lra. }
    assert (TL : T = l / V) by (rewrite <- VT; field; lra).
    assert (JE : forall r, T * dt * (J * r / (u_eps U * e)) = E * (dt * (r / e))).
    { intros r. rewrite <- TJ. field. auto. }
    assert (BL : forall d h r, h <> 0 -> T * dt * (B * r / (l * h) / (u_mu U * m * (u_eps U * e))) + d = E * (dt * (r / h / (m * e))) + d).
    { intros d h r Hh. unfold Rdiv at 1. rewrite MUI, EB1, TL. field. repeat split; auto; lra. }
    assert (EL : forall h r, h <> 0 -> T * dt * (E * r / (l * h)) = B * (dt * (r / h))).
    { intros h r Hh. rewrite EB1, TL. field. repeat split; auto; lra. }
    unfold yee_step, faraday, ampere, convert_fields. cbn [E1 E2 E3 B1 B2 B3]. fold E B.
    assert (AM1 : forall i j, E * E1 Y i j + T * dt * (fwd2 (l * h2) (fun i j => B * B3 Y i j) i j / (u_mu U * m * (u_eps U * e)) - J * J1 i j / (u_eps U * e))
       = E * (E1 Y i j + dt * (fwd2 h2 (B3 Y) i j / (m * e) - J1 i j / e))).
    { intros i j. unfold fwd2.
      replace (B * B3 Y i (j + 1)%Z - B * B3 Y i j) with (B * (B3 Y i (j + 1)%Z - B3 Y i j)) by ring.
      transitivity (E * E1 Y i j + (T * dt * (B * (B3 Y i (j + 1)%Z - B3 Y i j) / (l * h2) / (u_mu U * m * (u_eps U * e))) + - (T * dt * (J * J1 i j / (u_eps U * e))))); [ring|].
      rewrite BL by auto. rewrite JE. ring. }
    assert (AM2 : forall i j, E * E2 Y i j + T * dt * (- fwd1 (l * h1) (fun i j => B * B3 Y i j) i j / (u_mu U * m * (u_eps U * e)) - J * J2 i j / (u_eps U * e))
       = E * (E2 Y i j + dt * (- fwd1 h1 (B3 Y) i j / (m * e) - J2 i j / e))).
    { intros i j. unfold fwd1.
      transitivity (E * E2 Y i j + (T * dt * (B * (B3 Y i j - B3 Y (i + 1)%Z j) / (l * h1) / (u_mu U * m * (u_eps U * e))) + - (T * dt * (J * J2 i j / (u_eps U * e))))); [unfold Rdiv; ring|].
      rewrite BL by auto. rewrite JE. unfold Rdiv; ring. }
    assert (AM3 : forall i j, E * E3 Y i j + T * dt * ((fwd1 (l * h1) (fun i j => B * B2 Y i j) i j - fwd2 (l * h2) (fun i j => B * B1 Y i j) i j) / (u_mu U * m * (u_eps U * e)) - J * J3 i j / (u_eps U * e))
       = E * (E3 Y i j + dt * ((fwd1 h1 (B2 Y) i j - fwd2 h2 (B1 Y) i j) / (m * e) - J3 i j / e))).
    { intros i j. unfold fwd1, fwd2.
      transitivity (E * E3 Y i j + (T * dt * (B * (B2 Y (i + 1)%Z j - B2 Y i j) / (l * h1) / (u_mu U * m * (u_eps U * e)))
         + (T * dt * (B * (B1 Y i j - B1 Y i (j + 1)%Z) / (l * h2) / (u_mu U * m * (u_eps U * e))) + - (T * dt * (J * J3 i j / (u_eps U * e)))))); [unfold Rdiv; ring|].
      rewrite !BL by auto. rewrite JE. unfold Rdiv; ring. }
    f_equal; fext2; auto.
    - unfold bwd2. rewrite !AM3.
      transitivity (B * B1 Y x x0 - T * dt * (E * ((E3 Y x x0 + dt * ((fwd1 h1 (B2 Y) x x0 - fwd2 h2 (B1 Y) x x0) / (m * e) - J3 x x0 / e))
         - (E3 Y x (x0 - 1)%Z + dt * ((fwd1 h1 (B2 Y) x (x0 - 1)%Z - fwd2 h2 (B1 Y) x (x0 - 1)%Z) / (m * e) - J3 x (x0 - 1)%Z / e))) / (l * h2))); [unfold Rdiv; ring|].
      rewrite EL by auto. ring.
    - unfold bwd1. rewrite !AM3.
      transitivity (B * B2 Y x x0 + T * dt * (E * ((E3 Y x x0 + dt * ((fwd1 h1 (B2 Y) x x0 - fwd2 h2 (B1 Y) x x0) / (m * e) - J3 x x0 / e))
         - (E3 Y (x - 1)%Z x0 + dt * ((fwd1 h1 (B2 Y) (x - 1)%Z x0 - fwd2 h2 (B1 Y) (x - 1)%Z x0) / (m * e) - J3 (x - 1)%Z x0 / e))) / (l * h1))); [unfold Rdiv; ring|].
      rewrite EL by auto. ring.
    - unfold bwd1, bwd2. rewrite !AM1, !AM2.
      transitivity (B * B3 Y x x0 - (T * dt * (E * ((E2 Y x x0 + dt * (- fwd1 h1 (B3 Y) x x0 / (m * e) - J2 x x0 / e))
         - (E2 Y (x - 1)%Z x0 + dt * (- fwd1 h1 (B3 Y) (x - 1)%Z x0 / (m * e) - J2 (x - 1)%Z x0 / e))) / (l * h1))
         - T * dt * (E * ((E1 Y x x0 + dt * (fwd2 h2 (B3 Y) x x0 / (m * e) - J1 x x0 / e))
         - (E1 Y x (x0 - 1)%Z + dt * (fwd2 h2 (B3 Y) x (x0 - 1)%Z / (m * e) - J1 x (x0 - 1)%Z / e))) / (l * h2)))); [unfold Rdiv; ring|].
      rewrite !EL by auto. ring.
  Qed.

  Lemma centred_units Y : centred (convert_fields U Y) = convert_fields U (centred Y).
  Proof using. unfold centred, convert_fields. cbn [E1 E2 E3 B1 B2 B3]. f_equal; fext2; field. Qed.
  Lemma mid_units Y Z : mid (convert_fields U Y) (convert_fields U Z) = convert_fields U (mid Y Z).
  Proof using. unfold mid, convert_fields. cbn [E1 E2 E3 B1 B2 B3]. f_equal; fext2; field. Qed.

  Context (RG : mu (pf P) <> 0 /\ eps (pf P) <> 0 /\ fdq1 (pf P) <> 0 /\ fdq2 (pf P) <> 0).

  Lemma vm_step_units t dt S :
    vm_step (convert U P) k1 k2 (T * t) (T * dt) (convert_vm U S) = convert_vm U (vm_step P k1 k2 t dt S).
  Proof using UP RG.
    destruct RG as (R1&R2&R3&R4). destruct facts as (Hl&HT&HV&HF&HQ&HE&HB&VT).
    unfold vm_step. cbn [convert_vm vm_f vm_yee vm_cc].
    set (p := vm_problem P k1 k2 t (vm_cc S)). 
    pose proof (problem_units t (vm_cc S)) as PU. fold p in PU.
    set (p' := vm_problem (convert U P) k1 k2 (T * t) (convert_fields U (vm_cc S))) in *.
    set (uh := fun x s i j => vm_f S x s i j + dt / 2 * rhs p (vm_f S) x s i j).
    assert (X : (fun x s i j => convert_f U (vm_f S) x s i j + T * dt / 2 * rhs p' (convert_f U (vm_f S)) x s i j) = convert_f U uh).
    { fext4. rewrite (rhs_units p p') by auto. unfold convert_f, uh. fold F. field. lra. }
    rewrite X. destruct (currents_units p p' uh PU) as (C1&C2&C3). rewrite C1, C2, C3.
    cbn [convert pf convert_fcfg fdq1 fdq2 eps mu]. fold l. rewrite yee_units by auto.
    set (Y := yee_step _ _ _ _ _ _ _ _ _). rewrite centred_units, mid_units.
    set (C := EB (mid (vm_cc S) (centred Y)) (centred Y)).
    change (EB (convert_fields U (mid (vm_cc S) (centred Y))) (convert_fields U (centred Y))) with (convert_fields U C).
    unfold convert_vm. cbn [vm_f vm_yee vm_cc]. f_equal. 
    apply midpoint_units; [exact PU|]. apply problem_units.
  Qed.

  Lemma vm_run_units h t S :
    vm_run (convert U P) k1 k2 (T * t) (convert_steps U h) (convert_vm U S) = convert_vm U (vm_run P k1 k2 t h S).
  Proof using UP RG.
    revert t S. induction h as [|(m&dt) h IH]; intros t S; cbn [vm_run convert_steps map fst snd]; [reflexivity|].
    fold T. rewrite vm_step_units. replace (T * t + T * dt) with (T * (t + dt)) by ring. apply IH.
  Qed.
End Units.
