(** Light waves on the Yee grid. *)
From Coq Require Import ZArith Reals Lia Lra String List Bool.
From Verif Require Import Base.Prelude Base.ZSum Model.Af Model.Petsc Model.Config Model.Em Spec.Domain Spec.Yee Spec.EmRun
  Spec.InitFields Spec.Light Proofs.EmLemmas Proofs.EmStep Proofs.EmGrids Proofs.EmInit Proofs.EmVector Proofs.EmProps
  Proofs.EmWitness Proofs.InitFields.
Import ListNotations.
Local Open Scope R_scope.

Lemma seen_time h k t : h <> 0 -> cos (k * (t + h)) = cos (k * t) - h * (seen h k * sin (k * (t + h / 2)))
  /\ sin (k * (t + h)) = sin (k * t) + h * (seen h k * cos (k * (t + h / 2))).
Proof.
  intros H. unfold seen.
  replace (k * (t + h)) with (k * (t + h / 2) + k * h / 2) by lra.
  replace (k * t) with (k * (t + h / 2) - k * h / 2) by lra.
  generalize (k * (t + h / 2)) (k * h / 2). intros x y.
  rewrite cos_plus, cos_minus, sin_plus, sin_minus. split; field; exact H.
Qed.

Section Mode.
  Variables (c : fcfg) (dt : R) (v : lwave).
  Hypotheses (RG : regular c) (DT : dt <> 0) (LT : light c dt v).
  Local Notation KK1 := (K1 c v).
  Local Notation KK2 := (K2 c v).
  Local Notation WW := (W dt v).

  (** A cos + B sin of the wave's angle. *)
  Definition tri (A B x y : R) : R := A * cos (angle v x y) + B * sin (angle v x y).

  Lemma diff1 (o A B : R) i j :
    fwd1 (fdq1 c) (placed c 0 o (tri A B)) i j = placed c (1/2) o (tri (KK1 * B) (- (KK1 * A))) i j
    /\ bwd1 (fdq1 c) (placed c (1/2) o (tri A B)) i j = placed c 0 o (tri (KK1 * B) (- (KK1 * A))) i j.
  Proof using RG.
    destruct RG as (_&_&_&H1&_). unfold fwd1, bwd1, placed, tri, K1, seen, angle. rewrite plus_IZR, minus_IZR. split.
    - set (m := k1 v * (fq1_start c + (IZR i + 1/2) * fdq1 c) + k2 v * (fq2_start c + (IZR j + o) * fdq2 c) + phase0 v).
      replace (k1 v * (fq1_start c + (IZR i + 1 + 0) * fdq1 c) + k2 v * (fq2_start c + (IZR j + o) * fdq2 c) + phase0 v)
        with (m + k1 v * fdq1 c / 2) by (unfold m; lra).
      replace (k1 v * (fq1_start c + (IZR i + 0) * fdq1 c) + k2 v * (fq2_start c + (IZR j + o) * fdq2 c) + phase0 v)
        with (m - k1 v * fdq1 c / 2) by (unfold m; lra).
      rewrite cos_plus, cos_minus, sin_plus, sin_minus. field. exact H1.
    - set (m := k1 v * (fq1_start c + (IZR i + 0) * fdq1 c) + k2 v * (fq2_start c + (IZR j + o) * fdq2 c) + phase0 v).
      replace (k1 v * (fq1_start c + (IZR i + 1 / 2) * fdq1 c) + k2 v * (fq2_start c + (IZR j + o) * fdq2 c) + phase0 v)
        with (m + k1 v * fdq1 c / 2) by (unfold m; lra).
      replace (k1 v * (fq1_start c + (IZR i - 1 + 1 / 2) * fdq1 c) + k2 v * (fq2_start c + (IZR j + o) * fdq2 c) + phase0 v)
        with (m - k1 v * fdq1 c / 2) by (unfold m; lra).
      rewrite cos_plus, cos_minus, sin_plus, sin_minus. field. exact H1.
  Qed.

  Lemma diff2 (o A B : R) i j :
    fwd2 (fdq2 c) (placed c o 0 (tri A B)) i j = placed c o (1/2) (tri (KK2 * B) (- (KK2 * A))) i j
    /\ bwd2 (fdq2 c) (placed c o (1/2) (tri A B)) i j = placed c o 0 (tri (KK2 * B) (- (KK2 * A))) i j.
  Proof using RG.
    destruct RG as (_&_&_&_&H2). unfold fwd2, bwd2, placed, tri, K2, seen, angle. rewrite plus_IZR, minus_IZR. split.
    - set (m := k1 v * (fq1_start c + (IZR i + o) * fdq1 c) + k2 v * (fq2_start c + (IZR j + 1/2) * fdq2 c) + phase0 v).
      replace (k1 v * (fq1_start c + (IZR i + o) * fdq1 c) + k2 v * (fq2_start c + (IZR j + 1 + 0) * fdq2 c) + phase0 v)
        with (m + k2 v * fdq2 c / 2) by (unfold m; lra).
      replace (k1 v * (fq1_start c + (IZR i + o) * fdq1 c) + k2 v * (fq2_start c + (IZR j + 0) * fdq2 c) + phase0 v)
        with (m - k2 v * fdq2 c / 2) by (unfold m; lra).
      rewrite cos_plus, cos_minus, sin_plus, sin_minus. field. exact H2.
    - set (m := k1 v * (fq1_start c + (IZR i + o) * fdq1 c) + k2 v * (fq2_start c + (IZR j + 0) * fdq2 c) + phase0 v).
      replace (k1 v * (fq1_start c + (IZR i + o) * fdq1 c) + k2 v * (fq2_start c + (IZR j + 1 / 2) * fdq2 c) + phase0 v)
        with (m + k2 v * fdq2 c / 2) by (unfold m; lra).
      replace (k1 v * (fq1_start c + (IZR i + o) * fdq1 c) + k2 v * (fq2_start c + (IZR j - 1 + 1 / 2) * fdq2 c) + phase0 v)
        with (m - k2 v * fdq2 c / 2) by (unfold m; lra).
      rewrite cos_plus, cos_minus, sin_plus, sin_minus. field. exact H2.
  Qed.

  (** Time factors: (cos, sin) coefficients of E and of B. *)
  Definition mode (Ec Es Bc Bs : R) : lattice :=
    Lattice (placed c 0 (1/2) (tri (a1 v * Ec) (a1 v * Es))) (placed c (1/2) 0 (tri (a2 v * Ec) (a2 v * Es)))
            (placed c (1/2) (1/2) (tri (a3 v * Ec) (a3 v * Es)))
            (placed c (1/2) 0 (tri (b1 c dt v * Bc) (b1 c dt v * Bs))) (placed c 0 (1/2) (tri (b2 c dt v * Bc) (b2 c dt v * Bs)))
            (placed c 0 0 (tri (b3 c dt v * Bc) (b3 c dt v * Bs))).

  Lemma amplitudes : b1 c dt v * WW = KK2 * a3 v /\ b2 c dt v * WW = - (KK1 * a3 v) /\ b3 c dt v * WW = KK1 * a2 v - KK2 * a1 v.
  Proof using RG LT.
    destruct RG as (_&M&E&_). destruct LT as (D&_). unfold b1, b2, b3. destruct (Req_dec WW 0) as [Z|Z].
    - assert (X : KK1 ^ 2 + KK2 ^ 2 = 0).
      { apply (Rmult_eq_reg_r (/ (mu c * eps c))); [|apply Rinv_neq_0_compat, Rmult_integral_contrapositive; split; assumption].
        change ((KK1 ^ 2 + KK2 ^ 2) / (mu c * eps c) = 0 * / (mu c * eps c)). rewrite <- D, Z. lra. }
      assert (Y1 := pow2_ge_0 KK1). assert (Y2 := pow2_ge_0 KK2).
      assert (Z1 : KK1 = 0) by (apply Rsqr_0_uniq; unfold Rsqr; lra).
      assert (Z2 : KK2 = 0) by (apply Rsqr_0_uniq; unfold Rsqr; lra).
      rewrite Z1, Z2, Z. repeat split; lra.
    - repeat split; field; exact Z.
  Qed.

  Lemma curls : (KK2 * b3 c dt v) / (mu c * eps c) = - (a1 v * WW)
    /\ - (KK1 * b3 c dt v) / (mu c * eps c) = - (a2 v * WW)
    /\ (KK1 * b2 c dt v - KK2 * b1 c dt v) / (mu c * eps c) = - (a3 v * WW).
  Proof using RG LT.
    destruct amplitudes as (P1&P2&P3). destruct RG as (_&M&E&_). destruct LT as (D&T).
    assert (ME : mu c * eps c <> 0) by (apply Rmult_integral_contrapositive; split; assumption).
    destruct (Req_dec WW 0) as [Z|Z].
    - assert (X : KK1 ^ 2 + KK2 ^ 2 = 0).
      { apply (Rmult_eq_reg_r (/ (mu c * eps c))); [|apply Rinv_neq_0_compat; assumption].
        change ((KK1 ^ 2 + KK2 ^ 2) / (mu c * eps c) = 0 * / (mu c * eps c)). rewrite <- D, Z. lra. }
      assert (Y1 := pow2_ge_0 KK1). assert (Y2 := pow2_ge_0 KK2).
      assert (Z1 : KK1 = 0) by (apply Rsqr_0_uniq; unfold Rsqr; lra).
      assert (Z2 : KK2 = 0) by (apply Rsqr_0_uniq; unfold Rsqr; lra).
      rewrite Z1, Z2, Z. unfold Rdiv. repeat split; ring.
    - assert (G : forall x y, x * (KK1 ^ 2 + KK2 ^ 2) = y * WW -> - y / (mu c * eps c) = - (x * WW)).
      { intros x y H. apply (Rmult_eq_reg_r WW); [|exact Z].
        replace (- y / (mu c * eps c) * WW) with (- (y * WW) / (mu c * eps c)) by (field; split; assumption).
        rewrite <- H. replace (- (x * WW) * WW) with (- (x * WW ^ 2)) by ring. rewrite D. field. split; assumption. }
      assert (T1 : KK2 * (KK1 * a2 v) = - (KK1 ^ 2 * a1 v)).
      { replace (KK2 * (KK1 * a2 v)) with (KK1 * (KK1 * a1 v + KK2 * a2 v) - KK1 ^ 2 * a1 v) by ring. rewrite T. ring. }
      assert (T2 : KK1 * (KK2 * a1 v) = - (KK2 ^ 2 * a2 v)).
      { replace (KK1 * (KK2 * a1 v)) with (KK2 * (KK1 * a1 v + KK2 * a2 v) - KK2 ^ 2 * a2 v) by ring. rewrite T. ring. }
      repeat split.
      + rewrite <- (G (a1 v) (- (KK2 * b3 c dt v))); [unfold Rdiv; ring|].
        replace (- (KK2 * b3 c dt v) * WW) with (- (KK2 * (b3 c dt v * WW))) by ring. rewrite P3.
        replace (- (KK2 * (KK1 * a2 v - KK2 * a1 v))) with (KK2 ^ 2 * a1 v - KK2 * (KK1 * a2 v)) by ring. rewrite T1. ring.
      + rewrite <- (G (a2 v) (KK1 * b3 c dt v)); [unfold Rdiv; ring|].
        replace (KK1 * b3 c dt v * WW) with (KK1 * (b3 c dt v * WW)) by ring. rewrite P3.
        replace (KK1 * (KK1 * a2 v - KK2 * a1 v)) with (KK1 ^ 2 * a2 v - KK1 * (KK2 * a1 v)) by ring. rewrite T2. ring.
      + rewrite <- (G (a3 v) (- (KK1 * b2 c dt v - KK2 * b1 c dt v))); [unfold Rdiv; ring|].
        replace (- (KK1 * b2 c dt v - KK2 * b1 c dt v) * WW) with (- (KK1 * (b2 c dt v * WW) - KK2 * (b1 c dt v * WW))) by ring.
        rewrite P1, P2. ring.
  Qed.

  Lemma mode_step Ec Es Bc Bs J1 J2 J3 : (forall i j, J1 i j = 0) -> (forall i j, J2 i j = 0) -> (forall i j, J3 i j = 0) ->
    let Ec' := Ec - dt * (WW * Bs) in let Es' := Es + dt * (WW * Bc) in
    same (yee_step (fdq1 c) (fdq2 c) (eps c) (mu c) dt J1 J2 J3 (mode Ec Es Bc Bs))
         (mode Ec' Es' (Bc - dt * (WW * Es')) (Bs + dt * (WW * Ec'))).
  Proof using RG LT.
    intros Z1 Z2 Z3 Ec' Es'. destruct curls as (C1&C2&C3). destruct amplitudes as (P1&P2&P3).
    assert (A : same (ampere (fdq1 c) (fdq2 c) (eps c) (mu c) dt J1 J2 J3 (mode Ec Es Bc Bs)) (mode Ec' Es' Bc Bs)).
    { unfold ampere, mode; cbn [E1 E2 E3 B1 B2 B3].
      split; [|split; [|split; [|repeat split]]]; intros i j; cbn [E1 E2 E3 B1 B2 B3];
        rewrite ?Z1, ?Z2, ?Z3, ?(proj1 (diff1 _ _ _ _ _)), ?(proj1 (diff2 _ _ _ _ _));
        unfold placed, tri, Ec', Es'; replace (0 / eps c) with 0 by (unfold Rdiv; ring); rewrite Rminus_0_r;
        set (co := cos _); set (si := sin _).
      - replace (a1 v * (Ec - dt * (WW * Bs)) * co + a1 v * (Es + dt * (WW * Bc)) * si)
          with (a1 v * Ec * co + a1 v * Es * si + dt * (- (a1 v * WW) * (Bs * co - Bc * si))) by ring.
        rewrite <- C1. unfold Rdiv. ring.
      - replace (a2 v * (Ec - dt * (WW * Bs)) * co + a2 v * (Es + dt * (WW * Bc)) * si)
          with (a2 v * Ec * co + a2 v * Es * si + dt * (- (a2 v * WW) * (Bs * co - Bc * si))) by ring.
        rewrite <- C2. unfold Rdiv. ring.
      - replace (a3 v * (Ec - dt * (WW * Bs)) * co + a3 v * (Es + dt * (WW * Bc)) * si)
          with (a3 v * Ec * co + a3 v * Es * si + dt * (- (a3 v * WW) * (Bs * co - Bc * si))) by ring.
        rewrite <- C3. unfold Rdiv. ring. }
    unfold yee_step. eapply same_trans; [apply faraday_same, A|].
    unfold faraday, mode; cbn [E1 E2 E3 B1 B2 B3].
    split; [|split; [|split; [|split; [|split]]]]; intros i j; cbn [E1 E2 E3 B1 B2 B3]; try reflexivity;
      rewrite ?(proj2 (diff1 _ _ _ _ _)), ?(proj2 (diff2 _ _ _ _ _)); unfold placed, tri; set (co := cos _); set (si := sin _).
    - replace (b1 c dt v * (Bc - dt * (WW * Es')) * co + b1 c dt v * (Bs + dt * (WW * Ec')) * si)
        with (b1 c dt v * Bc * co + b1 c dt v * Bs * si + dt * ((b1 c dt v * WW) * (Ec' * si - Es' * co))) by ring.
      rewrite P1. ring.
    - replace (b2 c dt v * (Bc - dt * (WW * Es')) * co + b2 c dt v * (Bs + dt * (WW * Ec')) * si)
        with (b2 c dt v * Bc * co + b2 c dt v * Bs * si + dt * ((b2 c dt v * WW) * (Ec' * si - Es' * co))) by ring.
      rewrite P2. ring.
    - replace (b3 c dt v * (Bc - dt * (WW * Es')) * co + b3 c dt v * (Bs + dt * (WW * Ec')) * si)
        with (b3 c dt v * Bc * co + b3 c dt v * Bs * si + dt * ((b3 c dt v * WW) * (Ec' * si - Es' * co))) by ring.
      rewrite P3. ring.
  Qed.

  (** Plane and standing waves as modes. *)
  Definition plane_mode (t : R) : lattice := let h := t + dt / 2 in
    mode (cos (w v * t)) (sin (w v * t)) (cos (w v * h)) (sin (w v * h)).
  Definition standing_mode (t : R) : lattice := mode (cos (w v * t)) 0 0 (sin (w v * (t + dt / 2))).

  Lemma plane_is t : same (leapfrog c dt t (plane_E v) (plane_B c dt v)) (plane_mode t).
  Proof using.
    unfold leapfrog, plane_mode, mode, on_yee_grid, plane_E, plane_B.
    repeat split; intros i j; cbn [E1 E2 E3 B1 B2 B3 fst snd]; unfold placed, tri; rewrite cos_minus; ring.
  Qed.

  Lemma standing_is t0 t : same (leapfrog c dt t (standing_E v t0) (standing_B c dt v t0)) (standing_mode (t - t0)).
  Proof using.
    unfold leapfrog, standing_mode, mode, on_yee_grid, standing_E, standing_B.
    replace (t - t0 + dt / 2) with (t + dt / 2 - t0) by ring.
    repeat split; intros i j; cbn [E1 E2 E3 B1 B2 B3 fst snd]; unfold placed, tri; ring.
  Qed.

  Lemma mode_ext a b p q a' b' p' q' : a = a' -> b = b' -> p = p' -> q = q' -> same (mode a b p q) (mode a' b' p' q').
  Proof using. intros -> -> -> ->. apply same_refl. Qed.

  Lemma plane_step t J1 J2 J3 : (forall i j, J1 i j = 0) -> (forall i j, J2 i j = 0) -> (forall i j, J3 i j = 0) ->
    same (yee_step (fdq1 c) (fdq2 c) (eps c) (mu c) dt J1 J2 J3 (plane_mode t)) (plane_mode (t + dt)).
  Proof using RG DT LT.
    intros. eapply same_trans; [apply mode_step; assumption|]. unfold plane_mode.
    destruct (seen_time dt (w v) t DT) as (X1&X2). destruct (seen_time dt (w v) (t + dt / 2) DT) as (Y1&Y2).
    replace (t + dt / 2 + dt / 2) with (t + dt) in Y1, Y2 by lra. replace (t + dt + dt / 2) with (t + dt / 2 + dt) by ring.
    apply mode_ext; [symmetry; exact X1|symmetry; exact X2| |].
    - rewrite Y1. change (seen dt (w v)) with WW in *. rewrite X2. reflexivity.
    - rewrite Y2. change (seen dt (w v)) with WW in *. rewrite X1. reflexivity.
  Qed.

  Lemma standing_step t J1 J2 J3 : (forall i j, J1 i j = 0) -> (forall i j, J2 i j = 0) -> (forall i j, J3 i j = 0) ->
    same (yee_step (fdq1 c) (fdq2 c) (eps c) (mu c) dt J1 J2 J3 (standing_mode t)) (standing_mode (t + dt)).
  Proof using RG DT LT.
    intros. eapply same_trans; [apply mode_step; assumption|]. unfold standing_mode.
    destruct (seen_time dt (w v) t DT) as (X1&X2). destruct (seen_time dt (w v) (t + dt / 2) DT) as (Y1&Y2).
    replace (t + dt / 2 + dt / 2) with (t + dt) in Y1, Y2 by lra. replace (t + dt + dt / 2) with (t + dt / 2 + dt) by ring.
    apply mode_ext; [symmetry; exact X1|ring|ring|].
    rewrite Y2. change (seen dt (w v)) with WW in *. rewrite X1. reflexivity.
  Qed.

  Lemma run_follows (M : R -> lattice) :
    (forall t J1 J2 J3, (forall i j, J1 i j = 0) -> (forall i j, J2 i j = 0) -> (forall i j, J3 i j = 0) ->
       same (yee_step (fdq1 c) (fdq2 c) (eps c) (mu c) dt J1 J2 J3 (M t)) (M (t + dt))) ->
    forall hist, Forall (vacuum_event (flay c) dt) hist -> forall t,
    same (yee_run (fdq1 c) (fdq2 c) (eps c) (mu c) (currents_of (flay c) hist) (M t)) (M (t + passed hist)).
  Proof using.
    intros ST hist H. induction H as [|e l V _ IH]; intros t; cbn [currents_of yee_run passed].
    { rewrite Rplus_0_r. apply same_refl. }
    destruct e as [J1 J2 J3 h| |]; cbn [currents_of yee_run passed]; [|apply IH|apply IH].
    destruct V as (->&Z1&Z2&Z3). replace (t + (dt + passed l)) with (t + dt + passed l) by ring.
    eapply same_trans; [|apply IH]. apply yee_run_same, ST; assumption.
  Qed.
End Mode.

(** A wave that fits the box repeats with it. *)
Lemma cos_turns x (m : Z) : cos (x + 2 * PI * IZR m) = cos x /\ sin (x + 2 * PI * IZR m) = sin x.
Proof.
  assert (P : forall y n, cos (y + 2 * PI * INR n) = cos y /\ sin (y + 2 * PI * INR n) = sin y).
  { intros y n. replace (2 * PI * INR n) with (2 * INR n * PI) by ring. rewrite cos_period, sin_period. auto. }
  destruct (Z_le_gt_dec 0 m) as [H|H].
  - rewrite <- (Z2Nat.id m H), <- INR_IZR_INZ. apply P.
  - destruct (P (x + 2 * PI * IZR m) (Z.to_nat (- m))) as (A&B).
    rewrite INR_IZR_INZ, Z2Nat.id, opp_IZR in A, B by lia.
    replace (x + 2 * PI * IZR m + 2 * PI * - IZR m) with x in A, B by ring. auto.
Qed.

Lemma tri_period c v A B o1 o2 i j : regular c -> fits c v ->
  placed c o1 o2 (tri v A B) i j = placed c o1 o2 (tri v A B) (i mod gN1 (flay c))%Z (j mod gN2 (flay c))%Z.
Proof.
  intros RG (m1&m2&F1&F2).
  assert (N1 : gN1 (flay c) <> 0%Z /\ gN2 (flay c) <> 0%Z).
  { destruct RG as ((((P1&_)&(P2&_)&_)&_)&_). lia. }
  destruct N1 as (N1&N2).
  pose proof (Z.div_mod i _ N1) as D1. pose proof (Z.div_mod j _ N2) as D2.
  unfold placed, tri.
  replace (angle v (fq1_start c + (IZR i + o1) * fdq1 c) (fq2_start c + (IZR j + o2) * fdq2 c))
    with (angle v (fq1_start c + (IZR (i mod gN1 (flay c))%Z + o1) * fdq1 c) (fq2_start c + (IZR (j mod gN2 (flay c))%Z + o2) * fdq2 c)
          + 2 * PI * IZR (m1 * (i / gN1 (flay c)) + m2 * (j / gN2 (flay c)))).
  - destruct (cos_turns (angle v (fq1_start c + (IZR (i mod gN1 (flay c))%Z + o1) * fdq1 c) (fq2_start c + (IZR (j mod gN2 (flay c))%Z + o2) * fdq2 c))
      (m1 * (i / gN1 (flay c)) + m2 * (j / gN2 (flay c)))) as (X1&X2). rewrite X1, X2. reflexivity.
  - rewrite plus_IZR, !mult_IZR.
    apply (f_equal IZR) in D1. apply (f_equal IZR) in D2. rewrite plus_IZR, mult_IZR in D1, D2.
    rewrite D1, D2. unfold angle.
    replace (2 * PI * (IZR m1 * IZR (i / gN1 (flay c)) + IZR m2 * IZR (j / gN2 (flay c))))
      with ((2 * PI * IZR m1) * IZR (i / gN1 (flay c)) + (2 * PI * IZR m2) * IZR (j / gN2 (flay c))) by ring.
    rewrite <- F1, <- F2. ring.
Qed.

Lemma mode_period c dt v a b p q : regular c -> fits c v ->
  forall i j, let Y := mode c dt v a b p q in let i' := (i mod gN1 (flay c))%Z in let j' := (j mod gN2 (flay c))%Z in
  E1 Y i j = E1 Y i' j' /\ E2 Y i j = E2 Y i' j' /\ E3 Y i j = E3 Y i' j'
  /\ B1 Y i j = B1 Y i' j' /\ B2 Y i j = B2 Y i' j' /\ B3 Y i j = B3 Y i' j'.
Proof. intros RG FT i j. cbv zeta. unfold mode; cbn [E1 E2 E3 B1 B2 B3]. repeat split; apply tri_period; assumption. Qed.

Lemma whole c dt v a b p q (F : dist R) : regular c -> fits c v ->
  same_on (gN1 (flay c)) (gN2 (flay c)) (view (flay c) F) (mode c dt v a b p q) -> same (view (flay c) F) (mode c dt v a b p q).
Proof.
  intros RG FT H.
  assert (N : (0 < gN1 (flay c))%Z /\ (0 < gN2 (flay c))%Z) by (destruct RG as ((((P1&_)&(P2&_)&_)&_)&_); lia).
  assert (X : forall i j, let i' := (i mod gN1 (flay c))%Z in let j' := (j mod gN2 (flay c))%Z in
    inb (gN1 (flay c)) i' /\ inb (gN2 (flay c)) j').
  { intros i j. split; apply Z.mod_pos_bound; lia. }
  assert (G : forall k i j, gper (flay c) F k 0 i j = gper (flay c) F k 0 (i mod gN1 (flay c)) (j mod gN2 (flay c))).
  { intros k i j. unfold gper. rewrite !Z.mod_mod by lia. reflexivity. }
  repeat split; intros i j; destruct (X i j) as (X1&X2); destruct (H _ _ X1 X2) as (H1&H2&H3&H4&H5&H6);
    destruct (mode_period c dt v a b p q RG FT i j) as (M1&M2&M3&M4&M5&M6); cbv zeta in *.
  - rewrite M1, <- H1. apply G.
  - rewrite M2, <- H2. apply G.
  - rewrite M3, <- H3. apply G.
  - rewrite M4, <- H4. apply G.
  - rewrite M5, <- H5. apply G.
  - rewrite M6, <- H6. apply G.
Qed.

Lemma same_on_of n1 n2 Y Z : same Y Z -> same_on n1 n2 Y Z.
Proof. intros (H1&H2&H3&H4&H5&H6) i j _ _. repeat split; auto. Qed.
Lemma same_on_trans n1 n2 X Y Z : same_on n1 n2 X Y -> same_on n1 n2 Y Z -> same_on n1 n2 X Z.
Proof.
  intros H G i j I J. destruct (H i j I J) as (H1&H2&H3&H4&H5&H6), (G i j I J) as (G1&G2&G3&G4&G5&G6).
  repeat split; congruence.
Qed.

Lemma waves_travel c dt v (M : R -> lattice) rho hist s0 s' t : regular c -> hybrid c = false -> fits c v ->
  (forall t, exists a b p q, M t = mode c dt v a b p q) ->
  (forall t J1 J2 J3, (forall i j, J1 i j = 0) -> (forall i j, J2 i j = 0) -> (forall i j, J3 i j = 0) ->
     same (yee_step (fdq1 c) (fdq2 c) (eps c) (mu c) dt J1 J2 J3 (M t)) (M (t + dt))) ->
  fields_solver_init c rho = Ok s0 -> do_events c hist s0 = Ok s' -> Forall (vacuum_event (flay c) dt) hist ->
  same_on (gN1 (flay c)) (gN2 (flay c)) (view (flay c) (yee_val s0)) (M t) ->
  same_on (gN1 (flay c)) (gN2 (flay c)) (view (flay c) (yee_val s')) (M (t + passed hist)).
Proof.
  intros RG HY FT IM ST I R V H. apply same_on_of.
  eapply same_trans; [exact (yee_history c rho hist s0 s' RG HY I R)|].
  eapply same_trans; [apply yee_run_same|apply (run_follows c dt M ST hist V)].
  destruct (IM t) as (a&b&p&q&E). rewrite E in H |- *. apply whole; assumption.
Qed.

Lemma plane_history c dt v rho hist s0 s' t : regular c -> hybrid c = false -> dt <> 0 -> light c dt v -> fits c v ->
  fields_solver_init c rho = Ok s0 -> do_events c hist s0 = Ok s' -> Forall (vacuum_event (flay c) dt) hist ->
  same_on (gN1 (flay c)) (gN2 (flay c)) (view (flay c) (yee_val s0)) (leapfrog c dt t (plane_E v) (plane_B c dt v)) ->
  same_on (gN1 (flay c)) (gN2 (flay c)) (view (flay c) (yee_val s'))
    (leapfrog c dt (t + passed hist) (plane_E v) (plane_B c dt v)).
Proof.
  intros RG HY DT LT FT I R V H.
  eapply same_on_trans; [|apply same_on_of, same_sym, plane_is].
  apply (waves_travel c dt v (plane_mode c dt v) rho hist s0 s' t); auto.
  - intros u. unfold plane_mode; cbv zeta. eauto.
  - intros; apply plane_step; assumption.
  - eapply same_on_trans; [exact H|apply same_on_of, plane_is].
Qed.

Lemma standing_history c dt v t0 rho hist s0 s' t : regular c -> hybrid c = false -> dt <> 0 -> light c dt v -> fits c v ->
  fields_solver_init c rho = Ok s0 -> do_events c hist s0 = Ok s' -> Forall (vacuum_event (flay c) dt) hist ->
  same_on (gN1 (flay c)) (gN2 (flay c)) (view (flay c) (yee_val s0)) (leapfrog c dt t (standing_E v t0) (standing_B c dt v t0)) ->
  same_on (gN1 (flay c)) (gN2 (flay c)) (view (flay c) (yee_val s'))
    (leapfrog c dt (t + passed hist) (standing_E v t0) (standing_B c dt v t0)).
Proof.
  intros RG HY DT LT FT I R V H.
  eapply same_on_trans; [|apply same_on_of, same_sym, standing_is].
  replace (t + passed hist - t0) with (t - t0 + passed hist) by ring.
  apply (waves_travel c dt v (standing_mode c dt v) rho hist s0 s' (t - t0)); auto.
  - intros u. unfold standing_mode. eauto.
  - intros; apply standing_step; assumption.
  - eapply same_on_trans; [exact H|apply same_on_of, standing_is].
Qed.

(** Bounds on the frequency. *)
Lemma sin2_between x : x ^ 2 - x ^ 4 / 3 <= sin x ^ 2 <= x ^ 2.
Proof.
  assert (P : forall y, 0 <= y -> y ^ 2 - y ^ 4 / 3 <= sin y ^ 2 <= y ^ 2).
  { intros y H. split.
    - destruct (Rle_lt_dec y PI) as [L|L].
      + destruct (sin_bound y 0 H L) as (A&_). unfold sin_approx, sin_term in A; cbn in A.
        destruct (Rle_lt_dec 0 (y - y ^ 3 / 6)) as [Q|Q].
        * apply Rle_trans with ((y - y ^ 3 / 6) ^ 2).
          -- replace ((y - y ^ 3 / 6) ^ 2) with (y ^ 2 - y ^ 4 / 3 + (y ^ 3 / 6) ^ 2) by field. assert (Z := pow2_ge_0 (y ^ 3 / 6)). lra.
          -- apply pow_incr. split; [exact Q|]. lra.
        * assert (Z := pow2_ge_0 (sin y)). assert (N : 6 < y ^ 2 \/ y ^ 2 <= 6) by lra. destruct N as [N|N].
          -- assert (y ^ 2 - y ^ 4 / 3 = y ^ 2 * (1 - y ^ 2 / 3)) as -> by field. nra.
          -- nra.
      + assert (Z := pow2_ge_0 (sin y)). assert (B := PI2_3_2). assert (3 < y ^ 2) by nra.
        assert (y ^ 2 - y ^ 4 / 3 = y ^ 2 * (1 - y ^ 2 / 3)) as -> by field. nra.
    - destruct H as [H|<-]; [|rewrite sin_0; lra].
      assert (A := sin_lt_x y H). assert (B : - y < sin y).
      { destruct (Rle_lt_dec y PI) as [L|L]; [assert (C := sin_ge_0 y (Rlt_le _ _ H) L); lra|].
        assert (C := SIN_bound y). assert (D := PI2_3_2). lra. }
      nra. }
  destruct (Rle_lt_dec 0 x) as [H|H]; [apply P, H|].
  specialize (P (- x)). rewrite sin_neg in P. replace ((- x) ^ 2) with (x ^ 2) in P by ring.
  replace ((- x) ^ 4) with (x ^ 4) in P by ring. replace ((- sin x) ^ 2) with (sin x ^ 2) in P by ring. apply P. lra.
Qed.

Lemma seen_between h k : h <> 0 -> k ^ 2 - k ^ 4 * h ^ 2 / 12 <= seen h k ^ 2 <= k ^ 2.
Proof.
  intros H. destruct (sin2_between (k * h / 2)) as (A&B). unfold seen. rewrite Rpow_mult_distr.
  assert (G : 0 <= (2 / h) ^ 2) by apply pow2_ge_0.
  replace (k ^ 2) with ((2 / h) ^ 2 * (k * h / 2) ^ 2) by (field; exact H).
  replace (k ^ 4 * h ^ 2 / 12) with ((2 / h) ^ 2 * ((k * h / 2) ^ 4 / 3)) by (field; exact H).
  split; [rewrite <- Rmult_minus_distr_l|]; apply Rmult_le_compat_l; assumption.
Qed.

Lemma speed c dt v : regular c -> 0 < mu c * eps c -> dt <> 0 -> light c dt v ->
  Rabs (w v ^ 2 - (k1 v ^ 2 + k2 v ^ 2) / (mu c * eps c))
  <= (w v ^ 4 * dt ^ 2 + (k1 v ^ 4 * fdq1 c ^ 2 + k2 v ^ 4 * fdq2 c ^ 2) / (mu c * eps c)) / 12.
Proof.
  intros (_&_&_&H1&H2) ME DT (D&_). unfold K1, K2, W in D.
  assert (A := seen_between _ (k1 v) H1). assert (B := seen_between _ (k2 v) H2). assert (C := seen_between _ (w v) DT).
  assert (I : 0 < / (mu c * eps c)) by (apply Rinv_0_lt_compat, ME). unfold Rdiv in D |- *.
  set (m := / (mu c * eps c)) in *.
  set (S1 := seen _ (k1 v) ^ 2) in *. set (S2 := seen _ (k2 v) ^ 2) in *. set (S0 := seen dt (w v) ^ 2) in *.
  assert (X1 : m * (k1 v ^ 2 + k2 v ^ 2 - (S1 + S2)) <= m * ((k1 v ^ 4 * fdq1 c ^ 2 + k2 v ^ 4 * fdq2 c ^ 2) / 12)).
  { apply Rmult_le_compat_l; lra. }
  assert (X2 : 0 <= m * (k1 v ^ 2 + k2 v ^ 2 - (S1 + S2))) by (apply Rmult_le_pos; lra).
  apply Rabs_le. split; lra.
Qed.

Lemma every c dt kx ky d e1 e2 e3 : regular c -> 0 < mu c * eps c -> 0 < dt ->
  courant2 (fdq1 c) (fdq2 c) (eps c) (mu c) dt <= 1 ->
  seen (fdq1 c) kx * e1 + seen (fdq2 c) ky * e2 = 0 ->
  exists om, 0 <= om * dt <= PI /\ light c dt (LWave kx ky om d e1 e2 e3).
Proof.
  intros (_&_&_&H1&H2) ME DT CO TR. unfold courant2 in CO.
  assert (I : 0 < / (mu c * eps c)) by (apply Rinv_0_lt_compat, ME).
  set (S := dt ^ 2 / 4 * ((seen (fdq1 c) kx ^ 2 + seen (fdq2 c) ky ^ 2) / (mu c * eps c))).
  assert (P : forall h k, h <> 0 -> 0 <= seen h k ^ 2 <= 4 * / h ^ 2).
  { intros h k H. split; [apply pow2_ge_0|]. unfold seen. rewrite Rpow_mult_distr.
    replace ((2 / h) ^ 2) with (4 * / h ^ 2) by (field; exact H).
    rewrite <- (Rmult_1_r (4 * / h ^ 2)) at 2. apply Rmult_le_compat_l.
    - apply Rmult_le_pos; [lra|]. left. apply Rinv_0_lt_compat. assert (Z := pow2_ge_0 h).
      assert (h ^ 2 <> 0) by (apply pow_nonzero, H). lra.
    - assert (Z := SIN_bound (k * h / 2)). nra. }
  assert (P1 := P _ kx H1). assert (P2 := P _ ky H2).
  assert (S0 : 0 <= S).
  { unfold S, Rdiv. apply Rmult_le_pos; [assert (Z := pow2_ge_0 dt); lra|apply Rmult_le_pos; lra]. }
  assert (S1 : S <= 1).
  { eapply Rle_trans; [|exact CO]. unfold S, Rdiv.
    replace (dt ^ 2 * (/ fdq1 c ^ 2 + / fdq2 c ^ 2) * / (mu c * eps c))
      with (dt ^ 2 * / 4 * ((4 * / fdq1 c ^ 2 + 4 * / fdq2 c ^ 2) * / (mu c * eps c))) by lra.
    apply Rmult_le_compat_l; [assert (Z := pow2_ge_0 dt); lra|]. apply Rmult_le_compat_r; lra. }
  assert (Q0 : 0 <= sqrt S) by apply sqrt_pos.
  assert (Q1 : sqrt S <= 1) by (rewrite <- sqrt_1; apply sqrt_le_1_alt, S1).
  assert (Q2 : sqrt S ^ 2 = S) by (apply pow2_sqrt, S0).
  exists (2 / dt * asin (sqrt S)).
  assert (AB := asin_bound (sqrt S)).
  assert (A0 : 0 <= asin (sqrt S)).
  { destruct (Rle_lt_dec 0 (asin (sqrt S))) as [X|X]; [exact X|].
    assert (Y : sin (asin (sqrt S)) < 0) by (apply sin_lt_0_var; assert (Z := PI_RGT_0); lra).
    rewrite sin_asin in Y by lra. lra. }
  split.
  - replace (2 / dt * asin (sqrt S) * dt) with (2 * asin (sqrt S)) by (field; lra). lra.
  - split; [|exact TR]. unfold W, K1, K2; cbn [w k1 k2]. unfold seen at 1.
    replace (2 / dt * asin (sqrt S) * dt / 2) with (asin (sqrt S)) by (field; lra).
    rewrite sin_asin by lra. rewrite Rpow_mult_distr, Q2. unfold S. field. repeat split; nra.
Qed.

(** From the functions a user gives. *)
Lemma unshifted c E B : (forall x y, fst (fst (E x y)) = 0) -> (forall x y, snd (fst (B x y)) = 0) ->
  same (on_shifted_grid c E B) (on_yee_grid c E B).
Proof.
  intros ZE ZB. unfold on_shifted_grid, on_yee_grid. repeat split; intros i j; cbn [E1 E2 E3 B1 B2 B3]; unfold placed;
    rewrite ?ZE, ?ZB; reflexivity.
Qed.

Lemma plane_user c dt v rho hist : regular c -> hybrid c = false -> dt <> 0 -> light c dt v -> fits c v ->
  a1 v = 0 -> K1 c v * a3 v = 0 -> defines_EB c (plane_E v 0) (plane_B c dt v (dt / 2)) ->
  Forall (vacuum_event (flay c) dt) hist ->
  exists s0 s', fields_solver_init c rho = Ok s0 /\ do_events c hist s0 = Ok s'
  /\ same_on (gN1 (flay c)) (gN2 (flay c)) (view (flay c) (yee_val s')) (leapfrog c dt (passed hist) (plane_E v) (plane_B c dt v)).
Proof.
  intros RG HY DT LT FT Z1 Z2 DF V. destruct (initial_EB c rho _ _ RG DF) as (s0&I&H&_).
  assert (X : exists s', do_events c hist s0 = Ok s').
  { clear - RG HY. revert s0. induction hist as [|e l IH]; intros s; cbn [do_events]; [eauto|].
    assert (X : exists s1, do_event c e s = Ok s1) by (destruct e; cbn [do_event]; eauto; apply evolve_total; auto).
    destruct X as (s1&->). cbn [rbind]. apply IH. }
  destruct X as (s'&R). exists s0, s'. split; [exact I|]. split; [exact R|].
  rewrite <- (Rplus_0_l (passed hist)).
  apply (plane_history c dt v rho hist s0 s' 0); auto.
  eapply same_on_trans; [exact H|]. apply same_on_of. unfold leapfrog. rewrite Rplus_0_l. apply unshifted; intros x y; cbn [plane_E plane_B fst snd].
  - rewrite Z1. ring.
  - unfold b2. rewrite Z2. unfold Rdiv. ring.
Qed.

Lemma louder_light c dt g v : light c dt v -> light c dt (louder g v).
Proof.
  intros (D&T). split; [exact D|]. unfold louder; cbn [a1 a2]. change (K1 c (LWave _ _ _ _ _ _ _)) with (K1 c v).
  change (K2 c (LWave _ _ _ _ _ _ _)) with (K2 c v).
  replace (K1 c v * (g * a1 v) + K2 c v * (g * a2 v)) with (g * (K1 c v * a1 v + K2 c v * a2 v)) by ring. rewrite T. ring.
Qed.

Lemma late_user c dt v rho hist : regular c -> hybrid c = false -> dt <> 0 -> light c dt v -> fits c v ->
  a1 v = 0 -> cos (w v * dt / 2) <> 0 -> defines_EB c (standing_E v 0 0) nothing ->
  Forall (vacuum_event (flay c) dt) hist ->
  let v' := louder (/ cos (w v * dt / 2)) v in
  exists s0 s', fields_solver_init c rho = Ok s0 /\ do_events c hist s0 = Ok s'
  /\ same_on (gN1 (flay c)) (gN2 (flay c)) (view (flay c) (yee_val s'))
       (leapfrog c dt (passed hist) (standing_E v' (dt / 2)) (standing_B c dt v' (dt / 2))).
Proof.
  intros RG HY DT LT FT Z1 NZ DF V v'. destruct (initial_EB c rho _ _ RG DF) as (s0&I&H&_).
  assert (X : exists s', do_events c hist s0 = Ok s').
  { clear - RG HY. revert s0. induction hist as [|e l IH]; intros s; cbn [do_events]; [eauto|].
    assert (X : exists s1, do_event c e s = Ok s1) by (destruct e; cbn [do_event]; eauto; apply evolve_total; auto).
    destruct X as (s1&->). cbn [rbind]. apply IH. }
  destruct X as (s'&R). exists s0, s'. split; [exact I|]. split; [exact R|].
  rewrite <- (Rplus_0_l (passed hist)).
  apply (standing_history c dt v' (dt / 2) rho hist s0 s' 0); auto; [apply louder_light, LT|].
  eapply same_on_trans; [exact H|]. apply same_on_of.
  eapply same_trans; [apply unshifted; intros x y; cbn [standing_E nothing fst snd]; [rewrite Z1; ring|reflexivity]|].
  unfold leapfrog, on_yee_grid, standing_E, standing_B, nothing, v', louder, angle.
  replace (w v * (0 - 0)) with 0 by ring. rewrite cos_0. cbn [k1 k2 w phase0 a1 a2 a3].
  replace (w v * (0 - dt / 2)) with (- (w v * dt / 2)) by lra. rewrite cos_neg.
  replace (w v * (0 + dt / 2 - dt / 2)) with 0 by lra. rewrite sin_0.
  repeat split; intros i j; cbn [E1 E2 E3 B1 B2 B3 fst snd]; unfold placed; try ring; field; exact NZ.
Qed.
