(** Example data for the theorems on accuracy: a sine wave on the grid of ExFvm,
    and a system whose particles move along q1 only. *)
From Coq Require Import ZArith Reals Lra Lia Psatz String List Bool.
From Verif Require Import Base.Prelude Base.ZSum Model.Af Model.Petsc Model.Config Model.Fvm
  Spec.Domain Spec.Lattice Spec.FvmProblem Spec.FvmRun Spec.Converge Proofs.FreeStream Props.ExFvm.
Import ListNotations.
Local Open Scope R_scope.

Definition ex_v1 (x s : Z) : R := mom1 (ex_cfg "ppm" false) (1/2) x s.
Definition ex_v2 (x s : Z) : R := mom2 (ex_cfg "ppm" false) (1/2) x s.
Lemma ex_moves m on : moves_with (ex_cfg m on) ex_v1 ex_v2.
Proof. intros t x s q1 q2 _ _. reflexivity. Qed.


Lemma sin_le a : Rabs (sin a - a) <= a ^ 2.
Proof.
  assert (P : forall b, 0 <= b -> b - b ^ 2 <= sin b <= b).
  { intros b B. split; [|destruct (Rle_lt_or_eq_dec 0 b B) as [Q|Q]; [left; apply sin_lt_x; auto|subst; rewrite sin_0; lra]].
    destruct (Rle_dec b 2) as [C|C].
    - destruct (sin_bounds b ltac:(lra)) as [[L _] _].
      assert (Q : 0 <= b ^ 2 * (2 - b)) by (apply Rmult_le_pos; [apply pow2_ge_0|lra]). assert (Q' := pow2_ge_0 b). nra.
    - assert (Q := SIN_bound b). nra. }
  unfold Rabs. destruct (Rcase_abs (sin a - a)) as [N|N].
  - destruct (Rle_dec 0 a) as [A|A]; [specialize (P a A); nra|]. specialize (P (- a) ltac:(lra)). rewrite sin_neg in P. nra.
  - destruct (Rle_dec 0 a) as [A|A]; [specialize (P a A); nra|]. specialize (P (- a) ltac:(lra)). rewrite sin_neg in P. nra.
Qed.
Lemma cos_le a : Rabs (cos a - 1) <= a ^ 2.
Proof.
  replace a with (2 * (a / 2)) at 1 by field. rewrite cos_2a_sin.
  assert (Q : sin (a / 2) ^ 2 <= (a / 2) ^ 2).
  { assert (B : Rabs (sin (a / 2)) <= Rabs (a / 2)).
    { destruct (Rle_dec 0 (a / 2)) as [A|A].
      - rewrite (Rabs_pos_eq (a / 2)) by auto. apply Rabs_le. split.
        + destruct (Rle_dec (a / 2) 1) as [C|C]; [|assert (Q := SIN_bound (a / 2)); lra].
          assert (0 <= sin (a / 2)); [|lra]. apply sin_ge_0; [auto|]. assert (P := PI2_1). lra.
        + destruct (Rle_lt_or_eq_dec 0 (a / 2) A) as [Q|Q]; [left; apply sin_lt_x; auto|rewrite <- Q, sin_0; lra].
      - rewrite (Rabs_left (a / 2)) by lra. set (b := - (a / 2)). replace (a / 2) with (- b) by (unfold b; ring). rewrite sin_neg, Rabs_Ropp.
        assert (A' : 0 < b) by (unfold b; lra). apply Rabs_le. split.
        + destruct (Rle_dec b 1) as [C|C]; [|assert (Q := SIN_bound b); lra].
          assert (0 <= sin b); [|lra]. apply sin_ge_0; [lra|]. assert (P := PI2_1). lra.
        + left; apply sin_lt_x; auto. }
    rewrite <- (pow2_abs (sin (a / 2))), <- (pow2_abs (a / 2)). apply pow_incr. split; [apply Rabs_pos|exact B]. }
  assert (P := pow2_ge_0 (sin (a / 2))).
  replace (1 - 2 * sin (a / 2) * sin (a / 2) - 1) with (- (2 * sin (a / 2) ^ 2)) by ring.
  rewrite Rabs_Ropp, Rabs_pos_eq by lra. lra.
Qed.
Lemma sine_smooth w : smooth (2 * w ^ 2) (fun q1 _ => sin (w * q1)).
Proof.
  exists (fun q1 _ => w * cos (w * q1)), (fun _ _ => 0). intros x y a b.
  replace (sin (w * (x + a)) - sin (w * x) - a * (w * cos (w * x)) - b * 0)
    with (sin (w * x) * (cos (w * a) - 1) + cos (w * x) * (sin (w * a) - w * a))
    by (rewrite Rmult_plus_distr_l, sin_plus; ring).
  assert (C := cos_le (w * a)). assert (S := sin_le (w * a)).
  eapply Rle_trans; [apply Rabs_triang|]. rewrite !Rabs_mult.
  assert (A1 : Rabs (sin (w * x)) <= 1) by (apply Rabs_le; assert (Q := SIN_bound (w * x)); lra).
  assert (A2 : Rabs (cos (w * x)) <= 1) by (apply Rabs_le; assert (Q := COS_bound (w * x)); lra).
  assert (Z1 := Rabs_pos (cos (w * a) - 1)). assert (Z2 := Rabs_pos (sin (w * a) - w * a)).
  assert (Rabs (sin (w * x)) * Rabs (cos (w * a) - 1) <= (w * a) ^ 2) by (assert (Q := Rabs_pos (sin (w * x))); nra).
  assert (Rabs (cos (w * x)) * Rabs (sin (w * a) - w * a) <= (w * a) ^ 2) by (assert (Q := Rabs_pos (cos (w * x))); nra).
  assert (E : a ^ 2 <= (Rabs a + Rabs b) ^ 2).
  { rewrite <- (pow2_abs a). apply pow_incr. assert (Q := Rabs_pos a). assert (Q' := Rabs_pos b). lra. }
  replace ((w * a) ^ 2) with (w ^ 2 * a ^ 2) in * by ring.
  assert (W := pow2_ge_0 w). assert (w ^ 2 * a ^ 2 <= w ^ 2 * (Rabs a + Rabs b) ^ 2) by (apply Rmult_le_compat_l; auto). lra.
Qed.
Lemma sine_fits m on : fits (ex_cfg m on) (fun q1 _ => sin (PI / 2 * q1)).
Proof.
  intros x y. split; [|reflexivity]. change (gN1 (lay (ex_cfg m on))) with 4%Z. change (dq1 (ex_cfg m on)) with 1.
  replace (PI / 2 * (x + 4 * 1)) with (PI / 2 * x + 2 * PI) by field. rewrite sin_plus, sin_2PI, cos_2PI. ring.
Qed.

(** Particles that move along q1: momenta p1 = -1, 1, p2 = 0. *)
Definition ax_cfg : cfg :=
  Cfg ex_lay 3 2 1 1 1 0 4 0 3 1 1 [-2] [-(1/2)] [-(1/2)] [2] [1] [1]
    "FVM" "FVM" "minmod" "minmod" "cartesian" false false
    (fun _ _ _ _ p1 p2 _ => (p1, p2)) (fun _ _ _ _ p1 p2 _ => (p1, p2))
    (fun _ _ _ _ _ _ _ E1 E2 E3 _ _ _ => (E1, E2, E3)) (fun _ _ _ _ _ _ _ E1 E2 E3 _ _ _ => (E1, E2, E3))
    (fun _ _ _ w x s => 0) (fun _ => "periodic"%string) (fun _ _ _ _ f => f) 0 0 (fun v _ _ _ _ => v) 0.
Definition ax_v1 (x s : Z) : R := if (x =? 0)%Z then -1 else 1.
Lemma ax_wf : wf_cfg ax_cfg MC MC.
Proof.
  unfold wf_cfg. cbn [N_p1 N_p2 N_p3 N_species p1_start p2_start p3_start dp1 dp2 dp3 ax_cfg List.length].
  repeat split; try lia; auto.
Qed.
Lemma ax_periodic : periodic_fvm ax_cfg MC.
Proof. unfold periodic_fvm, periodic_layout, tiles; cbn. repeat split; try lia; repeat constructor; try lia. Qed.
Lemma ax_moves : moves_with ax_cfg ax_v1 (fun _ _ => 0).
Proof.
  intros t x s q1 q2 Hx Hs. change (N_p ax_cfg) with 2%Z in Hx. change (N_species ax_cfg) with 1%Z in Hs. unfold inb in *.
  assert (X : (x = 0 \/ x = 1)%Z) by lia. replace s with 0%Z by lia.
  destruct X as [->| ->]; cbv -[Rplus Rmult Ropp Rdiv Rinv IZR Rminus]; f_equal; lra.
Qed.
