(** Planes are carried exactly, by every scheme. *)
From Coq Require Import ZArith Reals Lra Lia Psatz String List Bool.
From Verif Require Import Base.Prelude Base.ZSum Model.Af Model.Grid Model.Petsc Model.Config
  Model.Fvm Spec.Limiters Spec.Lattice Spec.Domain Spec.FvmProblem Spec.FvmRun Spec.Symmetry Spec.Converge
  Proofs.AfLemmas Proofs.PetscLemmas Proofs.FluxLemmas Proofs.ConvLemmas Proofs.FvmLemmas Proofs.FvmLemmas2
  Proofs.FvmConserve Proofs.FvmMore Proofs.SchemeSym Proofs.SymmetryRun Proofs.SymmetryMore Proofs.Converge.
Import ListNotations.
Local Open Scope R_scope.

Lemma mc_line A B : mc_slope (A - B) A (A + B) = B.
Proof.
  unfold mc_slope, Rmin, Rmax. repeat (destruct Rlt_dec || destruct Rle_dec); lra.
Qed.
Lemma mc_line' a b c B : b - a = B -> c - b = B -> mc_slope a b c = B.
Proof. intros H K. replace a with (b - B) by lra. replace c with (b + B) by lra. apply mc_line. Qed.
Lemma ppm_line y0 y1 y2 y3 y4 B : y1 - y0 = B -> y2 - y1 = B -> y3 - y2 = B -> y4 - y3 = B ->
  cw_ppm y0 y1 y2 y3 y4 = (y2 - B / 2, y2 + B / 2).
Proof.
  intros H0 H1 H2 H3. unfold cw_ppm, cw_face.
  rewrite (mc_line' y0 y1 y2 B), (mc_line' y1 y2 y3 B), (mc_line' y2 y3 y4 B) by lra.
  replace ((y1 + y2) / 2 - (B - B) / 6) with (y2 - B / 2) by lra.
  replace ((y2 + y3) / 2 - (B - B) / 6) with (y2 + B / 2) by lra.
  unfold cw_limit.
  destruct Rle_dec as [Z|Z].
  { assert (B = 0) by nra. subst B. f_equal; lra. }
  destruct Rlt_dec as [L|L]; [exfalso; nra|]. destruct Rlt_dec as [L'|L']; [exfalso; nra|]. reflexivity.
Qed.

Lemma advect_line k h (v u : Z -> R) V B i : (forall z, v z = V) ->
  (forall z, (- (radius k + 1) <= z <= radius k)%Z -> u (i + z + 1)%Z - u (i + z)%Z = B) ->
  advect k h v u i = - (V * B) / h.
Proof.
  intros HV HB. unfold advect, flux, upwind. rewrite !HV.
  replace (i + 1 - 1)%Z with i by lia.
  assert (F : forall z e, (z = 0 \/ (z = -1 /\ e = 0) \/ (z = 1 /\ e = 0))%Z -> True) by auto. clear F.
  destruct k; cbn [radius] in HB.
  - cbn [cell_faces fst snd].
    pose proof (HB 0%Z ltac:(lia)) as P. pose proof (HB (-1)%Z ltac:(lia)) as Q.
    replace (i + -1 + 1)%Z with i in Q by lia. replace (i + -1)%Z with (i - 1)%Z in Q by lia.
    replace (i + 0 + 1)%Z with (i + 1)%Z in P by lia. replace (i + 0)%Z with i in P by lia.
    destruct Rlt_dec; [rewrite <- Q|rewrite <- P]; unfold Rdiv; ring.
  - cbn [cell_faces fst snd]. replace (i - 1 - 1)%Z with (i - 2)%Z by lia. replace (i - 1 + 1)%Z with i by lia.
    replace (i + 1 - 1)%Z with i by lia. replace (i + 1 + 1)%Z with (i + 2)%Z by lia.
    pose proof (HB (-2)%Z ltac:(lia)) as P2. pose proof (HB (-1)%Z ltac:(lia)) as P1.
    pose proof (HB 0%Z ltac:(lia)) as P0. pose proof (HB 1%Z ltac:(lia)) as P.
    replace (i + -2 + 1)%Z with (i - 1)%Z in P2 by lia. replace (i + -2)%Z with (i - 2)%Z in P2 by lia.
    replace (i + -1 + 1)%Z with i in P1 by lia. replace (i + -1)%Z with (i - 1)%Z in P1 by lia.
    replace (i + 0 + 1)%Z with (i + 1)%Z in P0 by lia. replace (i + 0)%Z with i in P0 by lia.
    replace (i + 1 + 1)%Z with (i + 2)%Z in P by lia.
    rewrite (mc_line' _ _ _ B P1 P0).
    destruct Rlt_dec; [rewrite (mc_line' _ _ _ B P2 P1); replace (u i) with (u (i - 1)%Z + B) by lra
                      |rewrite (mc_line' _ _ _ B P0 P); replace (u (i + 1)%Z) with (u i + B) by lra]; unfold Rdiv; ring.
  - cbn [cell_faces].
    replace (i - 1 - 2)%Z with (i - 3)%Z by lia. replace (i - 1 - 1)%Z with (i - 2)%Z by lia. replace (i - 1 + 1)%Z with i by lia.
    replace (i - 1 + 2)%Z with (i + 1)%Z by lia.
    replace (i + 1 - 2)%Z with (i - 1)%Z by lia. replace (i + 1 - 1)%Z with i by lia. replace (i + 1 + 1)%Z with (i + 2)%Z by lia.
    replace (i + 1 + 2)%Z with (i + 3)%Z by lia.
    pose proof (HB (-3)%Z ltac:(lia)) as P3. pose proof (HB (-2)%Z ltac:(lia)) as P2. pose proof (HB (-1)%Z ltac:(lia)) as P1.
    pose proof (HB 0%Z ltac:(lia)) as P0. pose proof (HB 1%Z ltac:(lia)) as P. pose proof (HB 2%Z ltac:(lia)) as P'.
    replace (i + -3 + 1)%Z with (i - 2)%Z in P3 by lia. replace (i + -3)%Z with (i - 3)%Z in P3 by lia.
    replace (i + -2 + 1)%Z with (i - 1)%Z in P2 by lia. replace (i + -2)%Z with (i - 2)%Z in P2 by lia.
    replace (i + -1 + 1)%Z with i in P1 by lia. replace (i + -1)%Z with (i - 1)%Z in P1 by lia.
    replace (i + 0 + 1)%Z with (i + 1)%Z in P0 by lia. replace (i + 0)%Z with i in P0 by lia.
    replace (i + 1 + 1)%Z with (i + 2)%Z in P by lia. replace (i + 2 + 1)%Z with (i + 3)%Z in P' by lia.
    rewrite (ppm_line _ _ _ _ _ B P2 P1 P0 P).
    destruct Rlt_dec; [rewrite (ppm_line _ _ _ _ _ B P3 P2 P1 P0); cbn [fst snd]; replace (u i) with (u (i - 1)%Z + B) by lra
                      |rewrite (ppm_line _ _ _ _ _ B P1 P0 P P'); cbn [fst snd]; replace (u (i + 1)%Z) with (u i + B) by lra];
      unfold Rdiv; ring.
Qed.

Section Planes.
Variables (c : cfg) (k1 k2 : scheme).
Hypothesis W : wf_cfg c k1 k2.
Hypothesis PF : periodic_fvm c k1.
Hypothesis VU : velocity_uniform c.
Hypothesis D1 : dq1 c <> 0.
Hypothesis D2 : dq2 c <> 0.
Hypothesis SO : source_enabled c = false.
Hypothesis PO : p_is_fvm c = false.
Variables (v1 v2 : Z -> Z -> R).
Hypothesis MV : moves_with c v1 v2.

Lemma rhs_plane t E u x s g1 g2 A B1 B2 : inb (N_p c) x -> inb (N_species c) s ->
  plane_near c (radius k1 + 1) u x s g1 g2 A B1 B2 -> inb (gN1 (lay c)) g1 -> inb (gN2 (lay c)) g2 ->
  rhs (prob c k1 k2 t E) u x s g1 g2 = - (v1 x s * B1 + v2 x s * B2).
Proof.
  intros Hx Hs HP H1 H2. unfold rhs. rewrite src_off, advect_p_off by auto. unfold advect_q.
  change (kq (prob c k1 k2 t E)) with k1. change (h1 (prob c k1 k2 t E)) with (dq1 c). change (h2 (prob c k1 k2 t E)) with (dq2 c).
  change (n1 (prob c k1 k2 t E)) with (gN1 (lay c)). change (n2 (prob c k1 k2 t E)) with (gN2 (lay c)).
  assert (R0 : (0 <= radius k1)%Z) by (destruct k1; cbn; lia).
  rewrite (advect_line k1 (dq1 c) _ _ (v1 x s) (B1 * dq1 c)).
  - rewrite (advect_line k1 (dq2 c) _ _ (v2 x s) (B2 * dq2 c)).
    + field. auto.
    + intros z. pose proof (MV t x s (pos1 c (1/2) g1) (pos2 c 0 z) Hx Hs) as Q. unfold velocity in Q.
      unfold prob, problem_of, problem_at; cbn [vel2]. rewrite Q. reflexivity.
    + intros z Hz. unfold periodic. rewrite <- Z.add_assoc.
      pose proof (HP 0%Z (z + 1)%Z ltac:(lia)) as Q. pose proof (HP 0%Z z ltac:(lia)) as Q'.
      rewrite Z.add_0_r, (Z.mod_small g1) in Q, Q' by exact H1. rewrite Q, Q', plus_IZR. ring.
  - intros z. pose proof (MV t x s (pos1 c 0 z) (pos2 c 0 g2) Hx Hs) as Q. unfold velocity in Q.
    unfold prob, problem_of, problem_at; cbn [vel1]. rewrite Q. reflexivity.
  - intros z Hz. unfold periodic. rewrite <- Z.add_assoc.
    pose proof (HP (z + 1)%Z 0%Z ltac:(lia)) as Q. pose proof (HP z 0%Z ltac:(lia)) as Q'.
    rewrite Z.add_0_r, (Z.mod_small g2) in Q, Q' by exact H2. rewrite Q, Q', plus_IZR. ring.
Qed.

Lemma plane_shift n m u x s g1 g2 A B1 B2 d1 d2 : (0 < gN1 (lay c))%Z -> (0 < gN2 (lay c))%Z ->
  (Z.abs d1 + Z.abs d2 <= n)%Z -> plane_near c (n + m) u x s g1 g2 A B1 B2 ->
  plane_near c m u x s ((g1 + d1) mod gN1 (lay c)) ((g2 + d2) mod gN2 (lay c))
    (A + B1 * (IZR d1 * dq1 c) + B2 * (IZR d2 * dq2 c)) B1 B2.
Proof.
  intros N1 N2 Hd HP e1 e2 He. rewrite !Zplus_mod_idemp_l. rewrite <- !Z.add_assoc.
  rewrite HP by lia. rewrite !plus_IZR. ring.
Qed.

Lemma midpoint_plane t dt E0 Eh n u x s g1 g2 A B1 B2 : (0 <= n)%Z -> inb (N_p c) x -> inb (N_species c) s ->
  plane_near c (n + 2 * (radius k1 + 1)) u x s g1 g2 A B1 B2 ->
  plane_near c n (midpoint (prob c k1 k2 t E0) (prob c k1 k2 t Eh) dt u) x s g1 g2
    (A - dt * (v1 x s * B1 + v2 x s * B2)) B1 B2.
Proof.
  intros Hn Hx Hs HP. destruct (grid_pos c _ PF) as [N1 N2].
  assert (R0 : (0 <= radius k1)%Z) by (destruct k1; cbn; lia).
  assert (IN1 : forall z, inb (gN1 (lay c)) (z mod gN1 (lay c))) by (intros; apply Z.mod_pos_bound; lia).
  assert (IN2 : forall z, inb (gN2 (lay c)) (z mod gN2 (lay c))) by (intros; apply Z.mod_pos_bound; lia).
  assert (HH : plane_near c (n + (radius k1 + 1)) (fun x s g1 g2 => u x s g1 g2 + dt / 2 * rhs (prob c k1 k2 t E0) u x s g1 g2)
     x s g1 g2 (A - dt / 2 * (v1 x s * B1 + v2 x s * B2)) B1 B2).
  { intros d1 d2 Hd.
    rewrite (rhs_plane t E0 u x s _ _ (A + B1 * (IZR d1 * dq1 c) + B2 * (IZR d2 * dq2 c)) B1 B2 Hx Hs).
    - rewrite HP by lia. ring.
    - apply (plane_shift (n + (radius k1 + 1))); auto. replace (n + (radius k1 + 1) + (radius k1 + 1))%Z with (n + 2 * (radius k1 + 1))%Z by lia. exact HP.
    - apply IN1.
    - apply IN2. }
  intros d1 d2 Hd. unfold midpoint.
  rewrite (rhs_plane t Eh _ x s _ _ (A - dt / 2 * (v1 x s * B1 + v2 x s * B2) + B1 * (IZR d1 * dq1 c) + B2 * (IZR d2 * dq2 c)) B1 B2 Hx Hs).
  - rewrite HP by lia. ring.
  - apply (plane_shift n); auto.
  - apply IN1.
  - apply IN2.
Qed.

Lemma run_plane l : forall u n x s g1 g2 A B1 B2, (0 <= n)%Z -> inb (N_p c) x -> inb (N_species c) s ->
  plane_near c (n + 2 * Z.of_nat (List.length l) * (radius k1 + 1)) u x s g1 g2 A B1 B2 ->
  plane_near c n (run_global c k1 k2 l u) x s g1 g2
    (A - duration (map (fun p => fst (fst p)) l) * (v1 x s * B1 + v2 x s * B2)) B1 B2.
Proof.
  assert (R0 : (0 <= radius k1)%Z) by (destruct k1; cbn; lia).
  induction l as [|[[k E0] Eh] l IH]; intros u n x s g1 g2 A B1 B2 Hn Hx Hs HP.
  - cbn [run_global map duration fold_right]. cbn [List.length] in HP.
    intros d1 d2 Hd. rewrite HP by lia. ring.
  - cbn [run_global map fst]. change (duration (k :: ?l)) with (cdt k + duration l).
    cbn [List.length] in HP. rewrite Nat2Z.inj_succ in HP.
    pose proof (midpoint_plane (ct k) (cdt k) E0 Eh (n + 2 * Z.of_nat (List.length l) * (radius k1 + 1)) u x s g1 g2 A B1 B2
      ltac:(nia) Hx Hs) as Q.
    replace (n + 2 * Z.of_nat (List.length l) * (radius k1 + 1) + 2 * (radius k1 + 1))%Z
      with (n + 2 * Z.succ (Z.of_nat (List.length l)) * (radius k1 + 1))%Z in Q by ring.
    specialize (Q HP). apply (IH _ n _ _ _ _ _ _ _ Hn Hx Hs) in Q.
    intros d1 d2 Hd. rewrite (Q d1 d2 Hd). unfold duration. cbn [fold_right map fst]. ring.
Qed.

Lemma plane_exact l s u x sp g1 g2 A B1 B2 : inb (N_p c) x -> inb (N_species c) sp ->
  inb (gN1 (lay c)) g1 -> inb (gN2 (lay c)) g2 -> holds c (sf s) u ->
  plane_near c (2 * Z.of_nat (List.length l) * (radius k1 + 1)) u x sp g1 g2 A B1 B2 ->
  exists r, run_fvm c l s = Ok r
  /\ gval (lay c) (sf r) x sp g1 g2 = A - duration l * (v1 x sp * B1 + v2 x sp * B2).
Proof.
  intros Hx Hs H1 H2 HD HP. destruct (run_exact c k1 k2 W PF l s _ HD) as (r&E&HR). exists r. split; [exact E|].
  rewrite (proj2 HR) by auto.
  pose proof (run_plane (map (witness (lay c)) l) u 0 x sp g1 g2 A B1 B2 ltac:(lia) Hx Hs) as Q.
  rewrite map_length, witness_calls, Z.add_0_l in Q. specialize (Q HP 0%Z 0%Z ltac:(cbn; lia)).
  rewrite !Z.add_0_r, !Z.mod_small in Q by assumption. rewrite Q. ring.
Qed.
End Planes.
