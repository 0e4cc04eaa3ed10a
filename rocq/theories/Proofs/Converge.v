(** Convergence of the first-order scheme. *)
From Coq Require Import ZArith Reals Lra Lia Psatz String List Bool.
From Verif Require Import Base.Prelude Base.ZSum Model.Af Model.Grid Model.Petsc Model.Config
  Model.Fvm Spec.Limiters Spec.Lattice Spec.Domain Spec.FvmProblem Spec.FvmRun Spec.Symmetry Spec.Converge
  Proofs.AfLemmas Proofs.PetscLemmas Proofs.FluxLemmas Proofs.ConvLemmas Proofs.FvmLemmas Proofs.FvmLemmas2
  Proofs.FvmConserve Proofs.FvmMore Proofs.SchemeSym Proofs.SymmetryRun Proofs.SymmetryMore.
Import ListNotations.
Local Open Scope R_scope.

Lemma fits_Z c phi : fits c phi -> forall k x y, phi (x + IZR k * (IZR (gN1 (lay c)) * dq1 c)) y = phi x y
  /\ phi x (y + IZR k * (IZR (gN2 (lay c)) * dq2 c)) = phi x y.
Proof.
  intros F k x y. split.
  - revert k x. apply (Z.bi_induction (fun k => forall x, phi (x + IZR k * (IZR (gN1 (lay c)) * dq1 c)) y = phi x y)).
    + intros ? ? ->. reflexivity.
    + intros x. f_equal. ring.
    + intros k. rewrite succ_IZR. split; intros H x.
      * rewrite <- (H x), <- (proj1 (F (x + IZR k * (IZR (gN1 (lay c)) * dq1 c)) y)). f_equal. ring.
      * rewrite <- (H x), <- (proj1 (F (x + IZR k * (IZR (gN1 (lay c)) * dq1 c)) y)). f_equal. ring.
  - revert k y. apply (Z.bi_induction (fun k => forall y, phi x (y + IZR k * (IZR (gN2 (lay c)) * dq2 c)) = phi x y)).
    + intros ? ? ->. reflexivity.
    + intros y. f_equal. ring.
    + intros k. rewrite succ_IZR. split; intros H y.
      * rewrite <- (H y), <- (proj2 (F x (y + IZR k * (IZR (gN2 (lay c)) * dq2 c)))). f_equal. ring.
      * rewrite <- (H y), <- (proj2 (F x (y + IZR k * (IZR (gN2 (lay c)) * dq2 c)))). f_equal. ring.
Qed.

(** Values at wrapped cells are values at shifted positions. *)
Lemma carried_wrap c v1 v2 phi T x s g1 g2 d1 d2 : (0 < gN1 (lay c))%Z -> (0 < gN2 (lay c))%Z -> fits c (phi x s) ->
  carried c v1 v2 phi T x s ((g1 + d1) mod gN1 (lay c))%Z ((g2 + d2) mod gN2 (lay c))%Z
  = phi x s (pos1 c (1/2) g1 - v1 x s * T + IZR d1 * dq1 c) (pos2 c (1/2) g2 - v2 x s * T + IZR d2 * dq2 c).
Proof.
  intros N1 N2 F. unfold carried, pos1, pos2.
  pose proof (Z.div_mod (g1 + d1) (gN1 (lay c)) ltac:(lia)) as A1. pose proof (Z.div_mod (g2 + d2) (gN2 (lay c)) ltac:(lia)) as A2.
  set (k1 := ((g1 + d1) / gN1 (lay c))%Z) in *. set (k2 := ((g2 + d2) / gN2 (lay c))%Z) in *.
  set (m1 := ((g1 + d1) mod gN1 (lay c))%Z) in *. set (m2 := ((g2 + d2) mod gN2 (lay c))%Z) in *.
  apply (f_equal IZR) in A1. apply (f_equal IZR) in A2. rewrite !plus_IZR, mult_IZR in A1, A2.
  rewrite <- (proj1 (fits_Z c (phi x s) F k1 _ _)). rewrite <- (proj2 (fits_Z c (phi x s) F k2 _ _)).
  f_equal.
  - replace (IZR m1) with (IZR g1 + IZR d1 - IZR (gN1 (lay c)) * IZR k1) by lra. ring.
  - replace (IZR m2) with (IZR g2 + IZR d2 - IZR (gN2 (lay c)) * IZR k2) by lra. ring.
Qed.

Lemma abs_between z B : Rabs z <= B -> - B <= z <= B.
Proof. unfold Rabs. destruct Rcase_abs; lra. Qed.

(** Local error of one step. *)
Lemma taylor6 (psi : R -> R -> R) M u0 G1 G2 a b h1 h2 s1 s2 : 0 <= M -> 0 <= a -> 0 <= b -> a + b <= 1 -> 0 < h1 -> 0 < h2 ->
  (s1 = 1 \/ s1 = -1) -> (s2 = 1 \/ s2 = -1) ->
  (forall x y, Rabs (psi x y - u0 - x * G1 - y * G2) <= M * (Rabs x + Rabs y) ^ 2) ->
  Rabs ((1 - (a + b) + (a + b) * (a + b) / 2) * psi 0 0 + (1 - (a + b)) * a * psi (s1 * h1) 0 + (1 - (a + b)) * b * psi 0 (s2 * h2)
        + a * a / 2 * psi (2 * s1 * h1) 0 + a * b * psi (s1 * h1) (s2 * h2) + b * b / 2 * psi 0 (2 * s2 * h2)
        - psi (s1 * a * h1) (s2 * b * h2))
  <= 3 * M * (a * h1 * h1 + b * h2 * h2).
Proof.
  intros M0 A0 B0 AB H1 H2 S1 S2 T.
  assert (K1 : Rabs s1 = 1) by (destruct S1 as [->| ->]; unfold Rabs; destruct Rcase_abs; lra).
  assert (K2 : Rabs s2 = 1) by (destruct S2 as [->| ->]; unfold Rabs; destruct Rcase_abs; lra).
  set (r x y := psi x y - u0 - x * G1 - y * G2).
  assert (B : forall x y p q, Rabs x = p -> Rabs y = q -> - (M * (p + q) ^ 2) <= r x y <= M * (p + q) ^ 2).
  { intros x y p q <- <-. specialize (T x y). fold (r x y) in T. apply abs_between; exact T. }
  pose proof (B 0 0 0 0 Rabs_R0 Rabs_R0) as T0.
  pose proof (B (s1 * h1) 0 h1 0 ltac:(rewrite Rabs_mult, K1, Rabs_pos_eq; lra) Rabs_R0) as T1.
  pose proof (B 0 (s2 * h2) 0 h2 Rabs_R0 ltac:(rewrite Rabs_mult, K2, Rabs_pos_eq; lra)) as T2.
  pose proof (B (2 * s1 * h1) 0 (2 * h1) 0 ltac:(rewrite !Rabs_mult, K1, !Rabs_pos_eq; lra) Rabs_R0) as T3.
  pose proof (B (s1 * h1) (s2 * h2) h1 h2 ltac:(rewrite Rabs_mult, K1, Rabs_pos_eq; lra) ltac:(rewrite Rabs_mult, K2, Rabs_pos_eq; lra)) as T4.
  pose proof (B 0 (2 * s2 * h2) 0 (2 * h2) Rabs_R0 ltac:(rewrite !Rabs_mult, K2, !Rabs_pos_eq; lra)) as T5.
  pose proof (B (s1 * a * h1) (s2 * b * h2) (a * h1) (b * h2) ltac:(rewrite !Rabs_mult, K1, !Rabs_pos_eq; lra)
     ltac:(rewrite !Rabs_mult, K2, !Rabs_pos_eq; lra)) as T6.
  assert (W0 : 0 <= 1 - (a + b) + (a + b) * (a + b) / 2) by nra.
  assert (W1 : 0 <= (1 - (a + b)) * a) by nra. assert (W2 : 0 <= (1 - (a + b)) * b) by nra.
  assert (W3 : 0 <= a * a / 2) by nra. assert (W4 : 0 <= a * b) by nra. assert (W5 : 0 <= b * b / 2) by nra.
  match goal with |- Rabs ?X <= _ => replace X with
    ((1 - (a + b) + (a + b) * (a + b) / 2) * r 0 0 + (1 - (a + b)) * a * r (s1 * h1) 0 + (1 - (a + b)) * b * r 0 (s2 * h2)
     + a * a / 2 * r (2 * s1 * h1) 0 + a * b * r (s1 * h1) (s2 * h2) + b * b / 2 * r 0 (2 * s2 * h2)
     - r (s1 * a * h1) (s2 * b * h2)) by (unfold r; field) end.
  clear T B. generalize dependent (r 0 0). generalize dependent (r (s1 * h1) 0). generalize dependent (r 0 (s2 * h2)).
  generalize dependent (r (2 * s1 * h1) 0). generalize dependent (r (s1 * h1) (s2 * h2)). generalize dependent (r 0 (2 * s2 * h2)).
  generalize dependent (r (s1 * a * h1) (s2 * b * h2)). clear r S1 S2 K1 K2.
  intros r6 T6 r5 T5 r4 T4 r3 T3 r2 T2 r1 T1 r0 T0.
  assert (P : forall w r' B', 0 <= w -> - B' <= r' <= B' -> - (w * B') <= w * r' <= w * B') by (intros; nra).
  pose proof (P _ _ _ W0 T0) as Q0. pose proof (P _ _ _ W1 T1) as Q1. pose proof (P _ _ _ W2 T2) as Q2.
  pose proof (P _ _ _ W3 T3) as Q3. pose proof (P _ _ _ W4 T4) as Q4. pose proof (P _ _ _ W5 T5) as Q5.
  assert (F : (1 - (a + b)) * a * h1 ^ 2 + (1 - (a + b)) * b * h2 ^ 2 + a * a / 2 * (2 * h1) ^ 2 + a * b * (h1 + h2) ^ 2
     + b * b / 2 * (2 * h2) ^ 2 + (a * h1 + b * h2) ^ 2 <= 3 * (a * h1 * h1 + b * h2 * h2)).
  { assert (a * b * (h1 - h2) ^ 2 >= 0) by (apply Rle_ge, Rmult_le_pos; [auto|apply pow2_ge_0]).
    assert (0 <= (1 - (a + b)) * (a * h1 ^ 2)) by (apply Rmult_le_pos; [lra|apply Rmult_le_pos; [lra|apply pow2_ge_0]]).
    assert (0 <= (1 - (a + b)) * (b * h2 ^ 2)) by (apply Rmult_le_pos; [lra|apply Rmult_le_pos; [lra|apply pow2_ge_0]]).
    nra. }
  apply (Rmult_le_compat_l M) in F; [|exact M0].
  apply Rabs_le. split; nra.
Qed.

Section Conv.
Variables (c : cfg) (k2 : scheme).
Hypothesis W : wf_cfg c FirstOrder k2.
Hypothesis PF : periodic_fvm c FirstOrder.
Hypothesis VU : velocity_uniform c.
Hypothesis D1 : 0 < dq1 c.
Hypothesis D2 : 0 < dq2 c.
Hypothesis SO : source_enabled c = false.
Hypothesis PO : p_is_fvm c = false.
Variables (v1 v2 : Z -> Z -> R) (phi : Z -> Z -> R -> R -> R) (M : R).
Hypothesis MV : moves_with c v1 v2.
Hypothesis M0 : 0 <= M.
Hypothesis SM : forall x s, inb (N_p c) x -> inb (N_species c) s -> smooth M (phi x s) /\ fits c (phi x s).

Lemma local_error t dt E0 Eh T x s g1 g2 : cfl c t dt -> inb (N_p c) x -> inb (N_species c) s ->
  inb (gN1 (lay c)) g1 -> inb (gN2 (lay c)) g2 ->
  Rabs (midpoint (prob c FirstOrder k2 t E0) (prob c FirstOrder k2 t Eh) dt (carried c v1 v2 phi T) x s g1 g2
        - carried c v1 v2 phi (T + dt) x s g1 g2)
  <= 3 * M * dt * (Rabs (v1 x s) * dq1 c + Rabs (v2 x s) * dq2 c).
Proof.
  intros CF Hx Hs Hg1 Hg2. destruct (grid_pos c _ PF) as [N1 N2]. destruct (SM x s Hx Hs) as ((G1&G2&S)&F).
  destruct (first_order_explicit c k2 t dt x s W PF VU D1 D2 SO PO CF Hx Hs) as (A0&B0&AB&H).
  rewrite (MV t x s _ _ Hx Hs) in A0, B0, AB, H. cbn [fst snd] in A0, B0, AB, H.
  rewrite H by auto. unfold combine_at. cbn [map fst snd wsum fold_right].
  rewrite !carried_wrap by auto. unfold carried.
  set (X := pos1 c (1/2) g1 - v1 x s * T). set (Y := pos2 c (1/2) g2 - v2 x s * T).
  set (a := Rabs (v1 x s) * dt / dq1 c) in *. set (b := Rabs (v2 x s) * dt / dq2 c) in *.
  set (s1 := if Rlt_dec 0 (v1 x s) then -1 else 1). set (s2 := if Rlt_dec 0 (v2 x s) then -1 else 1).
  pose proof (taylor6 (fun p q => phi x s (X + p) (Y + q)) M (phi x s X Y) (G1 X Y) (G2 X Y) a b (dq1 c) (dq2 c) s1 s2
    M0 A0 B0 AB D1 D2) as Q.
  assert (Z1 : s1 = 1 \/ s1 = -1) by (unfold s1; destruct (Rlt_dec 0 (v1 x s)); [right|left]; reflexivity).
  assert (Z2 : s2 = 1 \/ s2 = -1) by (unfold s2; destruct (Rlt_dec 0 (v2 x s)); [right|left]; reflexivity).
  specialize (Q Z1 Z2 (fun p q => S X Y p q)). cbv beta in Q.
  assert (E1 : s1 * a * dq1 c = - (v1 x s * dt)).
  { unfold s1, a. destruct (Rlt_dec 0 (v1 x s)); [rewrite Rabs_pos_eq by lra|rewrite Rabs_left1 by lra]; field; lra. }
  assert (E2 : s2 * b * dq2 c = - (v2 x s * dt)).
  { unfold s2, b. destruct (Rlt_dec 0 (v2 x s)); [rewrite Rabs_pos_eq by lra|rewrite Rabs_left1 by lra]; field; lra. }
  rewrite E1, E2 in Q.
  replace (pos1 c (1/2) g1 - v1 x s * (T + dt)) with (X + - (v1 x s * dt)) by (unfold X; ring).
  replace (pos2 c (1/2) g2 - v2 x s * (T + dt)) with (Y + - (v2 x s * dt)) by (unfold Y; ring).
  replace (3 * M * dt * (Rabs (v1 x s) * dq1 c + Rabs (v2 x s) * dq2 c)) with (3 * M * (a * dq1 c * dq1 c + b * dq2 c * dq2 c))
    by (unfold a, b; field; split; lra).
  eapply Rle_trans; [|exact Q]. right. f_equal.
  assert (I1 : IZR (if Rlt_dec 0 (v1 x s) then -1 else 1)%Z = s1) by (unfold s1; destruct (Rlt_dec 0 (v1 x s)); reflexivity).
  assert (I2 : IZR (if Rlt_dec 0 (v2 x s) then -1 else 1)%Z = s2) by (unfold s2; destruct (Rlt_dec 0 (v2 x s)); reflexivity).
  rewrite !mult_IZR, I1, I2. rewrite !Rmult_0_l. ring.
Qed.

Lemma error_run l : forall u T (err : Z -> Z -> R), (forall k E0 Eh, In (k, E0, Eh) l -> cfl c (ct k) (cdt k)) ->
  (forall x s g1 g2, inb (N_p c) x -> inb (N_species c) s -> inb (gN1 (lay c)) g1 -> inb (gN2 (lay c)) g2 ->
     Rabs (u x s g1 g2 - carried c v1 v2 phi T x s g1 g2) <= err x s) ->
  forall x s g1 g2, inb (N_p c) x -> inb (N_species c) s -> inb (gN1 (lay c)) g1 -> inb (gN2 (lay c)) g2 ->
  Rabs (run_global c FirstOrder k2 l u x s g1 g2
        - carried c v1 v2 phi (T + duration (map (fun p => fst (fst p)) l)) x s g1 g2)
  <= err x s + 3 * M * duration (map (fun p => fst (fst p)) l) * (Rabs (v1 x s) * dq1 c + Rabs (v2 x s) * dq2 c).
Proof.
  destruct (grid_pos c _ PF) as [N1 N2].
  induction l as [|[[k E0] Eh] l IH]; intros u T err CF HU x s g1 g2 Hx Hs H1 H2.
  - cbn [run_global map duration fold_right]. rewrite Rplus_0_r. specialize (HU x s g1 g2 Hx Hs H1 H2). lra.
  - cbn [run_global map fst duration fold_right].
    set (u' := midpoint _ _ (cdt k) u).
    assert (CK : cfl c (ct k) (cdt k)) by (apply (CF k E0 Eh); left; reflexivity).
    specialize (IH u' (T + cdt k) (fun x s => err x s + 3 * M * cdt k * (Rabs (v1 x s) * dq1 c + Rabs (v2 x s) * dq2 c))).
    rewrite <- Rplus_assoc.
    eapply Rle_trans; [apply IH; auto|unfold duration; right; ring].
    + intros k' E0' Eh' I. apply (CF k' E0' Eh'). right. exact I.
    + clear IH x s g1 g2 Hx Hs H1 H2. intros x s g1 g2 Hx Hs H1 H2.
      pose proof (local_error (ct k) (cdt k) E0 Eh T x s g1 g2 CK Hx Hs H1 H2) as LE.
      destruct (first_order_weights c k2 (ct k) (cdt k) x s W PF VU D1 D2 SO PO CK Hx Hs) as (w&WP&W1&HW).
      rewrite HW in LE by auto. unfold u'. rewrite HW by auto.
      assert (Q : Rabs (wsum (combine_at c w (u x s) g1 g2) - wsum (combine_at c w (carried c v1 v2 phi T x s) g1 g2)) <= err x s).
      { rewrite wsum_minus.
        assert (C : forall e, wsum (combine_at c w (fun _ _ => e) g1 g2) = e).
        { intros e. assert (A : wsum (combine_at c w (fun _ _ => e) g1 g2) = fold_right (fun p a => fst p + a) 0 w * e).
          { clear. induction w as [|p w IHw]; [cbn; ring|]. rewrite wsum_cons, IHw. cbn [fold_right]. ring. }
          rewrite A, W1. ring. }
        apply Rabs_le. split.
        - rewrite <- (C (- err x s)). apply wsum_le; auto. intros i j Hi Hj.
          specialize (HU x s i j Hx Hs Hi Hj). apply abs_between in HU. lra.
        - rewrite <- (C (err x s)). apply wsum_le; auto. intros i j Hi Hj.
          specialize (HU x s i j Hx Hs Hi Hj). apply abs_between in HU. lra. }
      eapply Rle_trans; [|apply Rplus_le_compat; [exact Q|exact LE]].
      match goal with |- Rabs (?A - ?C) <= Rabs (?A - ?B) + Rabs (?B - ?C) => replace (A - C) with ((A - B) + (B - C)) by ring end.
      apply Rabs_triang.
Qed.

Lemma convergence l s : (forall k, In k l -> cfl c (ct k) (cdt k)) -> holds c (sf s) (carried c v1 v2 phi 0) ->
  exists r, run_fvm c l s = Ok r
  /\ forall x sp g1 g2, inb (N_p c) x -> inb (N_species c) sp -> inb (gN1 (lay c)) g1 -> inb (gN2 (lay c)) g2 ->
     Rabs (gval (lay c) (sf r) x sp g1 g2 - carried c v1 v2 phi (duration l) x sp g1 g2)
     <= 3 * M * duration l * (Rabs (v1 x sp) * dq1 c + Rabs (v2 x sp) * dq2 c).
Proof.
  intros CF HD. destruct (run_exact c FirstOrder k2 W PF l s _ HD) as (r&E&HR). exists r. split; [exact E|].
  intros x sp g1 g2 Hx Hs H1 H2. rewrite (proj2 HR) by auto.
  pose proof (error_run (map (witness (lay c)) l) (carried c v1 v2 phi 0) 0 (fun _ _ => 0)) as Q.
  rewrite witness_calls in Q. rewrite Rplus_0_l in Q.
  eapply Rle_trans; [apply Q; auto|right; ring].
  - intros k E0 Eh I. apply in_map_iff in I. destruct I as (k'&I&J). unfold witness in I. inversion I; subst. auto.
  - intros. rewrite Rminus_diag_eq by reflexivity. rewrite Rabs_R0. lra.
Qed.
End Conv.
