(** The finite-volume right-hand side of one rank against the textbook scheme on
    the global grid. *)
From Coq Require Import ZArith Reals Lra Lia String List Bool.
From Verif Require Import Base.Prelude Base.ZSum Model.Af Model.Grid Model.Petsc Model.Config
  Model.Reconstruct Model.Boundaries Model.Fvm
  Spec.Limiters Spec.Stencil Spec.Lattice Spec.Domain Spec.FvmProblem
  Proofs.AfLemmas Proofs.ReconstructLemmas Proofs.ReconstructApi Proofs.PetscLemmas
  Proofs.FluxLemmas Proofs.ConvLemmas.
Local Open Scope R_scope.

Lemma bidx_id n i : inb n i -> bidx n i = i.
Proof. unfold inb, bidx. destruct (Z.eqb_spec n 1); lia. Qed.

Lemma wf_pos c k1 k2 : wf_cfg c k1 k2 -> pos_cfg c.
Proof. unfold wf_cfg, pos_cfg. tauto. Qed.

(** ** Momentum coordinates *)
Lemma p_arr_el n1 n2 n3 ns g x s i j :
  (0 < n1)%Z -> (0 < n2)%Z -> inb (n1 * n2 * n3) x -> inb ns s ->
  bel (p_arr n1 n2 n3 ns g) x s i j = g s (x mod n1)%Z ((x / n1) mod n2)%Z (x / n1 / n2)%Z.
Proof.
  intros H1 H2 Hx Hs. unfold bel, p_arr; cbn [d0 d1 d2 d3 el].
  rewrite !bidx_id by auto. unfold flat, unlin0, unlin1, unlin2; cbn [d0 d1 d2 d3 el].
  destruct (row_split n1 n2 n3 x) as (_&_&_&B3); auto. unfold inb in B3.
  rewrite (Z.mod_small (x / n1 / n2)) by lia. reflexivity.
Qed.

Lemma p_centers c k1 k2 x s i j : wf_cfg c k1 k2 -> inb (N_p c) x -> inb (N_species c) s ->
  bel (p1_center c) x s i j = mom1 c (1/2) x s
  /\ bel (p2_center c) x s i j = mom2 c (1/2) x s
  /\ bel (p3_center c) x s i j = mom3 c (1/2) x s
  /\ bel (p1_left c) x s i j = mom1 c 0 x s
  /\ bel (p2_bottom c) x s i j = mom2 c 0 x s
  /\ bel (p3_back c) x s i j = mom3 c 0 x s.
Proof.
  intros (P1&P2&P3&PS&L1&L2&L3&_) Hx Hs.
  unfold p1_center, p2_center, p3_center, p1_left, p2_bottom, p3_back, p_center, p_corner,
    calculate_p_center, calculate_p_corner, calculate_p_gen; cbn [fst snd].
  rewrite !L1. rewrite !p_arr_el by auto.
  unfold p_line, mom1, mom2, mom3. repeat split; f_equal; f_equal; lra.
Qed.

(** ** Spatial coordinates *)
Lemma coord_el n1 n2 (g : Z -> Z -> R) x s i j : inb n1 i -> inb n2 j ->
  bel (coord_arr n1 n2 g) x s i j = g i j.
Proof. intros. unfold bel, coord_arr; cbn [d0 d1 d2 d3 el]. rewrite !bidx_id by auto. reflexivity. Qed.

Lemma amap_bel {A B} (f : A -> B) a x s i j : bel (amap f a) x s i j = f (bel a x s i j).
Proof. reflexivity. Qed.

Lemma q_coords c r1 r2 x s i j : inb (n1g (lay c) r1) i -> inb (n2g (lay c) r2) j ->
  let g1 := (off (blk1 (lay c)) r1 + i - ng1 (lay c))%Z in
  let g2 := (off (blk2 (lay c)) r2 + j - ng2 (lay c))%Z in
  let q := qc c r1 r2 in
  bel (fst (q_left_bot q)) x s i j = pos1 c 0 g1 /\ bel (snd (q_left_bot q)) x s i j = pos2 c 0 g2
  /\ bel (fst (q_center_bot q)) x s i j = pos1 c (1/2) g1 /\ bel (snd (q_center_bot q)) x s i j = pos2 c 0 g2
  /\ bel (fst (q_left_center q)) x s i j = pos1 c 0 g1 /\ bel (snd (q_left_center q)) x s i j = pos2 c 0 g2
  /\ bel (fst (q_center q)) x s i j = pos1 c (1/2) g1 /\ bel (snd (q_center q)) x s i j = pos2 c (1/2) g2.
Proof.
  intros Hi Hj g1 g2 q. unfold q, qc, calculate_q;
  cbn [q_left_bot q_center_bot q_left_center q_center fst snd].
  rewrite ?amap_bel. unfold n1g, n2g in *. rewrite !coord_el by auto.
  unfold pos1, pos2.
  replace (IZR g1) with (IZR (off (blk1 (lay c)) r1) + IZR (i - ng1 (lay c)))
    by (unfold g1; rewrite <- plus_IZR; f_equal; lia).
  replace (IZR g2) with (IZR (off (blk2 (lay c)) r2) + IZR (j - ng2 (lay c)))
    by (unfold g2; rewrite <- plus_IZR; f_equal; lia).
  repeat split; lra.
Qed.

(** ** Local arrays that show a global periodic state, ghosts included *)
Definition covers (c : cfg) (r1 r2 : nat) (f : arr R) (U : gstate) : Prop :=
  q_shaped c r1 r2 f /\
  forall x s i j, inb (N_p c) x -> inb (N_species c) s ->
    inb (n1g (lay c) r1) i -> inb (n2g (lay c) r2) j ->
    el f x s i j = U x s ((off (blk1 (lay c)) r1 + i - ng1 (lay c)) mod gN1 (lay c))%Z
                         ((off (blk2 (lay c)) r2 + j - ng2 (lay c)) mod gN2 (lay c))%Z.

Lemma face_velocity_1 c k1 k2 r1 r2 t x s i j E1 E2 E3 : wf_cfg c k1 k2 ->
  inb (N_p c) x -> inb (N_species c) s ->
  inb (n1g (lay c) r1) i -> inb (n2g (lay c) r2) j ->
  el (face_velocity_q1 c r1 r2 t) x s i j
  = vel1 (problem_of c k1 k2 t E1 E2 E3) x s (off (blk1 (lay c)) r1 + i - ng1 (lay c))%Z
         (off (blk2 (lay c)) r2 + j - ng2 (lay c))%Z.
Proof.
  intros W Hx Hs Hi Hj. unfold face_velocity_q1, broadcast_qp, problem_of, problem_at; cbn [amap el vel1].
  destruct (q_coords c r1 r2 x s i j Hi Hj) as (_&_&_&_&A&B&_).
  destruct (p_centers c k1 k2 x s i j W Hx Hs) as (C1&C2&C3&_).
  rewrite A, B, C1, C2, C3. reflexivity.
Qed.

Lemma face_velocity_2 c k1 k2 r1 r2 t x s i j E1 E2 E3 : wf_cfg c k1 k2 ->
  inb (N_p c) x -> inb (N_species c) s ->
  inb (n1g (lay c) r1) i -> inb (n2g (lay c) r2) j ->
  el (face_velocity_q2 c r1 r2 t) x s i j
  = vel2 (problem_of c k1 k2 t E1 E2 E3) x s (off (blk1 (lay c)) r1 + i - ng1 (lay c))%Z
         (off (blk2 (lay c)) r2 + j - ng2 (lay c))%Z.
Proof.
  intros W Hx Hs Hi Hj. unfold face_velocity_q2, broadcast_qp, problem_of, problem_at; cbn [amap el vel2].
  destruct (q_coords c r1 r2 x s i j Hi Hj) as (_&_&A&B&_).
  destruct (p_centers c k1 k2 x s i j W Hx Hs) as (C1&C2&C3&_).
  rewrite A, B, C1, C2, C3. reflexivity.
Qed.

Lemma face_velocity_dims c r1 r2 t : 
  q_shaped c r1 r2 (face_velocity_q1 c r1 r2 t) /\ q_shaped c r1 r2 (face_velocity_q2 c r1 r2 t).
Proof. split; repeat split. Qed.

Lemma q_shaped_same {A B} c r1 r2 (a : arr A) (b : arr B) :
  q_shaped c r1 r2 a -> q_shaped c r1 r2 b -> same_dims a b.
Proof. intros (A0&A1&A2&A3) (B0&B1&B2&B3). repeat split; congruence. Qed.

Lemma q_shaped_inside {A} c r1 r2 (a : arr A) x s i j : q_shaped c r1 r2 a ->
  inb (N_p c) x -> inb (N_species c) s -> inb (n1g (lay c) r1) i -> inb (n2g (lay c) r2) j ->
  inside a x s i j.
Proof. intros (A0&A1&A2&A3) Hx Hs Hi Hj. unfold inside. rewrite A0, A1, A2, A3. auto. Qed.

Section Rank.
Variables (c : cfg) (k1 k2 : scheme) (r1 r2 : nat) (t : R) (E1 E2 E3 : gfields) (f : arr R) (U : gstate).
Hypothesis W : wf_cfg c k1 k2.
Hypothesis PF : periodic_fvm c k1.
Hypothesis RK : rank_ok (lay c) r1 r2.
Hypothesis CV : covers c r1 r2 f U.
Let L := lay c.
Let P := problem_of c k1 k2 t E1 E2 E3.
Let o1 := off (blk1 L) r1.
Let o2 := off (blk2 L) r2.

Lemma rank_ranges : (0 < bsize (blk1 L) r1 /\ 0 < bsize (blk2 L) r2 /\ 0 <= o1 /\ 0 <= o2
  /\ o1 + bsize (blk1 L) r1 <= gN1 L /\ o2 + bsize (blk2 L) r2 <= gN2 L
  /\ 0 < gN1 L /\ 0 < gN2 L /\ 0 < ng1 L /\ 0 < ng2 L)%Z.
Proof using PF RK.
  destruct PF as (_&_&((N1&F1&S1)&(N2&F2&S2)&G1&G2&_)&_). destruct RK as [R1 R2].
  pose proof (bsize_pos (blk1 L) r1 F1 R1). pose proof (bsize_pos (blk2 L) r2 F2 R2).
  pose proof (off_nonneg (blk1 L) r1 F1). pose proof (off_nonneg (blk2 L) r2 F2).
  pose proof (off_end (blk1 L) r1 F1 R1). pose proof (off_end (blk2 L) r2 F2 R2).
  fold L in S1, S2, N1, N2, G1, G2. unfold o1, o2 in *. lia.
Qed.

(** Lines of the local array are windows of the global periodic lines. *)
Lemma line_q1 x s j z : inb (N_p c) x -> inb (N_species c) s -> inb (bsize (blk2 L) r2) j ->
  inb (n1g L r1) z ->
  el f x s z (ng2 L + j)%Z = periodic (gN1 L) (fun i => U x s i (o2 + j)%Z) (z + (o1 - ng1 L))%Z.
Proof using CV PF RK.
  intros Hx Hs Hj Hz. destruct rank_ranges as (B1&B2&O1&O2&T1&T2&N1&N2&G1&G2). unfold inb in *.
  destruct CV as [_ V]. rewrite V by (fold L; unfold inb, n2g; auto; lia).
  unfold periodic. fold L. fold o1 o2. f_equal.
  - f_equal. lia.
  - replace (o2 + (ng2 L + j) - ng2 L)%Z with (o2 + j)%Z by lia. apply Z.mod_small. lia.
Qed.

Lemma line_q2 x s i z : inb (N_p c) x -> inb (N_species c) s -> inb (bsize (blk1 L) r1) i ->
  inb (n2g L r2) z ->
  el f x s (ng1 L + i)%Z z = periodic (gN2 L) (fun j => U x s (o1 + i)%Z j) (z + (o2 - ng2 L))%Z.
Proof using CV PF RK.
  intros Hx Hs Hj Hz. destruct rank_ranges as (B1&B2&O1&O2&T1&T2&N1&N2&G1&G2). unfold inb in *.
  destruct CV as [_ V]. rewrite V by (fold L; unfold inb, n1g; auto; lia).
  unfold periodic. fold L. fold o1 o2. f_equal.
  - replace (o1 + (ng1 L + i) - ng1 L)%Z with (o1 + i)%Z by lia. apply Z.mod_small. lia.
  - f_equal. lia.
Qed.

Lemma df_dt_q_spec : exists d fl fb, df_dt_q c r1 r2 t f = Ok (d, fl, fb)
  /\ q_shaped c r1 r2 d /\ q_shaped c r1 r2 fl /\ q_shaped c r1 r2 fb
  /\ forall x s i j, inb (N_p c) x -> inb (N_species c) s ->
     inb (bsize (blk1 L) r1) i -> inb (bsize (blk2 L) r2) j ->
     let g1 := (o1 + i)%Z in let g2 := (o2 + j)%Z in
     el d x s (ng1 L + i)%Z (ng2 L + j)%Z
       = advect_q P U x s g1 g2 + src P g1 g2 (fun x' s' => U x' s' g1 g2) x s
     /\ el fl x s (ng1 L + i)%Z (ng2 L + j)%Z
       = upwind k1 (fun z => vel1 P x s z g2) (periodic (gN1 L) (fun z => U x s z g2)) g1
     /\ el fb x s (ng1 L + i)%Z (ng2 L + j)%Z
       = upwind k1 (fun z => vel2 P x s g1 z) (periodic (gN2 L) (fun z => U x s g1 z)) g2.
Proof using W PF RK CV.
  destruct rank_ranges as (B1&B2&O1&O2&T1&T2&N1&N2&G1&G2).
  assert (Dm : q_shaped c r1 r2 f) by apply CV.
  assert (Hm : scheme_of_name (reconstruction_method_in_q c) = Some k1) by apply W.
  assert (R1 : (radius k1 < ng1 L)%Z) by apply PF. assert (R2 : (radius k1 < ng2 L)%Z) by apply PF.
  assert (R0 : (0 <= radius k1)%Z) by (destruct k1; simpl; lia).
  destruct (reconstruct_faces f Ax2 _ _ Hm) as (l2&r2'&Q2&_).
  destruct (reconstruct_faces f Ax3 _ _ Hm) as (l3&r3'&Q3&_).
  destruct (face_velocity_dims c r1 r2 t) as [DV1 DV2].
  assert (SV1 : same_dims (face_velocity_q1 c r1 r2 t) f) by (eapply q_shaped_same; eauto).
  assert (SV2 : same_dims (face_velocity_q2 c r1 r2 t) f) by (eapply q_shaped_same; eauto).
  pose proof (fluxdiff_el f Ax2 _ _ _ _ _ Hm Q2 SV1) as [DF1 FD1].
  pose proof (fluxdiff_el f Ax3 _ _ _ _ _ Hm Q3 SV2) as [DF2 FD2].
  pose proof (face_el f Ax2 _ _ _ _ _ Hm Q2 SV1) as FE1.
  pose proof (face_el f Ax3 _ _ _ _ _ Hm Q3 SV2) as FE2.
  unfold df_dt_q. rewrite Q2, Q3. cbn [rbind].
  change (shift r2' 0 0 1 0) with (shift_ax r2' Ax2 1).
  change (shift r3' 0 0 0 1) with (shift_ax r3' Ax3 1).
  set (fl := riemann_solver (shift_ax r2' Ax2 1) l2 (face_velocity_q1 c r1 r2 t)) in *.
  set (fb := riemann_solver (shift_ax r3' Ax3 1) l3 (face_velocity_q2 c r1 r2 t)) in *.
  set (X1 := bcast2 Rmult (face_velocity_q1 c r1 r2 t) fl) in *.
  set (X2 := bcast2 Rmult (face_velocity_q2 c r1 r2 t) fb) in *.
  change (shift X1 0 0 (-1) 0) with (shift_ax X1 Ax2 (-1)).
  change (shift X2 0 0 0 (-1)) with (shift_ax X2 Ax3 (-1)).
  eexists; eexists; eexists; split; [reflexivity|].
  assert (DX1 : q_shaped c r1 r2 X1).
  { destruct Dm as (A0&A1&A2&A3), DF1 as (F0&F1&F2&F3). repeat split; congruence. }
  split.
  { destruct DX1 as (A0&A1&A2&A3).
    destruct (source_enabled c); unfold q_shaped, shift_ax; cbn [d0 d1 d2 d3 amap2 shift]; auto. }
  split.
  { destruct (reconstruct_faces f Ax2 _ _ Hm) as (l0&r0&E&Dl&Dr&_). rewrite Q2 in E; injection E as <- <-.
    destruct Dm as (A0&A1&A2&A3), Dr as (F0&F1&F2&F3).
    unfold fl; repeat split; cbn [riemann_solver d0 d1 d2 d3 shift_ax shift]; congruence. }
  split.
  { destruct (reconstruct_faces f Ax3 _ _ Hm) as (l0&r0&E&Dl&Dr&_). rewrite Q3 in E; injection E as <- <-.
    destruct Dm as (A0&A1&A2&A3), Dr as (F0&F1&F2&F3).
    unfold fb; repeat split; cbn [riemann_solver d0 d1 d2 d3 shift_ax shift]; congruence. }
  intros x s i j Hx Hs Hi Hj. set (g1 := (o1 + i)%Z). set (g2 := (o2 + j)%Z).
  assert (Hk : inb (n1g L r1) (ng1 L + i)) by (unfold inb, n1g in *; lia).
  assert (Hl : inb (n2g L r2) (ng2 L + j)) by (unfold inb, n2g in *; lia).
  assert (IN : inside f x s (ng1 L + i) (ng2 L + j)) by (apply (q_shaped_inside c r1 r2); auto).
  specialize (FD1 _ _ _ _ IN). specialize (FD2 _ _ _ _ IN). cbv zeta in FD1, FD2.
  destruct FD1 as [Fa1 Fb1]. destruct FD2 as [Fa2 Fb2].
  specialize (FE1 _ _ _ _ IN). specialize (FE2 _ _ _ _ IN).
  assert (D2f : len f Ax2 = n1g L r1) by (simpl; apply Dm).
  assert (D3f : len f Ax3 = n2g L r2) by (simpl; apply Dm).
  rewrite D2f in Fa1, Fb1, FE1. rewrite D3f in Fa2, Fb2, FE2. cbn [pos] in *.
  (* velocities and lines as windows *)
  assert (V1 : forall z, inb (n1g L r1) z ->
     periodic (n1g L r1) (line (face_velocity_q1 c r1 r2 t) Ax2 x s (ng1 L + i) (ng2 L + j)) z
     = (fun y => vel1 P x s y g2) (z + (o1 - ng1 L))%Z).
  { intros z Hz. rewrite periodic_small by auto. unfold line.
    rewrite (face_velocity_1 c k1 k2 r1 r2 t x s z (ng2 L + j)%Z E1 E2 E3) by auto.
    fold L o1 o2 P. f_equal; unfold g2; lia. }
  assert (V2 : forall z, inb (n2g L r2) z ->
     periodic (n2g L r2) (line (face_velocity_q2 c r1 r2 t) Ax3 x s (ng1 L + i) (ng2 L + j)) z
     = (fun y => vel2 P x s g1 y) (z + (o2 - ng2 L))%Z).
  { intros z Hz. rewrite periodic_small by auto. unfold line.
    rewrite (face_velocity_2 c k1 k2 r1 r2 t x s (ng1 L + i)%Z z E1 E2 E3) by auto.
    fold L o1 o2 P. f_equal; unfold g1; lia. }
  assert (U1 : forall z, inb (n1g L r1) z ->
     periodic (n1g L r1) (line f Ax2 x s (ng1 L + i) (ng2 L + j)) z
     = periodic (gN1 L) (fun y => U x s y g2) (z + (o1 - ng1 L))%Z).
  { intros z Hz. rewrite periodic_small by auto. unfold line. apply line_q1; auto. }
  assert (U2 : forall z, inb (n2g L r2) z ->
     periodic (n2g L r2) (line f Ax3 x s (ng1 L + i) (ng2 L + j)) z
     = periodic (gN2 L) (fun y => U x s g1 y) (z + (o2 - ng2 L))%Z).
  { intros z Hz. rewrite periodic_small by auto. unfold line. apply line_q2; auto. }
  assert (W1 : forall z, (ng1 L + i <= z <= ng1 L + i + 1)%Z ->
     flux k1 (periodic (n1g L r1) (line (face_velocity_q1 c r1 r2 t) Ax2 x s (ng1 L + i) (ng2 L + j)))
             (periodic (n1g L r1) (line f Ax2 x s (ng1 L + i) (ng2 L + j))) z
     = flux k1 (fun y => vel1 P x s y g2) (periodic (gN1 L) (fun y => U x s y g2)) (z + (o1 - ng1 L))%Z).
  { intros z Hz. rewrite <- flux_shift. unfold inb, n1g in *. apply flux_ext.
    - apply V1. lia.
    - intros y Hy. apply U1. lia. }
  assert (W2 : forall z, (ng2 L + j <= z <= ng2 L + j + 1)%Z ->
     flux k1 (periodic (n2g L r2) (line (face_velocity_q2 c r1 r2 t) Ax3 x s (ng1 L + i) (ng2 L + j)))
             (periodic (n2g L r2) (line f Ax3 x s (ng1 L + i) (ng2 L + j))) z
     = flux k1 (fun y => vel2 P x s g1 y) (periodic (gN2 L) (fun y => U x s g1 y)) (z + (o2 - ng2 L))%Z).
  { intros z Hz. rewrite <- flux_shift. unfold inb, n2g in *. apply flux_ext.
    - apply V2. lia.
    - intros y Hy. apply U2. lia. }
  assert (T : el (amap2 (fun a b => - a / dq1 c - b / dq2 c)
                 (shift_ax X1 Ax2 (-1) [-] X1) (shift_ax X2 Ax3 (-1) [-] X2)) x s (ng1 L + i) (ng2 L + j)
              = advect_q P U x s g1 g2).
  { cbn [el amap2]. rewrite Fa1, Fb1, Fa2, Fb2. rewrite !W1 by lia. rewrite !W2 by lia.
    unfold advect_q, advect. cbn [kq h1 h2 n1 n2].
    replace (ng1 L + i + 1 + (o1 - ng1 L))%Z with (g1 + 1)%Z by (unfold g1; lia).
    replace (ng1 L + i + (o1 - ng1 L))%Z with g1 by (unfold g1; lia).
    replace (ng2 L + j + 1 + (o2 - ng2 L))%Z with (g2 + 1)%Z by (unfold g2; lia).
    replace (ng2 L + j + (o2 - ng2 L))%Z with g2 by (unfold g2; lia).
    change (kq P) with k1. change (n1 P) with (gN1 L). change (n2 P) with (gN2 L).
    change (h1 P) with (dq1 c). change (h2 P) with (dq2 c). unfold Rdiv. ring. }
  split; [|split].
  - change (src P g1 g2 (fun x' s' => U x' s' g1 g2) x s) with
      (if source_enabled c then source c t (pos1 c (1/2) g1) (pos2 c (1/2) g2) (fun x' s' => U x' s' g1 g2) x s else 0).
    destruct (source_enabled c).
    + unfold amap2 at 1; cbn [el]. rewrite T. f_equal. unfold source_term; cbn [el].
      destruct (q_coords c r1 r2 x s (ng1 L + i) (ng2 L + j) Hk Hl) as (_&_&_&_&_&_&A&B).
      rewrite A, B. fold L o1 o2.
      replace (o1 + (ng1 L + i) - ng1 L)%Z with g1 by (unfold g1; lia).
      replace (o2 + (ng2 L + j) - ng2 L)%Z with g2 by (unfold g2; lia).
      apply W; auto. intros x' s' Hx' Hs'. unfold g2. rewrite (line_q1 x' s' j (ng1 L + i)) by auto.
      unfold periodic. replace (ng1 L + i + (o1 - ng1 L))%Z with g1 by (unfold g1; lia).
      rewrite Z.mod_small by (unfold g1, inb in *; lia). reflexivity.
    + rewrite T. lra.
  - rewrite FE1. replace g1 with (ng1 L + i + (o1 - ng1 L))%Z by (unfold g1; lia).
    rewrite <- (upwind_shift k1 _ _ (ng1 L + i) (o1 - ng1 L)). unfold inb, n1g in *. apply upwind_ext; [apply V1; lia|]. intros; apply U1; lia.
  - rewrite FE2. replace g2 with (ng2 L + j + (o2 - ng2 L))%Z by (unfold g2; lia).
    rewrite <- (upwind_shift k1 _ _ (ng2 L + j) (o2 - ng2 L)). unfold inb, n2g in *. apply upwind_ext; [apply V2; lia|]. intros; apply U2; lia.
Qed.
End Rank.
