(** The finite-volume right-hand side of one rank when the lines of its array are
    windows of arbitrary global lines (periodic or continued beyond walls). *)
From Coq Require Import ZArith Reals Lra Lia Psatz String List Bool.
From Verif Require Import Base.Prelude Base.ZSum Model.Af Model.Grid Model.Petsc Model.Config
  Model.Reconstruct Model.Boundaries Model.Fvm
  Spec.Limiters Spec.Stencil Spec.Lattice Spec.Domain Spec.FvmProblem Spec.FvmRun Spec.Mirror Spec.Walls Spec.Box
  Proofs.AfLemmas Proofs.ReconstructLemmas Proofs.ReconstructApi Proofs.PetscLemmas
  Proofs.FluxLemmas Proofs.ConvLemmas Proofs.FvmLemmas Proofs.FvmLemmas2
  Proofs.BoundaryLemmas Proofs.BoundaryRun.
Import ListNotations.
Local Open Scope R_scope.

Section Gen.
Variables (c : cfg) (k1 k2 : scheme) (r1 r2 : nat) (t : R) (E1 E2 E3 : gfields) (f : arr R) (U : gstate).
Variables Ln1 Ln2 : Z -> Z -> Z -> Z -> R.
Let L := lay c.
Let P := problem_of c k1 k2 t E1 E2 E3.
Let o1 := off (blk1 L) r1.
Let o2 := off (blk2 L) r2.
Hypothesis W : wf_cfg c k1 k2.
Hypothesis RG : (0 < bsize (blk1 L) r1 /\ 0 < bsize (blk2 L) r2 /\ 0 <= o1 /\ 0 <= o2
  /\ o1 + bsize (blk1 L) r1 <= gN1 L /\ o2 + bsize (blk2 L) r2 <= gN2 L
  /\ 0 < gN1 L /\ 0 < gN2 L /\ 0 < ng1 L /\ 0 < ng2 L)%Z.
Hypothesis RD : (radius k1 < ng1 L)%Z /\ (radius k1 < ng2 L)%Z.
Hypothesis RK : rank_ok (lay c) r1 r2.
Hypothesis DM : q_shaped c r1 r2 f.
Hypothesis LQ1 : forall x s j z, inb (N_p c) x -> inb (N_species c) s -> inb (bsize (blk2 L) r2) j ->
  inb (n1g L r1) z -> el f x s z (ng2 L + j)%Z = Ln1 x s (o2 + j)%Z (z + (o1 - ng1 L))%Z.
Hypothesis LQ2 : forall x s i z, inb (N_p c) x -> inb (N_species c) s -> inb (bsize (blk1 L) r1) i ->
  inb (n2g L r2) z -> el f x s (ng1 L + i)%Z z = Ln2 x s (o1 + i)%Z (z + (o2 - ng2 L))%Z.
Hypothesis LI : forall x s g1 g2, inb (N_p c) x -> inb (N_species c) s -> inb (gN1 L) g1 -> inb (gN2 L) g2 ->
  Ln1 x s g2 g1 = U x s g1 g2.

Definition adv_gen : gstate := fun x s g1 g2 =>
  advect (kq P) (h1 P) (fun i => vel1 P x s i g2) (Ln1 x s g2) g1
  + advect (kq P) (h2 P) (fun j => vel2 P x s g1 j) (Ln2 x s g1) g2.

Lemma df_dt_q_gen : exists d fl fb, df_dt_q c r1 r2 t f = Ok (d, fl, fb)
  /\ q_shaped c r1 r2 d /\ q_shaped c r1 r2 fl /\ q_shaped c r1 r2 fb
  /\ forall x s i j, inb (N_p c) x -> inb (N_species c) s ->
     inb (bsize (blk1 L) r1) i -> inb (bsize (blk2 L) r2) j ->
     let g1 := (o1 + i)%Z in let g2 := (o2 + j)%Z in
     el d x s (ng1 L + i)%Z (ng2 L + j)%Z
       = adv_gen x s g1 g2 + src P g1 g2 (fun x' s' => U x' s' g1 g2) x s
     /\ el fl x s (ng1 L + i)%Z (ng2 L + j)%Z
       = upwind k1 (fun z => vel1 P x s z g2) (Ln1 x s g2) g1
     /\ el fb x s (ng1 L + i)%Z (ng2 L + j)%Z
       = upwind k1 (fun z => vel2 P x s g1 z) (Ln2 x s g1) g2.
Proof using W RG RK DM LQ1 LQ2 LI RD.
  destruct RG as (B1&B2&O1&O2&T1&T2&N1&N2&G1&G2).
  assert (Dm : q_shaped c r1 r2 f) by exact DM.
  assert (Hm : scheme_of_name (reconstruction_method_in_q c) = Some k1) by apply W.
  assert (R1 : (radius k1 < ng1 L)%Z) by apply RD. assert (R2 : (radius k1 < ng2 L)%Z) by apply RD.
  assert (R0 : (0 <= radius k1)%Z) by (destruct k1; simpl; lia).
  destruct (reconstruct_faces f Ax2 _ _ Hm) as (l2&r2'&Q2&_).
  destruct (reconstruct_faces f Ax3 _ _ Hm) as (l3&r3'&Q3&_).
  destruct (face_velocity_dims c r1 r2 t) as [DV1 DV2].
  assert (SV1 : same_dims (face_velocity_q1 c r1 r2 t) f) by (eapply q_shaped_same; eauto).
  assert (SV2 : same_dims (face_velocity_q2 c r1 r2 t) f) by (eapply q_shaped_same; eauto).
  pose proof (fluxdiff_el f Ax2 _ _ _ _ _ Hm Q2 SV1) as [DF1 FD1].
  pose proof (fluxdiff_el f Ax3 _ _ _ _ _ Hm Q3 SV2) as [DF2 FD2].
  pose proof (face_el f Ax2 _ _ _ _ _ Hm Q2 SV1) as FE1.
  pose proof (face_el f Ax3 _ _ _ _ _ Hm Q3 SV2) as FE2.
  unfold df_dt_q. rewrite Q2, Q3. cbn [rbind].
  change (shift r2' 0 0 1 0) with (shift_ax r2' Ax2 1).
  change (shift r3' 0 0 0 1) with (shift_ax r3' Ax3 1).
  set (fl := riemann_solver (shift_ax r2' Ax2 1) l2 (face_velocity_q1 c r1 r2 t)) in *.
  set (fb := riemann_solver (shift_ax r3' Ax3 1) l3 (face_velocity_q2 c r1 r2 t)) in *.
  set (X1 := bcast2 Rmult (face_velocity_q1 c r1 r2 t) fl) in *.
  set (X2 := bcast2 Rmult (face_velocity_q2 c r1 r2 t) fb) in *.
  change (shift X1 0 0 (-1) 0) with (shift_ax X1 Ax2 (-1)).
  change (shift X2 0 0 0 (-1)) with (shift_ax X2 Ax3 (-1)).
  eexists; eexists; eexists; split; [reflexivity|].
  assert (DX1 : q_shaped c r1 r2 X1).
  { destruct Dm as (A0&A1&A2&A3), DF1 as (F0&F1&F2&F3). repeat split; congruence. }
  split.
  { destruct DX1 as (A0&A1&A2&A3).
    destruct (source_enabled c); unfold q_shaped, shift_ax; cbn [d0 d1 d2 d3 amap2 shift]; auto. }
  split.
  { destruct (reconstruct_faces f Ax2 _ _ Hm) as (l0&r0&E&Dl&Dr&_). rewrite Q2 in E; injection E as <- <-.
    destruct Dm as (A0&A1&A2&A3), Dr as (F0&F1&F2&F3).
    unfold fl; repeat split; cbn [riemann_solver d0 d1 d2 d3 shift_ax shift]; congruence. }
  split.
  { destruct (reconstruct_faces f Ax3 _ _ Hm) as (l0&r0&E&Dl&Dr&_). rewrite Q3 in E; injection E as <- <-.
    destruct Dm as (A0&A1&A2&A3), Dr as (F0&F1&F2&F3).
    unfold fb; repeat split; cbn [riemann_solver d0 d1 d2 d3 shift_ax shift]; congruence. }
  intros x s i j Hx Hs Hi Hj. set (g1 := (o1 + i)%Z). set (g2 := (o2 + j)%Z).
  assert (Hk : inb (n1g L r1) (ng1 L + i)) by (unfold inb, n1g in *; lia).
  assert (Hl : inb (n2g L r2) (ng2 L + j)) by (unfold inb, n2g in *; lia).
  assert (IN : inside f x s (ng1 L + i) (ng2 L + j)) by (apply (q_shaped_inside c r1 r2); auto).
  specialize (FD1 _ _ _ _ IN). specialize (FD2 _ _ _ _ IN). cbv zeta in FD1, FD2.
  destruct FD1 as [Fa1 Fb1]. destruct FD2 as [Fa2 Fb2].
  specialize (FE1 _ _ _ _ IN). specialize (FE2 _ _ _ _ IN).
  assert (D2f : len f Ax2 = n1g L r1) by (simpl; apply Dm).
  assert (D3f : len f Ax3 = n2g L r2) by (simpl; apply Dm).
  rewrite D2f in Fa1, Fb1, FE1. rewrite D3f in Fa2, Fb2, FE2. cbn [pos] in *.
  (* velocities and lines as windows *)
  assert (V1 : forall z, inb (n1g L r1) z ->
     periodic (n1g L r1) (line (face_velocity_q1 c r1 r2 t) Ax2 x s (ng1 L + i) (ng2 L + j)) z
     = (fun y => vel1 P x s y g2) (z + (o1 - ng1 L))%Z).
  { intros z Hz. rewrite periodic_small by auto. unfold line.
    rewrite (face_velocity_1 c k1 k2 r1 r2 t x s z (ng2 L + j)%Z E1 E2 E3) by auto.
    fold L o1 o2 P. f_equal; unfold g2; lia. }
  assert (V2 : forall z, inb (n2g L r2) z ->
     periodic (n2g L r2) (line (face_velocity_q2 c r1 r2 t) Ax3 x s (ng1 L + i) (ng2 L + j)) z
     = (fun y => vel2 P x s g1 y) (z + (o2 - ng2 L))%Z).
  { intros z Hz. rewrite periodic_small by auto. unfold line.
    rewrite (face_velocity_2 c k1 k2 r1 r2 t x s (ng1 L + i)%Z z E1 E2 E3) by auto.
    fold L o1 o2 P. f_equal; unfold g1; lia. }
  assert (U1 : forall z, inb (n1g L r1) z ->
     periodic (n1g L r1) (line f Ax2 x s (ng1 L + i) (ng2 L + j)) z
     = Ln1 x s g2 (z + (o1 - ng1 L))%Z).
  { intros z Hz. rewrite periodic_small by auto. unfold line. apply LQ1; auto. }
  assert (U2 : forall z, inb (n2g L r2) z ->
     periodic (n2g L r2) (line f Ax3 x s (ng1 L + i) (ng2 L + j)) z
     = Ln2 x s g1 (z + (o2 - ng2 L))%Z).
  { intros z Hz. rewrite periodic_small by auto. unfold line. apply LQ2; auto. }
  assert (W1 : forall z, (ng1 L + i <= z <= ng1 L + i + 1)%Z ->
     flux k1 (periodic (n1g L r1) (line (face_velocity_q1 c r1 r2 t) Ax2 x s (ng1 L + i) (ng2 L + j)))
             (periodic (n1g L r1) (line f Ax2 x s (ng1 L + i) (ng2 L + j))) z
     = flux k1 (fun y => vel1 P x s y g2) (Ln1 x s g2) (z + (o1 - ng1 L))%Z).
  { intros z Hz. rewrite <- flux_shift. unfold inb, n1g in *. apply flux_ext.
    - apply V1. lia.
    - intros y Hy. apply U1. lia. }
  assert (W2 : forall z, (ng2 L + j <= z <= ng2 L + j + 1)%Z ->
     flux k1 (periodic (n2g L r2) (line (face_velocity_q2 c r1 r2 t) Ax3 x s (ng1 L + i) (ng2 L + j)))
             (periodic (n2g L r2) (line f Ax3 x s (ng1 L + i) (ng2 L + j))) z
     = flux k1 (fun y => vel2 P x s g1 y) (Ln2 x s g1) (z + (o2 - ng2 L))%Z).
  { intros z Hz. rewrite <- flux_shift. unfold inb, n2g in *. apply flux_ext.
    - apply V2. lia.
    - intros y Hy. apply U2. lia. }
  assert (T : el (amap2 (fun a b => - a / dq1 c - b / dq2 c)
                 (shift_ax X1 Ax2 (-1) [-] X1) (shift_ax X2 Ax3 (-1) [-] X2)) x s (ng1 L + i) (ng2 L + j)
              = adv_gen x s g1 g2).
  { cbn [el amap2]. rewrite Fa1, Fb1, Fa2, Fb2. rewrite !W1 by lia. rewrite !W2 by lia.
    unfold adv_gen, advect. cbn [kq h1 h2].
    replace (ng1 L + i + 1 + (o1 - ng1 L))%Z with (g1 + 1)%Z by (unfold g1; lia).
    replace (ng1 L + i + (o1 - ng1 L))%Z with g1 by (unfold g1; lia).
    replace (ng2 L + j + 1 + (o2 - ng2 L))%Z with (g2 + 1)%Z by (unfold g2; lia).
    replace (ng2 L + j + (o2 - ng2 L))%Z with g2 by (unfold g2; lia).
    change (kq P) with k1.
    change (h1 P) with (dq1 c). change (h2 P) with (dq2 c). unfold Rdiv. ring. }
  split; [|split].
  - change (src P g1 g2 (fun x' s' => U x' s' g1 g2) x s) with
      (if source_enabled c then source c t (pos1 c (1/2) g1) (pos2 c (1/2) g2) (fun x' s' => U x' s' g1 g2) x s else 0).
    destruct (source_enabled c).
    + unfold amap2 at 1; cbn [el]. rewrite T. f_equal. unfold source_term; cbn [el].
      destruct (q_coords c r1 r2 x s (ng1 L + i) (ng2 L + j) Hk Hl) as (_&_&_&_&_&_&A&B).
      rewrite A, B. fold L o1 o2.
      replace (o1 + (ng1 L + i) - ng1 L)%Z with g1 by (unfold g1; lia).
      replace (o2 + (ng2 L + j) - ng2 L)%Z with g2 by (unfold g2; lia).
      apply W; auto. intros x' s' Hx' Hs'. rewrite (LQ1 x' s' j (ng1 L + i)%Z) by auto. fold g2.
      replace (ng1 L + i + (o1 - ng1 L))%Z with g1 by (unfold g1; lia).
      apply LI; auto; unfold g1, g2, inb in *; lia.
    + rewrite T. lra.
  - rewrite FE1. replace g1 with (ng1 L + i + (o1 - ng1 L))%Z by (unfold g1; lia).
    rewrite <- (upwind_shift k1 _ _ (ng1 L + i) (o1 - ng1 L)). unfold inb, n1g in *. apply upwind_ext; [apply V1; lia|]. intros; apply U1; lia.
  - rewrite FE2. replace g2 with (ng2 L + j + (o2 - ng2 L))%Z by (unfold g2; lia).
    rewrite <- (upwind_shift k1 _ _ (ng2 L + j) (o2 - ng2 L)). unfold inb, n2g in *. apply upwind_ext; [apply V2; lia|]. intros; apply U2; lia.
Qed.
End Gen.

(** Reflection of momenta. *)
Lemma reflect_angle_bound c e x : pos_cfg c -> inb (N_p c) x ->
  inb (N_p c) (reflect_angle e (N_p1 c) (N_p2 c) x).
Proof.
  intros (P1&P2&P3&PS) Hx. destruct (row_split (N_p1 c) (N_p2 c) (N_p3 c) x P1 P2 Hx) as (EX&B1&B2&B3).
  unfold inb in B1, B2, B3.
  unfold reflect_angle, prow. unfold N_p, inb.
  pose proof (Z.mod_pos_bound (N_p2 c / 2 - 1 - (x / N_p1 c) mod N_p2 c) (N_p2 c) P2).
  destruct e; apply (pidx_bound (N_p1 c) (N_p2 c) (N_p3 c)); unfold inb; auto; lia.
Qed.

Lemma reflected_bound c k1 k2 e x : wf_cfg c k1 k2 -> inb (N_p c) x -> inb (N_p c) (reflected c e x).
Proof.
  intros W Hx. pose proof (wf_pos _ _ _ W) as PC. unfold reflected.
  destruct (String.eqb _ _); [apply reverse_normal_bound|apply reflect_angle_bound]; auto.
Qed.

(** ** Boxes *)
Definition covers_box (c : cfg) (bv : inflow_values) (t : R) (r1 r2 : nat) (f : arr R) (U : gstate) : Prop :=
  q_shaped c r1 r2 f
  /\ (forall x s j z, inb (N_p c) x -> inb (N_species c) s -> inb (bsize (blk2 (lay c)) r2) j ->
      inb (n1g (lay c) r1) z ->
      el f x s z (ng2 (lay c) + j)%Z
      = line1 c bv t U x s (off (blk2 (lay c)) r2 + j)%Z (z + (off (blk1 (lay c)) r1 - ng1 (lay c)))%Z)
  /\ (forall x s i z, inb (N_p c) x -> inb (N_species c) s -> inb (bsize (blk1 (lay c)) r1) i ->
      inb (n2g (lay c) r2) z ->
      el f x s (ng1 (lay c) + i)%Z z
      = line2 c bv t U x s (off (blk1 (lay c)) r1 + i)%Z (z + (off (blk2 (lay c)) r2 - ng2 (lay c)))%Z).

Lemma continued_in b n lo inn hi z : (0 <= z < n)%Z -> continued b n lo inn hi z = inn z.
Proof.
  intros H. unfold continued. destruct b.
  - f_equal. apply Z.mod_small; auto.
  - destruct (Z.ltb_spec z 0), (Z.ltb_spec z n); auto; lia.
Qed.

Lemma line1_in c bv t U x s g1 g2 : inb (N_p c) x -> inb (N_species c) s ->
  inb (gN1 (lay c)) g1 -> inb (gN2 (lay c)) g2 -> line1 c bv t U x s g2 g1 = U x s g1 g2.
Proof. intros _ _ H1 _. unfold line1. rewrite continued_in by exact H1. reflexivity. Qed.

Lemma line2_in c bv t U x s g1 g2 : inb (gN2 (lay c)) g2 -> line2 c bv t U x s g1 g2 = U x s g1 g2.
Proof. intros H1. unfold line2. rewrite continued_in by exact H1. reflexivity. Qed.

Lemma box_radius c k1 : box_fvm c k1 -> (radius k1 < ng1 (lay c))%Z /\ (radius k1 < ng2 (lay c))%Z.
Proof. intros (_ & _ & _ & -> & -> & H & _). auto. Qed.

Lemma radius_nonneg k : (0 <= radius k)%Z.
Proof. destruct k; cbn; lia. Qed.

Lemma box_ghosts c k1 : box_fvm c k1 -> (0 < N_ghost c)%Z /\ (0 < ng1 (lay c))%Z /\ (0 < ng2 (lay c))%Z.
Proof. intros (_ & _ & _ & -> & -> & H & _). pose proof (radius_nonneg k1). lia. Qed.

Lemma box_ranges c k1 r1 r2 : box_fvm c k1 -> rank_ok (lay c) r1 r2 ->
  (0 < bsize (blk1 (lay c)) r1 /\ 0 < bsize (blk2 (lay c)) r2 /\ 0 <= off (blk1 (lay c)) r1 /\ 0 <= off (blk2 (lay c)) r2
  /\ off (blk1 (lay c)) r1 + bsize (blk1 (lay c)) r1 <= gN1 (lay c) /\ off (blk2 (lay c)) r2 + bsize (blk2 (lay c)) r2 <= gN2 (lay c)
  /\ 0 < gN1 (lay c) /\ 0 < gN2 (lay c) /\ 0 < ng1 (lay c) /\ 0 < ng2 (lay c))%Z.
Proof.
  intros PF [R1 R2]. destruct (box_ghosts c k1 PF) as (_&G1&G2).
  destruct PF as (_&(N1&F1&S1)&(N2&F2&S2)&_).
  pose proof (bsize_pos (blk1 (lay c)) r1 F1 R1). pose proof (bsize_pos (blk2 (lay c)) r2 F2 R2).
  pose proof (off_nonneg (blk1 (lay c)) r1 F1). pose proof (off_nonneg (blk2 (lay c)) r2 F2).
  pose proof (off_end (blk1 (lay c)) r1 F1 R1). pose proof (off_end (blk2 (lay c)) r2 F2 R2).
  lia.
Qed.

(** Where a local index lies along one axis. *)
Lemma axis_cases N bl g r z : tiles N bl -> Forall (fun b => (g <= b)%Z) bl -> (0 < g)%Z -> (r < List.length bl)%nat ->
  (0 <= z < bsize bl r + 2 * g)%Z ->
  let G := (off bl r + z - g)%Z in
  ((g <= z < g + bsize bl r)%Z /\ (0 <= G < N)%Z)
  \/ ((z < g)%Z /\ ((r = 0%nat /\ off bl r = 0%Z) \/ (r <> 0%nat /\ (0 <= G < N)%Z)))
  \/ ((g + bsize bl r <= z)%Z /\ ((S r = List.length bl /\ (off bl r + bsize bl r = N)%Z)
                                   \/ (S r <> List.length bl /\ (0 <= G < N)%Z))).
Proof.
  intros (NP&F&SM) FG GP HR Hz G.
  pose proof (off_nonneg bl r F). pose proof (off_end bl r F HR). pose proof (bsize_pos bl r F HR).
  rewrite SM in *.
  assert (BG : forall q, (q < List.length bl)%nat -> (g <= bsize bl q)%Z).
  { intros q Hq. unfold bsize. rewrite Forall_forall in FG. apply FG, nth_In; auto. }
  destruct (Z.lt_ge_cases z g) as [C1|C1]; [right; left; split; [auto|]|].
  - destruct r as [|r'].
    + left. split; auto.
    + right. split; [discriminate|]. unfold G. rewrite off_S in * by lia.
      assert (r' < List.length bl)%nat by lia. pose proof (BG r' ltac:(auto)). pose proof (off_nonneg bl r' F). lia.
  - destruct (Z.lt_ge_cases z (g + bsize bl r)) as [C2|C2]; [left; unfold G; lia|right; right; split; [auto|]].
    destruct (Nat.eq_dec (S r) (List.length bl)) as [E|E].
    + left. split; auto.
      assert (X := off_S bl r HR). rewrite E in X. unfold off in X at 1. rewrite firstn_all in X. lia.
    + right. split; auto. unfold G. assert (S r < List.length bl)%nat by lia.
      pose proof (off_S bl r HR). pose proof (BG (S r) ltac:(auto)). pose proof (off_end bl (S r) F ltac:(auto)). lia.
Qed.

Lemma global_in b N g : (0 <= g < N)%Z -> global_index b N g = Some g.
Proof.
  intros H. destruct b; cbn [global_index].
  - rewrite Z.mod_small; auto.
  - destruct (Z.leb_spec 0 g), (Z.ltb_spec g N); cbn; auto; lia.
  - destruct (Z.leb_spec 0 g), (Z.ltb_spec g N); cbn; auto; lia.
Qed.

Section After.
Variables (c : cfg) (bv : inflow_values) (k1 k2 : scheme) (r1 r2 : nat) (t : R) (s0 : fstate).
Local Notation L := (lay c).
Let U : gstate := gval L (sf s0).
Hypothesis W : wf_cfg c k1 k2.
Hypothesis BX : box_fvm c k1.
Hypothesis PV : prescribes c bv.
Hypothesis SH : shaped L (N_p c) (N_species c) (sf s0).
Hypothesis RK : rank_ok L r1 r2.
Let F := sf (communicate_f c s0) r1 r2.

Lemma comm_shaped : q_shaped c r1 r2 F.
Proof. repeat split. Qed.

(** The ghost exchange at a local cell that stands for global cell (g1, g2). *)
Lemma comm_val x s i j g1 g2 : inb (N_p c) x -> inb (N_species c) s -> inb (n1g L r1) i -> inb (n2g L r2) j ->
  global_index (pbc1 L) (gN1 L) (off (blk1 L) r1 + i - ng1 L) = Some g1 ->
  global_index (pbc2 L) (gN2 L) (off (blk2 L) r2 + j - ng2 L) = Some g2 ->
  el F x s i j = U x s g1 g2.
Proof using BX SH RK.
  intros. destruct (box_ghosts c k1 BX) as (_&G1&G2). destruct BX as (_&T1&T2&_).
  unfold F, communicate_f; cbn [sf]. apply communicate_gen; auto.
Qed.

Lemma box_edge e : in_q c e = "periodic"%string \/ wall (in_q c e).
Proof using BX.
  destruct BX as (_&_&_&_&_&_&_&_&S1&S2&_). unfold sides in *. destruct e; tauto.
Qed.

Lemma box_accepted e : accepted c e.
Proof using BX.
  split.
  - destruct (box_edge e) as [-> | [-> | ->]]; cbn; auto 10.
  - intros _. destruct BX as (_&_&_&_&_&_&_&_&_&_&GO). tauto.
Qed.

Lemma box_no_shear e : in_q c e <> "shearing-box"%string.
Proof using BX. destruct (box_edge e) as [-> | [-> | ->]]; discriminate. Qed.

Lemma box_grid : grid_ok c.
Proof using BX. unfold grid_ok. destruct BX as (_&_&_&_&_&_&_&_&_&_&GO). exact GO. Qed.

Lemma box_roomy e : roomy e (N_ghost c) (n1g L r1) (n2g L r2).
Proof using BX RK.
  pose proof (box_ranges c k1 r1 r2 BX RK) as RG. destruct BX as (_&_&_&G1&G2&_).
  destruct e; unfold roomy, n1g, n2g; lia.
Qed.

Lemma after_ok : exists f', apply_bcs_f c r1 r2 t F = Ok f'.
Proof using BX.
  apply (bcs_error c r1 r2 t F); intros; [apply box_no_shear|apply box_accepted].
Qed.

Lemma block_wide : (N_ghost c <= bsize (blk1 L) r1)%Z /\ (N_ghost c <= bsize (blk2 L) r2)%Z.
Proof using BX RK.
  destruct BX as (_&_&_&_&_&_&B1&B2&_). destruct RK as [R1 R2]. 
  rewrite Forall_forall in B1, B2. split; [apply B1|apply B2]; apply nth_In; auto.
Qed.

Lemma wall_names e m b f v : wall (in_q c e) ->
  wall_value (in_q c e) (inflow_dec e v) m b f = wall_value (in_q c e) (inflow_dec e v) m b 0.
Proof. intros [-> | ->]; reflexivity. Qed.

Lemma covers_box_after : exists f', apply_bcs_f c r1 r2 t F = Ok f' /\ covers_box c bv t r1 r2 f' U.
Proof using All.
  destruct after_ok as (f'&Q). exists f'. split; [exact Q|].
  destruct (box_ghosts c k1 BX) as (GP&_&_).
  pose proof (box_ranges c k1 r1 r2 BX RK) as (B1&B2&O1&O2&TE1&TE2&N1&N2&G1&G2).
  pose proof (block_wide) as (W1&W2).
  assert (RM : forall e, acts (in_q c e) = true -> roomy e (N_ghost c) (n1g (lay c) r1) (n2g (lay c) r2))
    by (intros; apply box_roomy).
  destruct (bcs_interior c r1 r2 t GP RM F f' comm_shaped Q) as (DF&VI).
  pose proof BX as (_&T1&T2&NG1&NG2&_&FB1&FB2&S1&S2&_).
  destruct (touches_spec (lay c) r1 r2 T1 T2 RK) as (TL&TR&TB&TT).
  assert (GH : forall e x s i j, touches (lay c) r1 r2 e = true ->
     inb (N_p c) x -> inb (N_species c) s -> inb (n1g (lay c) r1) i -> inb (n2g (lay c) r2) j ->
     in_slab e (N_ghost c) (n1g (lay c) r1) (n2g (lay c) r2) i j = true -> clear_but c r1 r2 e i j ->
     let m := mirror_cell e (N_ghost c) (n1g (lay c) r1) (n2g (lay c) r2) i j in
     el f' x s i j = wall_value (in_q c e)
      (inflow_dec e (bc_velocity c t x s (off (blk1 (lay c)) r1 + i - ng1 (lay c))
                                         (off (blk2 (lay c)) r2 + j - ng2 (lay c))))
      (el F (reflected c e x) s (fst m) (snd m))
      (bv e t x s (off (blk1 (lay c)) r1 + i - ng1 (lay c)) (off (blk2 (lay c)) r2 + j - ng2 (lay c)))%Z
      (el F x s i j)).
  { intros e x s i j T Hx Hs Hi Hj SL CL m.
    apply (bcs_ghost c k1 k2 r1 r2 t e F f' _ x s i j W box_grid GP RM (box_no_shear e) comm_shaped Q T); auto.
    - intros HD h Dh. destruct HD as [HD|HD].
      + exfalso. destruct (box_edge e) as [E|[E|E]]; congruence.
      + destruct (PV e t r1 r2 h HD RK Dh) as (D'&V'). split; [exact D'|]. apply V'; auto.
    - unfold n1g, n2g. destruct e; lia. }
  assert (RB : forall e x, inb (N_p c) x -> inb (N_p c) (reflected c e x)) by (intros; apply reflected_bound with (k1 := k1) (k2 := k2); auto).
  assert (NZ : forall i, (ng1 L <= i < ng1 L + bsize (blk1 L) r1)%Z -> 
            in_slab ELeft (N_ghost c) (n1g L r1) (n2g L r2) i 0 = false /\ in_slab ERight (N_ghost c) (n1g L r1) (n2g L r2) i 0 = false).
  { intros i Hi. unfold in_slab, n1g. rewrite NG1 in *. split; [apply Z.ltb_ge|apply Z.leb_gt]; lia. }
  assert (NZ2 : forall j, (ng2 L <= j < ng2 L + bsize (blk2 L) r2)%Z -> 
            in_slab EBottom (N_ghost c) (n1g L r1) (n2g L r2) 0 j = false /\ in_slab ETop (N_ghost c) (n1g L r1) (n2g L r2) 0 j = false).
  { intros i Hi. unfold in_slab, n2g. rewrite NG2 in *. split; [apply Z.ltb_ge|apply Z.leb_gt]; lia. }
  split; [exact DF|split].
  - intros x s j z Hx Hs Hj Hz. unfold inb in Hj, Hz.
    assert (J2 : inb (n2g L r2) (ng2 L + j)) by (unfold inb, n2g; lia).
    assert (GJ : global_index (pbc2 L) (gN2 L) (off (blk2 L) r2 + (ng2 L + j) - ng2 L) = Some (off (blk2 L) r2 + j)%Z)
      by (replace (off (blk2 L) r2 + (ng2 L + j) - ng2 L)%Z with (off (blk2 L) r2 + j)%Z by lia; apply global_in; lia).
    destruct (NZ2 (ng2 L + j)%Z ltac:(lia)) as (SB&ST). cbn [in_slab] in SB, ST.
    replace (z + (off (blk1 L) r1 - ng1 L))%Z with (off (blk1 L) r1 + z - ng1 L)%Z by lia.
    assert (INR : (0 <= off (blk1 L) r1 + z - ng1 L < gN1 L)%Z ->
       (touches L r1 r2 ELeft = true -> (ng1 L <= z)%Z) -> (touches L r1 r2 ERight = true -> (z < ng1 L + bsize (blk1 L) r1)%Z) ->
       el f' x s z (ng2 L + j)%Z = line1 c bv t U x s (off (blk2 L) r2 + j)%Z (off (blk1 L) r1 + z - ng1 L)%Z).
    { intros HG HL HR. rewrite VI; auto.
      - rewrite (comm_val x s z (ng2 L + j)%Z (off (blk1 L) r1 + z - ng1 L)%Z (off (blk2 L) r2 + j)%Z); auto.
        + symmetry. apply line1_in; auto. unfold inb; lia.
        + apply global_in; auto.
      - intros e T. destruct e; cbn [in_slab]; auto.
        + apply Z.ltb_ge. rewrite <- NG1. auto.
        + apply Z.leb_gt. specialize (HR T). unfold n1g. lia. }
    destruct (axis_cases (gN1 L) (blk1 L) (ng1 L) r1 z T1) as [(C1&C2)|[(C1&[(C2&C3)|(C2&C3)])|(C1&[(C2&C3)|(C2&C3)])]];
      auto; try (rewrite NG1; exact FB1); try apply RK.
    + apply INR; lia.
    + (* left wall *)
      assert (T : touches L r1 r2 ELeft = true) by (apply TL; auto).
      rewrite (GH ELeft x s z (ng2 L + j)%Z T Hx Hs Hz J2); [|cbn; apply Z.ltb_lt; lia|].
      2:{ intros e NE T'. destruct e; cbn [in_slab]; auto; [congruence|]. apply Z.leb_gt. unfold n1g. lia. }
      cbn [mirror_cell fst snd].
      replace (off (blk2 L) r2 + (ng2 L + j) - ng2 L)%Z with (off (blk2 L) r2 + j)%Z in * by lia.
      unfold line1. destruct S1 as [(PB&E1&E2)|(PB&WL&WR)].
      * rewrite E1. cbn [wall_value String.eqb Ascii.eqb Bool.eqb continued].
        change (el F x s z (ng2 L + j)%Z = U x s ((off (blk1 L) r1 + z - ng1 L) mod gN1 L)%Z (off (blk2 L) r2 + j)%Z).
        apply comm_val; auto.
        -- rewrite PB. reflexivity.
        -- replace (off (blk2 L) r2 + (ng2 L + j) - ng2 L)%Z with (off (blk2 L) r2 + j)%Z by lia. exact GJ.
      * replace (String.eqb (in_q c ELeft) "periodic") with false
          by (destruct WL as [-> | ->]; reflexivity).
        unfold continued. destruct (Z.ltb_spec (off (blk1 L) r1 + z - ng1 L) 0); [|lia].
        unfold beyond. rewrite wall_names by auto. f_equal.
        apply comm_val; auto; try (unfold inb, n1g in *; lia).
        -- match goal with |- global_index _ _ ?a = Some ?b => replace a with b by (unfold n1g, n2g; lia) end; apply global_in; unfold n1g, n2g in *; lia.
        -- replace (off (blk2 L) r2 + (ng2 L + j) - ng2 L)%Z with (off (blk2 L) r2 + j)%Z by lia. exact GJ.
    + apply INR; auto; try lia. intros T. apply TL in T. contradiction.
    + (* right wall *)
      assert (T : touches L r1 r2 ERight = true) by (apply TR; auto).
      rewrite (GH ERight x s z (ng2 L + j)%Z T Hx Hs Hz J2); [|cbn; apply Z.leb_le; unfold n1g; lia|].
      2:{ intros e NE T'. destruct e; cbn [in_slab]; auto; [|congruence]. apply Z.ltb_ge. lia. }
      cbn [mirror_cell fst snd].
      replace (off (blk2 L) r2 + (ng2 L + j) - ng2 L)%Z with (off (blk2 L) r2 + j)%Z in * by lia.
      unfold line1. destruct S1 as [(PB&E1&E2)|(PB&WL&WR)].
      * rewrite E1, E2. cbn [wall_value String.eqb Ascii.eqb Bool.eqb continued].
        change (el F x s z (ng2 L + j)%Z = U x s ((off (blk1 L) r1 + z - ng1 L) mod gN1 L)%Z (off (blk2 L) r2 + j)%Z).
        apply comm_val; auto.
        -- rewrite PB. reflexivity.
        -- replace (off (blk2 L) r2 + (ng2 L + j) - ng2 L)%Z with (off (blk2 L) r2 + j)%Z by lia. exact GJ.
      * replace (String.eqb (in_q c ELeft) "periodic") with false
          by (destruct WL as [-> | ->]; reflexivity).
        unfold continued. destruct (Z.ltb_spec (off (blk1 L) r1 + z - ng1 L) 0); [lia|].
        destruct (Z.ltb_spec (off (blk1 L) r1 + z - ng1 L) (gN1 L)); [lia|].
        unfold beyond. rewrite wall_names by auto. f_equal.
        apply comm_val; auto; try (unfold inb, n1g in *; lia).
        -- match goal with |- global_index _ _ ?a = Some ?b => replace a with b by (unfold n1g, n2g; lia) end; apply global_in; unfold n1g, n2g in *; lia.
        -- replace (off (blk2 L) r2 + (ng2 L + j) - ng2 L)%Z with (off (blk2 L) r2 + j)%Z by lia. exact GJ.
    + apply INR; auto; try lia. intros T. apply TR in T. contradiction.
  - intros x s i z Hx Hs Hi Hz. unfold inb in Hi, Hz.
    assert (J1 : inb (n1g L r1) (ng1 L + i)) by (unfold inb, n1g; lia).
    assert (GI : global_index (pbc1 L) (gN1 L) (off (blk1 L) r1 + (ng1 L + i) - ng1 L) = Some (off (blk1 L) r1 + i)%Z)
      by (replace (off (blk1 L) r1 + (ng1 L + i) - ng1 L)%Z with (off (blk1 L) r1 + i)%Z by lia; apply global_in; lia).
    destruct (NZ (ng1 L + i)%Z ltac:(lia)) as (SL&SR). cbn [in_slab] in SL, SR.
    replace (z + (off (blk2 L) r2 - ng2 L))%Z with (off (blk2 L) r2 + z - ng2 L)%Z by lia.
    assert (INR : (0 <= off (blk2 L) r2 + z - ng2 L < gN2 L)%Z ->
       (touches L r1 r2 EBottom = true -> (ng2 L <= z)%Z) -> (touches L r1 r2 ETop = true -> (z < ng2 L + bsize (blk2 L) r2)%Z) ->
       el f' x s (ng1 L + i)%Z z = line2 c bv t U x s (off (blk1 L) r1 + i)%Z (off (blk2 L) r2 + z - ng2 L)%Z).
    { intros HG HL HR. rewrite VI; auto.
      - rewrite (comm_val x s (ng1 L + i)%Z z (off (blk1 L) r1 + i)%Z (off (blk2 L) r2 + z - ng2 L)%Z); auto.
        + symmetry. apply line2_in; auto.
        + apply global_in; auto.
      - intros e T. destruct e; cbn [in_slab]; auto.
        + apply Z.ltb_ge. rewrite <- NG2. auto.
        + apply Z.leb_gt. specialize (HR T). unfold n2g. lia. }
    destruct (axis_cases (gN2 L) (blk2 L) (ng2 L) r2 z T2) as [(C1&C2)|[(C1&[(C2&C3)|(C2&C3)])|(C1&[(C2&C3)|(C2&C3)])]];
      auto; try (rewrite NG2; exact FB2); try apply RK.
    + apply INR; lia.
    + (* bottom wall *)
      assert (T : touches L r1 r2 EBottom = true) by (apply TB; auto).
      rewrite (GH EBottom x s (ng1 L + i)%Z z T Hx Hs J1 Hz); [|cbn; apply Z.ltb_lt; lia|].
      2:{ intros e NE T'. destruct e; cbn [in_slab]; auto; [congruence|]. apply Z.leb_gt. unfold n2g. lia. }
      cbn [mirror_cell fst snd].
      replace (off (blk1 L) r1 + (ng1 L + i) - ng1 L)%Z with (off (blk1 L) r1 + i)%Z in * by lia.
      unfold line2. destruct S2 as [(PB&E1&E2)|(PB&WL&WR)].
      * rewrite E1. cbn [wall_value String.eqb Ascii.eqb Bool.eqb continued].
        change (el F x s (ng1 L + i)%Z z = U x s (off (blk1 L) r1 + i)%Z ((off (blk2 L) r2 + z - ng2 L) mod gN2 L)%Z).
        apply comm_val; auto.
        -- replace (off (blk1 L) r1 + (ng1 L + i) - ng1 L)%Z with (off (blk1 L) r1 + i)%Z by lia. exact GI.
        -- rewrite PB. reflexivity.
      * replace (String.eqb (in_q c EBottom) "periodic") with false
          by (destruct WL as [-> | ->]; reflexivity).
        unfold continued. destruct (Z.ltb_spec (off (blk2 L) r2 + z - ng2 L) 0); [|lia].
        unfold beyond. rewrite wall_names by auto. f_equal.
        apply comm_val; auto; try (unfold inb, n2g in *; lia).
        -- replace (off (blk1 L) r1 + (ng1 L + i) - ng1 L)%Z with (off (blk1 L) r1 + i)%Z by lia. exact GI.
        -- match goal with |- global_index _ _ ?a = Some ?b => replace a with b by (unfold n1g, n2g; lia) end; apply global_in; unfold n1g, n2g in *; lia.
    + apply INR; auto; try lia. intros T. apply TB in T. contradiction.
    + (* top wall *)
      assert (T : touches L r1 r2 ETop = true) by (apply TT; auto).
      rewrite (GH ETop x s (ng1 L + i)%Z z T Hx Hs J1 Hz); [|cbn; apply Z.leb_le; unfold n2g; lia|].
      2:{ intros e NE T'. destruct e; cbn [in_slab]; auto; [|congruence]. apply Z.ltb_ge. lia. }
      cbn [mirror_cell fst snd].
      replace (off (blk1 L) r1 + (ng1 L + i) - ng1 L)%Z with (off (blk1 L) r1 + i)%Z in * by lia.
      unfold line2. destruct S2 as [(PB&E1&E2)|(PB&WL&WR)].
      * rewrite E1, E2. cbn [wall_value String.eqb Ascii.eqb Bool.eqb continued].
        change (el F x s (ng1 L + i)%Z z = U x s (off (blk1 L) r1 + i)%Z ((off (blk2 L) r2 + z - ng2 L) mod gN2 L)%Z).
        apply comm_val; auto.
        -- replace (off (blk1 L) r1 + (ng1 L + i) - ng1 L)%Z with (off (blk1 L) r1 + i)%Z by lia. exact GI.
        -- rewrite PB. reflexivity.
      * replace (String.eqb (in_q c EBottom) "periodic") with false
          by (destruct WL as [-> | ->]; reflexivity).
        unfold continued. destruct (Z.ltb_spec (off (blk2 L) r2 + z - ng2 L) 0); [lia|].
        destruct (Z.ltb_spec (off (blk2 L) r2 + z - ng2 L) (gN2 L)); [lia|].
        unfold beyond. rewrite wall_names by auto. f_equal.
        apply comm_val; auto; try (unfold inb, n2g in *; lia).
        -- replace (off (blk1 L) r1 + (ng1 L + i) - ng1 L)%Z with (off (blk1 L) r1 + i)%Z by lia. exact GI.
        -- match goal with |- global_index _ _ ?a = Some ?b => replace a with b by (unfold n1g, n2g; lia) end; apply global_in; unfold n1g, n2g in *; lia.
    + apply INR; auto; try lia. intros T. apply TT in T. contradiction.
Qed.
End After.

(** Two states that agree on the grid have the same right-hand side there. *)
Definition reach (k : scheme) (g n : Z) : Prop := (radius k < g <= n)%Z.

Lemma axis_min c k1 : box_fvm c k1 -> (N_ghost c <= gN1 (lay c))%Z /\ (N_ghost c <= gN2 (lay c))%Z.
Proof.
  intros BX. destruct BX as (_&(P1&F1&S1)&(P2&F2&S2)&_&_&_&B1&B2&_).
  assert (H : forall N bl, (0 < N)%Z -> Forall (fun b => (0 < b)%Z) bl -> zlsum bl = N ->
    Forall (fun b => (N_ghost c <= b)%Z) bl -> (N_ghost c <= N)%Z).
  { intros N bl HN F S B. destruct bl as [|b bl]; [cbn in S; lia|].
    inversion F as [|? ? ? F']; inversion B; subst. pose proof (zlsum_nonneg bl F'). cbn. fold (zlsum bl). lia. }
  split; [apply (H _ (blk1 (lay c)))|apply (H _ (blk2 (lay c)))]; auto.
Qed.

Lemma continued_ext b n lo lo' inn inn' hi hi' z r : (0 < n)%Z -> (r <= n)%Z -> (- r <= z < n + r)%Z ->
  (forall y, (0 <= y < n)%Z -> inn y = inn' y) ->
  (forall y, (- r <= y < 0)%Z -> lo y = lo' y) -> (forall y, (n <= y < n + r)%Z -> hi y = hi' y) ->
  continued b n lo inn hi z = continued b n lo' inn' hi' z.
Proof.
  intros HN HR HZ HI HL HH. unfold continued. destruct b.
  - apply HI. apply Z.mod_pos_bound; auto.
  - destruct (Z.ltb_spec z 0); [apply HL; lia|]. destruct (Z.ltb_spec z n); [apply HI; lia|apply HH; lia].
Qed.

Lemma wall_value_ext {p : Prop} nm (d : {p} + {~ p}) m m' b f : m = m' ->
  wall_value nm d m b f = wall_value nm d m' b f.
Proof. intros ->. reflexivity. Qed.

Lemma rhs_box_ext c bv tb k1 k2 t E u v : wf_cfg c k1 k2 -> box_fvm c k1 ->
  gagree (prob c k1 k2 t E) (N_species c) u v ->
  gagree (prob c k1 k2 t E) (N_species c) (rhs_box c bv tb (prob c k1 k2 t E) u) (rhs_box c bv tb (prob c k1 k2 t E) v).
Proof.
  intros W BX H x s g1 g2 Hx Hs H1 H2. unfold rhs_box.
  destruct (axis_min c k1 BX) as (A1&A2). pose proof (box_ghosts c k1 BX) as (GP&_).
  assert (RD : (radius k1 < N_ghost c)%Z) by apply BX.
  assert (RB : forall e x, inb (N_p c) x -> inb (N_p c) (reflected c e x))
    by (intros; apply reflected_bound with (k1 := k1) (k2 := k2); auto).
  change (inb (N_p c) x) in Hx. change (inb (gN1 (lay c)) g1) in H1. change (inb (gN2 (lay c)) g2) in H2.
  assert (HU : forall x s g1 g2, inb (N_p c) x -> inb (N_species c) s -> inb (gN1 (lay c)) g1 -> inb (gN2 (lay c)) g2 -> u x s g1 g2 = v x s g1 g2) by exact H.
  unfold inb in H1, H2.
  f_equal; [f_equal|].
  - unfold advect_box. f_equal; apply advect_ext; auto; change (kq (prob c k1 k2 t E)) with k1; intros z Hz.
    + apply continued_ext with (r := N_ghost c); auto; try lia; intros y Hy;
        solve [apply HU; auto | apply wall_value_ext; apply HU; auto; unfold inb; lia].
    + apply continued_ext with (r := N_ghost c); auto; try lia; intros y Hy;
        solve [apply HU; auto | apply wall_value_ext; apply HU; auto; unfold inb; lia].
  - unfold prob, problem_of, problem_at; cbn [src]. destruct (source_enabled c); auto.
    apply W; auto.
  - pose proof (wf_pos _ _ _ W) as (P1&P2&P3&PS).
    apply advect_p_ext; auto.
Qed.

Lemma df_dt_fvm_box c bv tb k1 k2 r1 r2 t (A : fieldseq) (E : fields3) f U :
  wf_cfg c k1 k2 -> box_fvm c k1 -> rank_ok (lay c) r1 r2 -> covers_box c bv tb r1 r2 f U ->
  shows3 (lay c) A E ->
  exists d, df_dt_fvm c r1 r2 t (fst (fst (A r1 r2))) (snd (fst (A r1 r2))) (snd (A r1 r2)) f = Ok d
  /\ q_shaped c r1 r2 d
  /\ forall x s i j, inb (N_p c) x -> inb (N_species c) s ->
     inb (bsize (blk1 (lay c)) r1) i -> inb (bsize (blk2 (lay c)) r2) j ->
     el d x s (ng1 (lay c) + i)%Z (ng2 (lay c) + j)%Z
     = rhs_box c bv tb (prob c k1 k2 t E) U x s (off (blk1 (lay c)) r1 + i)%Z (off (blk2 (lay c)) r2 + j)%Z.
Proof.
  intros W PF RK CV SH. pose proof (box_ranges c k1 r1 r2 PF RK) as RG; pose proof RG as (B1&B2&O1&O2&T1&T2&N1&N2&G1&G2).
  pose proof (wf_pos _ _ _ W) as PC.
  destruct CV as (DM&LQ1&LQ2).
  destruct (df_dt_q_gen c k1 k2 r1 r2 t (fst (fst E)) (snd (fst E)) (snd E) f U
    (line1 c bv tb U) (line2 c bv tb U) W RG (box_radius c k1 PF) RK DM LQ1 LQ2 (line1_in c bv tb U))
    as (dq&fl&fb&Q&Dq&_&_&V).
  assert (HQ : solver_method_in_q c = "FVM"%string) by apply PF.
  unfold df_dt_fvm. rewrite HQ, Q. cbn [rbind String.eqb Ascii.eqb Bool.eqb].
  fold (prob c k1 k2 t E) in V. fold (p_is_fvm c).
  assert (ZP : forall w x s g1 g2, p_is_fvm c = false -> advect_p (prob c k1 k2 t E) g1 g2 w x s = 0).
  { intros w x s g1 g2 HF. unfold advect_p, prob, problem_of, problem_at; cbn [acc1 acc2 acc3 M1 M2 M3 kp hp1 hp2 hp3].
    rewrite HF. unfold advect, flux, periodic. unfold Rdiv. ring. }
  destruct (p_is_fvm c) eqn:HF.
  - assert (WL : Z.of_nat (List.length (dp1 c)) = N_species c /\ Z.of_nat (List.length (dp2 c)) = N_species c
      /\ Z.of_nat (List.length (dp3 c)) = N_species c
      /\ scheme_of_name (reconstruction_method_in_p c) = Some k2)
      by (unfold wf_cfg in W; tauto).
    destruct WL as (L1&L2&L3&Hmp).
    assert (Gp : (0 < n1g (lay c) r1)%Z /\ (0 < n2g (lay c) r2)%Z) by (unfold n1g, n2g; lia).
    set (C1 := force_p1 c r1 r2 t (fst (fst (A r1 r2)))).
    set (C2 := force_p2 c r1 r2 t (snd (fst (A r1 r2)))).
    set (C3 := force_p3 c r1 r2 t (snd (A r1 r2))).
    destruct (df_dt_p_spec c k2 r1 r2 PC Hmp Gp C1 C2 C3 f (prob c k1 k2 t E) L1 L2 L3)
      as (dp&Qp&Dp&Vp); try reflexivity; try (repeat split; reflexivity); [exact DM|].
    rewrite Qp. cbn [rbind]. eexists; split; [reflexivity|].
    split. { destruct Dq as (A0&A1&A2&A3). repeat split; assumption. }
    intros x s i j Hx Hs Hi Hj. cbn [el amap2]. destruct (V x s i j Hx Hs Hi Hj) as [V' _].
    rewrite V'. unfold rhs_box. f_equal.
    assert (Hk : inb (n1g (lay c) r1) (ng1 (lay c) + i)) by (unfold inb, n1g in *; lia).
    assert (Hl : inb (n2g (lay c) r2) (ng2 (lay c) + j)) by (unfold inb, n2g in *; lia).
    apply (Vp s (ng1 (lay c) + i)%Z (ng2 (lay c) + j)%Z); auto.
    + intros x' Hx'. rewrite (LQ1 x' s j (ng1 (lay c) + i)%Z) by auto.
      replace (ng1 (lay c) + i + (off (blk1 (lay c)) r1 - ng1 (lay c)))%Z
        with (off (blk1 (lay c)) r1 + i)%Z by lia. apply line1_in; auto; unfold inb in *; lia.
    + intros x' Hx'. unfold C1, force_p1.
      erewrite force_el; eauto.
      * unfold prob, problem_of, problem_at; cbn [acc1]. rewrite HF. reflexivity.
      * intros n Hn. apply SH; auto.
      * intros; eapply p_centers; eauto.
      * intros; eapply p_centers; eauto.
      * intros; eapply p_centers; eauto.
    + intros x' Hx'. unfold C2, force_p2.
      erewrite force_el; eauto.
      * unfold prob, problem_of, problem_at; cbn [acc2]. rewrite HF. reflexivity.
      * intros n Hn. apply SH; auto.
      * intros; eapply p_centers; eauto.
      * intros; eapply p_centers; eauto.
      * intros; eapply p_centers; eauto.
    + intros x' Hx'. unfold C3, force_p3.
      erewrite force_el; eauto.
      * unfold prob, problem_of, problem_at; cbn [acc3]. rewrite HF. reflexivity.
      * intros n Hn. apply SH; auto.
      * intros; eapply p_centers; eauto.
      * intros; eapply p_centers; eauto.
      * intros; eapply p_centers; eauto.
  - eexists; split; [reflexivity|]. split; [exact Dq|].
    intros x s i j Hx Hs Hi Hj. destruct (V x s i j Hx Hs Hi Hj) as [V' _]. rewrite V'.
    unfold rhs_box. rewrite ZP by auto. rewrite Rplus_0_r. reflexivity.
Qed.

Theorem timestep_fvm_box c bv k1 k2 t dt A0 Ah E0 Eh s :
  wf_cfg c k1 k2 -> box_fvm c k1 -> prescribes c bv -> shaped (lay c) (N_p c) (N_species c) (sf s) ->
  shows3 (lay c) A0 E0 -> shows3 (lay c) Ah Eh ->
  exists s', timestep_fvm c t dt A0 Ah s = Ok s'
  /\ shaped (lay c) (N_p c) (N_species c) (sf s')
  /\ forall x sp g1 g2, inb (N_p c) x -> inb (N_species c) sp ->
     inb (gN1 (lay c)) g1 -> inb (gN2 (lay c)) g2 ->
     gval (lay c) (sf s') x sp g1 g2
     = midpoint_box c bv t (prob c k1 k2 t E0) (prob c k1 k2 t Eh) dt (gval (lay c) (sf s)) x sp g1 g2.
Proof.
  intros W PF PV SH S0 Sh. set (L := lay c) in *.
  pose proof PF as (_&T1&T2&_). fold L in T1, T2.
  assert (NG : (0 < ng1 L)%Z /\ (0 < ng2 L)%Z) by (destruct (box_ghosts c k1 PF) as (_&?&?); auto).
  set (U := gval L (sf s)).
  unfold timestep_fvm. fold L.
  set (s1 := communicate_f c s).
  destruct (all_ranks_ok L (fun r1 r2 => apply_bcs_f c r1 r2 t (sf s1 r1 r2))) as (f0&Q0&V0).
  { intros r1 r2 RK. destruct (covers_box_after c bv k1 k2 r1 r2 t s W PF PV SH RK) as (f'&Q&_). eauto. }
  rewrite Q0. cbn [rbind].
  assert (C0 : forall r1 r2, rank_ok L r1 r2 -> covers_box c bv t r1 r2 (f0 r1 r2) U).
  { intros r1 r2 RK. specialize (V0 r1 r2 RK).
    destruct (covers_box_after c bv k1 k2 r1 r2 t s W PF PV SH RK) as (f'&Q&CV).
    fold s1 in Q. rewrite Q in V0. injection V0 as <-. exact CV. }
  destruct (all_ranks_ok L (fun r1 r2 => let '(a1, a2, a3) := A0 r1 r2 in
      let? d := df_dt_fvm c r1 r2 t a1 a2 a3 (f0 r1 r2) in
      Ok (amap2 (fun f d => f + d * (dt / 2)) (f0 r1 r2) d))) as (fh&Qh&Vh).
  { intros r1 r2 RK. destruct (df_dt_fvm_box c bv t k1 k2 r1 r2 t A0 E0 _ _ W PF RK (C0 _ _ RK) S0) as (d&Qd&_).
    destruct (A0 r1 r2) as [[a1 a2] a3]. cbn [fst snd] in Qd. rewrite Qd. cbn [rbind]. eauto. }
  rewrite Qh. cbn [rbind].
  assert (Sfh : shaped L (N_p c) (N_species c) fh /\ forall x sp g1 g2, inb (N_p c) x -> inb (N_species c) sp ->
     inb (gN1 L) g1 -> inb (gN2 L) g2 ->
     gval L fh x sp g1 g2 = U x sp g1 g2 + dt / 2 * rhs_box c bv t (prob c k1 k2 t E0) U x sp g1 g2).
  { split.
    - intros r1 r2 RK. specialize (Vh r1 r2 RK).
      destruct (df_dt_fvm_box c bv t k1 k2 r1 r2 t A0 E0 _ _ W PF RK (C0 _ _ RK) S0) as (d&Qd&_).
      destruct (A0 r1 r2) as [[a1 a2] a3]. cbn [fst snd] in Qd. rewrite Qd in Vh. cbn [rbind] in Vh.
      injection Vh as <-. destruct (C0 _ _ RK) as (Df&_). exact Df.
    - intros x sp g1 g2 Hx Hs H1 H2. unfold gval.
      destruct (owner_spec (blk1 L) g1) as [R1 B1]; [apply T1|destruct T1 as (_&_&->); exact H1|].
      destruct (owner_spec (blk2 L) g2) as [R2 B2]; [apply T2|destruct T2 as (_&_&->); exact H2|].
      set (r1 := owner (blk1 L) g1) in *. set (r2 := owner (blk2 L) g2) in *.
      assert (RK : rank_ok L r1 r2) by (split; auto).
      specialize (Vh r1 r2 RK). pose proof (C0 _ _ RK) as CV.
      destruct (df_dt_fvm_box c bv t k1 k2 r1 r2 t A0 E0 _ _ W PF RK CV S0) as (d&Qd&_&Vd).
      destruct (A0 r1 r2) as [[a1 a2] a3]. cbn [fst snd] in Qd. rewrite Qd in Vh. cbn [rbind] in Vh.
      injection Vh as <-. cbn [el amap2]. fold L in Vd. unfold inb in *.
      rewrite Vd by (unfold inb; auto; lia).
      rewrite (proj1 (proj2 CV) x sp) by (fold L; unfold inb, n1g in *; auto; lia).
      fold L.
      replace (ng1 L + (g1 - off (blk1 L) r1) + (off (blk1 L) r1 - ng1 L))%Z with g1 by lia.
      replace (off (blk1 L) r1 + (g1 - off (blk1 L) r1))%Z with g1 by lia.
      replace (off (blk2 L) r2 + (g2 - off (blk2 L) r2))%Z with g2 by lia.
      rewrite line1_in by (unfold inb; auto). lra. }
  destruct Sfh as [Sfh Gfh].
  set (s2 := communicate_f c (FState fh (sbuf s1))).
  destruct (all_ranks_ok L (fun r1 r2 => apply_bcs_f c r1 r2 t (sf s2 r1 r2))) as (f2&Q2&V2).
  { intros r1 r2 RK. destruct (covers_box_after c bv k1 k2 r1 r2 t (FState fh (sbuf s1)) W PF PV Sfh RK) as (f'&Q&_). eauto. }
  rewrite Q2. cbn [rbind].
  assert (C2 : forall r1 r2, rank_ok L r1 r2 -> covers_box c bv t r1 r2 (f2 r1 r2) (gval L fh)).
  { intros r1 r2 RK. specialize (V2 r1 r2 RK).
    destruct (covers_box_after c bv k1 k2 r1 r2 t (FState fh (sbuf s1)) W PF PV Sfh RK) as (f'&Q&CV).
    fold s2 in Q. rewrite Q in V2. injection V2 as <-. exact CV. }
  destruct (all_ranks_ok L (fun r1 r2 => let '(a1, a2, a3) := Ah r1 r2 in
      let? d := df_dt_fvm c r1 r2 t a1 a2 a3 (f2 r1 r2) in
      Ok (amap2 (fun f d => f + d * dt) (f0 r1 r2) d))) as (f1&Q1&V1).
  { intros r1 r2 RK. destruct (df_dt_fvm_box c bv t k1 k2 r1 r2 t Ah Eh _ _ W PF RK (C2 _ _ RK) Sh) as (d&Qd&_).
    destruct (Ah r1 r2) as [[a1 a2] a3]. cbn [fst snd] in Qd. rewrite Qd. cbn [rbind]. eauto. }
  rewrite Q1. cbn [rbind]. eexists; split; [reflexivity|]. cbn [sf]. split.
  - intros r1 r2 RK. specialize (V1 r1 r2 RK).
    destruct (df_dt_fvm_box c bv t k1 k2 r1 r2 t Ah Eh _ _ W PF RK (C2 _ _ RK) Sh) as (d&Qd&_).
    destruct (Ah r1 r2) as [[a1 a2] a3]. cbn [fst snd] in Qd. rewrite Qd in V1. cbn [rbind] in V1.
    injection V1 as <-. destruct (C0 _ _ RK) as (Df&_). exact Df.
  - intros x sp g1 g2 Hx Hs H1 H2. unfold gval at 1.
    destruct (owner_spec (blk1 L) g1) as [R1 B1]; [apply T1|destruct T1 as (_&_&->); exact H1|].
    destruct (owner_spec (blk2 L) g2) as [R2 B2]; [apply T2|destruct T2 as (_&_&->); exact H2|].
    set (r1 := owner (blk1 L) g1) in *. set (r2 := owner (blk2 L) g2) in *.
    assert (RK : rank_ok L r1 r2) by (split; auto).
    specialize (V1 r1 r2 RK). pose proof (C0 _ _ RK) as CV.
    destruct (df_dt_fvm_box c bv t k1 k2 r1 r2 t Ah Eh _ _ W PF RK (C2 _ _ RK) Sh) as (d&Qd&_&Vd).
    destruct (Ah r1 r2) as [[a1 a2] a3]. cbn [fst snd] in Qd. rewrite Qd in V1. cbn [rbind] in V1.
    injection V1 as <-. cbn [el amap2]. fold L in Vd.
    rewrite Vd by (unfold inb in *; auto; lia).
    rewrite (proj1 (proj2 CV) x sp) by (fold L; unfold inb, n1g in *; auto; lia).
      fold L.
    replace (ng1 L + (g1 - off (blk1 L) r1) + (off (blk1 L) r1 - ng1 L))%Z with g1 by lia.
    replace (off (blk1 L) r1 + (g1 - off (blk1 L) r1))%Z with g1 by lia.
    replace (off (blk2 L) r2 + (g2 - off (blk2 L) r2))%Z with g2 by lia.
    rewrite line1_in by auto.
    unfold midpoint_box.
    rewrite (rhs_box_ext c bv t k1 k2 t Eh (gval L fh)
      (fun x s g1 g2 => U x s g1 g2 + dt / 2 * rhs_box c bv t (prob c k1 k2 t E0) U x s g1 g2)); auto.
    + lra.
Qed.
