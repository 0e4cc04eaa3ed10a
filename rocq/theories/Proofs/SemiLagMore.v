(** Steps beyond the ghost zones, and semi-Lagrangian advection in p-space. *)
From Coq Require Import ZArith Reals Lra Lia String List Bool.
From Verif Require Import Base.Prelude Base.ZSum Model.Af Model.Grid Model.Petsc Model.Config
  Model.Boundaries Model.Fvm Model.Em Model.Integrators Model.Splitting Model.SemiLag Model.Timestep Model.Solver
  Spec.Lattice Spec.Domain Spec.FvmProblem Spec.FvmRun Spec.Clock Spec.Interp
  Proofs.AfLemmas Proofs.PetscLemmas Proofs.ConvLemmas Proofs.FvmLemmas Proofs.FvmLemmas2
  Proofs.InterpLemmas Proofs.EmLemmas Proofs.TimestepLemmas Proofs.SolverLemmas Proofs.SemiLagLemmas Proofs.SemiLagProps.
Import ListNotations.
Local Open Scope R_scope.

(** ** Beyond the ghost zones *)
Lemma beyond_reach P k1 k2 w ap dt s : wf_cfg (pc P) k1 k2 -> interpolates w ap -> uses (pc P) ap ->
  periodic_layout (lay (pc P)) -> (forall e, in_q (pc P) e = "periodic"%string) ->
  dq1 (pc P) <> 0 -> dq2 (pc P) <> 0 -> shaped (lay (pc P)) (N_p (pc P)) (N_species (pc P)) (f_of s) ->
  let c := pc P in let L := lay c in
  exists s', op_advect_q P dt s = Ok s' /\ forall x sp g1 g2,
    inb (N_p c) x -> inb (N_species c) sp -> inb (gN1 L) g1 -> inb (gN2 L) g2 ->
    IZR (g1 - off (blk1 L) (owner (blk1 L) g1) + ng1 L) < moved1 c (time_elapsed s) dt x sp g1 g2 ->
    gval L (f_of s') x sp g1 g2 = 0.
Proof.
  intros W IT US PL PE D1 D2 SH c L. unfold op_advect_q, refresh_f. cbv zeta.
  match goal with |- context [all_ranks ?L ?F] => destruct (all_ranks_ok L F) as (G&EG&VG) end.
  { intros r1 r2 _. rewrite apply_bcs_periodic by auto. eauto. }
  rewrite EG. cbn [rbind]. eexists. split; [reflexivity|].
  intros x sp g1 g2 Hx Hs H1 H2 FAR. unfold gval. cbv zeta. unfold f_of at 1. cbn [fpart set_fpart sf].
  pose proof PL as ((TN1&TF1&TS1)&(TN2&TF2&TS2)&_).
  destruct (owner_spec (blk1 L) g1 TF1) as (O1&O1'); [unfold inb, L, c in *; lia|].
  destruct (owner_spec (blk2 L) g2 TF2) as (O2&O2'); [unfold inb, L, c in *; lia|].
  set (r1 := owner (blk1 L) g1) in *. set (r2 := owner (blk2 L) g2) in *.
  assert (RK : rank_ok L r1 r2) by (split; auto).
  assert (QS : q_shaped c r1 r2 (G r1 r2)).
  { specialize (VG r1 r2 RK). rewrite apply_bcs_periodic in VG by auto. injection VG as <-.
    apply (covers_exchange c (fpart s) r1 r2 PL SH RK). }
  destruct (interp_any c k1 k2 w ap W IT US PL (conj D1 D2) r1 r2 (time_elapsed s) dt (G r1 r2) RK QS) as (_&_&Z).
  specialize (Z x sp (g1 - off (blk1 L) r1)%Z (g2 - off (blk2 L) r2)%Z Hx Hs).
  fold L in Z. rewrite !Zplus_minus in Z.
  apply Z; [unfold inb; lia|unfold inb; lia|]. left. left.
  rewrite (Z.add_comm (ng1 L)). change (lay (pc P)) with L in FAR. lra.
Qed.

(** ** Momentum space *)
Section Rank.
Variables (c : cfg) (k1 k2 : scheme) (w : weights) (ap : arr R -> arr R -> arr R -> arr R).
Hypothesis W : wf_cfg c k1 k2.
Hypothesis IT : interpolates w ap.
Hypothesis ONE : N_species c = 1%Z.
Variables (r1 r2 : nat) (t dt : R).
Local Notation L := (lay c).
Hypothesis n1 : (0 < n1g L r1)%Z.
Hypothesis n2 : (0 < n2g L r2)%Z.

Lemma species0 s : inb (N_species c) s -> s = 0%Z.
Proof. rewrite ONE. unfold inb. lia. Qed.

Lemma length1 (l : list R) : Z.of_nat (List.length l) = N_species c -> List.length l = 1%nat.
Proof. rewrite ONE. lia. Qed.

Lemma bel_in {A} (a : arr A) i j k l : inside a i j k l -> bel a i j k l = el a i j k l.
Proof. intros (A0&A1&A2&A3). unfold bel. rewrite !bidx_id by auto. reflexivity. Qed.
Definition unit_dims {A} (a : arr A) : Prop := d0 a = 1%Z /\ d1 a = 1%Z /\ d2 a = 1%Z /\ d3 a = 1%Z.
Lemma bel_unit {A} (a : arr A) i j k l : unit_dims a -> bel a i j k l = el a 0 0 0 0.
Proof. intros (A0&A1&A2&A3). unfold bel. rewrite A0, A1, A2, A3. reflexivity. Qed.
Lemma bcast2_unit {A B C} (g : A -> B -> C) (a : arr A) (b : arr B) : unit_dims b ->
  (0 < d0 a -> 0 < d1 a -> 0 < d2 a -> 0 < d3 a ->
   d0 (bcast2 g a b) = d0 a /\ d1 (bcast2 g a b) = d1 a /\ d2 (bcast2 g a b) = d2 a /\ d3 (bcast2 g a b) = d3 a)%Z
  /\ forall i j k l, inside a i j k l -> el (bcast2 g a b) i j k l = g (el a i j k l) (el b 0 0 0 0).
Proof.
  intros U. split.
  - destruct U as (A0&A1&A2&A3). unfold bcast2; cbn [d0 d1 d2 d3]. rewrite A0, A1, A2, A3. lia.
  - intros. unfold bcast2; cbn [el]. rewrite bel_in, bel_unit by auto. reflexivity.
Qed.

Lemma interpolant_el a start dp : q_shaped c r1 r2 a ->
  Z.of_nat (List.length start) = N_species c -> Z.of_nat (List.length dp) = N_species c ->
  exists b, interpolant c r1 r2 a start dp = Ok b /\ p_shaped c r1 r2 b
  /\ forall i1 i2 i3 s i j, inb (N_p1 c) i1 -> inb (N_p2 c) i2 -> inb (N_p3 c) i3 ->
     inb (N_species c) s -> inb (n1g L r1) i -> inb (n2g L r2) j ->
     el b i1 i2 i3 (widx c r1 s i j)
     = (el a (i1 + N_p1 c * (i2 + N_p2 c * i3))%Z s i j + - (nth 0 start 0 + 1/2 * nth 0 dp 0)) * (1 / nth 0 dp 0).
Proof.
  intros QA LS LD. apply length1 in LS, LD. pose proof (wf_pos _ _ _ W) as PC. destruct PC as (Q1&Q2&Q3&QS).
  assert (PC : pos_cfg c) by (repeat split; auto).
  unfold interpolant, bcast_species. cbv zeta.
  set (B := bcast2 Rplus (dp_arr start) (amap (Rmult 0.5) (dp_arr dp))).
  set (H := amap (fun h => 1 / h) (dp_arr dp)). set (A := convert_to_p_expanded c r1 r2 a).
  assert (UB : unit_dims B).
  { unfold unit_dims, B, bcast2, dp_arr, amap; cbn [d0 d1 d2 d3]. rewrite LS, LD. auto. }
  assert (UH : unit_dims H).
  { unfold unit_dims, H, dp_arr, amap; cbn [d0 d1 d2 d3]. rewrite LD. auto. }
  assert (EB : el B 0 0 0 0 = nth 0 start 0 + 1/2 * nth 0 dp 0).
  { unfold B, bcast2, bel, dp_arr, amap; cbn [el d0 d1 d2 d3]. rewrite LS, LD. cbn. lra. }
  assert (EH : el H 0 0 0 0 = 1 / nth 0 dp 0) by reflexivity.
  assert (B1 : forall m, bcompat m 1 = true) by (intros; unfold bcompat; rewrite Z.eqb_refl, !orb_true_r; reflexivity).
  replace (d1 B) with 1%Z by (symmetry; apply UB). rewrite B1. cbn [rbind].
  replace (d1 H) with 1%Z by (symmetry; apply UH). rewrite B1.
  pose proof (conv_p_shaped c r1 r2 a) as (P0&P1&P2&P3). fold A in P0, P1, P2, P3.
  destruct (bcast2_unit (fun p b => p + - b) A B UB) as (DA&VA).
  destruct DA as (X0&X1&X2&X3); [nia..|].
  destruct (bcast2_unit Rmult (bcast2 (fun p b => p + - b) A B) H UH) as (DC&VC).
  destruct DC as (Y0&Y1&Y2&Y3); [rewrite ?X0, ?X1, ?X2, ?X3, ?P0, ?P1, ?P2, ?P3; nia..|].
  eexists. split; [reflexivity|]. split.
  - unfold p_shaped. rewrite Y0, Y1, Y2, Y3, X0, X1, X2, X3. auto.
  - intros i1 i2 i3 s i j H1 H2 H3 Hs Hi Hj.
    pose proof (widx_bound c r1 r2 s i j Hs Hi Hj) as HW.
    assert (IA : inside A i1 i2 i3 (widx c r1 s i j)) by (unfold inside; rewrite P0, P1, P2, P3; auto).
    rewrite VC by (unfold inside; rewrite X0, X1, X2, X3; exact IA).
    rewrite VA by auto. rewrite EB, EH. unfold A. rewrite conv_p_el by auto. reflexivity.
Qed.

Lemma velocity_p_el E p1 p2 p3 pick x s i j : inb (N_p c) x -> inb (N_species c) s ->
  inb (n1g L r1) i -> inb (n2g L r2) j ->
  el (velocity_p c r1 r2 t E p1 p2 p3 pick) x s i j
  = pick (A_p c s t (pos1 c (1/2) (off (blk1 L) r1 + i - ng1 L)) (pos2 c (1/2) (off (blk2 L) r2 + j - ng2 L))
            (bel p1 x s i j) (bel p2 x s i j) (bel p3 x s i j)
            (el E 0 0 i j) (el E 1 0 i j) (el E 2 0 i j) (el E 3 0 i j) (el E 4 0 i j) (el E 5 0 i j)).
Proof.
  intros Hx Hs Hi Hj. unfold velocity_p; cbn [el]. cbv zeta.
  destruct (q_coords c r1 r2 x s i j Hi Hj) as (_&_&_&_&_&_&->&->). reflexivity.
Qed.

(** New momenta: the foot of the characteristic. *)
Lemma p_new_el p0 V : d0 p0 = N_p c -> d1 p0 = N_species c -> d2 p0 = 1%Z -> d3 p0 = 1%Z -> q_shaped c r1 r2 V ->
  let a := bcast2 Rplus p0 (amap (fun a => - dt * a) V) in
  q_shaped c r1 r2 a /\ forall x s i j, inb (N_p c) x -> inb (N_species c) s ->
    inb (n1g L r1) i -> inb (n2g L r2) j -> el a x s i j = bel p0 x s i j - dt * el V x s i j.
Proof.
  intros A0 A1 A2 A3 (V0&V1&V2&V3). cbv zeta. split.
  - unfold q_shaped, bcast2, amap; cbn [d0 d1 d2 d3]. rewrite A0, A1, A2, A3, V0, V1, V2, V3. lia.
  - intros x s i j Hx Hs Hi Hj. unfold bcast2; cbn [el]. rewrite amap_bel.
    rewrite (bel_in V) by (unfold inside; rewrite V0, V1, V2, V3; auto). lra.
Qed.

Lemma p_center_dims : d0 (p2_center c) = N_p c /\ d1 (p2_center c) = N_species c /\ d2 (p2_center c) = 1%Z /\ d3 (p2_center c) = 1%Z
  /\ d0 (p3_center c) = N_p c /\ d1 (p3_center c) = N_species c /\ d2 (p3_center c) = 1%Z /\ d3 (p3_center c) = 1%Z.
Proof. destruct W as (_&_&_&_&L1&_). repeat split; exact L1. Qed.

Hypothesis DP : nth 0 (dp2 c) 0 <> 0 /\ nth 0 (dp3 c) 0 <> 0.

Lemma interp_p E2 E3 f : q_shaped c r1 r2 f ->
  exists f', f_interp_p_3d c ap r1 r2 t dt E2 E3 f = Ok f' /\ q_shaped c r1 r2 f'
  /\ forall i1 i2 i3 s i j, inb (N_p1 c) i1 -> inb (N_p2 c) i2 -> inb (N_p3 c) i3 ->
     inb (N_species c) s -> inb (n1g L r1) i -> inb (n2g L r2) j ->
     let row i1 i2 i3 := (i1 + N_p1 c * (i2 + N_p2 c * i3))%Z in
     let g1 := (off (blk1 L) r1 + i - ng1 L)%Z in let g2 := (off (blk2 L) r2 + j - ng2 L)%Z in
     let X := IZR i2 - moved_p2 c t dt (fun n => el E2 n 0 i j) g1 g2 (row i1 i2 i3) s in
     let Y := IZR i3 - moved_p3 c t dt (fun n => el E3 n 0 i j) g1 g2 (row i1 i2 i3) s in
     (fits (N_p2 c) X -> fits (N_p3 c) Y ->
      el f' (row i1 i2 i3) s i j = interp2 w (fun a b => el f (row i1 a b) s i j) X Y)
     /\ (off_table (N_p2 c) X \/ off_table (N_p3 c) Y -> el f' (row i1 i2 i3) s i j = 0).
Proof.
  intros QF. pose proof (wf_pos _ _ _ W) as PC. pose proof PC as (Q1&Q2&Q3&QS).
  pose proof W as (_&_&_&_&L1&L2&L3&M1&M2&M3&_).
  destruct p_center_dims as (A0&A1&A2&A3&B0&B1&B2&B3).
  set (V2 := velocity_p2 c r1 r2 t E2). set (V3 := velocity_p3 c r1 r2 t E3).
  assert (FE : f_interp_p_3d c ap r1 r2 t dt E2 E3 f =
    let? a := interpolant c r1 r2 (bcast2 Rplus (p2_center c) (amap (fun a => - dt * a) V2)) (p2_start c) (dp2 c) in
    let? b := interpolant c r1 r2 (bcast2 Rplus (p3_center c) (amap (fun a => - dt * a) V3)) (p3_start c) (dp3 c) in
    Ok (convert_to_q_expanded c r1 r2 (reorder2013 (ap (reorder1203 (convert_to_p_expanded c r1 r2 f)) (reorder1203 a) (reorder1203 b)))))
    by reflexivity.
  rewrite FE. clear FE.
  assert (QV2 : q_shaped c r1 r2 V2) by (repeat split). assert (QV3 : q_shaped c r1 r2 V3) by (repeat split).
  destruct (p_new_el (p2_center c) V2 A0 A1 A2 A3 QV2) as (N2&EN2).
  destruct (p_new_el (p3_center c) V3 B0 B1 B2 B3 QV3) as (N3&EN3).
  destruct (interpolant_el _ (p2_start c) (dp2 c) N2 L2 M2) as (x2&->&S2&EX2). cbn [rbind].
  destruct (interpolant_el _ (p3_start c) (dp3 c) N3 L3 M3) as (x3&->&S3&EX3). cbn [rbind].
  eexists. split; [reflexivity|]. split; [apply conv_q_shaped|].
  intros i1 i2 i3 s i j H1 H2 H3 Hs Hi Hj.
  set (g1 := (off (blk1 L) r1 + i - ng1 L)%Z). set (g2 := (off (blk2 L) r2 + j - ng2 L)%Z).
  pose (row := fun a b d => (a + N_p1 c * (b + N_p2 c * d))%Z).
  change (i1 + N_p1 c * (i2 + N_p2 c * i3))%Z with (row i1 i2 i3).
  set (X := IZR i2 - moved_p2 _ _ _ _ _ _ _ _). set (Y := IZR i3 - moved_p3 _ _ _ _ _ _ _ _).
  pose proof (pidx_bound _ _ _ _ _ _ H1 H2 H3) as HR. fold (row i1 i2 i3) in HR. change (inb (N_p c) (row i1 i2 i3)) in HR.
  pose proof (pidx_split (N_p1 c) (N_p2 c) i1 i2 i3 H1 H2) as PS. cbv zeta in PS. fold (row i1 i2 i3) in PS.
  destruct PS as (R1&R2&R3).
  set (v := reorder1203 (convert_to_p_expanded c r1 r2 f)).
  set (x := reorder1203 x2). set (y := reorder1203 x3).
  pose proof (conv_p_shaped c r1 r2 f) as (P0&P1&P2&P3).
  destruct S2 as (s20&s21&s22&s23). destruct S3 as (s30&s31&s32&s33).
  assert (SX : same_dims v x) by (unfold same_dims, v, x, reorder1203; cbn [d0 d1 d2 d3]; intuition congruence).
  assert (SY : same_dims v y) by (unfold same_dims, v, y, reorder1203; cbn [d0 d1 d2 d3]; intuition congruence).
  pose proof (widx_bound c r1 r2 s i j Hs Hi Hj) as HW.
  set (wi := widx c r1 s i j) in *.
  assert (IX : inside x i2 i3 i1 wi) by (unfold inside, x, reorder1203; cbn [d0 d1 d2 d3]; rewrite s20, s21, s22, s23; auto).
  pose proof (it_dims w ap IT v x y SX SY) as (D0&D1&D2&D3).
  assert (PSH : p_shaped c r1 r2 (reorder2013 (ap v x y))).
  { unfold p_shaped, reorder2013; cbn [d0 d1 d2 d3]. rewrite D0, D1, D2, D3. unfold x, reorder1203; cbn [d0 d1 d2 d3]. auto. }
  rewrite (conv_q_el c r1 r2 (reorder2013 (ap v x y))) by auto.
  rewrite R1, R2, R3. fold wi. unfold reorder2013; cbn [el].
  assert (EX : el x i2 i3 i1 wi = X).
  { unfold x, reorder1203; cbn [el]. unfold wi. rewrite EX2 by auto. fold (row i1 i2 i3). rewrite EN2 by auto.
    destruct (p_centers c k1 k2 (row i1 i2 i3) s i j W HR Hs) as (_&->&_).
    unfold V2, velocity_p2. rewrite velocity_p_el by auto.
    destruct (p_centers c k1 k2 (row i1 i2 i3) s i j W HR Hs) as (->&_&->&_&->&_).
    unfold X, moved_p2. fold g1 g2. unfold mom2 at 1. rewrite R2. rewrite (species0 s Hs). change (Z.to_nat 0) with 0%nat.
    field. apply DP. }
  assert (EY : el y i2 i3 i1 wi = Y).
  { unfold y, reorder1203; cbn [el]. unfold wi. rewrite EX3 by auto. fold (row i1 i2 i3). rewrite EN3 by auto.
    destruct (p_centers c k1 k2 (row i1 i2 i3) s i j W HR Hs) as (_&_&->&_).
    unfold V3, velocity_p3. rewrite velocity_p_el by auto.
    destruct (p_centers c k1 k2 (row i1 i2 i3) s i j W HR Hs) as (->&->&_&_&_&->).
    unfold Y, moved_p3. fold g1 g2. unfold mom3 at 1. rewrite R3. rewrite (species0 s Hs). change (Z.to_nat 0) with 0%nat.
    field. apply DP. }
  split.
  - intros FX FY. rewrite <- EX, <- EY in *.
    rewrite (it_inner w ap IT v x y) by (auto; unfold v, reorder1203; cbn [d0 d1]; rewrite ?P1, ?P2; auto).
    apply (interp2_ext _ _ _ _ _ _ _ (it_nodal w ap IT) FX FY).
    intros a b Ha Hb. unfold v, reorder1203; cbn [el]. unfold wi. rewrite conv_p_el by auto. reflexivity.
  - intros OT. rewrite <- EX, <- EY in OT. apply (it_off w ap IT v x y); auto.
Qed.
End Rank.

(** A force along p1 only: the momentum step returns f. *)
Lemma p1_ignored c k1 k2 w ap r1 r2 t dt E2 E3 f : wf_cfg c k1 k2 -> interpolates w ap -> N_species c = 1%Z ->
  (0 < n1g (lay c) r1)%Z -> (0 < n2g (lay c) r2)%Z -> nth 0 (dp2 c) 0 <> 0 -> nth 0 (dp3 c) 0 <> 0 ->
  (forall s t q1 q2 p1 p2 p3 E1 E2 E3 B1 B2 B3, exists a, A_p c s t q1 q2 p1 p2 p3 E1 E2 E3 B1 B2 B3 = (a, 0, 0)) ->
  q_shaped c r1 r2 f ->
  exists f', f_interp_p_3d c ap r1 r2 t dt E2 E3 f = Ok f' /\ aeq f' f.
Proof.
  intros W IT ONE n1 n2 H2 H3 FP QF.
  destruct (interp_p c k1 k2 w ap W IT ONE r1 r2 t dt n1 n2 (conj H2 H3) E2 E3 f QF) as (f'&E&QF'&V).
  exists f'. split; [exact E|]. pose proof (wf_pos _ _ _ W) as (Q1&Q2&Q3&QS). split.
  - destruct QF as (A&B&C&D), QF' as (A'&B'&C'&D'). repeat split; congruence.
  - intros x s i j (Ix&Is&Ii&Ij). destruct QF' as (A'&B'&C'&D'). rewrite A' in Ix. rewrite B' in Is. rewrite C' in Ii. rewrite D' in Ij.
    destruct (row_split (N_p1 c) (N_p2 c) (N_p3 c) x Q1 Q2 Ix) as (ER&I1&I2&I3).
    rewrite ER. specialize (V _ _ _ s i j I1 I2 I3 Is Ii Ij). cbv zeta in V. destruct V as (V&_).
    assert (Z2 : forall E g1 g2 x s, moved_p2 c t dt E g1 g2 x s = 0).
    { intros. unfold moved_p2.
      match goal with |- context [A_p c ?a ?b ?d ?e ?f ?g ?h ?i ?j ?k ?l ?m ?n] => destruct (FP a b d e f g h i j k l m n) as (q&->) end.
      cbn [fst snd]. unfold Rdiv. ring. }
    assert (Z3 : forall E g1 g2 x s, moved_p3 c t dt E g1 g2 x s = 0).
    { intros. unfold moved_p3.
      match goal with |- context [A_p c ?a ?b ?d ?e ?f ?g ?h ?i ?j ?k ?l ?m ?n] => destruct (FP a b d e f g h i j k l m n) as (q&->) end.
      cbn [fst snd]. unfold Rdiv. ring. }
    rewrite Z2, Z3, !Rminus_0_r in V.
    rewrite V; [|right; rewrite frac_part_Z, Int_part_Z; unfold inb in *; auto..].
    rewrite interp2_node by apply IT. reflexivity.
Qed.

(** Several species: the momentum step raises unless the number of p2-cells is 1
    or happens to be the number of species. *)
Lemma species_fail c ap r1 r2 t dt E2 E3 f : (1 < N_species c)%Z -> N_p2 c <> N_species c -> N_p2 c <> 1%Z ->
  Z.of_nat (List.length (p2_start c)) = N_species c -> Z.of_nat (List.length (dp2 c)) = N_species c ->
  f_interp_p_3d c ap r1 r2 t dt E2 E3 f = Err ValueError.
Proof.
  intros NS NE N1 LS LD. unfold f_interp_p_3d, interpolant, bcast_species. cbv zeta.
  assert (BF : forall n, n = N_species c -> bcompat (N_p2 c) n = false).
  { intros n ->. unfold bcompat. destruct (Z.eqb_spec (N_p2 c) (N_species c)), (Z.eqb_spec (N_p2 c) 1), (Z.eqb_spec (N_species c) 1); try reflexivity; lia. }
  match goal with |- context [bcompat (d1 ?x) (d1 ?y)] => 
    change (d1 x) with (N_p2 c) end.
  rewrite BF; [reflexivity|]. unfold bcast2, amap, dp_arr; cbn [d1]. rewrite LS, LD. lia.
Qed.

(** As many species as p2-cells: cell i2 is measured from the grid of species i2,
    whatever its own species. *)
Definition col_dims {A} (n : Z) (a : arr A) : Prop := d0 a = 1%Z /\ d1 a = n /\ d2 a = 1%Z /\ d3 a = 1%Z.
Lemma bel_col {A} n (a : arr A) i j k l : col_dims n a -> inb n j -> bel a i j k l = el a 0 j 0 0.
Proof.
  intros (A0&A1&A2&A3) Hj. unfold bel. rewrite A0, A1, A2, A3. rewrite (bidx_id n j) by auto. reflexivity.
Qed.
Lemma bcast2_col {A B C} n (g : A -> B -> C) (a : arr A) (b : arr B) : col_dims n b -> d1 a = n ->
  (0 < d0 a -> 0 < d2 a -> 0 < d3 a ->
   d0 (bcast2 g a b) = d0 a /\ d1 (bcast2 g a b) = d1 a /\ d2 (bcast2 g a b) = d2 a /\ d3 (bcast2 g a b) = d3 a)%Z
  /\ forall i j k l, inside a i j k l -> el (bcast2 g a b) i j k l = g (el a i j k l) (el b 0 j 0 0).
Proof.
  intros U DN. split.
  - destruct U as (A0&A1&A2&A3). unfold bcast2; cbn [d0 d1 d2 d3]. rewrite A0, A1, A2, A3. lia.
  - intros i j k l I. unfold bcast2; cbn [el]. rewrite bel_in by auto. rewrite (bel_col n); auto.
    destruct I as (_&I&_). rewrite DN in I. exact I.
Qed.
Lemma interpolant_col c k1 k2 r1 r2 a start dp : wf_cfg c k1 k2 -> N_p2 c = N_species c ->
  (0 < n1g (lay c) r1)%Z -> (0 < n2g (lay c) r2)%Z -> q_shaped c r1 r2 a ->
  Z.of_nat (List.length start) = N_species c -> Z.of_nat (List.length dp) = N_species c ->
  exists b, interpolant c r1 r2 a start dp = Ok b /\ p_shaped c r1 r2 b
  /\ forall i1 i2 i3 s i j, inb (N_p1 c) i1 -> inb (N_p2 c) i2 -> inb (N_p3 c) i3 ->
     inb (N_species c) s -> inb (n1g (lay c) r1) i -> inb (n2g (lay c) r2) j ->
     el b i1 i2 i3 (widx c r1 s i j)
     = (el a (i1 + N_p1 c * (i2 + N_p2 c * i3))%Z s i j
        + - (nth (Z.to_nat i2) start 0 + 1/2 * nth (Z.to_nat i2) dp 0)) * (1 / nth (Z.to_nat i2) dp 0).
Proof.
  intros W NP n1 n2 QA LS LD. pose proof (wf_pos _ _ _ W) as PC. destruct PC as (Q1&Q2&Q3&QS).
  assert (PC : pos_cfg c) by (repeat split; auto).
  unfold interpolant, bcast_species. cbv zeta.
  set (B := bcast2 Rplus (dp_arr start) (amap (Rmult 0.5) (dp_arr dp))).
  set (H := amap (fun h => 1 / h) (dp_arr dp)). set (A := convert_to_p_expanded c r1 r2 a).
  assert (UB : col_dims (N_species c) B).
  { unfold col_dims, B, bcast2, dp_arr, amap; cbn [d0 d1 d2 d3]. rewrite LS, LD, !Z.max_id. auto. }
  assert (UH : col_dims (N_species c) H).
  { unfold col_dims, H, dp_arr, amap; cbn [d0 d1 d2 d3]. rewrite LD. auto. }
  assert (EB : forall i, inb (N_species c) i -> el B 0 i 0 0 = nth (Z.to_nat i) start 0 + 1/2 * nth (Z.to_nat i) dp 0).
  { intros i Hi. unfold B, bcast2, bel, dp_arr, amap; cbn [el d0 d1 d2 d3]. rewrite LS, LD, !bidx_id by auto. lra. }
  assert (EH : forall i, el H 0 i 0 0 = 1 / nth (Z.to_nat i) dp 0) by reflexivity.
  assert (B1 : bcompat (N_p2 c) (N_species c) = true) by (unfold bcompat; rewrite NP, Z.eqb_refl; reflexivity).
  pose proof (conv_p_shaped c r1 r2 a) as (P0&P1&P2&P3). fold A in P0, P1, P2, P3.
  replace (d1 B) with (N_species c) by (symmetry; apply UB). rewrite P1, B1. cbn [rbind].
  destruct (bcast2_col (N_species c) (fun p b => p + - b) A B UB ltac:(lia)) as (DA&VA).
  destruct DA as (X0&X1&X2&X3); [nia..|].
  replace (d1 H) with (N_species c) by (symmetry; apply UH). rewrite X1, P1, B1.
  destruct (bcast2_col (N_species c) Rmult (bcast2 (fun p b => p + - b) A B) H UH ltac:(lia)) as (DC&VC).
  destruct DC as (Y0&Y1&Y2&Y3); [rewrite ?X0, ?X1, ?X2, ?X3, ?P0, ?P1, ?P2, ?P3; nia..|].
  eexists. split; [reflexivity|]. split.
  - unfold p_shaped. rewrite Y0, Y1, Y2, Y3, X0, X1, X2, X3. auto.
  - intros i1 i2 i3 s i j H1 H2 H3 Hs Hi Hj.
    pose proof (widx_bound c r1 r2 s i j Hs Hi Hj) as HW.
    assert (IA : inside A i1 i2 i3 (widx c r1 s i j)) by (unfold inside; rewrite P0, P1, P2, P3; auto).
    rewrite VC by (unfold inside; rewrite X0, X1, X2, X3; exact IA).
    rewrite VA by auto. rewrite EB by (rewrite <- NP; auto). rewrite EH. unfold A. rewrite conv_p_el by auto. reflexivity.
Qed.

Lemma species_mixed c k1 k2 w ap r1 r2 t dt E2 E3 f : wf_cfg c k1 k2 -> interpolates w ap -> N_p2 c = N_species c ->
  (0 < n1g (lay c) r1)%Z -> (0 < n2g (lay c) r2)%Z ->
  (forall s t q1 q2 p1 p2 p3 E1 E2 E3 B1 B2 B3, exists a b, A_p c s t q1 q2 p1 p2 p3 E1 E2 E3 B1 B2 B3 = (a, 0, b)) ->
  q_shaped c r1 r2 f ->
  exists f', f_interp_p_3d c ap r1 r2 t dt E2 E3 f = Ok f' /\ forall x s i j,
    inb (N_p c) x -> inb (N_species c) s -> inb (n1g (lay c) r1) i -> inb (n2g (lay c) r2) j ->
    let i2 := Z.to_nat ((x / N_p1 c) mod N_p2 c) in
    0 < nth i2 (dp2 c) 0 ->
    mom2 c (1/2) x s < nth i2 (p2_start c) 0 + 1/2 * nth i2 (dp2 c) 0 ->
    el f' x s i j = 0.
Proof.
  intros W IT NP n1 n2 FP QF. pose proof (wf_pos _ _ _ W) as PC. pose proof PC as (Q1&Q2&Q3&QS).
  pose proof W as (_&_&_&_&L1&L2&L3&M1&M2&M3&_).
  destruct (p_center_dims c k1 k2 W) as (A0&A1&A2&A3&B0&B1&B2&B3).
  set (V2 := velocity_p2 c r1 r2 t E2). set (V3 := velocity_p3 c r1 r2 t E3).
  assert (FE : f_interp_p_3d c ap r1 r2 t dt E2 E3 f =
    let? a := interpolant c r1 r2 (bcast2 Rplus (p2_center c) (amap (fun a => - dt * a) V2)) (p2_start c) (dp2 c) in
    let? b := interpolant c r1 r2 (bcast2 Rplus (p3_center c) (amap (fun a => - dt * a) V3)) (p3_start c) (dp3 c) in
    Ok (convert_to_q_expanded c r1 r2 (reorder2013 (ap (reorder1203 (convert_to_p_expanded c r1 r2 f)) (reorder1203 a) (reorder1203 b)))))
    by reflexivity.
  rewrite FE. clear FE.
  assert (QV2 : q_shaped c r1 r2 V2) by (repeat split). assert (QV3 : q_shaped c r1 r2 V3) by (repeat split).
  destruct (p_new_el c r1 r2 dt n1 n2 (p2_center c) V2) as (N2&EN2); auto.
  destruct (p_new_el c r1 r2 dt n1 n2 (p3_center c) V3) as (N3&EN3); auto.
  destruct (interpolant_col c k1 k2 r1 r2 _ (p2_start c) (dp2 c) W NP n1 n2 N2 L2 M2) as (x2&->&S2&EX2). cbn [rbind].
  destruct (interpolant_col c k1 k2 r1 r2 _ (p3_start c) (dp3 c) W NP n1 n2 N3 L3 M3) as (x3&->&S3&EX3). cbn [rbind].
  eexists. split; [reflexivity|].
  intros x s i j Hx Hs Hi Hj DP LT.
  destruct (row_split (N_p1 c) (N_p2 c) (N_p3 c) x Q1 Q2 Hx) as (ER&I1&I2&I3).
  set (i1 := (x mod N_p1 c)%Z) in *. set (i2 := ((x / N_p1 c) mod N_p2 c)%Z) in *. set (i3 := (x / N_p1 c / N_p2 c)%Z) in *.
  set (v := reorder1203 (convert_to_p_expanded c r1 r2 f)).
  set (X := reorder1203 x2). set (Y := reorder1203 x3).
  pose proof (conv_p_shaped c r1 r2 f) as (P0&P1&P2&P3).
  destruct S2 as (s20&s21&s22&s23). destruct S3 as (s30&s31&s32&s33).
  assert (SX : same_dims v X) by (unfold same_dims, v, X, reorder1203; cbn [d0 d1 d2 d3]; intuition congruence).
  assert (SY : same_dims v Y) by (unfold same_dims, v, Y, reorder1203; cbn [d0 d1 d2 d3]; intuition congruence).
  pose proof (widx_bound c r1 r2 s i j Hs Hi Hj) as HW.
  set (wi := widx c r1 s i j) in *.
  assert (IX : inside X i2 i3 i1 wi) by (unfold inside, X, reorder1203; cbn [d0 d1 d2 d3]; rewrite s20, s21, s22, s23; auto).
  pose proof (it_dims w ap IT v X Y SX SY) as (D0&D1&D2&D3).
  assert (PSH : p_shaped c r1 r2 (reorder2013 (ap v X Y))).
  { unfold p_shaped, reorder2013; cbn [d0 d1 d2 d3]. rewrite D0, D1, D2, D3. unfold X, reorder1203; cbn [d0 d1 d2 d3]. auto. }
  rewrite (conv_q_el c r1 r2 (reorder2013 (ap v X Y))) by auto.
  fold i1 i2 i3 wi. unfold reorder2013; cbn [el].
  assert (EX : el X i2 i3 i1 wi < 0).
  { unfold X, reorder1203; cbn [el]. unfold wi. rewrite EX2 by auto. rewrite <- ER. rewrite EN2 by auto.
    destruct (p_centers c k1 k2 x s i j W Hx Hs) as (_&->&_).
    unfold V2, velocity_p2. rewrite (velocity_p_el c r1 r2 t) by auto.
    match goal with |- context [A_p c ?a ?b ?d ?e ?f ?g ?h ?i ?j ?k ?l ?m ?n] => destruct (FP a b d e f g h i j k l m n) as (q&q'&->) end.
    cbn [fst snd]. rewrite Rmult_0_r, Rminus_0_r.
    apply Ropp_lt_cancel. rewrite Ropp_0, Ropp_mult_distr_l. apply Rmult_lt_0_compat; [lra|].
    unfold Rdiv. rewrite Rmult_1_l. apply Rinv_0_lt_compat. exact DP. }
  apply (it_off w ap IT v X Y); auto. left. left. exact EX.
Qed.

(** ** The operator on all ranks *)
Lemma ranks_pos L r1 r2 : periodic_layout L -> rank_ok L r1 r2 -> (0 < n1g L r1)%Z /\ (0 < n2g L r2)%Z.
Proof.
  intros ((_&F1&_)&(_&F2&_)&G1&G2&_) (R1&R2). unfold n1g, n2g, bsize.
  rewrite Forall_forall in F1, F2.
  pose proof (F1 _ (nth_In (blk1 L) 0%Z R1)). pose proof (F2 _ (nth_In (blk2 L) 0%Z R2)). cbn beta in *. lia.
Qed.

Lemma p1_op P k1 k2 w dt s s' : wf_cfg (pc P) k1 k2 -> interpolates w (approx_p P) -> N_species (pc P) = 1%Z ->
  periodic_layout (lay (pc P)) -> nth 0 (dp2 (pc P)) 0 <> 0 -> nth 0 (dp3 (pc P)) 0 <> 0 ->
  (forall s t q1 q2 p1 p2 p3 E1 E2 E3 B1 B2 B3, exists a, A_p (pc P) s t q1 q2 p1 p2 p3 E1 E2 E3 B1 B2 B3 = (a, 0, 0)) ->
  shaped (lay (pc P)) (N_p (pc P)) (N_species (pc P)) (f_of s) ->
  op_fields P dt s = Ok s' ->
  forall r1 r2, rank_ok (lay (pc P)) r1 r2 -> aeq (f_of s' r1 r2) (f_of s r1 r2).
Proof.
  intros W IT ONE PL H2 H3 FP SH H r1 r2 RK. unfold op_fields in H. cbv zeta in H.
  apply rbind_inv in H. destruct H as (e1&_&H). apply rbind_inv in H. destruct H as (e2&_&H).
  destruct (get_fields (pf P) e2) as (F1&e3). destruct (get_fields (pf P) e3) as (F2&e4).
  destruct (get_fields (pf P) e4) as (F3&e5).
  apply rbind_inv in H. destruct H as (f'&HF&H). injection H as <-.
  pose proof (all_ranks_Ok _ _ _ HF r1 r2 RK) as HR. cbn beta in HR.
  destruct (ranks_pos _ _ _ PL RK) as (n1&n2).
  destruct (p1_ignored (pc P) k1 k2 w (approx_p P) r1 r2 (time_elapsed s) dt (F2 r1 r2) (F3 r1 r2) (f_of s r1 r2)
    W IT ONE n1 n2 H2 H3 FP (SH r1 r2 RK)) as (g&EG&AE).
  rewrite EG in HR. injection HR as HR. unfold f_of at 1. cbn. rewrite <- HR. exact AE.
Qed.

Lemma species_op P dt s s' : (1 < N_species (pc P))%Z -> N_p2 (pc P) <> N_species (pc P) -> N_p2 (pc P) <> 1%Z ->
  Z.of_nat (List.length (p2_start (pc P))) = N_species (pc P) -> Z.of_nat (List.length (dp2 (pc P))) = N_species (pc P) ->
  rank_ok (lay (pc P)) 0 0 -> op_fields P dt s <> Ok s'.
Proof.
  intros NS NE N1 LS LD RK H. unfold op_fields in H. cbv zeta in H.
  apply rbind_inv in H. destruct H as (e1&_&H). apply rbind_inv in H. destruct H as (e2&_&H).
  destruct (get_fields (pf P) e2) as (F1&e3). destruct (get_fields (pf P) e3) as (F2&e4).
  destruct (get_fields (pf P) e4) as (F3&e5).
  apply rbind_inv in H. destruct H as (f'&HF&H).
  pose proof (all_ranks_Ok _ _ _ HF 0%nat 0%nat RK) as HR. cbn beta in HR.
  rewrite species_fail in HR by auto. discriminate.
Qed.

Lemma p1_op_total P k1 k2 w dt s : wf_cfg (pc P) k1 k2 -> interpolates w (approx_p P) -> N_species (pc P) = 1%Z ->
  periodic_layout (lay (pc P)) -> nth 0 (dp2 (pc P)) 0 <> 0 -> nth 0 (dp3 (pc P)) 0 <> 0 ->
  fields_solver (pf P) <> "electrostatic"%string -> fields_solver (pf P) <> "fdtd"%string ->
  (forall s t q1 q2 p1 p2 p3 E1 E2 E3 B1 B2 B3, exists a, A_p (pc P) s t q1 q2 p1 p2 p3 E1 E2 E3 B1 B2 B3 = (a, 0, 0)) ->
  shaped (lay (pc P)) (N_p (pc P)) (N_species (pc P)) (f_of s) ->
  exists s', op_fields P dt s = Ok s'.
Proof.
  intros W IT ONE PL H2 H3 NE NF FP SH. unfold op_fields. cbv zeta.
  apply String.eqb_neq in NE, NF. rewrite NE, NF. cbn [rbind].
  destruct (get_fields (pf P) (fields s)) as (F1&e3). destruct (get_fields (pf P) e3) as (F2&e4).
  destruct (get_fields (pf P) e4) as (F3&e5).
  match goal with |- context [all_ranks ?L ?F] => destruct (all_ranks_ok L F) as (G&->&_) end; [|eexists; reflexivity].
  intros r1 r2 RK. destruct (ranks_pos _ _ _ PL RK) as (n1&n2).
  destruct (p1_ignored (pc P) k1 k2 w (approx_p P) r1 r2 (time_elapsed s) dt (F2 r1 r2) (F3 r1 r2) (f_of s r1 r2)
    W IT ONE n1 n2 H2 H3 FP (SH r1 r2 RK)) as (g&EG&_). eauto.
Qed.
