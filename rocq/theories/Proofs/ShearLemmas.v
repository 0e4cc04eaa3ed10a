(** The ghost zones of a shearing box, cell by cell. *)
From Coq Require Import ZArith Reals Lra Lia Psatz String List Bool.
From Verif Require Import Base.Prelude Base.ZSum Model.Af Model.Grid Model.Petsc Model.Config
  Model.Boundaries Model.Fvm
  Spec.Lattice Spec.Domain Spec.FvmProblem Spec.FvmRun Spec.Mirror Spec.Walls Spec.Interp Spec.Shear
  Proofs.AfLemmas Proofs.PetscLemmas Proofs.ConvLemmas Proofs.FvmLemmas Proofs.FvmLemmas2
  Proofs.BoundaryLemmas Proofs.BoundaryRun Proofs.InterpLemmas.
Import ListNotations.
Local Open Scope R_scope.

(** ** Interpolation along one axis *)
Lemma interp2_row w u i Y : nodal w ->
  interp2 w u (IZR i) Y = zsum 4 (fun b => w (frac_part Y) (b - 1)%Z * u i (Int_part Y + (b - 1))%Z).
Proof.
  intros N. unfold interp2. rewrite Int_part_Z, frac_part_Z. rewrite !zsum4, !N.
  cbn [Z.eqb Z.sub Z.add Z.opp Z.pos_sub Pos.pred_double]. rewrite !Z.add_0_r. ring.
Qed.
Lemma interp2_col w u X j : nodal w ->
  interp2 w u X (IZR j) = zsum 4 (fun a => w (frac_part X) (a - 1)%Z * u (Int_part X + (a - 1))%Z j).
Proof.
  intros N. unfold interp2. rewrite Int_part_Z, frac_part_Z. rewrite !zsum4, !N.
  cbn [Z.eqb Z.sub Z.add Z.opp Z.pos_sub Pos.pred_double]. rewrite !Z.add_0_r. ring.
Qed.

Lemma slid_period w N row Y m : slid w N row (Y + IZR (m * N)) = slid w N row Y.
Proof.
  unfold slid. rewrite Int_part_shift, frac_part_shift. apply zsum_ext. intros b _. do 2 f_equal.
  replace (Int_part Y + m * N + (b - 1))%Z with (Int_part Y + (b - 1) + m * N)%Z by lia.
  apply Z_mod_plus_full.
Qed.
Lemma slid_ext w N r r' Y : (0 < N)%Z -> (forall b, inb N b -> r b = r' b) -> slid w N r Y = slid w N r' Y.
Proof. intros HN H. unfold slid. apply zsum_ext. intros. f_equal. apply H. apply Z.mod_pos_bound; auto. Qed.
(** At nodes nothing is interpolated. *)
Lemma slid_node w N row j : nodal w -> slid w N row (IZR j) = row (j mod N)%Z.
Proof.
  intros ND. unfold slid. rewrite Int_part_Z, frac_part_Z. rewrite !zsum4, !ND.
  cbn [Z.eqb Z.sub Z.add Z.opp Z.pos_sub Pos.pred_double]. rewrite !Z.add_0_r. ring.
Qed.

(** ** The loops *)
Lemma wrap_bounded n S E x : S < E ->
  (forall k l, inb (d2 x) k -> inb (d3 x) l ->
     S - INR n * (E - S) <= el x 0%Z 0%Z k l <= E + INR n * (E - S)) ->
  exists y, wrap_coordinates n S E (E - S) x = Some y /\ same_dims y x /\
  forall k l, inb (d2 x) k -> inb (d3 x) l ->
    S <= el y 0%Z 0%Z k l <= E
    /\ exists m : Z, el y 0%Z 0%Z k l = el x 0%Z 0%Z k l + IZR m * (E - S).
Proof.
  intros HSE B. set (L := E - S) in *. assert (HL : 0 < L) by (unfold L; lra). pose proof (pos_INR n) as PN.
  destruct (while_above_spec n E L x HL) as (y&Hy&Dy&_&Py).
  { intros k l Hk Hl. apply B; auto. }
  destruct Dy as (A0&A1&A2&A3).
  destruct (while_below_spec n S L y HL) as (z&Hz&Dz&_&Pz).
  { intros k l Hk Hl. rewrite A2 in Hk. rewrite A3 in Hl. destruct (Py k l Hk Hl) as (Uy&m&Em&Cm).
    destruct (B k l Hk Hl) as (B1&_).
    destruct (Nat.eq_dec m 0) as [->|NZ]; [simpl in Em; lra|]. specialize (Cm NZ). unfold L in Cm.
    assert (0 <= INR n * L) by (apply Rmult_le_pos; lra). lra. }
  exists z. split; [unfold wrap_coordinates; rewrite Hy; exact Hz|].
  destruct Dz as (B0&B1&B2&B3). split; [repeat split; congruence|].
  intros k l Hk Hl. destruct (Py k l Hk Hl) as (Uy&m&Em&Cm).
  destruct (Pz k l) as (Uz&m'&Em'&Cm'); [rewrite A2; auto|rewrite A3; auto|]. split; [split; auto|].
  - destruct (Nat.eq_dec m' 0) as [->|NZ]; [simpl in Em'; lra|]. specialize (Cm' NZ). unfold L in Cm'. lra.
  - exists (Z.of_nat m' - Z.of_nat m)%Z. rewrite minus_IZR, <- !INR_IZR_INZ. rewrite Em', Em. ring.
Qed.

(** ** Coordinates *)
Lemma q1_center_el c r1 r2 a b i j :
  el (fst (q_center (qc c r1 r2))) a b i j = pos1 c (1/2) (off (blk1 (lay c)) r1 + i - ng1 (lay c)).
Proof.
  unfold qc, calculate_q, coord_arr, amap; cbn [q_center fst snd el]. unfold pos1.
  replace (0.5) with (1/2) by lra. rewrite !minus_IZR, !plus_IZR. ring.
Qed.
Lemma q2_center_el c r1 r2 a b i j :
  el (snd (q_center (qc c r1 r2))) a b i j = pos2 c (1/2) (off (blk2 (lay c)) r2 + j - ng2 (lay c)).
Proof.
  unfold qc, calculate_q, coord_arr, amap; cbn [q_center fst snd el]. unfold pos2.
  replace (0.5) with (1/2) by lra. rewrite !minus_IZR, !plus_IZR. ring.
Qed.
Lemma q_center_dims c r1 r2 :
  (d0 (fst (q_center (qc c r1 r2))) = 1 /\ d1 (fst (q_center (qc c r1 r2))) = 1
   /\ d2 (fst (q_center (qc c r1 r2))) = n1g (lay c) r1 /\ d3 (fst (q_center (qc c r1 r2))) = n2g (lay c) r2
   /\ d0 (snd (q_center (qc c r1 r2))) = 1 /\ d1 (snd (q_center (qc c r1 r2))) = 1
   /\ d2 (snd (q_center (qc c r1 r2))) = n1g (lay c) r1 /\ d3 (snd (q_center (qc c r1 r2))) = n2g (lay c) r2)%Z.
Proof. unfold n1g, n2g; repeat split. Qed.

Lemma get_ghost_dims {A} e g (a : arr A) : (0 < g)%Z -> roomy e g (d2 a) (d3 a) ->
  (0 <= d2 a)%Z -> (0 <= d3 a)%Z ->
  d0 (get_ghost e g a) = d0 a /\ d1 (get_ghost e g a) = d1 a
  /\ d2 (get_ghost e g a) = (match e with ELeft | ERight => g | _ => d2 a end)
  /\ d3 (get_ghost e g a) = (match e with ELeft | ERight => d3 a | _ => g end).
Proof.
  intros G RM P2 P3. unfold roomy in RM.
  destruct e; unfold get_ghost, slice23; cbn [d0 d1 d2 d3]; repeat split;
    unfold slice_len, slice_bound; zcase; lia.
Qed.

(** A position between the ends of the domain has its four nodes in a table with
    at least two ghost zones at each end. *)
Lemma wrapped_fits N g Y : (2 <= g)%Z -> (0 < N)%Z -> IZR g - 1/2 <= Y <= IZR N + IZR g - 1/2 ->
  fits (N + 2 * g) Y.
Proof.
  intros HG HN (A&B). left. pose proof (Int_part_bounds Y) as (C&D).
  assert (H1 : IZR (g - 2) < IZR (Int_part Y)) by (rewrite minus_IZR; lra).
  assert (H2 : IZR (Int_part Y) < IZR (N + g)) by (rewrite plus_IZR; lra).
  apply lt_IZR in H1, H2. lia.
Qed.

Definition sign_of (e : edge) : R := match e with ELeft | EBottom => -1 | _ => 1 end.

Section Edge.
Variables (c : cfg) (w : weights) (ap : arr R -> arr R -> arr R -> arr R) (lr : bool) (k1 : scheme).
Variables (r1 r2 : nat) (t : R).
Local Notation L := (lay c).
Local Notation g := (N_ghost c).
Hypothesis SF : shear_fvm c lr k1.
Hypothesis IT : interpolates_layers w ap.
Hypothesis US : uses c ap.
Hypothesis TM : in_time c lr t.
Hypothesis RK : rank_ok L r1 r2.

Lemma edge_ranges :
  (0 < bsize (blk1 L) r1 /\ 0 < bsize (blk2 L) r2 /\ 0 <= off (blk1 L) r1 /\ 0 <= off (blk2 L) r2
  /\ 0 < gN1 L /\ 0 < gN2 L)%Z.
Proof using SF RK.
  destruct SF. destruct sh_layout as (T1&T2&_). destruct T1 as (N1&F1&S1), T2 as (N2&F2&S2). destruct RK as (R1&R2).
  pose proof (bsize_pos (blk1 L) r1 F1 R1). pose proof (bsize_pos (blk2 L) r2 F2 R2).
  pose proof (off_nonneg (blk1 L) r1 F1). pose proof (off_nonneg (blk2 L) r2 F2). repeat split; lia.
Qed.

Lemma single N bl r : bl = [N] -> (r < List.length bl)%nat -> off bl r = 0%Z /\ bsize bl r = N.
Proof. intros -> H. cbn in H. assert (r = 0%nat) as -> by lia. split; reflexivity. Qed.

(** First index of the slab along its axis. *)
Definition base (e : edge) : Z :=
  match e with ERight => (n1g L r1 - g)%Z | ETop => (n2g L r2 - g)%Z | _ => 0%Z end.

Lemma slab_el {A} e (a : arr A) x s i j : (0 < g)%Z -> roomy e g (n1g L r1) (n2g L r2) ->
  (0 <= n1g L r1)%Z -> (0 <= n2g L r2)%Z -> d2 a = n1g L r1 -> d3 a = n2g L r2 ->
  el (get_ghost e g a) x s i j
  = match e with
    | ELeft | ERight => el a x s (base e + i)%Z j
    | _ => el a x s i (base e + j)%Z
    end.
Proof.
  intros G RM P1 P2 E2 E3. rewrite get_ghost_el; auto; rewrite ?E2, ?E3; auto.
  destruct e; cbn [base]; f_equal; lia.
Qed.

Lemma sheared_lr e i j : e = ELeft \/ e = ERight -> (0 < g)%Z -> roomy e g (n1g L r1) (n2g L r2) ->
  (0 <= n1g L r1)%Z -> (0 <= n2g L r2)%Z ->
  let X := sheared_coordinates c r1 r2 t e in
  (d0 X = 1 /\ d1 X = 1 /\ d2 X = g /\ d3 X = n2g L r2)%Z
  /\ el X 0%Z 0%Z i j = pos2 c (1/2) (off (blk2 L) r2 + j - ng2 L)
       + sign_of e * (shear_q c * shear_omega c * (q1_end c - q1_start c) * t).
Proof.
  intros HE G RM P1 P2. unfold sheared_coordinates.
  destruct (q_center_dims c r1 r2) as (QA0&QA1&QA2&QA3&QB0&QB1&QB2&QB3).
  pose proof (q2_center_el c r1 r2) as C2.
  destruct (q_center (qc c r1 r2)) as [q1 q2]. cbn [fst snd] in *.
  destruct (get_ghost_dims e g q2 G) as (E0&E1&E2&E3); rewrite ?QB2, ?QB3; auto.
  destruct HE as [-> | ->]; cbn [amap el d0 d1 d2 d3 sign_of]; cbv zeta;
    rewrite E0, E1, E2, E3, QB0, QB1, QB3; (split; [auto|]); rewrite slab_el by auto; rewrite C2; ring.
Qed.
Lemma sheared_bt e i j : e = EBottom \/ e = ETop -> (0 < g)%Z -> roomy e g (n1g L r1) (n2g L r2) ->
  (0 <= n1g L r1)%Z -> (0 <= n2g L r2)%Z ->
  let X := sheared_coordinates c r1 r2 t e in
  (d0 X = 1 /\ d1 X = 1 /\ d2 X = n1g L r1 /\ d3 X = g)%Z
  /\ el X 0%Z 0%Z i j = pos1 c (1/2) (off (blk1 L) r1 + i - ng1 L)
       + sign_of e * (shear_q c * shear_omega c * (q2_end c - q2_start c) * t).
Proof.
  intros HE G RM P1 P2. unfold sheared_coordinates.
  destruct (q_center_dims c r1 r2) as (QA0&QA1&QA2&QA3&QB0&QB1&QB2&QB3).
  pose proof (q1_center_el c r1 r2) as C1.
  destruct (q_center (qc c r1 r2)) as [q1 q2]. cbn [fst snd] in *.
  destruct (get_ghost_dims e g q1 G) as (E0&E1&E2&E3); rewrite ?QA2, ?QA3; auto.
  destruct HE as [-> | ->]; cbn [amap el d0 d1 d2 d3 sign_of]; cbv zeta;
    rewrite E0, E1, E2, E3, QA0, QA1, QA2; (split; [auto|]); rewrite slab_el by auto; rewrite C1; ring.
Qed.

(** Positions stay within reach of the loops. *)
Lemma loop_bound N h d G fl l n (S E : R) sg : 0 < h -> (0 < N)%Z -> E - S = IZR N * h -> (0 < G)%Z ->
  Rabs (d / h) + IZR G <= INR fl * IZR N -> (sg = 1 \/ sg = -1) -> n = (l - G)%Z -> (0 <= l < N + 2 * G)%Z ->
  S - INR fl * (E - S) <= S + (IZR n + 1/2) * h + sg * d <= E + INR fl * (E - S).
Proof.
  intros H HN LN HG TB SG -> Hl.
  assert (I1 : IZR (- G) <= IZR (l - G)) by (apply IZR_le; lia).
  assert (I2 : IZR (l - G) <= IZR (N + G - 1)) by (apply IZR_le; lia).
  rewrite opp_IZR in I1. rewrite (minus_IZR (N + G)), plus_IZR in I2. set (z := IZR (l - G)) in *.
  assert (TB' : Rabs d + IZR G * h <= INR fl * (E - S)).
  { rewrite LN. replace (Rabs d) with (Rabs (d / h) * h).
    - rewrite <- Rmult_plus_distr_r, <- Rmult_assoc. apply Rmult_le_compat_r; lra.
    - unfold Rdiv. rewrite Rabs_mult, Rabs_inv, (Rabs_right h) by lra. field. lra. }
  assert (SD : - Rabs d <= sg * d <= Rabs d).
  { pose proof (Rle_abs d). pose proof (Rle_abs (- d)) as X2. rewrite Rabs_Ropp in X2. destruct SG as [-> | ->]; lra. }
  set (ee := INR fl * (E - S)) in *.
  assert (- IZR G * h <= z * h) by (apply Rmult_le_compat_r; lra).
  assert (z * h <= (IZR N + IZR G - 1) * h) by (apply Rmult_le_compat_r; lra). lra.
Qed.

Lemma sign_cases e : sign_of e = 1 \/ sign_of e = -1.
Proof. destruct e; cbn; auto. Qed.

Lemma shear_lr e F U : lr = true -> e = ELeft \/ e = ERight -> q_shaped c r1 r2 F ->
  (forall x s i j, inb (N_p c) x -> inb (N_species c) s -> inb (n1g L r1) i -> inb (n2g L r2) j ->
     in_slab e g (n1g L r1) (n2g L r2) i j = true ->
     el F x s i j = U x s ((off (blk1 L) r1 + i - ng1 L) mod gN1 L)%Z ((off (blk2 L) r2 + j - ng2 L) mod gN2 L)%Z) ->
  exists f', apply_shearing_box_bcs_f c r1 r2 t e F = Ok f' /\ q_shaped c r1 r2 f'
  /\ forall x s i j, inb (N_p c) x -> inb (N_species c) s -> inb (n1g L r1) i -> inb (n2g L r2) j ->
     el f' x s i j = if in_slab e g (n1g L r1) (n2g L r2) i j
       then slid w (gN2 L) (U x s ((off (blk1 L) r1 + i - ng1 L) mod gN1 L)%Z)
              (IZR (off (blk2 L) r2 + j - ng2 L) + sign_of e * drift c lr t)
       else el F x s i j.
Proof using SF IT US TM RK.
  intros LR HE (D0&D1&D2&D3) CV. destruct edge_ranges as (B1&B2&O1&O2&P1&P2). destruct RK as (R1&R2).
  unfold in_time in TM. unfold drift in *. destruct SF as [_ _ _ _ _ PL ONE NG1 NG2 RD TWO WD1 WD2 DQ1 DQ2 L1 L2].
  rewrite LR in *. clear LR.
  destruct (single _ _ r2 ONE R2) as (OF2&BS2).
  assert (GP : (0 < g)%Z) by lia.
  assert (NG : n2g L r2 = (gN2 L + 2 * g)%Z) by (unfold n2g; lia).
  assert (NF : (2 * g < n1g L r1)%Z) by (unfold n1g; lia).
  assert (PA : (0 <= n1g L r1)%Z) by lia. assert (PB : (0 <= n2g L r2)%Z) by lia.
  assert (RM : roomy e g (n1g L r1) (n2g L r2)) by (destruct HE as [-> | ->]; unfold roomy; lia).
  pose proof (fun i j => sheared_lr e i j HE GP RM PA PB) as SX. cbv zeta in SX.
  set (X := sheared_coordinates c r1 r2 t e) in *.
  set (delta := shear_q c * shear_omega c * (q1_end c - q1_start c) * t) in *.
  destruct (SX 0%Z 0%Z) as ((X0&X1&X2&X3)&_).
  assert (EX : forall i j, el X 0%Z 0%Z i j = pos2 c (1/2) (off (blk2 L) r2 + j - ng2 L) + sign_of e * delta)
    by (intros; apply SX). clear SX.
  assert (LP : q2_start c < q2_end c).
  { assert (0 < IZR (gN2 L)) by (apply (IZR_lt 0); lia). nra. }
  destruct (wrap_bounded (loop_fuel c) (q2_start c) (q2_end c) X LP) as (y&Wy&(Y0&Y1&Y2&Y3)&Py).
  { intros k l Hk Hl. rewrite EX. unfold pos2. rewrite X3 in Hl. unfold inb in Hl.
    apply (loop_bound (gN2 L) (dq2 c) delta g (loop_fuel c) l); auto; try lia. apply sign_cases. }
  unfold apply_shearing_box_bcs_f, wrapped_coordinates. fold X.
  destruct (q_center_dims c r1 r2) as (QA0&QA1&QA2&QA3&QB0&QB1&QB2&QB3).
  pose proof (q1_center_el c r1 r2) as C1. pose proof (q2_center_el c r1 r2) as C2.
  destruct (q_center (qc c r1 r2)) as [q1 q2]. cbn [fst snd] in *.
  assert (RW : match e with
    | ELeft | ERight => wrap_coordinates (loop_fuel c) (q2_start c) (q2_end c) (q2_end c - q2_start c) X
    | _ => wrap_coordinates (loop_fuel c) (q1_start c) (q1_end c) (q1_end c - q1_start c) X end = Some y)
    by (destruct HE as [-> | ->]; exact Wy).
  rewrite RW. clear RW Wy.
  set (q1g := reorder2301 (get_ghost e g q1)). set (q2g := reorder2301 (get_ghost e g q2)).
  set (xr := reorder2301 y).
  assert (PR : (match e with ELeft | ERight => (q1g, xr) | _ => (xr, q2g) end) = (q1g, xr))
    by (destruct HE as [-> | ->]; reflexivity).
  rewrite PR. clear PR.
  set (v := reorder2301 (get_ghost e g F)).
  destruct (get_ghost_dims e g q1 GP) as (A0&A1&A2&A3); rewrite ?QA2, ?QA3; auto.
  destruct (get_ghost_dims e g F GP) as (F0&F1&F2&F3); rewrite ?D2, ?D3; auto.
  assert (A2' : d2 (get_ghost e g q1) = g /\ d3 (get_ghost e g q1) = n2g L r2)
    by (destruct HE as [-> | ->]; rewrite A2, A3; auto). clear A2 A3. destruct A2' as (A2&A3).
  assert (F2' : d2 (get_ghost e g F) = g /\ d3 (get_ghost e g F) = n2g L r2)
    by (destruct HE as [-> | ->]; rewrite F2, F3; auto). clear F2 F3. destruct F2' as (F2&F3).
  assert (SE : forall (A : Type) (a : arr A) x s i j, d2 a = n1g L r1 -> d3 a = n2g L r2 ->
     el (get_ghost e g a) x s i j = el a x s (base e + i)%Z j).
  { intros A a x s i j Z2 Z3. rewrite slab_el by auto. destruct HE as [-> | ->]; reflexivity. }
  rewrite US. unfold in_cells. cbv zeta.
  assert (K1 : el q1g 1 0 0 0 - el q1g 0 0 0 0 = dq1 c).
  { unfold q1g, reorder2301; cbn [el]. rewrite !SE, !C1 by auto. unfold pos1.
    rewrite !minus_IZR, !plus_IZR. ring. }
  assert (K2 : el q2g 0 1 0 0 - el q2g 0 0 0 0 = dq2 c).
  { unfold q2g, reorder2301; cbn [el]. rewrite !SE, !C2 by auto. unfold pos2.
    rewrite !minus_IZR, !plus_IZR. ring. }
  rewrite K1, K2.
  set (XX := amap (fun a => (a - el q1g 0 0 0 0) / dq1 c) q1g).
  set (YY := amap (fun a => (a - el q2g 0 0 0 0) / dq2 c) xr).
  assert (DX : d0 XX = g /\ d1 XX = n2g L r2 /\ d2 XX = 1%Z /\ d3 XX = 1%Z).
  { unfold XX, q1g, amap, reorder2301; cbn [d0 d1 d2 d3]. rewrite A0, A1, A2, A3. auto. }
  destruct DX as (DX0&DX1&DX2&DX3).
  assert (DXY : same_dims XX YY).
  { unfold same_dims. rewrite DX0, DX1, DX2, DX3. unfold YY, xr, amap, reorder2301; cbn [d0 d1 d2 d3].
    rewrite Y0, Y1, Y2, Y3. auto. }
  assert (Dv : d0 v = g /\ d1 v = n2g L r2 /\ d2 v = N_p c /\ d3 v = N_species c).
  { unfold v, reorder2301; cbn [d0 d1 d2 d3]. rewrite F0, F1, F2, F3. auto. }
  destruct Dv as (V0&V1&V2&V3).
  assert (HX : forall i j, el XX i j 0 0 = IZR i).
  { intros i j. unfold XX, q1g, amap, reorder2301; cbn [el]. rewrite !SE, !C1 by auto. unfold pos1.
    rewrite !minus_IZR, !plus_IZR. field. lra. }
  assert (HY : forall i j, inb g i -> inb (n2g L r2) j ->
     exists m : Z, el YY i j 0 0 = IZR (off (blk2 L) r2 + j - ng2 L) + sign_of e * (delta / dq2 c) + IZR (m * gN2 L) + IZR g
     /\ fits (n2g L r2) (el YY i j 0 0)).
  { intros i j Hi Hj. destruct (Py i j) as ((Pa&Pb)&m&Em); [rewrite X2; exact Hi|rewrite X3; exact Hj|].
    exists m. unfold YY, xr, q2g, amap, reorder2301; cbn [el]. rewrite SE, C2 by auto. split.
    - rewrite Em, EX, L2. unfold pos2. rewrite OF2, NG2, !minus_IZR, !plus_IZR, mult_IZR. field. lra.
    - rewrite NG. apply wrapped_fits; auto. unfold pos2. rewrite OF2, NG2.
      replace (0 + 0 - g)%Z with (- g)%Z by lia. rewrite opp_IZR.
      assert (Pc : q2_end c = q2_start c + IZR (gN2 L) * dq2 c) by lra. rewrite Pc in Pb.
      assert (HI : 0 < / dq2 c) by (apply Rinv_0_lt_compat; lra). clear - Pa Pb HI DQ2.
      assert (EE : (el y 0 0 i j - (q2_start c + (- IZR g + 1/2) * dq2 c)) / dq2 c
                 = (el y 0 0 i j - q2_start c) * / dq2 c + (IZR g - 1/2)) by (field; lra).
      rewrite EE. split.
      + assert (0 <= (el y 0 0 i j - q2_start c) * / dq2 c) by (apply Rmult_le_pos; lra). lra.
      + assert ((el y 0 0 i j - q2_start c) * / dq2 c <= IZR (gN2 L) * dq2 c * / dq2 c) by (apply Rmult_le_compat_r; lra).
        replace (IZR (gN2 L) * dq2 c * / dq2 c) with (IZR (gN2 L)) in H by (field; lra). lra. }
  eexists. split; [reflexivity|]. split.
  { destruct (set_ghost_dims e g F (reorder2301 (ap v XX YY))) as (Z0&Z1&Z2&Z3).
    unfold q_shaped. rewrite Z0, Z1, Z2, Z3. auto. }
  intros x s i j Hx Hs Hi Hj. rewrite set_ghost_el; rewrite ?D2, ?D3; auto.
  destruct (in_slab e g (n1g L r1) (n2g L r2) i j) eqn:SL; [|reflexivity].
  assert (IJ : match e with
    | ELeft | EBottom => el (reorder2301 (ap v XX YY)) x s i j
    | ERight => el (reorder2301 (ap v XX YY)) x s (i - (n1g L r1 - g)) j
    | ETop => el (reorder2301 (ap v XX YY)) x s i (j - (n2g L r2 - g)) end = el (ap v XX YY) (i - base e) j x s).
  { destruct HE as [-> | ->]; unfold reorder2301; cbn [el base]; f_equal; lia. }
  rewrite IJ. clear IJ.
  assert (IB : inb g (i - base e)).
  { unfold inb in *. destruct HE as [-> | ->]; cbn [in_slab base] in *; [apply Z.ltb_lt in SL|apply Z.leb_le in SL]; lia. }
  destruct (HY _ _ IB Hj) as (m&EY&FY).
  rewrite (il_inner w ap IT v XX YY (i - base e) j x s); auto; try congruence.
  2:{ rewrite V0, HX. right. rewrite frac_part_Z, Int_part_Z. auto. }
  rewrite HX.
  assert (FX : fits g (IZR (i - base e))) by (right; rewrite frac_part_Z, Int_part_Z; auto).
  rewrite (interp2_ext w _ (fun a b => U x s ((off (blk1 L) r1 + (base e + a) - ng1 L) mod gN1 L)%Z ((b - g) mod gN2 L)%Z) g (n2g L r2)); auto.
  2:{ apply IT. }
  2:{ intros a b Ha Hb. unfold v, reorder2301; cbn [el]. rewrite SE by auto. rewrite CV; auto.
      - do 2 f_equal. lia.
      - unfold inb in *. destruct HE as [-> | ->]; cbn [base]; lia.
      - unfold inb in *. destruct HE as [-> | ->]; cbn [base in_slab]; [apply Z.ltb_lt|apply Z.leb_le]; lia. }
  rewrite interp2_row by apply IT.
  rewrite <- (slid_period w (gN2 L) _ _ m). rewrite EY.
  set (Y := _ + IZR (m * gN2 L)).
  unfold slid. rewrite Int_part_shift, frac_part_shift. apply zsum_ext. intros b _.
  do 2 f_equal; f_equal; lia.
Qed.
Lemma shear_bt e F U : lr = false -> e = EBottom \/ e = ETop -> q_shaped c r1 r2 F ->
  (forall x s i j, inb (N_p c) x -> inb (N_species c) s -> inb (n1g L r1) i -> inb (n2g L r2) j ->
     in_slab e g (n1g L r1) (n2g L r2) i j = true ->
     el F x s i j = U x s ((off (blk1 L) r1 + i - ng1 L) mod gN1 L)%Z ((off (blk2 L) r2 + j - ng2 L) mod gN2 L)%Z) ->
  exists f', apply_shearing_box_bcs_f c r1 r2 t e F = Ok f' /\ q_shaped c r1 r2 f'
  /\ forall x s i j, inb (N_p c) x -> inb (N_species c) s -> inb (n1g L r1) i -> inb (n2g L r2) j ->
     el f' x s i j = if in_slab e g (n1g L r1) (n2g L r2) i j
       then slid w (gN1 L) (fun a => U x s a ((off (blk2 L) r2 + j - ng2 L) mod gN2 L)%Z)
              (IZR (off (blk1 L) r1 + i - ng1 L) + sign_of e * drift c lr t)
       else el F x s i j.
Proof using SF IT US TM RK.
  intros LR HE (D0&D1&D2&D3) CV. destruct edge_ranges as (B1&B2&O1&O2&P1&P2). destruct RK as (R1&R2).
  unfold in_time in TM. unfold drift in *. destruct SF as [_ _ _ _ _ PL ONE NG1 NG2 RD TWO WD1 WD2 DQ1 DQ2 L1 L2].
  rewrite LR in *. clear LR.
  destruct (single _ _ r1 ONE R1) as (OF1&BS1).
  assert (GP : (0 < g)%Z) by lia.
  assert (NG : n1g L r1 = (gN1 L + 2 * g)%Z) by (unfold n1g; lia).
  assert (NF : (2 * g < n2g L r2)%Z) by (unfold n2g; lia).
  assert (PA : (0 <= n1g L r1)%Z) by lia. assert (PB : (0 <= n2g L r2)%Z) by lia.
  assert (RM : roomy e g (n1g L r1) (n2g L r2)) by (destruct HE as [-> | ->]; unfold roomy; lia).
  pose proof (fun i j => sheared_bt e i j HE GP RM PA PB) as SX. cbv zeta in SX.
  set (X := sheared_coordinates c r1 r2 t e) in *.
  set (delta := shear_q c * shear_omega c * (q2_end c - q2_start c) * t) in *.
  destruct (SX 0%Z 0%Z) as ((X0&X1&X2&X3)&_).
  assert (EX : forall i j, el X 0%Z 0%Z i j = pos1 c (1/2) (off (blk1 L) r1 + i - ng1 L) + sign_of e * delta)
    by (intros; apply SX). clear SX.
  assert (LP : q1_start c < q1_end c).
  { assert (0 < IZR (gN1 L)) by (apply (IZR_lt 0); lia). nra. }
  destruct (wrap_bounded (loop_fuel c) (q1_start c) (q1_end c) X LP) as (y&Wy&(Y0&Y1&Y2&Y3)&Py).
  { intros k l Hk Hl. rewrite EX. unfold pos1. rewrite X2 in Hk. unfold inb in Hk.
    apply (loop_bound (gN1 L) (dq1 c) delta g (loop_fuel c) k); auto; try lia. apply sign_cases. }
  unfold apply_shearing_box_bcs_f, wrapped_coordinates. fold X.
  destruct (q_center_dims c r1 r2) as (QA0&QA1&QA2&QA3&QB0&QB1&QB2&QB3).
  pose proof (q1_center_el c r1 r2) as C1. pose proof (q2_center_el c r1 r2) as C2.
  destruct (q_center (qc c r1 r2)) as [q1 q2]. cbn [fst snd] in *.
  assert (RW : match e with
    | ELeft | ERight => wrap_coordinates (loop_fuel c) (q2_start c) (q2_end c) (q2_end c - q2_start c) X
    | _ => wrap_coordinates (loop_fuel c) (q1_start c) (q1_end c) (q1_end c - q1_start c) X end = Some y)
    by (destruct HE as [-> | ->]; exact Wy).
  rewrite RW. clear RW Wy.
  set (q1g := reorder2301 (get_ghost e g q1)). set (q2g := reorder2301 (get_ghost e g q2)).
  set (xr := reorder2301 y).
  assert (PR : (match e with ELeft | ERight => (q1g, xr) | _ => (xr, q2g) end) = (xr, q2g))
    by (destruct HE as [-> | ->]; reflexivity).
  rewrite PR. clear PR.
  set (v := reorder2301 (get_ghost e g F)).
  destruct (get_ghost_dims e g q2 GP) as (A0&A1&A2&A3); rewrite ?QB2, ?QB3; auto.
  destruct (get_ghost_dims e g F GP) as (F0&F1&F2&F3); rewrite ?D2, ?D3; auto.
  assert (A2' : d2 (get_ghost e g q2) = n1g L r1 /\ d3 (get_ghost e g q2) = g)
    by (destruct HE as [-> | ->]; rewrite A2, A3; auto). clear A2 A3. destruct A2' as (A2&A3).
  assert (F2' : d2 (get_ghost e g F) = n1g L r1 /\ d3 (get_ghost e g F) = g)
    by (destruct HE as [-> | ->]; rewrite F2, F3; auto). clear F2 F3. destruct F2' as (F2&F3).
  assert (SE : forall (A : Type) (a : arr A) x s i j, d2 a = n1g L r1 -> d3 a = n2g L r2 ->
     el (get_ghost e g a) x s i j = el a x s i (base e + j)%Z).
  { intros A a x s i j Z2 Z3. rewrite slab_el by auto. destruct HE as [-> | ->]; reflexivity. }
  rewrite US. unfold in_cells. cbv zeta.
  assert (K1 : el q1g 1 0 0 0 - el q1g 0 0 0 0 = dq1 c).
  { unfold q1g, reorder2301; cbn [el]. rewrite !SE, !C1 by auto. unfold pos1.
    rewrite !minus_IZR, !plus_IZR. ring. }
  assert (K2 : el q2g 0 1 0 0 - el q2g 0 0 0 0 = dq2 c).
  { unfold q2g, reorder2301; cbn [el]. rewrite !SE, !C2 by auto. unfold pos2.
    rewrite !minus_IZR, !plus_IZR. ring. }
  rewrite K1, K2.
  set (XX := amap (fun a => (a - el q1g 0 0 0 0) / dq1 c) xr).
  set (YY := amap (fun a => (a - el q2g 0 0 0 0) / dq2 c) q2g).
  assert (DX : d0 XX = n1g L r1 /\ d1 XX = g /\ d2 XX = 1%Z /\ d3 XX = 1%Z).
  { unfold XX, xr, amap, reorder2301; cbn [d0 d1 d2 d3]. rewrite Y0, Y1, Y2, Y3. auto. }
  destruct DX as (DX0&DX1&DX2&DX3).
  assert (DXY : same_dims XX YY).
  { unfold same_dims. rewrite DX0, DX1, DX2, DX3. unfold YY, q2g, amap, reorder2301; cbn [d0 d1 d2 d3].
    rewrite A0, A1, A2, A3. auto. }
  assert (Dv : d0 v = n1g L r1 /\ d1 v = g /\ d2 v = N_p c /\ d3 v = N_species c).
  { unfold v, reorder2301; cbn [d0 d1 d2 d3]. rewrite F0, F1, F2, F3. auto. }
  destruct Dv as (V0&V1&V2&V3).
  assert (HX : forall i j, el YY i j 0 0 = IZR j).
  { intros i j. unfold YY, q2g, amap, reorder2301; cbn [el]. rewrite !SE, !C2 by auto. unfold pos2.
    rewrite !minus_IZR, !plus_IZR. field. lra. }
  assert (HY : forall i j, inb (n1g L r1) i -> inb g j ->
     exists m : Z, el XX i j 0 0 = IZR (off (blk1 L) r1 + i - ng1 L) + sign_of e * (delta / dq1 c) + IZR (m * gN1 L) + IZR g
     /\ fits (n1g L r1) (el XX i j 0 0)).
  { intros i j Hi Hj. destruct (Py i j) as ((Pa&Pb)&m&Em); [rewrite X2; exact Hi|rewrite X3; exact Hj|].
    exists m. unfold XX, xr, q1g, amap, reorder2301; cbn [el]. rewrite SE, C1 by auto. split.
    - rewrite Em, EX, L1. unfold pos1. rewrite OF1, NG1, !minus_IZR, !plus_IZR, mult_IZR. field. lra.
    - rewrite NG. apply wrapped_fits; auto. unfold pos1. rewrite OF1, NG1.
      replace (0 + 0 - g)%Z with (- g)%Z by lia. rewrite opp_IZR.
      assert (Pc : q1_end c = q1_start c + IZR (gN1 L) * dq1 c) by lra. rewrite Pc in Pb.
      assert (HI : 0 < / dq1 c) by (apply Rinv_0_lt_compat; lra). clear - Pa Pb HI DQ1.
      assert (EE : (el y 0 0 i j - (q1_start c + (- IZR g + 1/2) * dq1 c)) / dq1 c
                 = (el y 0 0 i j - q1_start c) * / dq1 c + (IZR g - 1/2)) by (field; lra).
      rewrite EE. split.
      + assert (0 <= (el y 0 0 i j - q1_start c) * / dq1 c) by (apply Rmult_le_pos; lra). lra.
      + assert ((el y 0 0 i j - q1_start c) * / dq1 c <= IZR (gN1 L) * dq1 c * / dq1 c) by (apply Rmult_le_compat_r; lra).
        replace (IZR (gN1 L) * dq1 c * / dq1 c) with (IZR (gN1 L)) in H by (field; lra). lra. }
  eexists. split; [reflexivity|]. split.
  { destruct (set_ghost_dims e g F (reorder2301 (ap v XX YY))) as (Z0&Z1&Z2&Z3).
    unfold q_shaped. rewrite Z0, Z1, Z2, Z3. auto. }
  intros x s i j Hx Hs Hi Hj. rewrite set_ghost_el; rewrite ?D2, ?D3; auto.
  destruct (in_slab e g (n1g L r1) (n2g L r2) i j) eqn:SL; [|reflexivity].
  assert (IJ : match e with
    | ELeft | EBottom => el (reorder2301 (ap v XX YY)) x s i j
    | ERight => el (reorder2301 (ap v XX YY)) x s (i - (n1g L r1 - g)) j
    | ETop => el (reorder2301 (ap v XX YY)) x s i (j - (n2g L r2 - g)) end = el (ap v XX YY) i (j - base e) x s).
  { destruct HE as [-> | ->]; unfold reorder2301; cbn [el base]; f_equal; lia. }
  rewrite IJ. clear IJ.
  assert (IB : inb g (j - base e)).
  { unfold inb in *. destruct HE as [-> | ->]; cbn [in_slab base] in *; [apply Z.ltb_lt in SL|apply Z.leb_le in SL]; lia. }
  destruct (HY _ _ Hi IB) as (m&EY&FY).
  rewrite (il_inner w ap IT v XX YY i (j - base e) x s); auto; try congruence.
  2:{ rewrite V1, HX. right. rewrite frac_part_Z, Int_part_Z. auto. }
  rewrite HX.
  assert (FX : fits g (IZR (j - base e))) by (right; rewrite frac_part_Z, Int_part_Z; auto).
  rewrite (interp2_ext w _ (fun a b => U x s ((a - g) mod gN1 L)%Z ((off (blk2 L) r2 + (base e + b) - ng2 L) mod gN2 L)%Z) (n1g L r1) g); auto.
  2:{ apply IT. }
  2:{ intros a b Ha Hb. unfold v, reorder2301; cbn [el]. rewrite SE by auto. rewrite CV; auto.
      - f_equal. f_equal. lia.
      - unfold inb in *. destruct HE as [-> | ->]; cbn [base]; lia.
      - unfold inb in *. destruct HE as [-> | ->]; cbn [base in_slab]; [apply Z.ltb_lt|apply Z.leb_le]; lia. }
  rewrite interp2_col by apply IT.
  rewrite <- (slid_period w (gN1 L) _ _ m). rewrite EY.
  set (Y := _ + IZR (m * gN1 L)).
  unfold slid. rewrite Int_part_shift, frac_part_shift. apply zsum_ext. intros b _.
  f_equal. f_equal; f_equal; lia.
Qed.
End Edge.
