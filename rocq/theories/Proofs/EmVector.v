(** Magnetic fields from a vector potential. *)
From Coq Require Import ZArith Reals Lia Lra String List Bool.
From Verif Require Import Base.Prelude Base.ZSum Model.Af Model.Grid Model.Petsc Model.Config
  Model.Boundaries Model.Fvm Model.Fft Model.Em Spec.Domain Spec.Yee Spec.EmRun
  Proofs.AfLemmas Proofs.PetscLemmas Proofs.EmLemmas Proofs.EmStep Proofs.EmGrids Proofs.EmInit.
Import ListNotations.
Local Open Scope R_scope.

(** The potential at the centre of cell (x, y). *)
Definition at_centre (c : fcfg) (a : R -> R -> R) : grid :=
  fun x y => a (fq1_start c + (IZR x + 1/2) * fdq1 c) (fq2_start c + (IZR y + 1/2) * fdq2 c).

Lemma q_center_el c r1 r2 k s i j :
  let q := q_center (fq c r1 r2) in
  el (fst q) k s i j = fq1_start c + (IZR (off (blk1 (flay c)) r1 + i - ng1 (flay c)) + 1/2) * fdq1 c
  /\ el (snd q) k s i j = fq2_start c + (IZR (off (blk2 (flay c)) r2 + j - ng2 (flay c)) + 1/2) * fdq2 c.
Proof.
  intros q. unfold q, fq, calculate_q, coord_arr, q_center, amap; cbn [fst snd el].
  replace (off (blk1 (flay c)) r1 + i - ng1 (flay c))%Z with (off (blk1 (flay c)) r1 + (i - ng1 (flay c)))%Z by lia.
  replace (off (blk2 (flay c)) r2 + j - ng2 (flay c))%Z with (off (blk2 (flay c)) r2 + (j - ng2 (flay c)))%Z by lia.
  rewrite !plus_IZR. split; lra.
Qed.

Lemma set_joined_rows lo hi (a b d y : arr R) s i j : d0 a = 1%Z -> d0 b = 1%Z -> (hi = lo + 3)%Z ->
  el (set_rows lo hi (join3 a b d) y) lo s i j = el a 0 s i j
  /\ el (set_rows lo hi (join3 a b d) y) (lo + 1) s i j = el b 0 s i j
  /\ el (set_rows lo hi (join3 a b d) y) (lo + 2) s i j = el d 0 s i j.
Proof.
  intros A B ->. unfold set_rows, join3, join0; cbn [el d0]. rewrite A, B.
  replace ((lo <=? lo) && (lo <? lo + 3))%Z%bool with true by lia.
  replace ((lo <=? lo + 1) && (lo + 1 <? lo + 3))%Z%bool with true by lia.
  replace ((lo <=? lo + 2) && (lo + 2 <? lo + 3))%Z%bool with true by lia.
  replace (lo - lo)%Z with 0%Z by lia. replace (lo + 1 - lo)%Z with 1%Z by lia.
  replace (lo + 2 - lo)%Z with 2%Z by lia. auto.
Qed.

Lemma magnetic_A3 c ab s s' : wf_em c s -> from_A3 c ab ->
  initialize_magnetic_fields c s = Ok s' ->
  wf_em c s' /\
  forall r1 r2 i j, rank_ok (flay c) r1 r2 -> inb (n1g (flay c) r1) i -> inb (n2g (flay c) r2) j ->
    let x := (off (blk1 (flay c)) r1 + i - ng1 (flay c))%Z in
    let y := (off (blk2 (flay c)) r2 + j - ng2 (flay c))%Z in
    let a := at_centre c (fun u v => fst (ab u v)) in
    ((1 <= j)%Z -> el (yee_val s' r1 r2) 3 0 i j = bwd2 (fdq2 c) a x y)
    /\ ((1 <= i)%Z -> el (yee_val s' r1 r2) 4 0 i j = - bwd1 (fdq1 c) a x y).
Proof.
  intros W (N1&N2&N3) H. split; [eapply wf_set_joined; eauto|].
  intros r1 r2 i j RK Hi Hj x y a.
  unfold initialize_magnetic_fields, set_joined in H.
  destruct (all_ranks (flay c) _) as [F|e] eqn:EF; cbn [rbind] in H; [|discriminate H].
  pose proof (all_ranks_Ok _ _ _ EF r1 r2 RK) as HF. cbv beta in HF.
  apply Ok_inj in H. rewrite <- H, yee_val_write.
  unfold initial_B_rank in HF. rewrite N1, N2, N3 in HF. cbn [rbind] in HF.
  apply Ok_inj in HF. rewrite <- HF. clear HF H EF F.
  match goal with |- context [join3 ?a ?b ?d] => pose proof (set_joined_rows 3 6 a b d (yee_val s r1 r2) 0 i j
     eq_refl eq_refl eq_refl) as (X3&X4&_) end.
  change (3 + 1)%Z with 4%Z in X4. rewrite X3, X4. clear X3 X4.
  assert (C : forall k s i j, el (sample (fun x y => fst (ab x y)) (q_center (fq c r1 r2))) k s i j
     = a (off (blk1 (flay c)) r1 + i - ng1 (flay c))%Z (off (blk2 (flay c)) r2 + j - ng2 (flay c))%Z).
  { intros. unfold sample, amap2; cbn [el]. destruct (q_center_el c r1 r2 k s0 i0 j0) as (E1&E2).
    cbv zeta in E1, E2. rewrite E1, E2. reflexivity. }
  revert C. set (A3 := sample (fun x y => fst (ab x y)) (q_center (fq c r1 r2))). intros C.
  assert (D2 : d2 A3 = n1g (flay c) r1) by reflexivity.
  assert (D3 : d3 A3 = n2g (flay c) r2) by reflexivity.
  assert (D0 : d0 A3 = 1%Z) by reflexivity. assert (D1 : d1 A3 = 1%Z) by reflexivity.
  unfold inb in *.
  split; intros Hp; local_el; rewrite D0, D1, D2, D3, !C, ?mod1, ?zero_mod, ?pred_mod by lia;
    unfold bwd1, bwd2, x, y.
  - replace (off (blk2 (flay c)) r2 + (j - 1) - ng2 (flay c))%Z
      with (off (blk2 (flay c)) r2 + j - ng2 (flay c) - 1)%Z by lia. reflexivity.
  - replace (off (blk1 (flay c)) r1 + (i - 1) - ng1 (flay c))%Z
      with (off (blk1 (flay c)) r1 + i - ng1 (flay c) - 1)%Z by lia.
    unfold Rdiv. ring.
Qed.

(** The divergence the solver computes from such an array. *)
Lemma divB_A3 c ab s : regular c -> shaped (flay c) 6 1 (yee_val s) ->
  (forall r1 r2 i j, rank_ok (flay c) r1 r2 -> inb (n1g (flay c) r1) i -> inb (n2g (flay c) r2) j ->
    let x := (off (blk1 (flay c)) r1 + i - ng1 (flay c))%Z in
    let y := (off (blk2 (flay c)) r2 + j - ng2 (flay c))%Z in
    let a := at_centre c ab in
    ((1 <= j)%Z -> el (yee_val s r1 r2) 3 0 i j = bwd2 (fdq2 c) a x y)
    /\ ((1 <= i)%Z -> el (yee_val s r1 r2) 4 0 i j = - bwd1 (fdq1 c) a x y)) ->
  forall i j, inb (gN1 (flay c)) i -> inb (gN2 (flay c)) j ->
  gval (flay c) (compute_divB c s) 0 0 i j = 0.
Proof.
  intros RG SH HB. assert (PL : periodic_layout (flay c)) by apply RG.
  assert (H1 : fdq1 c <> 0) by apply RG. assert (H2 : fdq2 c <> 0) by apply RG.
  assert (PL' := PL). destruct PL' as (_&_&G1&G2&_).
  apply (gval_of_el (flay c) _ 0 (fun _ _ => 0) PL).
  intros r1 r2 i j RK Hi Hj. destruct (SH r1 r2 RK) as (D0&D1&D2&D3).
  unfold compute_divB, dmap. local_el. rewrite D1, D2, D3, ?mod1.
  rewrite !pred_mod by (unfold n1g, n2g; lia). rewrite !zero_mod by (unfold n1g, n2g; lia).
  assert (X1 : inb (n1g (flay c) r1) i) by (unfold inb, n1g; lia).
  assert (X2 : inb (n1g (flay c) r1) (i - 1)) by (unfold inb, n1g; lia).
  assert (Y1 : inb (n2g (flay c) r2) j) by (unfold inb, n2g; lia).
  assert (Y2 : inb (n2g (flay c) r2) (j - 1)) by (unfold inb, n2g; lia).
  rewrite (proj1 (HB r1 r2 i j RK X1 Y1)), (proj2 (HB r1 r2 i j RK X1 Y1)),
    (proj1 (HB r1 r2 (i - 1)%Z j RK X2 Y1)), (proj2 (HB r1 r2 i (j - 1)%Z RK X1 Y2)) by lia.
  unfold bwd1, bwd2.
  replace (off (blk1 (flay c)) r1 + (i - 1) - ng1 (flay c))%Z with (off (blk1 (flay c)) r1 + i - ng1 (flay c) - 1)%Z by lia.
  replace (off (blk2 (flay c)) r2 + (j - 1) - ng2 (flay c))%Z with (off (blk2 (flay c)) r2 + j - ng2 (flay c) - 1)%Z by lia.
  field; auto.
Qed.

Lemma lat_A3 c ab F : regular c -> periodic_potential c ab ->
  (forall r1 r2 i j, rank_ok (flay c) r1 r2 -> inb (n1g (flay c) r1) i -> inb (n2g (flay c) r2) j ->
    let x := (off (blk1 (flay c)) r1 + i - ng1 (flay c))%Z in
    let y := (off (blk2 (flay c)) r2 + j - ng2 (flay c))%Z in
    let a := at_centre c ab in
    ((1 <= j)%Z -> el (F r1 r2) 3 0 i j = bwd2 (fdq2 c) a x y)
    /\ ((1 <= i)%Z -> el (F r1 r2) 4 0 i j = - bwd1 (fdq1 c) a x y)) ->
  forall i j, div_B (fdq1 c) (fdq2 c) (view (flay c) F) i j = 0.
Proof.
  intros RG PP HB. assert (PL : periodic_layout (flay c)) by apply RG.
  assert (H1 : fdq1 c <> 0) by apply RG. assert (H2 : fdq2 c <> 0) by apply RG.
  assert (PL' := PL). destruct PL' as (_&_&G1&G2&_).
  set (a := at_centre c ab) in *.
  assert (PER : forall (g : R -> R) P, (forall q, g (q + P) = g q) -> forall k q, g (q + IZR k * P) = g q).
  { intros g P HP k. induction k using Z.peano_ind; intros q.
    - f_equal. ring.
    - transitivity (g (q + IZR k * P)); [|apply IHk]. rewrite <- (HP (q + IZR k * P)). f_equal. rewrite succ_IZR. ring.
    - transitivity (g (q + IZR k * P)); [|apply IHk]. rewrite <- (HP (q + IZR (Z.pred k) * P)). f_equal.
      unfold Z.pred. rewrite plus_IZR. ring. }
  assert (P1 : forall q1 q2 k, ab (q1 + IZR k * (IZR (gN1 (flay c)) * fdq1 c)) q2 = ab q1 q2)
    by (intros; apply (PER (fun q => ab q q2)); intros; apply PP).
  assert (P2 : forall q1 q2 k, ab q1 (q2 + IZR k * (IZR (gN2 (flay c)) * fdq2 c)) = ab q1 q2)
    by (intros; apply (PER (fun q => ab q1 q)); intros; apply PP).
  assert (PA : forall x y m1 m2, a (x + m1 * gN1 (flay c))%Z (y + m2 * gN2 (flay c))%Z = a x y).
  { intros. unfold a, at_centre.
    rewrite <- (P1 (fq1_start c + (IZR x + 1/2) * fdq1 c) _ m1), <- (P2 _ (fq2_start c + (IZR y + 1/2) * fdq2 c) m2).
    rewrite !plus_IZR, !mult_IZR. f_equal; ring. }
  assert (V3 : forall x y, gper (flay c) F 3 0 x y = bwd2 (fdq2 c) a x y).
  { apply grid_ind; auto.
    - intros x y m1 m2. unfold bwd2.
      replace (y + m2 * gN2 (flay c) - 1)%Z with ((y - 1) + m2 * gN2 (flay c))%Z by lia. rewrite !PA. reflexivity.
    - intros r1 r2 i j RK Hi Hj. apply (HB r1 r2 i j RK); unfold inb, n1g, n2g; lia. }
  assert (V4 : forall x y, gper (flay c) F 4 0 x y = - bwd1 (fdq1 c) a x y).
  { apply grid_ind; auto.
    - intros x y m1 m2. unfold bwd1.
      replace (x + m1 * gN1 (flay c) - 1)%Z with ((x - 1) + m1 * gN1 (flay c))%Z by lia. rewrite !PA. reflexivity.
    - intros r1 r2 i j RK Hi Hj. apply (HB r1 r2 i j RK); unfold inb, n1g, n2g; lia. }
  intros x y. unfold div_B, bwd1, bwd2 at 1; cbn [view B1 B2]. rewrite !V3, !V4.
  unfold bwd1, bwd2. field; auto.
Qed.

Lemma y2c_yee_val c w s : wf_em c s -> yee_val (yee_grid_to_cell_centered_grid w s) = yee_val s.
Proof.
  intros (_&(A&_)&_). unfold yee_grid_to_cell_centered_grid, yee_val; cbn [write yee].
  apply mem_write_other. exact A.
Qed.

(** Which initialisations read the magnetic functions. *)
Definition user_B (c : fcfg) : Prop :=
  fields_initialize c = "user-defined"%string
  \/ fields_initialize c = "fft + user-defined magnetic fields"%string.

Lemma initialize_A3 c ab rho s : regular c -> from_A3 c ab -> user_B c ->
  initialize_fields c rho = Ok s ->
  wf_em c s /\
  forall r1 r2 i j, rank_ok (flay c) r1 r2 -> inb (n1g (flay c) r1) i -> inb (n2g (flay c) r2) j ->
    let x := (off (blk1 (flay c)) r1 + i - ng1 (flay c))%Z in
    let y := (off (blk2 (flay c)) r2 + j - ng2 (flay c))%Z in
    let a := at_centre c (fun u v => fst (ab u v)) in
    ((1 <= j)%Z -> el (yee_val s r1 r2) 3 0 i j = bwd2 (fdq2 c) a x y)
    /\ ((1 <= i)%Z -> el (yee_val s r1 r2) 4 0 i j = - bwd1 (fdq1 c) a x y).
Proof.
  intros RG FA UB H. assert (PE : forall e, fin_q c e = "periodic"%string) by apply RG.
  pose proof (initialize_ok c rho s PE H) as (W&_). split; [exact W|].
  unfold initialize_fields in H.
  match type of H with rbind ?x _ = _ => destruct x as [s1|e] eqn:E1; cbn [rbind] in H; [|discriminate H] end.
  apply Ok_inj in H.
  assert (YS : yee_val s = yee_val s1) by (rewrite <- H; reflexivity). rewrite YS. clear H YS W s.
  destruct UB as [UB|UB]; rewrite UB in E1; cbn in E1.
  - destruct (initialize_electric_fields c (fresh c)) as [s2|e] eqn:E2; cbn [rbind] in E1; [|discriminate E1].
    destruct (initialize_magnetic_fields c s2) as [s3|e] eqn:E3; cbn [rbind] in E1; [|discriminate E1].
    assert (W2 : wf_em c s2) by (eapply wf_set_joined; [|exact E2]; apply wf_fresh).
    destruct (magnetic_A3 c ab s2 s3 W2 FA E3) as (W3&M).
    apply Ok_inj in E1. rewrite <- E1. rewrite (y2c_yee_val c) by auto. exact M.
  - destruct (electrostatic_update c rho (fresh c)) as [s2|e] eqn:E2; cbn [rbind] in E1; [|discriminate E1].
    assert (W2 : wf_em c s2) by (eapply wf_electrostatic; eauto; apply wf_fresh).
    revert E1. set (s3 := cell_centered_grid_to_yee_grid OnlyE s2). intros E1.
    destruct (initialize_magnetic_fields c s3) as [s4|e] eqn:E3; cbn [rbind] in E1; [|discriminate E1].
    assert (W3 : wf_em c s3) by (apply wf_c2y; auto).
    destruct (magnetic_A3 c ab s3 s4 W3 FA E3) as (W4&M).
    apply Ok_inj in E1. rewrite <- E1. rewrite (y2c_yee_val c) by auto. exact M.
Qed.

(** ** initialize_A: forward differences *)
Lemma magnetic_A c A s s' : wf_em c s -> init_B c = None -> init_A c = Some A ->
  initialize_magnetic_fields c s = Ok s' ->
  wf_em c s' /\
  forall r1 r2 i j, rank_ok (flay c) r1 r2 -> inb (n1g (flay c) r1) i -> inb (n2g (flay c) r2) j ->
    let x := (off (blk1 (flay c)) r1 + i - ng1 (flay c))%Z in
    let y := (off (blk2 (flay c)) r2 + j - ng2 (flay c))%Z in
    let a := at_centre c (fun u v => snd (A u v)) in
    ((j < n2g (flay c) r2 - 1)%Z -> el (yee_val s' r1 r2) 3 0 i j = fwd2 (fdq2 c) a x y)
    /\ ((i < n1g (flay c) r1 - 1)%Z -> el (yee_val s' r1 r2) 4 0 i j = - fwd1 (fdq1 c) a x y).
Proof.
  intros W N1 N2 H. split; [eapply wf_set_joined; eauto|].
  intros r1 r2 i j RK Hi Hj x y a.
  unfold initialize_magnetic_fields, set_joined in H.
  destruct (all_ranks (flay c) _) as [F|e] eqn:EF; cbn [rbind] in H; [|discriminate H].
  pose proof (all_ranks_Ok _ _ _ EF r1 r2 RK) as HF. cbv beta in HF.
  apply Ok_inj in H. rewrite <- H, yee_val_write.
  assert (HF' : (let? v := initial_B_rank c r1 r2 in let '(a, b, d) := v in
      Ok (set_rows 3 6 (join3 a b d) (yee_val s r1 r2))) = Ok (F r1 r2)) by exact HF. clear HF. rename HF' into HF.
  unfold initial_B_rank in HF. rewrite N1, N2 in HF.
  replace (match init_A3_B3 c with Some _ => _ | None => _ end) with
    (let A1 := sample (fun x y => fst (fst (A x y))) (q_left_center (fq c r1 r2)) in
      let A2 := sample (fun x y => snd (fst (A x y))) (q_center_bot (fq c r1 r2)) in
      let A3 := sample (fun x y => snd (A x y)) (q_center (fq c r1 r2)) in
      let B1 := adiv (shift A3 0 0 0 (-1) [-] A3) (fdq2 c) in
      let B2 := adiv (aneg (shift A3 0 0 (-1) 0 [-] A3)) (fdq1 c) in
      let dA2_dq1 := adiv (shift A2 0 0 (-1) 0 [-] A2) (fdq1 c) in
      let dA1_dq2 := adiv (shift A1 0 0 0 (-1) [-] A1) (fdq2 c) in
      Ok (B1, B2, dA2_dq1 [-] dA1_dq2)) in HF by (destruct (init_A3_B3 c); reflexivity).
  cbv zeta in HF. cbn [rbind] in HF.
  apply Ok_inj in HF. rewrite <- HF. clear HF H EF F.
  match goal with |- context [join3 ?a ?b ?d] => pose proof (set_joined_rows 3 6 a b d (yee_val s r1 r2) 0 i j
     eq_refl eq_refl eq_refl) as (X3&X4&_) end.
  change (3 + 1)%Z with 4%Z in X4. rewrite X3, X4. clear X3 X4.
  assert (C : forall k s i j, el (sample (fun x y => snd (A x y)) (q_center (fq c r1 r2))) k s i j
     = a (off (blk1 (flay c)) r1 + i - ng1 (flay c))%Z (off (blk2 (flay c)) r2 + j - ng2 (flay c))%Z).
  { intros. unfold sample, amap2; cbn [el]. destruct (q_center_el c r1 r2 k s0 i0 j0) as (E1&E2).
    cbv zeta in E1, E2. rewrite E1, E2. reflexivity. }
  revert C. set (A3 := sample (fun x y => snd (A x y)) (q_center (fq c r1 r2))). intros C.
  assert (D2 : d2 A3 = n1g (flay c) r1) by reflexivity.
  assert (D3 : d3 A3 = n2g (flay c) r2) by reflexivity.
  assert (D0 : d0 A3 = 1%Z) by reflexivity. assert (D1 : d1 A3 = 1%Z) by reflexivity.
  unfold inb in *.
  split; intros Hp; local_el; rewrite D0, D1, D2, D3, !C, ?mod1, ?zero_mod, ?succ_mod by lia;
    unfold fwd1, fwd2, x, y.
  - replace (off (blk2 (flay c)) r2 + (j + 1) - ng2 (flay c))%Z
      with (off (blk2 (flay c)) r2 + j - ng2 (flay c) + 1)%Z by lia. reflexivity.
  - replace (off (blk1 (flay c)) r1 + (i + 1) - ng1 (flay c))%Z
      with (off (blk1 (flay c)) r1 + i - ng1 (flay c) + 1)%Z by lia.
    unfold Rdiv. ring.
Qed.

Lemma initialize_user c rho s : fields_initialize c = "user-defined"%string ->
  initialize_fields c rho = Ok s ->
  exists s2 s3, wf_em c s2 /\ initialize_magnetic_fields c s2 = Ok s3 /\ yee_val s = yee_val s3.
Proof.
  intros UB H. unfold initialize_fields in H. rewrite UB in H. cbn [String.eqb Ascii.eqb eqb] in H.
  destruct (initialize_electric_fields c (fresh c)) as [s2|e] eqn:E2; cbn [rbind] in H; [|discriminate H].
  destruct (initialize_magnetic_fields c s2) as [s3|e] eqn:E3; cbn [rbind] in H; [|discriminate H].
  assert (W2 : wf_em c s2) by (eapply wf_set_joined; [|exact E2]; apply wf_fresh).
  exists s2, s3. split; [auto|]. split; [exact E3|].
  assert (W3 : wf_em c s3) by (eapply wf_set_joined; [exact W2|exact E3]).
  apply Ok_inj in H. rewrite <- H.
  transitivity (yee_val (yee_grid_to_cell_centered_grid Both s3)); [reflexivity|]. apply (y2c_yee_val c); auto.
Qed.

(** What compute_divB gives for initialize_A. *)
Lemma divB_A c A rho s : regular c -> init_B c = None -> init_A c = Some A ->
  fields_initialize c = "user-defined"%string -> initialize_fields c rho = Ok s ->
  forall i j, inb (gN1 (flay c)) i -> inb (gN2 (flay c)) j ->
  gval (flay c) (compute_divB c s) 0 0 i j
  = let a := at_centre c (fun u v => snd (A u v)) in
    bwd1 (fdq1 c) (fwd2 (fdq2 c) a) i j - bwd2 (fdq2 c) (fwd1 (fdq1 c) a) i j.
Proof.
  intros RG N1 N2 UB H. destruct (initialize_user c rho s UB H) as (s2&s3&W2&E3&Y3).
  destruct (magnetic_A c A s2 s3 W2 N1 N2 E3) as (W3&HB).
  assert (PL : periodic_layout (flay c)) by apply RG.
  assert (H1 : fdq1 c <> 0) by apply RG. assert (H2 : fdq2 c <> 0) by apply RG.
  assert (PL' := PL). destruct PL' as (_&_&G1&G2&_).
  set (a := at_centre c (fun u v => snd (A u v))) in *. cbv zeta.
  apply (gval_of_el (flay c) _ 0 (fun i j => bwd1 (fdq1 c) (fwd2 (fdq2 c) a) i j - bwd2 (fdq2 c) (fwd1 (fdq1 c) a) i j) PL).
  intros r1 r2 i j RK Hi Hj. destruct (shaped_yee c s3 W3 r1 r2 RK) as (D0&D1&D2&D3).
  unfold compute_divB, dmap. rewrite Y3. local_el. rewrite D1, D2, D3, ?mod1.
  rewrite !pred_mod by (unfold n1g, n2g; lia). rewrite !zero_mod by (unfold n1g, n2g; lia).
  assert (X1 : inb (n1g (flay c) r1) i) by (unfold inb, n1g; lia).
  assert (X2 : inb (n1g (flay c) r1) (i - 1)) by (unfold inb, n1g; lia).
  assert (Y1 : inb (n2g (flay c) r2) j) by (unfold inb, n2g; lia).
  assert (Y2 : inb (n2g (flay c) r2) (j - 1)) by (unfold inb, n2g; lia).
  rewrite (proj1 (HB r1 r2 i j RK X1 Y1)), (proj2 (HB r1 r2 i j RK X1 Y1)),
    (proj1 (HB r1 r2 (i - 1)%Z j RK X2 Y1)), (proj2 (HB r1 r2 i (j - 1)%Z RK X1 Y2)) by (unfold n1g, n2g; lia).
  unfold bwd1, bwd2.
  replace (off (blk1 (flay c)) r1 + (i - 1) - ng1 (flay c))%Z with (off (blk1 (flay c)) r1 + i - ng1 (flay c) - 1)%Z by lia.
  replace (off (blk2 (flay c)) r2 + (j - 1) - ng2 (flay c))%Z with (off (blk2 (flay c)) r2 + j - ng2 (flay c) - 1)%Z by lia.
  field; auto.
Qed.

(** User-defined fields: the constructor succeeds. *)
Lemma set_joined_total c lo hi f s : (forall r1 r2, exists v, f r1 r2 = Ok v) ->
  exists s', set_joined c lo hi f s = Ok s'.
Proof.
  intros H. unfold set_joined.
  match goal with |- exists s', rbind (all_ranks ?L ?G) _ = _ =>
    assert (E : exists F, all_ranks L G = Ok F) end.
  { unfold all_ranks. induction (ranks (flay c)) as [|r l IH]; cbn [fold_right]; [eauto|].
    destruct (H (fst r) (snd r)) as (((a&b)&d)&->). cbn [rbind]. exact IH. }
  destruct E as (F&->). cbn [rbind]. eauto.
Qed.

Lemma init_total c rho : fields_initialize c = "user-defined"%string ->
  (init_E c <> None \/ init_A_phi c <> None) ->
  (init_B c <> None /\ init_A3_B3 c = None \/ init_B c = None /\ (init_A c <> None \/ init_A3_B3 c <> None)) ->
  exists s1 s, initialize_fields c (dmap asum1 rho) = Ok s1 /\ fields_solver_init c rho = Ok s.
Proof.
  intros FI HE HB.
  assert (TE : forall s, exists s', set_joined c 0 3 (initial_E_rank c) s = Ok s').
  { intros s. apply set_joined_total. intros. unfold initial_E_rank.
    destruct (init_E c); [eauto|]. destruct (init_A_phi c); [eauto|]. destruct HE; congruence. }
  assert (TB : forall s, exists s', set_joined c 3 6 (initial_B_rank c) s = Ok s').
  { intros s. apply set_joined_total. intros. unfold initial_B_rank.
    destruct (init_B c), (init_A3_B3 c), (init_A c); eauto;
      destruct HB as [(X&Y)|(X&[Y|Y])]; congruence. }
  destruct (TE (fresh c)) as (s1&E1). destruct (TB s1) as (s2&E2).
  set (s3 := yee_grid_to_cell_centered_grid Both s2).
  set (s4 := Em (mem s3) (next s3) (cc s3) (yee s3) (cc s3) (cc s3) (at_n s3) (fbuf s3) (ftime s3)).
  assert (I : initialize_fields c (dmap asum1 rho) = Ok s4).
  { unfold initialize_fields. rewrite FI. cbn [String.eqb Ascii.eqb eqb].
    unfold initialize_electric_fields. rewrite E1. cbn [rbind].
    unfold initialize_magnetic_fields. rewrite E2. cbn [rbind]. reflexivity. }
  exists s4. eexists. split; [exact I|]. unfold fields_solver_init. rewrite I. reflexivity.
Qed.
