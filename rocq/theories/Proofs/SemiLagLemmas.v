(** Semi-Lagrangian advection in q-space against transport on the global grid. *)
From Coq Require Import ZArith Reals Lra Lia String List Bool.
From Verif Require Import Base.Prelude Base.ZSum Model.Af Model.Grid Model.Petsc Model.Config
  Model.Boundaries Model.Fvm Model.Em Model.Integrators Model.Splitting Model.SemiLag Model.Timestep Model.Solver
  Spec.Lattice Spec.Domain Spec.FvmProblem Spec.FvmRun Spec.Clock Spec.Interp
  Proofs.AfLemmas Proofs.PetscLemmas Proofs.ConvLemmas Proofs.FvmLemmas Proofs.FvmLemmas2
  Proofs.InterpLemmas Proofs.TimestepLemmas Proofs.SolverLemmas.
Import ListNotations.
Local Open Scope R_scope.

Section Rank.
Variables (c : cfg) (k1 k2 : scheme) (w : weights) (ap : arr R -> arr R -> arr R -> arr R).
Hypothesis W : wf_cfg c k1 k2.
Hypothesis IT : interpolates w ap.
Hypothesis US : uses c ap.
Hypothesis PL : periodic_layout (lay c).
Hypothesis DQ : dq1 c <> 0 /\ dq2 c <> 0.
Local Notation L := (lay c).

Lemma served_fits n g d i m : served g d -> (0 < g)%Z -> (g <= i < g + n)%Z -> (m = n + 2 * g)%Z ->
  fits m (IZR i - d).
Proof.
  intros S G Hi ->. destruct S as [A|(E&A)].
  - left. apply Rabs_def2 in A. rewrite minus_IZR in A. destruct A as (A&B).
    pose proof (Int_part_bounds (IZR i - d)) as (C&D).
    assert (H1 : 0 < IZR (Int_part (IZR i - d))).
    { assert (IZR g <= IZR i) by (apply IZR_le; lia).
      assert (X : IZR 1 < IZR (Int_part (IZR i - d) + 1)) by (rewrite plus_IZR; lra).
      apply lt_IZR in X. apply IZR_lt. lia. }
    assert (H2 : IZR (Int_part (IZR i - d)) < IZR (g + n - 1) + IZR (g - 1)).
    { assert (IZR i <= IZR (g + n - 1)) by (apply IZR_le; lia). rewrite (minus_IZR g). lra. }
    rewrite <- plus_IZR in H2. apply lt_IZR in H1, H2. lia.
  - right. apply frac_0 in E. rewrite E in *. rewrite <- minus_IZR.
    rewrite Int_part_Z, frac_part_Z. split; [reflexivity|].
    rewrite <- abs_IZR in A. apply le_IZR in A. lia.
Qed.

Lemma interp_any r1 r2 t dt f : rank_ok L r1 r2 -> q_shaped c r1 r2 f ->
  q_shaped c r1 r2 (f_interp_2d c r1 r2 t dt f)
  /\ (forall U, covers c r1 r2 f U ->
     forall x s i j, inb (N_p c) x -> inb (N_species c) s ->
     inb (bsize (blk1 L) r1) i -> inb (bsize (blk2 L) r2) j ->
     let g1 := (off (blk1 L) r1 + i)%Z in let g2 := (off (blk2 L) r2 + j)%Z in
     served (ng1 L) (moved1 c t dt x s g1 g2) -> served (ng2 L) (moved2 c t dt x s g1 g2) ->
     el (f_interp_2d c r1 r2 t dt f) x s (ng1 L + i) (ng2 L + j)
     = characteristics c w t dt U x s g1 g2)
  /\ forall x s i j, inb (N_p c) x -> inb (N_species c) s ->
     inb (bsize (blk1 L) r1) i -> inb (bsize (blk2 L) r2) j ->
     let g1 := (off (blk1 L) r1 + i)%Z in let g2 := (off (blk2 L) r2 + j)%Z in
     off_table (n1g L r1) (IZR (ng1 L + i) - moved1 c t dt x s g1 g2)
     \/ off_table (n2g L r2) (IZR (ng2 L + j) - moved2 c t dt x s g1 g2) ->
     el (f_interp_2d c r1 r2 t dt f) x s (ng1 L + i) (ng2 L + j) = 0.
Proof.
  intros RK (F0&F1&F2&F3).
  destruct PL as (T1&T2&G1&G2&_). destruct T1 as (TN1&TF1&TS1), T2 as (TN2&TF2&TS2). destruct RK as (K1&K2).
  pose proof (bsize_pos _ _ TF1 K1) as B1. pose proof (bsize_pos _ _ TF2 K2) as B2.
  destruct (wf_pos _ _ _ W) as (Q1&Q2&Q3&QS).
  assert (QN : (0 < N_p c)%Z) by (unfold N_p; nia).
  assert (n1 : (2 < n1g L r1)%Z) by (unfold n1g; lia). assert (n2 : (2 < n2g L r2)%Z) by (unfold n2g; lia).
  unfold f_interp_2d. cbv zeta. rewrite !US. unfold in_cells. cbv zeta.
  set (q := q_center (qc c r1 r2)).
  set (A := broadcast_qp c _ _ _ _ _ _).
  set (v := reorder2310 f).
  set (x := amap _ (reorder2310 (bcast2 Rplus (fst q) _))).
  set (y := amap _ (reorder2310 (bcast2 Rplus (snd q) _))).
  assert (Dv : d0 v = n1g L r1 /\ d1 v = n2g L r2 /\ d2 v = N_species c /\ d3 v = N_p c).
  { unfold v, reorder2310; cbn [d0 d1 d2 d3]. auto. }
  assert (Dx : d0 x = n1g L r1 /\ d1 x = n2g L r2 /\ d2 x = N_species c /\ d3 x = N_p c).
  { unfold x, A, q, reorder2310, bcast2, broadcast_qp, amap, qc, calculate_q, coord_arr, amap; cbn [d0 d1 d2 d3 fst snd q_center].
    unfold n1g, n2g in *. lia. }
  assert (Dy : d0 y = n1g L r1 /\ d1 y = n2g L r2 /\ d2 y = N_species c /\ d3 y = N_p c).
  { unfold y, A, q, reorder2310, bcast2, broadcast_qp, amap, qc, calculate_q, coord_arr, amap; cbn [d0 d1 d2 d3 fst snd q_center].
    unfold n1g, n2g in *. lia. }
  assert (SX : same_dims v x) by (unfold same_dims; intuition congruence).
  assert (SY : same_dims v y) by (unfold same_dims; intuition congruence).
    assert (EX : forall p s i j, inb (N_p c) p -> inb (N_species c) s -> inb (n1g L r1) i -> inb (n2g L r2) j ->
       el x i j s p = IZR i - moved1 c t dt p s (off (blk1 L) r1 + i - ng1 L) (off (blk2 L) r2 + j - ng2 L)
       /\ el y i j s p = IZR j - moved2 c t dt p s (off (blk1 L) r1 + i - ng1 L) (off (blk2 L) r2 + j - ng2 L)).
    { clear - W DQ n1 n2. intros p s i j Hp Hs Hi Hj. unfold x, y, amap, reorder2310, bcast2; cbn [el].
      assert (BA : bel (amap (fun a : R * R => - fst a * dt) A) p s i j
                   = - fst (velocity_a c t p s (off (blk1 L) r1 + i - ng1 L) (off (blk2 L) r2 + j - ng2 L)) * dt
                /\ bel (amap (fun a : R * R => - snd a * dt) A) p s i j
                   = - snd (velocity_a c t p s (off (blk1 L) r1 + i - ng1 L) (off (blk2 L) r2 + j - ng2 L)) * dt).
      { rewrite !amap_bel.
        assert (EA : bel A p s i j = velocity_a c t p s (off (blk1 L) r1 + i - ng1 L) (off (blk2 L) r2 + j - ng2 L)).
        { unfold A, broadcast_qp. unfold bel at 1. cbn [d0 d1 d2 d3 el].
          replace (d2 (fst q)) with (n1g L r1) by reflexivity. replace (d3 (fst q)) with (n2g L r2) by reflexivity.
          rewrite !bidx_id by auto.
          destruct (p_centers c k1 k2 p s i j W Hp Hs) as (->&->&->&_).
          destruct (q_coords c r1 r2 p s i j Hi Hj) as (_&_&_&_&_&_&C1&C2). fold q in C1, C2. rewrite C1, C2.
          reflexivity. }
        rewrite EA. auto. }
      destruct BA as (BA1&BA2).
      change (Arr (d0 A) (d1 A) (d2 A) (d3 A) (fun i0 j0 k l => - fst (el A i0 j0 k l) * dt))
        with (amap (fun a : R * R => - fst a * dt) A).
      change (Arr (d0 A) (d1 A) (d2 A) (d3 A) (fun i0 j0 k l => - snd (el A i0 j0 k l) * dt))
        with (amap (fun a : R * R => - snd a * dt) A).
      rewrite BA1, BA2.
      destruct (q_coords c r1 r2 p s i j Hi Hj) as (_&_&_&_&_&_&C1&C2). fold q in C1, C2. rewrite C1, C2.
      destruct DQ as (H1&H2). unfold moved1, moved2, q, qc, calculate_q, coord_arr, amap; cbn [q_center fst snd el].
      unfold pos1, pos2.
      replace (0.5) with (1/2) by lra.
      rewrite !minus_IZR, !plus_IZR. split; field; split; auto; lra. }
  split; [|split].
  - destruct (it_dims w ap IT v x y SX SY) as (E0&E1&E2&E3).
    unfold q_shaped, reorder3201; cbn [d0 d1 d2 d3]. intuition congruence.
  - intros U (_&CV) p s i j Hp Hs Hi Hj. set (g1 := (off (blk1 L) r1 + i)%Z). set (g2 := (off (blk2 L) r2 + j)%Z). intros S1 S2.
    assert (I1 : inb (n1g L r1) (ng1 L + i)) by (unfold inb, n1g in *; lia).
    assert (I2 : inb (n2g L r2) (ng2 L + j)) by (unfold inb, n2g in *; lia).
    unfold reorder3201; cbn [el].
    destruct (EX _ _ _ _ Hp Hs I1 I2) as (X&Y).
    replace (off (blk1 L) r1 + (ng1 L + i) - ng1 L)%Z with g1 in X, Y by (unfold g1; lia).
    replace (off (blk2 L) r2 + (ng2 L + j) - ng2 L)%Z with g2 in X, Y by (unfold g2; lia).
    assert (FX : fits (d0 v) (el x (ng1 L + i) (ng2 L + j) s p)).
    { rewrite X. apply (served_fits (bsize (blk1 L) r1) (ng1 L)); auto. unfold inb in Hi; lia. }
    assert (FY : fits (d1 v) (el y (ng1 L + i) (ng2 L + j) s p)).
    { rewrite Y. apply (served_fits (bsize (blk2 L) r2) (ng2 L)); auto. unfold inb in Hj; lia. }
    rewrite (it_inner w ap IT v x y); auto.
    2:{ unfold inside. destruct Dx as (->&->&->&->). auto. }
    unfold characteristics.
    replace (IZR g1 - moved1 c t dt p s g1 g2)
      with (el x (ng1 L + i) (ng2 L + j) s p + IZR (off (blk1 L) r1 - ng1 L)).
    2:{ rewrite X. unfold g1. rewrite minus_IZR, !plus_IZR. lra. }
    replace (IZR g2 - moved2 c t dt p s g1 g2)
      with (el y (ng1 L + i) (ng2 L + j) s p + IZR (off (blk2 L) r2 - ng2 L)).
    2:{ rewrite Y. unfold g2. rewrite minus_IZR, !plus_IZR. lra. }
    rewrite interp2_shift.
    apply (interp2_ext _ _ _ _ _ _ _ (it_nodal w ap IT) FX FY).
    intros a b Ha Hb. unfold v, reorder2310 in Ha, Hb |- *; cbn [el d0 d1] in *.
    rewrite F2 in Ha. rewrite F3 in Hb. rewrite CV by auto. f_equal; f_equal; lia.
  - intros p s i j Hp Hs Hi Hj. set (g1 := (off (blk1 L) r1 + i)%Z). set (g2 := (off (blk2 L) r2 + j)%Z). intros OT.
    assert (I1 : inb (n1g L r1) (ng1 L + i)) by (unfold inb, n1g in *; lia).
    assert (I2 : inb (n2g L r2) (ng2 L + j)) by (unfold inb, n2g in *; lia).
    unfold reorder3201; cbn [el].
    destruct (EX _ _ _ _ Hp Hs I1 I2) as (X&Y).
    replace (off (blk1 L) r1 + (ng1 L + i) - ng1 L)%Z with g1 in X, Y by (unfold g1; lia).
    replace (off (blk2 L) r2 + (ng2 L + j) - ng2 L)%Z with g2 in X, Y by (unfold g2; lia).
    apply (it_off w ap IT v x y); auto.
    + unfold inside. destruct Dx as (->&->&->&->). auto.
    + rewrite X, Y. destruct Dv as (->&->&_). exact OT.
Qed.

Lemma interp_shape r1 r2 t dt f : rank_ok L r1 r2 -> q_shaped c r1 r2 f ->
  q_shaped c r1 r2 (f_interp_2d c r1 r2 t dt f)
  /\ forall U, covers c r1 r2 f U ->
     forall x s i j, inb (N_p c) x -> inb (N_species c) s ->
     inb (bsize (blk1 L) r1) i -> inb (bsize (blk2 L) r2) j ->
     let g1 := (off (blk1 L) r1 + i)%Z in let g2 := (off (blk2 L) r2 + j)%Z in
     served (ng1 L) (moved1 c t dt x s g1 g2) -> served (ng2 L) (moved2 c t dt x s g1 g2) ->
     el (f_interp_2d c r1 r2 t dt f) x s (ng1 L + i) (ng2 L + j)
     = characteristics c w t dt U x s g1 g2.
Proof. exact (fun RK F => conj (proj1 (interp_any r1 r2 t dt f RK F)) (proj1 (proj2 (interp_any r1 r2 t dt f RK F)))). Qed.
End Rank.

Lemma covers_exchange c s r1 r2 : periodic_layout (lay c) -> shaped (lay c) (N_p c) (N_species c) (sf s) ->
  rank_ok (lay c) r1 r2 -> covers c r1 r2 (sf (communicate_f c s) r1 r2) (gval (lay c) (sf s)).
Proof.
  intros PL SH RK. split.
  - destruct (communicate_shaped (lay c) (N_p c) (N_species c) (sbuf s) (sf s) r1 r2 RK) as (A&B&C&D). repeat split; auto.
  - intros. unfold communicate_f; cbn [sf]. rewrite communicate_el by auto. reflexivity.
Qed.

Lemma interp2_ext_all w u v X Y : (forall a b, u a b = v a b) -> interp2 w u X Y = interp2 w v X Y.
Proof. intros E. unfold interp2. apply zsum_ext; intros. apply zsum_ext; intros. rewrite E. reflexivity. Qed.

Section Params.
Variables (P : params) (k1 k2 : scheme) (w : weights) (ap : arr R -> arr R -> arr R -> arr R).
Let c := pc P.
Hypothesis W : wf_cfg c k1 k2.
Hypothesis IT : interpolates w ap.
Hypothesis US : uses c ap.
Hypothesis PL : periodic_layout (lay c).
Hypothesis PE : forall e, in_q c e = "periodic"%string.
Hypothesis DQ : dq1 c <> 0 /\ dq2 c <> 0.
Local Notation L := (lay c).

(** States of the solver over the global grid. *)
Definition inert (s s' : solver) : Prop :=
  fields s' = fields s /\ time_elapsed s' = time_elapsed s /\ cur_dt s' = cur_dt s.

Lemma advect_spec dt s u : holds c (f_of s) u -> reach c (time_elapsed s) dt ->
  exists s', op_advect_q P dt s = Ok s' /\ holds c (f_of s') (characteristics c w (time_elapsed s) dt u)
  /\ inert s s'.
Proof.
  intros (SH&HU) RE. unfold op_advect_q, refresh_f. cbv zeta.
  match goal with |- context [all_ranks ?L ?F] => destruct (all_ranks_ok L F) as (G&EG&VG) end.
  { intros r1 r2 _. rewrite apply_bcs_periodic by auto. eauto. }
  rewrite EG. cbn [rbind]. eexists. split; [reflexivity|]. split; [|repeat split].
  assert (CV : forall r1 r2, rank_ok L r1 r2 -> covers c r1 r2 (G r1 r2) (gval L (f_of s))).
  { intros r1 r2 RK. specialize (VG r1 r2 RK). rewrite apply_bcs_periodic in VG by auto.
    injection VG as <-. apply covers_exchange; auto. }
  unfold f_of at 1. cbn [fpart set_fpart sf]. split.
  - intros r1 r2 RK. destruct (CV r1 r2 RK) as (QS&_).
    exact (proj1 (interp_shape c k1 k2 w ap W IT US PL DQ r1 r2 (time_elapsed s) dt (G r1 r2) RK QS)).
  - intros x sp g1 g2 Hx Hs H1 H2. unfold gval. cbv zeta.
    destruct PL as ((TN1&TF1&TS1)&(TN2&TF2&TS2)&_).
    destruct (owner_spec (blk1 L) g1 TF1) as (O1&O1'); [unfold inb in H1; lia|].
    destruct (owner_spec (blk2 L) g2 TF2) as (O2&O2'); [unfold inb in H2; lia|].
    set (r1 := owner (blk1 L) g1) in *. set (r2 := owner (blk2 L) g2) in *.
    assert (RK : rank_ok L r1 r2) by (split; auto).
    destruct (CV r1 r2 RK) as (QS&CVe).
    destruct (RE x sp g1 g2 Hx Hs H1 H2) as (S1&S2).
    destruct (interp_shape c k1 k2 w ap W IT US PL DQ r1 r2 (time_elapsed s) dt (G r1 r2) RK QS) as (_&V).
    specialize (V _ (CV r1 r2 RK) x sp (g1 - off (blk1 L) r1)%Z (g2 - off (blk2 L) r2)%Z Hx Hs).
    rewrite !Zplus_minus in V. etransitivity; [apply V; auto; unfold inb; lia|].
    unfold characteristics. apply interp2_ext_all. intros a b. apply HU; auto; apply Z.mod_pos_bound; lia.
Qed.

Hypothesis SI : instantaneous P = true -> forall t q1 q2 w w',
    (forall x s, inb (N_p c) x -> inb (N_species c) s -> w x s = w' x s) ->
    forall x s, inb (N_p c) x -> inb (N_species c) s ->
    source_inst P t q1 q2 w x s = source_inst P t q1 q2 w' x s.

Lemma with_source_holds src g t F u h :
  (forall q1 q2 v v', (forall x s, inb (N_p c) x -> inb (N_species c) s -> v x s = v' x s) ->
     forall x s, inb (N_p c) x -> inb (N_species c) s ->
     g q1 q2 (src t q1 q2) v x s = g q1 q2 (src t q1 q2) v' x s) ->
  (forall x s g1 g2, h x s g1 g2 = g (pos1 c (1/2) g1) (pos2 c (1/2) g2)
       (src t (pos1 c (1/2) g1) (pos2 c (1/2) g2)) (fun x s => u x s g1 g2) x s) ->
  holds c F u -> holds c (fun r1 r2 => with_source src g c r1 r2 t (F r1 r2)) h.
Proof.
  intros EX EH (SH&HU). split.
  - intros r1 r2 RK. apply (SH r1 r2 RK).
  - intros x s g1 g2 Hx Hs H1 H2. unfold gval, with_source. cbn [el].
    destruct PL as ((TN1&TF1&TS1)&(TN2&TF2&TS2)&G1&G2&_).
    destruct (owner_spec (blk1 L) g1 TF1) as (O1&O1'); [unfold inb in H1; lia|].
    destruct (owner_spec (blk2 L) g2 TF2) as (O2&O2'); [unfold inb in H2; lia|].
    set (r1 := owner (blk1 L) g1) in *. set (r2 := owner (blk2 L) g2) in *.
    assert (I1 : inb (n1g L r1) (ng1 L + (g1 - off (blk1 L) r1))) by (unfold inb, n1g; lia).
    assert (I2 : inb (n2g L r2) (ng2 L + (g2 - off (blk2 L) r2))) by (unfold inb, n2g; lia).
    destruct (q_coords c r1 r2 x s _ _ I1 I2) as (_&_&_&_&_&_&C1&C2). rewrite C1, C2.
    replace (off (blk1 L) r1 + (ng1 L + (g1 - off (blk1 L) r1)) - ng1 L)%Z with g1 by lia.
    replace (off (blk2 L) r2 + (ng2 L + (g2 - off (blk2 L) r2)) - ng2 L)%Z with g2 by lia.
    rewrite EH. apply EX; auto. intros x' s' Hx' Hs'. apply (HU x' s' g1 g2); auto.
Qed.

Lemma source_spec dt s u : holds c (f_of s) u ->
  exists s', op_solve_src P dt s = Ok s' /\ holds c (f_of s') (collide P (time_elapsed s) dt u) /\ inert s s'.
Proof.
  intros HU. unfold op_solve_src, collide. cbv zeta. fold c.
  destruct (instantaneous P) eqn:IN.
  - rewrite andb_false_r. eexists. split; [reflexivity|]. split; [|repeat split].
    cbn [f_of set_f_of fpart set_fpart sf]. eapply (with_source_holds _ (fun _ _ src f => src f)); [intros; apply SI; auto|reflexivity|exact HU].
  - rewrite andb_true_r. destruct (source_enabled c) eqn:SE.
    + eexists. split; [reflexivity|]. split; [|repeat split].
      cbn [f_of set_f_of fpart set_fpart sf].
      destruct W as (_&_&_&_&_&_&_&_&_&_&_&_&SL).
      eapply (with_source_holds _ (fun _ _ src f => RK2_cell src f dt)); [| |exact HU].
      * intros q1 q2 v v' E x sp Hx Hs. unfold RK2_cell, RK2; cbn [fst snd].
        rewrite (E x sp) by auto. f_equal. f_equal. apply SL; auto. intros a b Ha Hb.
        rewrite (E a b) by auto. f_equal. f_equal. apply SL; auto.
      * intros x sp g1 g2. unfold RK2_cell, RK2; cbn [fst snd]. rewrite (Rmult_comm dt).
        f_equal. f_equal. f_equal. 
        apply FunctionalExtensionality.functional_extensionality; intros a.
        apply FunctionalExtensionality.functional_extensionality; intros b. rewrite (Rmult_comm (dt / 2)). reflexivity.
    + eexists. split; [reflexivity|]. split; [exact HU|repeat split].
Qed.

(** ** Splitting *)
Definition follows (op : operator solver) (g : R -> R -> gstate -> gstate) (Q : R -> R -> Prop) : Prop :=
  forall dt s u, holds c (f_of s) u -> Q (time_elapsed s) dt ->
  exists s', op dt s = Ok s' /\ holds c (f_of s') (g (time_elapsed s) dt u) /\ inert s s'.

Lemma inert_trans a b d : inert a b -> inert b d -> inert a d.
Proof. unfold inert. intuition congruence. Qed.

Lemma holds_mix a F u b G v : holds c F u -> holds c G v ->
  holds c (dmap2 (amap2 (fun x y => a * x + b * y)) F G) (fun x s i j => a * u x s i j + b * v x s i j).
Proof.
  intros (SF&HF) (SG&HG). split.
  - intros r1 r2 RK. exact (SF r1 r2 RK).
  - intros x s g1 g2 Hx Hs H1 H2. rewrite <- HF, <- HG by auto. reflexivity.
Qed.
Lemma holds_ext F u v : holds c F u -> (forall x s i j, u x s i j = v x s i j) -> holds c F v.
Proof. intros (A&B) E. split; auto. intros. rewrite <- E. auto. Qed.

Hypothesis OFF : fields_enabled c = false.
Lemma split_spec m o1 o2 g1 g2 Q dt s u :
  follows o1 g1 Q -> follows o2 g2 (fun _ _ => True) -> holds c (f_of s) u ->
  (match m with Lie | Swss => Q (time_elapsed s) dt | Strang => Q (time_elapsed s) (1/2 * dt)
   | Jia => Q (time_elapsed s) dt /\ Q (time_elapsed s) (1/2 * dt) end) ->
  exists s', split_of (solver_stepper P) m o1 o2 dt s = Ok s'
  /\ holds c (f_of s') (compose m (g1 (time_elapsed s)) (g2 (time_elapsed s)) dt u) /\ inert s s'.
Proof.
  intros F1 F2.
  assert (LIE : forall s u, holds c (f_of s) u -> Q (time_elapsed s) dt ->
     exists s', lie o1 o2 dt s = Ok s' /\ holds c (f_of s') (g2 (time_elapsed s) dt (g1 (time_elapsed s) dt u)) /\ inert s s').
  { clear s u. intros s u HU Q1. unfold lie. destruct (F1 dt s u HU Q1) as (a&->&Ha&Ia). cbn [rbind].
    destruct (F2 dt a _ Ha I) as (b&->&Hb&Ib). exists b. destruct Ia as (A1&A2&A3). rewrite A2 in Hb.
    split; [reflexivity|]. split; [exact Hb|]. eapply inert_trans; [|exact Ib]. repeat split; auto. }
  assert (LIE' : forall s u, holds c (f_of s) u -> Q (time_elapsed s) dt ->
     exists s', lie o2 o1 dt s = Ok s' /\ holds c (f_of s') (g1 (time_elapsed s) dt (g2 (time_elapsed s) dt u)) /\ inert s s').
  { clear s u. intros s u HU Q1. unfold lie. destruct (F2 dt s u HU I) as (a&->&Ha&Ia). cbn [rbind].
    destruct Ia as (A1&A2&A3). rewrite <- A2 in Q1.
    destruct (F1 dt a _ Ha Q1) as (b&->&Hb&Ib). exists b. rewrite A2 in Hb.
    split; [reflexivity|]. split; [exact Hb|]. eapply inert_trans; [|exact Ib]. repeat split; auto. }
  assert (ST : forall s u, holds c (f_of s) u -> Q (time_elapsed s) (1/2*dt) ->
     exists s', strang o1 o2 dt s = Ok s' /\ holds c (f_of s')
       (g1 (time_elapsed s) (1/2*dt) (g2 (time_elapsed s) dt (g1 (time_elapsed s) (1/2*dt) u))) /\ inert s s').
  { clear s u. intros s u HU Q1. unfold strang. destruct (F1 (1/2*dt) s u HU Q1) as (a&->&Ha&Ia). cbn [rbind].
    destruct (F2 dt a _ Ha I) as (b&->&Hb&Ib). cbn [rbind].
    pose proof (inert_trans _ _ _ Ia Ib) as (B1&B2&B3). rewrite <- B2 in Q1.
    destruct (F1 (1/2*dt) b _ Hb Q1) as (d&->&Hd&Id). exists d. destruct Ia as (_&A2&_). rewrite B2, A2 in Hd.
    split; [reflexivity|]. split; [exact Hd|]. eapply inert_trans; [|exact Id]. repeat split; auto. }
  assert (ST' : forall s u, holds c (f_of s) u -> Q (time_elapsed s) dt ->
     exists s', strang o2 o1 dt s = Ok s' /\ holds c (f_of s')
       (g2 (time_elapsed s) (1/2*dt) (g1 (time_elapsed s) dt (g2 (time_elapsed s) (1/2*dt) u))) /\ inert s s').
  { clear s u. intros s u HU Q1. unfold strang. destruct (F2 (1/2*dt) s u HU I) as (a&->&Ha&Ia). cbn [rbind].
    destruct Ia as (A1&A2&A3). rewrite <- A2 in Q1.
    destruct (F1 dt a _ Ha Q1) as (b&->&Hb&Ib). cbn [rbind]. destruct Ib as (B1&B2&B3).
    destruct (F2 (1/2*dt) b _ Hb I) as (d&->&Hd&Id). exists d. rewrite B2, A2 in Hd.
    split; [reflexivity|]. split; [exact Hd|]. eapply inert_trans; [|exact Id]. split; [|split]; congruence. }
  assert (SW : forall s u, holds c (f_of s) u -> Q (time_elapsed s) dt ->
     exists s', swss (solver_host P) o1 o2 dt s = Ok s' /\ holds c (f_of s')
       (fun x sp i j => 1/2 * g1 (time_elapsed s) dt (g2 (time_elapsed s) dt u) x sp i j
                        + 1/2 * g2 (time_elapsed s) dt (g1 (time_elapsed s) dt u) x sp i j) /\ inert s s').
  { clear s u. intros s u HU Q1. unfold swss. cbv zeta.
    destruct (LIE s u HU Q1) as (a&La&Ha&Ia). unfold lie in La. apply rbind_inv in La. destruct La as (a0&E0&E1).
    rewrite E0. cbn [rbind]. rewrite E1. cbn [rbind].
    change (fields_on (solver_host P)) with (fields_enabled (pc P)). fold c. rewrite OFF.
    change (set_f (solver_host P)) with set_f_of. change (get_f (solver_host P)) with f_of.
    destruct Ia as (A1&A2&A3).
    assert (HR : holds c (f_of (set_f_of (f_of s) a)) u) by exact HU.
    assert (QR : Q (time_elapsed (set_f_of (f_of s) a)) dt).
    { change (time_elapsed (set_f_of (f_of s) a)) with (time_elapsed a). rewrite A2. exact Q1. }
    destruct (LIE' _ u HR QR) as (b&Lb&Hb&Ib). unfold lie in Lb. apply rbind_inv in Lb. destruct Lb as (b0&X0&X1).
    rewrite X0. cbn [rbind]. rewrite X1. cbn [rbind]. eexists. split; [reflexivity|].
    change (time_elapsed (set_f_of (f_of s) a)) with (time_elapsed a) in Hb. rewrite A2 in Hb.
    split.
    - change (holds c (dmap2 (amap2 (fun x y => 1/2 * x + 1/2 * y)) (f_of b) (f_of a))
        (fun x sp i j => 1/2 * g1 (time_elapsed s) dt (g2 (time_elapsed s) dt u) x sp i j
                        + 1/2 * g2 (time_elapsed s) dt (g1 (time_elapsed s) dt u) x sp i j)).
      apply holds_mix; auto.
    - destruct Ib as (B1&B2&B3). split; [|split]; [exact (eq_trans B1 A1)|exact (eq_trans B2 A2)|exact (eq_trans B3 A3)]. }
  intros HU. destruct m; unfold split_of, compose; cbv zeta; intros Qm.
  - apply LIE; auto.
  - apply ST; auto.
  - apply SW; auto.
  - destruct Qm as (Q1&Qh). change (st_host (solver_stepper P)) with (solver_host P). unfold jia. cbv zeta.
    change (fields_on (solver_host P)) with (fields_enabled (pc P)). fold c. rewrite OFF.
    change (set_f (solver_host P)) with set_f_of. change (get_f (solver_host P)) with f_of.
    destruct (ST s u HU Qh) as (a&->&Ha&(A1&A2&A3)). cbn [rbind].
    destruct (ST' (set_f_of (f_of s) a) u) as (b&->&Hb&(B1&B2&B3)).
    { exact HU. } { change (time_elapsed (set_f_of (f_of s) a)) with (time_elapsed a). rewrite A2. exact Q1. }
    cbn [rbind].
    change (time_elapsed (set_f_of (f_of s) a)) with (time_elapsed a) in Hb, B2.
    change (fields (set_f_of (f_of s) a)) with (fields a) in B1.
    change (cur_dt (set_f_of (f_of s) a)) with (cur_dt a) in B3. rewrite A2 in Hb.
    destruct (SW (set_f_of (f_of s) b) u) as (d&->&Hd&(D1&D2&D3)).
    { exact HU. } { change (time_elapsed (set_f_of (f_of s) b)) with (time_elapsed b). rewrite B2, A2. exact Q1. }
    cbn [rbind].
    change (time_elapsed (set_f_of (f_of s) b)) with (time_elapsed b) in Hd, D2. rewrite B2, A2 in Hd.
    change (fields (set_f_of (f_of s) b)) with (fields b) in D1.
    change (cur_dt (set_f_of (f_of s) b)) with (cur_dt b) in D3.
    eexists. split; [reflexivity|]. split.
    + pose proof (holds_mix 1 _ _ (-(1/3)) _ _ (holds_mix (2/3) _ _ (2/3) _ _ Ha Hb) Hd) as X.
      eapply holds_ext; [exact X|]. intros; cbv beta. lra.
    + split; [|split]; [exact (eq_trans D1 (eq_trans B1 A1))|exact (eq_trans D2 (eq_trans B2 A2))|exact (eq_trans D3 (eq_trans B3 A3))].
Qed.

Hypothesis MQ : solver_method_in_q c = "ASL"%string.
Lemma stream_step m dt s u : holds c (f_of s) u -> reach_step c (time_elapsed s) m dt ->
  exists s', step_of (solver_stepper P) m dt s = Ok (s', None)
  /\ holds c (f_of s') (compose m (characteristics c w (time_elapsed s)) (collide P (time_elapsed s)) dt u)
  /\ time_elapsed s' = time_elapsed s + dt.
Proof.
  intros HU RE. rewrite step_of_eq. unfold step, advance.
  change (method_q (solver_stepper P)) with (solver_method_in_q (pc P)).
  change (with_fields (solver_stepper P)) with (fields_enabled (pc P)). fold c. rewrite MQ, OFF.
  cbn [String.eqb Ascii.eqb Bool.eqb].
  change (Timestep.op_advect_q (solver_stepper P)) with (op_advect_q P).
  change (Timestep.op_solve_src (solver_stepper P)) with (op_solve_src P).
  destruct (split_spec m (op_advect_q P) (op_solve_src P) (fun t => characteristics c w t) (fun t => collide P t)
     (reach c) dt (set_dt (solver_stepper P) dt s) u) as (s'&->&HS&(I1&I2&I3)).
  - intros dt' s' u' H' Q'. apply advect_spec; auto.
  - intros dt' s' u' H' _. apply source_spec; auto.
  - exact HU.
  - unfold reach_step in RE. destruct m; exact RE.
  - cbn [rbind]. assert (D : diverged (solver_stepper P) s' = false) by (apply finite_iff, solver_finite).
    rewrite D. eexists. split; [reflexivity|]. split; [exact HS|].
    change (time_elapsed s' + dt = time_elapsed s + dt). rewrite I2. reflexivity.
Qed.

Lemma stream_run h : forall s u, holds c (f_of s) u -> reach_run c (time_elapsed s) h ->
  exists s', run_steps (solver_stepper P) h s = Ok (s', None)
  /\ holds c (f_of s') (transport P w (time_elapsed s) h u)
  /\ time_elapsed s' = time_elapsed s + elapsed h.
Proof.
  induction h as [|(m&dt) h IH]; intros s u HU RE; cbn [run_steps transport elapsed].
  - exists s. split; [reflexivity|]. split; [exact HU|lra].
  - destruct RE as (R1&R2). destruct (stream_step m dt s u HU R1) as (a&->&Ha&Ta). cbn [rbind].
    rewrite <- Ta in R2. destruct (IH a _ Ha R2) as (b&->&Hb&Tb). exists b. rewrite Ta in Hb, Tb.
    split; [reflexivity|]. split; [exact Hb|lra].
Qed.
End Params.
