(** Ohm's law rank by rank, for any number of ghost zones from two. *)
From Coq Require Import ZArith Reals Lia Lra String List Bool.
From Verif Require Import Base.Prelude Base.ZSum Model.Af Model.Petsc Model.Config
  Model.Fvm Model.Em Model.Moments Model.Splitting Model.SemiLag Model.Timestep Model.Solver Spec.Domain Spec.Lattice Spec.FvmProblem Spec.FvmRun
  Spec.Yee Spec.EmRun Spec.MomentSpec Spec.Clock Spec.SolverSpec Spec.VlasovMaxwell Spec.Hybrid Spec.HybridWindow Proofs.AfLemmas Proofs.PetscLemmas Proofs.ConvLemmas
  Proofs.FvmLemmas Proofs.FvmLemmas2 Proofs.FvmConserve
  Proofs.EmLemmas Proofs.EmStep Proofs.EmGrids Proofs.MomentLemmas Proofs.EmInit Proofs.EmProps
  Proofs.TimestepLemmas Proofs.SolverLemmas Proofs.StageLemmas Proofs.ChargeLemmas Proofs.FieldClock Proofs.HybridLemmas Proofs.VlasovMaxwell Proofs.HybridRun.
Import ListNotations.
Local Open Scope R_scope.

(** The arrays of one rank form a torus. *)
Lemma mod_mod_sub a b n : ((a mod n - b) mod n = (a - b) mod n)%Z.
Proof. apply Zminus_mod_idemp_l. Qed.

Lemma ohm_E_torus c Te e a v2l v3l nl v3b v1b nb v1 v2 n N1 N2 :
  (1 < N1)%Z -> (1 < N2)%Z -> d1 a = 1%Z -> d2 a = N1 -> d3 a = N2 ->
  dims4 nl 1 1 N1 N2 -> dims4 nb 1 1 N1 N2 -> dims4 n 1 1 N1 N2 ->
  forall i j, inb N1 i -> inb N2 j ->
  let E := ohm_E c Te (Fvm.dp_arr [e]) a v2l v3l nl v3b v1b nb v1 v2 n n in
  let on k : grid := fun u v => k (u mod N1)%Z (v mod N2)%Z in
  let Y := Lattice (on (el a 0 0)) (on (el a 1 0)) (on (el a 2 0)) (on (el a 3 0)) (on (el a 4 0)) (on (el a 5 0)) in
  let at_ m d := fun u v => el m 0 0 u v / el d 0 0 u v in
  let O := ohm c e Te (Fluid (el nl 0 0) (fun _ _ => 0) (at_ v2l nl) (at_ v3l nl))
              (Fluid (el nb 0 0) (at_ v1b nb) (fun _ _ => 0) (at_ v3b nb))
              (Fluid (on (el n 0 0)) (at_ v1 n) (at_ v2 n) (fun _ _ => 0)) Y in
  el (fst3 E) 0 0 i j = E1 O i j /\ el (snd3 E) 0 0 i j = E2 O i j /\ el (snd E) 0 0 i j = E3 O i j.
Proof.
  intros G1 G2 A1 A2 A3 (l0&l1&l2&l3) (b0&b1&b2&b3) (n0&n1&n2&n3) i j Hi Hj. cbv zeta. unfold inb in *.
  assert (BX : forall N k, (1 < N)%Z -> bidx N k = k) by (intros N k H; unfold bidx; destruct (Z.eqb_spec N 1); [lia|reflexivity]).
  unfold ohm_E, ohm_J, curlB, fst3, snd3, amul, aquot, Fvm.dp_arr, mean2.
  cbn [fst snd el d0 d1 d2 d3 Em.row amap amap2 ascale adiv aneg shift bcast2].
  unfold bel. cbn [el d0 d1 d2 d3 bidx Z.eqb Pos.eqb length Z.of_nat Pos.of_succ_nat]. rewrite ?bidx_1.
  rewrite ?A1, ?A2, ?A3, ?l0, ?l1, ?l2, ?l3, ?b0, ?b1, ?b2, ?b3, ?n0, ?n1, ?n2, ?n3.
  rewrite ?bidx_1. rewrite !(BX N1), !(BX N2) by lia. rewrite ?Zmod_0_l, ?Z.sub_0_r. cbn [nth Z.to_nat].
  rewrite ?mod_mod_sub, ?Zmod_mod.
  unfold ohm, fwd1, fwd2, slope1, slope2. cbn [E1 E2 E3 B1 B2 B3 num vel_1 vel_2 vel_3]. cbv zeta.
  assert (I : (i mod N1 = i)%Z) by (apply Z.mod_small; lia). assert (J : (j mod N2 = j)%Z) by (apply Z.mod_small; lia).
  rewrite ?I, ?J.
  assert (m1 : forall z, (z - -1 = z + 1)%Z) by (intros; lia). assert (m2 : forall z, (z - -2 = z + 2)%Z) by (intros; lia).
  rewrite ?m1, ?m2.
  assert (m3 : forall z, (z - 1 + 1 = z)%Z) by (intros; lia). assert (m4 : forall z, (z + 1 - 1 = z)%Z) by (intros; lia).
  assert (m5 : forall z, (z - 1 + 2 = z + 1)%Z) by (intros; lia). assert (m6 : forall z, (z + 1 + 1 = z + 2)%Z) by (intros; lia).
  assert (m7 : forall z, (z - 1 - 1 = z - 2)%Z) by (intros; lia). assert (m8 : forall z, (z - 1 - 2 = z - 3)%Z) by (intros; lia).
  assert (m9 : forall z, (z - 2 - 1 = z - 3)%Z) by (intros; lia).
  assert (m10 : forall z, (z + 2 - 1 = z + 1)%Z) by (intros; lia).
  rewrite ?m3, ?m4, ?m5, ?m6, ?m7, ?m8, ?m9, ?m10. rewrite ?I, ?J.
  unfold Rdiv.
  split; [|split]; ring.
Qed.

Section Narrow.
  Context (P : params) (k1 k2 : scheme).
  Let c := pc P.
  Let L := lay c.
  Context (W : wf_cfg c k1 k2) (PF : periodic_fvm c k1) (PM : plasma P) (HA : hybrid_any P).
  Context (NG : (2 <= ng1 L)%Z /\ (2 <= ng2 L)%Z).

  Lemma one_charge_any : charge P = [nth 0 (charge P) 0].
  Proof using PM HA.
    pose proof PM as [_ _ CH _ _ _ _]. pose proof (ha_one _ HA) as O. rewrite O in CH.
    destruct (charge P) as [|a [|b l]]; cbn in *; [lia|reflexivity|lia].
  Qed.

  Lemma ion_moment_any name w F :
    (forall x y z, moment_weight name x y z = Some (w x y z)) -> shaped L (N_p c) (N_species c) F ->
    exists m, moment P name F = Ok m
    /\ forall r1 r2, rank_ok L r1 r2 -> dims4 (m r1 r2) 1 1 (n1g L r1) (n2g L r2)
    /\ forall k l, inb (n1g L r1) k -> inb (n2g L r2) l ->
       el (m r1 r2) 0 0 k l = ion P w (fun x => el (F r1 r2) x 0 k l).
  Proof.
    intros Hw SH. pose proof PM as [TB GR CH _ _ _ _]. fold c in GR, CH. pose proof (ha_one _ HA) as O. fold c in O.
    pose proof PF as (_&_&PL&_). fold c L in PL.
    assert (V : forall r1 r2, rank_ok L r1 r2 -> exists M,
       compute_moments c (table P) (initial_mu P) name (F r1 r2) = Ok M
       /\ moment_is c (n1g L r1) (n2g L r2) M (fun s k l => integral (species_grid c s) w
            (fun i1 i2 i3 => el (F r1 r2) (row c i1 i2 i3) s k l))).
    { intros r1 r2 RK. destruct (size_pos L PL r1 r2 RK) as (Z1&Z2). pose proof PL as (_&_&G1&G2&_).
      rewrite TB. apply (moment_value c (n1g L r1) (n2g L r2) (grid_ok P k1 k2 W)); auto;
        [unfold n1g; lia|unfold n2g; lia|exact (SH r1 r2 RK)]. }
    unfold moment. fold c L.
    destruct (all_ranks_ok L (fun r1 r2 => compute_moments c (table P) (initial_mu P) name (F r1 r2))) as (m&E&Vm).
    { intros r1 r2 RK. destruct (V r1 r2 RK) as (M&EM&_). eauto. }
    exists m. split; [exact E|]. intros r1 r2 RK.
    specialize (Vm r1 r2 RK). cbv beta in Vm. destruct (V r1 r2 RK) as (M&EM&D&IM). rewrite EM in Vm.
    apply Ok_inj in Vm. rewrite <- Vm. rewrite O in D. split; [exact D|].
    intros k l Hk Hl. rewrite IM by (auto; unfold inb; lia). reflexivity.
  Qed.

  Lemma ohm_window t C F U fl fb e : covered P F U -> wf_em (pf P) e ->
    face_values P t F = Ok (Some (fl, fb)) ->
    exists J e', hybrid_fields P fl fb F e = Ok (J, e')
    /\ frame e e' /\ cc_val e' = cc_val e
    /\ forall r1 r2 i j, rank_ok L r1 r2 -> inb (bsize (blk1 L) r1) i -> inb (bsize (blk2 L) r2) j ->
       let O := ohm (pf P) (nth 0 (charge P) 0) (T_e P) (ions P (through1 (vm_problem P k1 k2 t C) U))
            (ions P (through2 (vm_problem P k1 k2 t C) U)) (windowed L r1 r2 (ions P U)) (view L (yee_val e)) in
       let x := (off (blk1 L) r1 + i)%Z in let y := (off (blk2 L) r2 + j)%Z in
       let Y := view L (yee_val e') in
       E1 Y x y = E1 O x y /\ E2 Y x y = E2 O x y /\ E3 Y x y = E3 O x y.
  Proof.
    intros CV We Ef. pose proof PM as [TB GR CH LY MP MF ON]. fold c L in LY, CH.
    pose proof HA as [FT FS HY O RG]. pose proof NG as (NG1&NG2). fold c in O.
    pose proof PF as (_&_&PL&_). fold c L in PL.
    destruct (faces_spec P k1 k2 W PF t C F U CV) as (fl'&fb'&Ef'&Sl&Sb&V).
    rewrite Ef in Ef'. apply Ok_inj in Ef'. injection Ef' as <- <-. fold c L in Sl, Sb, V.
    assert (SF : shaped L (N_p c) (N_species c) F) by (eapply covered_shaped; exact CV).
    destruct (ion_moment_any "mom_v2_bulk" (fun _ v _ => v) fl (fun _ _ _ => eq_refl) Sl) as (v2l&Ev2l&Vv2l).
    destruct (ion_moment_any "density" (fun _ _ _ => 1) fl (fun _ _ _ => eq_refl) Sl) as (nl&Enl&Vnl).
    destruct (ion_moment_any "mom_v3_bulk" (fun _ _ v => v) fl (fun _ _ _ => eq_refl) Sl) as (v3l&Ev3l&Vv3l).
    destruct (ion_moment_any "mom_v3_bulk" (fun _ _ v => v) fb (fun _ _ _ => eq_refl) Sb) as (v3b&Ev3b&Vv3b).
    destruct (ion_moment_any "density" (fun _ _ _ => 1) fb (fun _ _ _ => eq_refl) Sb) as (nb&Enb&Vnb).
    destruct (ion_moment_any "mom_v1_bulk" (fun v _ _ => v) fb (fun _ _ _ => eq_refl) Sb) as (v1b&Ev1b&Vv1b).
    destruct (ion_moment_any "mom_v1_bulk" (fun v _ _ => v) F (fun _ _ _ => eq_refl) SF) as (v1&Ev1&Vv1).
    destruct (ion_moment_any "density" (fun _ _ _ => 1) F (fun _ _ _ => eq_refl) SF) as (n&En&Vn).
    destruct (ion_moment_any "mom_v2_bulk" (fun _ v _ => v) F (fun _ _ _ => eq_refl) SF) as (v2&Ev2&Vv2).
    unfold hybrid_fields. rewrite Ev2l, Enl, Ev3l, Ev3b, Enb, Ev1b, Ev1, En, Ev2. cbn [rbind].
    set (e1 := communicate_fields (pf P) true e).
    assert (V1 : yee_val e1 = communicate L 6 1 (fbuf e) (yee_val e)).
    { unfold e1. rewrite yee_val_communicate, LY. reflexivity. }
    assert (SHe : shaped L 6 1 (yee_val e)) by (rewrite <- LY; apply shaped_yee; auto).
    assert (SY1 : synced L (yee_val e1) everywhere) by (rewrite V1; apply communicate_synced; auto).
    assert (W1 : same (view L (yee_val e1)) (view L (yee_val e))) by (rewrite V1; apply view_communicate; auto).
    eexists; eexists. split; [reflexivity|].
    match goal with |- frame e ?x /\ _ => assert (FR : frame e x) by (apply frame_write, frame_comm) end.
    split; [exact FR|]. split.
    { destruct We as ((A&_)&_). destruct FR as (FC&_&_&_&_&_&_&FM). unfold cc_val. rewrite FC. apply FM. exact A. }
    clear FR.
    rewrite yee_val_write. rewrite one_charge_any. cbn [nth]. set (q := nth 0 (charge P) 0).
    match goal with |- context [view L ?y] => lazymatch y with yee_val _ => fail | _ => set (Yn := y) end end.
    set (lf := ions P (through1 (vm_problem P k1 k2 t C) U)). set (bf := ions P (through2 (vm_problem P k1 k2 t C) U)).
    set (cf := ions P U).
    assert (INT : forall r1 r2 i j, rank_ok L r1 r2 ->
       (ng1 L <= i < ng1 L + bsize (blk1 L) r1)%Z -> (ng2 L <= j < ng2 L + bsize (blk2 L) r2)%Z ->
       let O := ohm (pf P) q (T_e P) lf bf (windowed L r1 r2 cf) (view L (yee_val e)) in
       let x := (off (blk1 L) r1 + i - ng1 L)%Z in let y := (off (blk2 L) r2 + j - ng2 L)%Z in
       el (Yn r1 r2) 0 0 i j = E1 O x y /\ el (Yn r1 r2) 1 0 i j = E2 O x y /\ el (Yn r1 r2) 2 0 i j = E3 O x y).
    { intros r1 r2 i j RK Hi Hj. cbv zeta.
      destruct (size_pos L PL r1 r2 RK) as (Z1&Z2).
      destruct (proj1 SY1 r1 r2 RK) as (A0&A1&A2&A3).
      destruct (Vnl r1 r2 RK) as (Dnl&Xnl). destruct (Vnb r1 r2 RK) as (Dnb&Xnb). destruct (Vn r1 r2 RK) as (Dn&Xn).
      destruct (Vv2l r1 r2 RK) as (_&Xv2l). destruct (Vv3l r1 r2 RK) as (_&Xv3l). destruct (Vv3b r1 r2 RK) as (_&Xv3b).
      destruct (Vv1b r1 r2 RK) as (_&Xv1b). destruct (Vv1 r1 r2 RK) as (_&Xv1). destruct (Vv2 r1 r2 RK) as (_&Xv2).
      destruct (ohm_E_torus (pf P) (T_e P) q (yee_val e1 r1 r2) (v2l r1 r2) (v3l r1 r2) (nl r1 r2)
         (v3b r1 r2) (v1b r1 r2) (nb r1 r2) (v1 r1 r2) (v2 r1 r2) (n r1 r2) (n1g L r1) (n2g L r2) ltac:(unfold n1g; lia) ltac:(unfold n2g; lia) A1 A2 A3 Dnl Dnb Dn i j) as (O1&O2&O3).
      { unfold inb, n1g. lia. } { unfold inb, n2g. lia. }
      unfold Yn, set_row; cbn [el Z.eqb Pos.eqb].
      replace (nth 0 [q] 0) with q in * by reflexivity.
      rewrite O1, O2, O3. clear O1 O2 O3.
      pose proof PL as ((P1&F1&S1)&(P2&F2&S2)&G1&G2&_). pose proof RK as (R1&R2).
      pose proof (off_nonneg (blk1 L) r1 F1). pose proof (off_nonneg (blk2 L) r2 F2).
      pose proof (off_end (blk1 L) r1 F1 R1). pose proof (off_end (blk2 L) r2 F2 R2).
      set (x := (off (blk1 L) r1 + i - ng1 L)%Z). set (y := (off (blk2 L) r2 + j - ng2 L)%Z).
      assert (xs : (x mod gN1 L = x)%Z) by (unfold x; apply Z.mod_small; lia).
      assert (ys : (y mod gN2 L = y)%Z) by (unfold y; apply Z.mod_small; lia).
      assert (Ki : inb (n1g L r1) i) by (unfold inb, n1g; lia). assert (Kj : inb (n2g L r2) j) by (unfold inb, n2g; lia).
      assert (FL : forall p0, inb (N_p c) p0 -> el (fl r1 r2) p0 0 i j = through1 (vm_problem P k1 k2 t C) U p0 0 x y
                    /\ el (fb r1 r2) p0 0 i j = through2 (vm_problem P k1 k2 t C) U p0 0 x y).
      { intros p0 Hp. pose proof (V r1 r2 p0 0%Z (i - ng1 L)%Z (j - ng2 L)%Z RK Hp) as Q.
        replace (ng1 L + (i - ng1 L))%Z with i in Q by lia. replace (ng2 L + (j - ng2 L))%Z with j in Q by lia.
        replace (off (blk1 L) r1 + (i - ng1 L))%Z with x in Q by (unfold x; lia).
        replace (off (blk2 L) r2 + (j - ng2 L))%Z with y in Q by (unfold y; lia).
        apply Q; unfold inb; lia. }
      assert (FC : forall p0 u v, inb (N_p c) p0 -> inb (n1g L r1) u -> inb (n2g L r2) v ->
         el (F r1 r2) p0 0 u v = U p0 0%Z ((off (blk1 L) r1 + u - ng1 L) mod gN1 L)%Z ((off (blk2 L) r2 + v - ng2 L) mod gN2 L)%Z).
      { intros p0 u v Hp Hu Hv. destruct (CV r1 r2 RK) as (_&VC). apply VC; auto. fold c. unfold inb; lia. }
      assert (LX : forall w, ion P w (fun p0 => el (fl r1 r2) p0 0 i j)
          = ion P w (fun p0 => through1 (vm_problem P k1 k2 t C) U p0 0 (x mod gN1 L)%Z (y mod gN2 L)%Z)).
      { intros w. apply (ion_ext P k1 k2 W). intros p0 Hp. rewrite xs, ys. apply FL; auto. }
      assert (BX : forall w, ion P w (fun p0 => el (fb r1 r2) p0 0 i j)
          = ion P w (fun p0 => through2 (vm_problem P k1 k2 t C) U p0 0 (x mod gN1 L)%Z (y mod gN2 L)%Z)).
      { intros w. apply (ion_ext P k1 k2 W). intros p0 Hp. rewrite xs, ys. apply FL; auto. }
      assert (CX : forall w u v, inb (n1g L r1) u -> inb (n2g L r2) v -> ion P w (fun p0 => el (F r1 r2) p0 0 u v)
          = ion P w (fun p0 => U p0 0%Z ((off (blk1 L) r1 + u - ng1 L) mod gN1 L)%Z ((off (blk2 L) r2 + v - ng2 L) mod gN2 L)%Z)).
      { intros w u v Hu Hv. apply (ion_ext P k1 k2 W). intros p0 Hp. apply FC; auto. }
      apply ohm_near; unfold windowed, window, lf, bf, cf, ions; cbn [num vel_1 vel_2 vel_3 B1 B2 B3 view]; fold c L.
      - intros u v u' v' Hu Hv Bu Bv.
        rewrite !(Z.mod_small u) by (unfold n1g; lia). rewrite !(Z.mod_small v) by (unfold n2g; lia).
        assert (S : forall k, inb 6 k -> el (yee_val e1 r1 r2) k 0 u v = gper L (yee_val e) k 0 u' v').
        { intros k Hk. rewrite (proj2 SY1 r1 r2 k u v RK Hk); [|unfold inb, n1g; lia|unfold inb, n2g; lia|exact I].
          replace (off (blk1 L) r1 + u - ng1 L)%Z with u' by (unfold x in Hu; lia).
          replace (off (blk2 L) r2 + v - ng2 L)%Z with v' by (unfold y in Hv; lia).
          rewrite V1. apply communicate_gper; auto. unfold inb; lia. }
        split; [|split]; apply S; unfold inb; lia.
      - rewrite Xnl by auto. apply LX.
      - rewrite Xv2l, Xnl by auto. rewrite !LX. reflexivity.
      - rewrite Xv3l, Xnl by auto. rewrite !LX. reflexivity.
      - rewrite Xnb by auto. apply BX.
      - rewrite Xv3b, Xnb by auto. rewrite !BX. reflexivity.
      - rewrite Xv1b, Xnb by auto. rewrite !BX. reflexivity.
      - rewrite Xv1, Xn by auto. rewrite !CX by auto. reflexivity.
      - rewrite Xv2, Xn by auto. rewrite !CX by auto. reflexivity.
      - intros u u' Hu Bu. unfold seen_at.
        assert (Hn : inb (n1g L r1) (u mod n1g L r1)) by (apply Z.mod_pos_bound; unfold n1g; lia).
        rewrite (Z.mod_small j) by (unfold inb in *; lia). rewrite Xn by auto. rewrite CX by auto.
        replace (u' - (off (blk1 L) r1 - ng1 L))%Z with u by (unfold x in Hu; lia).
        replace (bsize (blk1 L) r1 + 2 * ng1 L)%Z with (n1g L r1) by (unfold n1g; lia).
        replace (y - (off (blk2 L) r2 - ng2 L))%Z with j by (unfold y; lia).
        replace (bsize (blk2 L) r2 + 2 * ng2 L)%Z with (n2g L r2) by (unfold n2g; lia).
        rewrite (Z.mod_small j) by (unfold inb in *; lia).
        replace (off (blk1 L) r1 - ng1 L + u mod n1g L r1)%Z with (off (blk1 L) r1 + u mod n1g L r1 - ng1 L)%Z by lia.
        replace (off (blk2 L) r2 - ng2 L + j)%Z with (off (blk2 L) r2 + j - ng2 L)%Z by lia. reflexivity.
      - intros v v' Hv Bv. unfold seen_at.
        assert (Hn : inb (n2g L r2) (v mod n2g L r2)) by (apply Z.mod_pos_bound; unfold n2g; lia).
        rewrite (Z.mod_small i) by (unfold inb in *; lia). rewrite Xn by auto. rewrite CX by auto.
        replace (v' - (off (blk2 L) r2 - ng2 L))%Z with v by (unfold y in Hv; lia).
        replace (bsize (blk2 L) r2 + 2 * ng2 L)%Z with (n2g L r2) by (unfold n2g; lia).
        replace (x - (off (blk1 L) r1 - ng1 L))%Z with i by (unfold x; lia).
        replace (bsize (blk1 L) r1 + 2 * ng1 L)%Z with (n1g L r1) by (unfold n1g; lia).
        rewrite (Z.mod_small i) by (unfold inb in *; lia).
        replace (off (blk2 L) r2 - ng2 L + v mod n2g L r2)%Z with (off (blk2 L) r2 + v mod n2g L r2 - ng2 L)%Z by lia.
        replace (off (blk1 L) r1 - ng1 L + i)%Z with (off (blk1 L) r1 + i - ng1 L)%Z by lia. reflexivity. }
    intros r1 r2 i j RK Hi Hj. cbv zeta. unfold inb in Hi, Hj.
    pose proof (INT r1 r2 (ng1 L + i)%Z (ng2 L + j)%Z RK ltac:(lia) ltac:(lia)) as Q. cbv zeta in Q.
    replace (off (blk1 L) r1 + (ng1 L + i) - ng1 L)%Z with (off (blk1 L) r1 + i)%Z in Q by lia.
    replace (off (blk2 L) r2 + (ng2 L + j) - ng2 L)%Z with (off (blk2 L) r2 + j)%Z in Q by lia.
    destruct Q as (Q1&Q2&Q3). replace (nth 0 [q] 0) with q by reflexivity.
    assert (X : forall k, gper L Yn k 0 (off (blk1 L) r1 + i)%Z (off (blk2 L) r2 + j)%Z = el (Yn r1 r2) k 0 (ng1 L + i)%Z (ng2 L + j)%Z).
    { intros k. rewrite <- (gper_interior L Yn r1 r2 k 0 (ng1 L + i) (ng2 L + j)); auto; [|lia|lia]. f_equal; lia. }
    cbn [view E1 E2 E3]. rewrite !X. split; [exact Q1|split; [exact Q2|exact Q3]].
  Qed.

  Lemma any_first t dt F U e : covered P F U -> aliased e -> at_n e = true ->
    Solver.fields_seen P t dt F e
    = Ok (fun r1 r2 => (cc_val e r1 r2, cc_val e r1 r2, cc_val e r1 r2), set_at_n false e).
  Proof.
    intros CV AL AT. pose proof PM as [TB GR CH LY MP MF ON]. fold c in MP, ON. pose proof HA as [FT FS HY O RG].
    destruct (faces_spec P k1 k2 W PF t (view L (fun _ _ => dummy)) F U CV) as (fl&fb&Ef&_).
    unfold Solver.fields_seen. fold c. rewrite MP, ON. cbn [String.eqb Ascii.eqb Bool.eqb andb].
    unfold update_fields. rewrite Ef. cbn [rbind]. rewrite FT, AT.
    cbn [String.eqb Ascii.eqb Bool.eqb andb negb rbind].
    rewrite !get_fields_aliased by auto. cbn [set_at_n at_n]. rewrite AT. reflexivity.
  Qed.


  Lemma any_second t dt F U e C : covered P F U -> good (pf P) e -> at_n e = false ->
    exists e', Solver.fields_seen P t dt F e
      = Ok (fun r1 r2 => (cc_val e' r1 r2, cc_val e' r1 r2, cc_val e' r1 r2), e')
    /\ forall r1 r2 i j, rank_ok L r1 r2 -> inb (bsize (blk1 L) r1) i -> inb (bsize (blk2 L) r2) j ->
       let O := ohm (pf P) (nth 0 (charge P) 0) (T_e P) (ions P (through1 (vm_problem P k1 k2 t C) U))
            (ions P (through2 (vm_problem P k1 k2 t C) U)) (windowed L r1 r2 (ions P U)) (view L (yee_val e)) in
       let x := (off (blk1 L) r1 + i)%Z in let y := (off (blk2 L) r2 + j)%Z in
       let Y := view L (yee_val e') in
       E1 Y x y = E1 O x y /\ E2 Y x y = E2 O x y /\ E3 Y x y = E3 O x y.
  Proof.
    intros CV (We&AL&SY) AT. pose proof PM as [TB GR CH LY MP MF ON]. fold c in LY, MP, ON. fold L in LY.
    pose proof HA as [FT FS HY O RG].
    destruct (faces_spec P k1 k2 W PF t C F U CV) as (fl&fb&Ef&_).
    destruct (ohm_window t C F U fl fb e CV We Ef) as (J&e0&EH&FR&CC0&OV).
    destruct (hybrid_evolve P RG HY fl fb F e J e0 dt We EH) as (e1&X1&_&_&_&W0).
    destruct (evolve_ok (pf P) _ _ _ dt e0 e1 RG W0 X1) as (YE&W1&SY1&_&_&_&_&_&AT1&FT1&AL1).
    pose proof (evolve_hybrid_lat (pf P) _ _ _ dt e0 e1 HY RG W0 X1) as LT.
    destruct FR as (FC&FN&FH&FA&FTm&_).
    destruct AL1 as (AL'&CC); [destruct AL; split; congruence|].
    unfold lat in *. rewrite LY in *.
    assert (UF : update_fields P t dt F e = Ok e1).
    { unfold update_fields. rewrite Ef. cbn [rbind]. rewrite FT, AT.
      cbn [String.eqb Ascii.eqb Bool.eqb andb negb]. rewrite HY, EH. cbn [rbind]. rewrite X1. reflexivity. }
    exists (set_at_n true e1). split.
    - unfold Solver.fields_seen. fold c. rewrite MP, ON. cbn [String.eqb Ascii.eqb Bool.eqb andb].
      rewrite UF. cbn [rbind]. rewrite !get_fields_aliased by auto. cbn [set_at_n at_n]. rewrite AT1, FA, AT. reflexivity.
    - intros r1 r2 i j RK Hi Hj. cbv zeta. change (yee_val (set_at_n true e1)) with (yee_val e1).
      destruct LT as (L1&L2&L3&_). unfold faraday in L1, L2, L3. cbn [E1 E2 E3] in L1, L2, L3.
      destruct (OV r1 r2 i j RK Hi Hj) as (O1&O2&O3). cbv zeta in O1, O2, O3.
      split; [etransitivity; [apply L1|exact O1]|split; [etransitivity; [apply L2|exact O2]|etransitivity; [apply L3|exact O3]]].
  Qed.

  Lemma any_op dt s S : cur_dt s = dt -> vm_holds P s S -> good (pf P) (fields s) -> at_n (fields s) = true ->
    exists s', op_fvm P dt s = Ok s' /\ time_elapsed s' = time_elapsed s /\ cur_dt s' = cur_dt s
    /\ forall r1 r2 i j, rank_ok L r1 r2 -> inb (bsize (blk1 L) r1) i -> inb (bsize (blk2 L) r2) j ->
       let O := rank_E P k1 k2 (time_elapsed s) dt S r1 r2 in
       let x := (off (blk1 L) r1 + i)%Z in let y := (off (blk2 L) r2 + j)%Z in
       let Y := view L (yee_val (fields s')) in
       E1 Y x y = E1 O x y /\ E2 Y x y = E2 O x y /\ E3 Y x y = E3 O x y.
  Proof.
    intros CD (HU&HY&HC) G AT. pose proof G as (We&AL&SY).
    destruct (op_fvm_stages P k1 k2 W PF dt s (vm_f S) HU) as (x0&R0&C0&ST).
    pose proof (any_first (time_elapsed s) (cur_dt s) (sf x0) _ (fields s) C0 AL AT) as F0.
    destruct (ST _ _ (components (vm_cc S), components (vm_cc S), components (vm_cc S)) F0) as (xh&Ch&ST2).
    { split; [|split]; apply (shows_components P k1 PF); exact HC. }
    destruct (any_second (time_elapsed s) (cur_dt s) (sf xh) _ (set_at_n false (fields s)) (vm_cc S) Ch)
      as (eh&Fh&OV).
    { split; [apply wf_at_n; exact We|]. split; [exact AL|exact SY]. }
    { reflexivity. }
    change (yee_val (set_at_n false (fields s))) with (yee_val (fields s)) in OV.
    set (C' := view L (cc_val eh)).
    destruct (ST2 _ _ (components C', components C', components C') Fh) as (s'&OP&FE&TE&DE&HH).
    { split; [|split]; apply (shows_components P k1 PF); apply same_refl. }
    exists s'. split; [exact OP|]. split; [exact TE|]. split; [exact DE|].
    intros r1 r2 i j RK Hi Hj. cbv zeta. rewrite FE.
    destruct (OV r1 r2 i j RK Hi Hj) as (O1&O2&O3). cbv zeta in O1, O2, O3.
    unfold rank_E. cbv zeta.
    match goal with |- context [ohm ?a ?b ?t ?l ?m ?n (vm_yee S)] =>
      destruct (ohm_same P b t l m n (view L (yee_val (fields s))) (vm_yee S) HY) as (Q1&Q2&Q3&_) end.
    split; [|split]; [etransitivity; [exact O1|apply Q1]|etransitivity; [exact O2|apply Q2]|etransitivity; [exact O3|apply Q3]].
  Qed.

  Lemma any_step m dt s S : starts P s -> vm_holds P s S ->
    exists s', run_steps (solver_stepper P) [(m, dt)] s = Ok (s', None) /\ time_elapsed s' = time_elapsed s + dt
    /\ forall r1 r2 i j, rank_ok L r1 r2 -> inb (bsize (blk1 L) r1) i -> inb (bsize (blk2 L) r2) j ->
       let O := rank_E P k1 k2 (time_elapsed s) dt S r1 r2 in
       let x := (off (blk1 L) r1 + i)%Z in let y := (off (blk2 L) r2 + j)%Z in
       let Y := view L (yee_val (fields s')) in
       E1 Y x y = E1 O x y /\ E2 Y x y = E2 O x y /\ E3 Y x y = E3 O x y.
  Proof.
    intros ((rho&H)&SH) HS.
    assert (G : good (pf P) (fields s)) by (eapply init_good; [apply HA|exact H]).
    assert (A := proj2 (init_calm _ _ _ H)).
    set (M := solver_stepper P).
    destruct (any_op dt (set_dt M dt s) S eq_refl HS G A) as (s1&OP&T1&D1&Q).
    change (time_elapsed (set_dt M dt s)) with (time_elapsed s) in *.
    assert (ST : step_of M m dt s = Ok (set_clock M (clock M s1 + dt) s1, None)).
    { rewrite (fvm_step_eq M m dt s); [|apply PF|left; apply PM].
      change (Timestep.op_fvm M) with (op_fvm P). rewrite OP. cbn [rbind].
      assert (D : diverged M s1 = false) by (apply finite_iff, solver_finite). rewrite D. reflexivity. }
    exists (set_clock M (clock M s1 + dt) s1). split; [cbn [run_steps]; rewrite ST; reflexivity|].
    split; [cbn; rewrite T1; reflexivity|]. exact Q.
  Qed.
End Narrow.

(** From three ghost zones on, the window holds all that is read. *)
Lemma seen_near o size ng u : (0 < size)%Z -> (o - ng <= u < o + size + ng)%Z -> seen_at o size ng u = u.
Proof. intros Hs H. unfold seen_at. rewrite Z.mod_small by lia. lia. Qed.
