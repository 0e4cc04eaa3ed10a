(** Hybrid runs with FVM in q and p refine [hyb_run]. *)
From Coq Require Import ZArith Reals Lia Lra String List Bool.
From Verif Require Import Base.Prelude Base.ZSum Model.Af Model.Petsc Model.Config
  Model.Fvm Model.Em Model.Moments Model.Splitting Model.SemiLag Model.Timestep Model.Solver Spec.Domain Spec.Lattice Spec.FvmProblem Spec.FvmRun
  Spec.Yee Spec.EmRun Spec.MomentSpec Spec.Clock Spec.SolverSpec Spec.VlasovMaxwell Spec.Hybrid Proofs.AfLemmas Proofs.PetscLemmas Proofs.ConvLemmas
  Proofs.FvmLemmas Proofs.FvmLemmas2 Proofs.FvmConserve
  Proofs.EmLemmas Proofs.EmStep Proofs.EmGrids Proofs.MomentLemmas Proofs.EmInit Proofs.EmProps
  Proofs.TimestepLemmas Proofs.SolverLemmas Proofs.StageLemmas Proofs.ChargeLemmas Proofs.FieldClock Proofs.HybridLemmas Proofs.VlasovMaxwell.
Import ListNotations.
Local Open Scope R_scope.

(** ** Fields: in the hybrid model the FDTD step is Faraday's law alone. *)
Lemma fdtd_hybrid c dt J1 J2 J3 s s' : hybrid c = true ->
  regular c -> shaped (flay c) 6 1 (yee_val s) ->
  fdtd c dt (J1, J2, J3) s = Ok s' -> same (lat c s') (faraday (fdq1 c) (fdq2 c) dt (lat c s)).
Proof.
  intros Hh ((PL&PE)&Hmu&Heps&H1&H2) SH H. set (L := flay c) in *.
  unfold fdtd in H. rewrite apply_bcs_fields_periodic in H by exact PE. cbn [rbind] in H. fold L in H.
  set (s1 := communicate_fields c true s) in *.
  assert (V1 : yee_val s1 = communicate L 6 1 (fbuf s) (yee_val s)) by apply yee_val_communicate.
  assert (SY1 : synced L (yee_val s1) everywhere) by (rewrite V1; apply communicate_synced; auto).
  assert (W1 : same (view L (yee_val s1)) (lat c s)) by (rewrite V1; apply view_communicate; auto).
  destruct (all_ranks L (fun r1 r2 => evolve_E_rank c dt (J1 r1 r2) (J2 r1 r2) (J3 r1 r2) (yee_val s1 r1 r2)))
    as [F|ex] eqn:EF; cbn [rbind] in H; [|discriminate H].
  pose proof (all_ranks_Ok L _ _ EF) as HF. cbv beta in HF.
  set (s2 := write (yee s1) F s1) in *.
  assert (V2 : yee_val s2 = F) by apply yee_val_write.
  set (s3 := communicate_fields c true s2) in *.
  rewrite apply_bcs_fields_periodic in H by exact PE. cbn [rbind] in H.
  assert (Hs : s' = write (yee s3) (dmap (evolve_B_rank c dt) (yee_val s3)) s3).
  { assert (Ok s' = Ok (write (yee s3) (dmap (evolve_B_rank c dt) (yee_val s3)) s3)) as X by (rewrite <- H; reflexivity).
    injection X as X. exact X. }
  clear H.
  assert (EQ : forall r1 r2, rank_ok L r1 r2 -> F r1 r2 = yee_val s1 r1 r2)
    by (intros; eapply evolve_E_hybrid; eauto).
  assert (GP : forall k i j, gper L F k 0 i j = gper L (yee_val s1) k 0 i j).
  { intros. unfold gper, gval. rewrite EQ; auto. destruct PL as (T1&T2&_). apply (owner_rank L i j T1 T2). }
  assert (SF : same (view L F) (lat c s)).
  { eapply same_trans; [|exact W1]. repeat split; intros; cbn [view E1 E2 E3 B1 B2 B3]; apply GP. }
  assert (SHF : shaped L 6 1 F) by (intros r1 r2 RK; rewrite (EQ r1 r2 RK); apply (proj1 SY1); auto).
  assert (V3 : yee_val s3 = communicate L 6 1 (fbuf s2) F) by (rewrite <- V2; apply yee_val_communicate).
  assert (SY3 : synced L (yee_val s3) everywhere) by (rewrite V3; apply communicate_synced; auto).
  assert (W3 : same (view L (yee_val s3)) (view L F)) by (rewrite V3; apply view_communicate; auto).
  destruct (faraday_lift c dt (yee_val s3) PL SY3 H1 H2) as (SY4&W4).
  assert (V4 : yee_val (write (yee s3) (dmap (evolve_B_rank c dt) (yee_val s3)) s3)
               = dmap (evolve_B_rank c dt) (yee_val s3)) by apply yee_val_write.
  rewrite Hs. unfold lat. rewrite V4. eapply same_trans; [exact W4|]. apply faraday_same.
  eapply same_trans; [exact W3|exact SF].
Qed.

Lemma evolve_hybrid_lat c J1 J2 J3 dt s s' : hybrid c = true -> regular c -> wf_em c s ->
  evolve_electrodynamic_fields c J1 J2 J3 dt s = Ok s' ->
  same (lat c s') (faraday (fdq1 c) (fdq2 c) dt (lat c s)).
Proof.
  intros Hh RG W H. rewrite evolve_split in H.
  destruct (before_fdtd_ok c s W) as (W1&Y1&_).
  destruct (fdtd c dt (dmap asum1 J1, dmap asum1 J2, dmap asum1 J3) (before_fdtd s)) as [s2|e] eqn:ES; cbn [rbind] in H;
    [|discriminate H].
  pose proof (fdtd_hybrid c dt _ _ _ _ s2 Hh RG (shaped_yee c _ W1) ES) as Q.
  assert (W2 : wf_em c s2) by (eapply wf_fdtd; [apply RG|exact W1|exact ES]).
  apply Ok_inj in H. subst s'.
  destruct (after_fdtd_ok c (dmap (rows 0 3) (cc_val s)) dt s2 W2) as (_&Y3&_).
  unfold lat in *. rewrite Y3. rewrite Y1 in Q. exact Q.
Qed.

(** ** Ohm's law looks at most three cells away. *)
Lemma ohm_near c e Te l b ce Y l' b' ce' Y' i j x y :
  (forall u v u' v', u - i = u' - x -> v - j = v' - y -> -1 <= u - i <= 1 -> -1 <= v - j <= 1 ->
     B1 Y u v = B1 Y' u' v' /\ B2 Y u v = B2 Y' u' v' /\ B3 Y u v = B3 Y' u' v')%Z ->
  num l i j = num l' x y -> vel_2 l i j = vel_2 l' x y -> vel_3 l i j = vel_3 l' x y ->
  num b i j = num b' x y -> vel_3 b i j = vel_3 b' x y -> vel_1 b i j = vel_1 b' x y ->
  vel_1 ce i j = vel_1 ce' x y -> vel_2 ce i j = vel_2 ce' x y ->
  (forall u u', u - i = u' - x -> -3 <= u - i <= 2 -> num ce u j = num ce' u' y)%Z ->
  (forall v v', v - j = v' - y -> -3 <= v - j <= 2 -> num ce i v = num ce' x v')%Z ->
  E1 (ohm c e Te l b ce Y) i j = E1 (ohm c e Te l' b' ce' Y') x y
  /\ E2 (ohm c e Te l b ce Y) i j = E2 (ohm c e Te l' b' ce' Y') x y
  /\ E3 (ohm c e Te l b ce Y) i j = E3 (ohm c e Te l' b' ce' Y') x y.
Proof.
  intros HB L0 L2 L3 M0 M3 M1 C1 C2 N1 N2.
  assert (b1 : forall u v u' v', (u - i = u' - x -> v - j = v' - y -> -1 <= u - i <= 1 -> -1 <= v - j <= 1)%Z -> True) by trivial.
  assert (HB1 : forall u v u' v', (u - i = u' - x)%Z -> (v - j = v' - y)%Z -> (-1 <= u - i <= 1)%Z -> (-1 <= v - j <= 1)%Z -> B1 Y u v = B1 Y' u' v')
    by (intros; apply HB; auto).
  assert (HB2 : forall u v u' v', (u - i = u' - x)%Z -> (v - j = v' - y)%Z -> (-1 <= u - i <= 1)%Z -> (-1 <= v - j <= 1)%Z -> B2 Y u v = B2 Y' u' v')
    by (intros; apply HB; auto).
  assert (HB3 : forall u v u' v', (u - i = u' - x)%Z -> (v - j = v' - y)%Z -> (-1 <= u - i <= 1)%Z -> (-1 <= v - j <= 1)%Z -> B3 Y u v = B3 Y' u' v')
    by (intros; apply HB; auto).
  unfold ohm, fwd1, fwd2, slope1, slope2. cbn [E1 E2 E3]. cbv zeta. rewrite <- L0, <- L2, <- L3, <- M0, <- M1, <- M3, <- C1, <- C2.
  clear HB b1.
  repeat split;
    repeat first [reflexivity | apply HB1; lia | apply HB2; lia | apply HB3; lia | apply N1; lia | apply N2; lia | f_equal].
Qed.

(** The solver's formula on the arrays of one rank. *)
Ltac mods := repeat match goal with |- context [(?x mod ?n)%Z] =>
  lazymatch x with context [Z.modulo] => fail | _ => rewrite (Z.mod_small x n) by lia end end.

Lemma ohm_E_el c Te e a v2l v3l nl v3b v1b nb v1 v2 n N1 N2 :
  d1 a = 1%Z -> d2 a = N1 -> d3 a = N2 ->
  dims4 nl 1 1 N1 N2 -> dims4 nb 1 1 N1 N2 -> dims4 n 1 1 N1 N2 ->
  forall i j, (3 <= i < N1 - 2)%Z -> (3 <= j < N2 - 2)%Z ->
  let E := ohm_E c Te (Fvm.dp_arr [e]) a v2l v3l nl v3b v1b nb v1 v2 n n in
  let Y := Lattice (el a 0 0) (el a 1 0) (el a 2 0) (el a 3 0) (el a 4 0) (el a 5 0) in
  let at_ m d := fun u v => el m 0 0 u v / el d 0 0 u v in
  let O := ohm c e Te (Fluid (el nl 0 0) (fun _ _ => 0) (at_ v2l nl) (at_ v3l nl))
              (Fluid (el nb 0 0) (at_ v1b nb) (fun _ _ => 0) (at_ v3b nb))
              (Fluid (el n 0 0) (at_ v1 n) (at_ v2 n) (fun _ _ => 0)) Y in
  el (fst3 E) 0 0 i j = E1 O i j /\ el (snd3 E) 0 0 i j = E2 O i j /\ el (snd E) 0 0 i j = E3 O i j.
Proof.
  intros A1 A2 A3 (l0&l1&l2&l3) (b0&b1&b2&b3) (n0&n1&n2&n3) i j Hi Hj. cbv zeta.
  assert (BX : forall N k, (0 < N)%Z -> (1 < N)%Z -> bidx N k = k) by (intros N k _ H; unfold bidx; destruct (Z.eqb_spec N 1); [lia|reflexivity]).
  unfold ohm_E, ohm_J, curlB, fst3, snd3, amul, aquot, Fvm.dp_arr, mean2.
  cbn [fst snd el d0 d1 d2 d3 Em.row amap amap2 ascale adiv aneg shift bcast2].
  unfold bel. cbn [el d0 d1 d2 d3 bidx Z.eqb Pos.eqb length Z.of_nat Pos.of_succ_nat]. rewrite ?bidx_1.
  rewrite ?A1, ?A2, ?A3, ?l0, ?l1, ?l2, ?l3, ?b0, ?b1, ?b2, ?b3, ?n0, ?n1, ?n2, ?n3.
  rewrite ?bidx_1. rewrite !(BX N1), !(BX N2) by lia. rewrite ?Zmod_0_l, ?Z.sub_0_r. cbn [nth Z.to_nat].
  mods.
  assert (m1 : forall z, (z - -1 = z + 1)%Z) by (intros; lia). assert (m2 : forall z, (z - -2 = z + 2)%Z) by (intros; lia).
  rewrite ?m1, ?m2.
  unfold ohm, fwd1, fwd2, slope1, slope2. cbn [E1 E2 E3 B1 B2 B3 num vel_1 vel_2 vel_3]. cbv zeta.
  unfold Rdiv.
  split; [|split]; ring.
Qed.

Section Hyb.
  Context (P : params) (k1 k2 : scheme).
  Let c := pc P.
  Let L := lay c.
  Let N1 := gN1 L. Let N2 := gN2 L.
  Context (W : wf_cfg c k1 k2) (PF : periodic_fvm c k1) (PM : plasma P) (HF : hybrid_fvm P).

  Lemma one_charge : charge P = [nth 0 (charge P) 0].
  Proof using PM HF.
    pose proof PM as [_ _ CH _ _ _ _]. pose proof (hf_one _ HF) as O. rewrite O in CH.
    destruct (charge P) as [|a [|b l]]; cbn in *; [lia|reflexivity|lia].
  Qed.

  Lemma ion_moment name w F :
    (forall x y z, moment_weight name x y z = Some (w x y z)) -> shaped L (N_p c) (N_species c) F ->
    exists m, moment P name F = Ok m
    /\ forall r1 r2, rank_ok L r1 r2 -> dims4 (m r1 r2) 1 1 (n1g L r1) (n2g L r2)
    /\ forall k l, inb (n1g L r1) k -> inb (n2g L r2) l ->
       el (m r1 r2) 0 0 k l = ion P w (fun x => el (F r1 r2) x 0 k l).
  Proof.
    intros Hw SH. pose proof PM as [TB GR CH _ _ _ _]. fold c in GR, CH. pose proof (hf_one _ HF) as O. fold c in O.
    pose proof PF as (_&_&PL&_). fold c L in PL.
    assert (V : forall r1 r2, rank_ok L r1 r2 -> exists M,
       compute_moments c (table P) (initial_mu P) name (F r1 r2) = Ok M
       /\ moment_is c (n1g L r1) (n2g L r2) M (fun s k l => integral (species_grid c s) w
            (fun i1 i2 i3 => el (F r1 r2) (row c i1 i2 i3) s k l))).
    { intros r1 r2 RK. destruct (size_pos L PL r1 r2 RK) as (Z1&Z2). pose proof PL as (_&_&G1&G2&_).
      rewrite TB. apply (moment_value c (n1g L r1) (n2g L r2) (grid_ok P k1 k2 W)); auto;
        [unfold n1g; lia|unfold n2g; lia|exact (SH r1 r2 RK)]. }
    unfold moment. fold c L.
    destruct (all_ranks_ok L (fun r1 r2 => compute_moments c (table P) (initial_mu P) name (F r1 r2))) as (m&E&Vm).
    { intros r1 r2 RK. destruct (V r1 r2 RK) as (M&EM&_). eauto. }
    exists m. split; [exact E|]. intros r1 r2 RK.
    specialize (Vm r1 r2 RK). cbv beta in Vm. destruct (V r1 r2 RK) as (M&EM&D&IM). rewrite EM in Vm.
    apply Ok_inj in Vm. rewrite <- Vm. rewrite O in D. split; [exact D|].
    intros k l Hk Hl. rewrite IM by (auto; unfold inb; lia). reflexivity.
  Qed.

  Lemma ion_ext w g g' : (forall x, inb (N_p c) x -> g x = g' x) -> ion P w g = ion P w g'.
  Proof using W.
    intros H. unfold ion. fold c. unfold integral. f_equal. cbn [mn1 mn2 mn3 species_grid].
    apply zsum_ext; intros i3 H3. apply zsum_ext; intros i2 H2. apply zsum_ext; intros i1 H1. f_equal.
    apply H. apply pidx_bound; auto.
  Qed.

  Lemma ohm_view t C F U fl fb e : covered P F U -> wf_em (pf P) e ->
    face_values P t F = Ok (Some (fl, fb)) ->
    exists J e', hybrid_fields P fl fb F e = Ok (J, e')
    /\ frame e e' /\ cc_val e' = cc_val e
    /\ same (view L (yee_val e'))
         (ohm (pf P) (nth 0 (charge P) 0) (T_e P) (ions P (through1 (vm_problem P k1 k2 t C) U))
            (ions P (through2 (vm_problem P k1 k2 t C) U)) (ions P U) (view L (yee_val e))).
  Proof.
    intros CV We Ef. pose proof PM as [TB GR CH LY MP MF ON]. fold c L in LY, CH.
    destruct HF as [FT FS HY O (NG1&NG2) RG]. fold c L in O, NG1, NG2.
    pose proof PF as (_&_&PL&_). fold c L in PL.
    destruct (faces_spec P k1 k2 W PF t C F U CV) as (fl'&fb'&Ef'&Sl&Sb&V).
    rewrite Ef in Ef'. apply Ok_inj in Ef'. injection Ef' as <- <-. fold c L in Sl, Sb, V.
    assert (SF : shaped L (N_p c) (N_species c) F) by (eapply covered_shaped; exact CV).
    destruct (ion_moment "mom_v2_bulk" (fun _ v _ => v) fl (fun _ _ _ => eq_refl) Sl) as (v2l&Ev2l&Vv2l).
    destruct (ion_moment "density" (fun _ _ _ => 1) fl (fun _ _ _ => eq_refl) Sl) as (nl&Enl&Vnl).
    destruct (ion_moment "mom_v3_bulk" (fun _ _ v => v) fl (fun _ _ _ => eq_refl) Sl) as (v3l&Ev3l&Vv3l).
    destruct (ion_moment "mom_v3_bulk" (fun _ _ v => v) fb (fun _ _ _ => eq_refl) Sb) as (v3b&Ev3b&Vv3b).
    destruct (ion_moment "density" (fun _ _ _ => 1) fb (fun _ _ _ => eq_refl) Sb) as (nb&Enb&Vnb).
    destruct (ion_moment "mom_v1_bulk" (fun v _ _ => v) fb (fun _ _ _ => eq_refl) Sb) as (v1b&Ev1b&Vv1b).
    destruct (ion_moment "mom_v1_bulk" (fun v _ _ => v) F (fun _ _ _ => eq_refl) SF) as (v1&Ev1&Vv1).
    destruct (ion_moment "density" (fun _ _ _ => 1) F (fun _ _ _ => eq_refl) SF) as (n&En&Vn).
    destruct (ion_moment "mom_v2_bulk" (fun _ v _ => v) F (fun _ _ _ => eq_refl) SF) as (v2&Ev2&Vv2).
    unfold hybrid_fields. rewrite Ev2l, Enl, Ev3l, Ev3b, Enb, Ev1b, Ev1, En, Ev2. cbn [rbind].
    set (e1 := communicate_fields (pf P) true e).
    assert (V1 : yee_val e1 = communicate L 6 1 (fbuf e) (yee_val e)).
    { unfold e1. rewrite yee_val_communicate, LY. reflexivity. }
    assert (SHe : shaped L 6 1 (yee_val e)) by (rewrite <- LY; apply shaped_yee; auto).
    assert (SY1 : synced L (yee_val e1) everywhere) by (rewrite V1; apply communicate_synced; auto).
    assert (W1 : same (view L (yee_val e1)) (view L (yee_val e))) by (rewrite V1; apply view_communicate; auto).
    eexists; eexists. split; [reflexivity|].
    match goal with |- frame e ?x /\ _ => assert (FR : frame e x) by (apply frame_write, frame_comm) end.
    split; [exact FR|]. split.
    { destruct We as ((A&_)&_). destruct FR as (FC&_&_&_&_&_&_&FM). unfold cc_val. rewrite FC. apply FM. exact A. }
    clear FR.
    rewrite yee_val_write. rewrite one_charge. cbn [nth]. set (q := nth 0 (charge P) 0).
    match goal with |- same (view L ?y) (ohm _ _ _ ?l ?b ?ce _) => set (Yn := y); set (lf := l); set (bf := b); set (cf := ce) end.
    (* cell by cell *)
    assert (INT : forall r1 r2 i j, rank_ok L r1 r2 ->
       (ng1 L <= i < ng1 L + bsize (blk1 L) r1)%Z -> (ng2 L <= j < ng2 L + bsize (blk2 L) r2)%Z ->
       let O := ohm (pf P) q (T_e P) lf bf cf (view L (yee_val e)) in
       let x := (off (blk1 L) r1 + i - ng1 L)%Z in let y := (off (blk2 L) r2 + j - ng2 L)%Z in
       el (Yn r1 r2) 0 0 i j = E1 O x y /\ el (Yn r1 r2) 1 0 i j = E2 O x y /\ el (Yn r1 r2) 2 0 i j = E3 O x y).
    { intros r1 r2 i j RK Hi Hj. cbv zeta.
      destruct (proj1 SY1 r1 r2 RK) as (A0&A1&A2&A3).
      destruct (Vnl r1 r2 RK) as (Dnl&Xnl). destruct (Vnb r1 r2 RK) as (Dnb&Xnb). destruct (Vn r1 r2 RK) as (Dn&Xn).
      destruct (Vv2l r1 r2 RK) as (_&Xv2l). destruct (Vv3l r1 r2 RK) as (_&Xv3l). destruct (Vv3b r1 r2 RK) as (_&Xv3b).
      destruct (Vv1b r1 r2 RK) as (_&Xv1b). destruct (Vv1 r1 r2 RK) as (_&Xv1). destruct (Vv2 r1 r2 RK) as (_&Xv2).
      destruct (ohm_E_el (pf P) (T_e P) q (yee_val e1 r1 r2) (v2l r1 r2) (v3l r1 r2) (nl r1 r2)
         (v3b r1 r2) (v1b r1 r2) (nb r1 r2) (v1 r1 r2) (v2 r1 r2) (n r1 r2) (n1g L r1) (n2g L r2) A1 A2 A3 Dnl Dnb Dn i j) as (O1&O2&O3).
      { unfold n1g. lia. } { unfold n2g. lia. }
      unfold Yn, set_row; cbn [el Z.eqb Pos.eqb].
      replace (nth 0 [q] 0) with q in * by reflexivity.
      rewrite O1, O2, O3. clear O1 O2 O3.
      pose proof PL as ((P1&F1&S1)&(P2&F2&S2)&G1&G2&_). pose proof RK as (R1&R2).
      pose proof (off_nonneg (blk1 L) r1 F1). pose proof (off_nonneg (blk2 L) r2 F2).
      pose proof (off_end (blk1 L) r1 F1 R1). pose proof (off_end (blk2 L) r2 F2 R2).
      set (x := (off (blk1 L) r1 + i - ng1 L)%Z). set (y := (off (blk2 L) r2 + j - ng2 L)%Z).
      assert (xs : (x mod gN1 L = x)%Z) by (unfold x; apply Z.mod_small; lia).
      assert (ys : (y mod gN2 L = y)%Z) by (unfold y; apply Z.mod_small; lia).
      assert (Ki : inb (n1g L r1) i) by (unfold inb, n1g; lia). assert (Kj : inb (n2g L r2) j) by (unfold inb, n2g; lia).
      assert (FL : forall p0, inb (N_p c) p0 -> el (fl r1 r2) p0 0 i j = through1 (vm_problem P k1 k2 t C) U p0 0 x y
                    /\ el (fb r1 r2) p0 0 i j = through2 (vm_problem P k1 k2 t C) U p0 0 x y).
      { intros p0 Hp. pose proof (V r1 r2 p0 0%Z (i - ng1 L)%Z (j - ng2 L)%Z RK Hp) as Q.
        replace (ng1 L + (i - ng1 L))%Z with i in Q by lia. replace (ng2 L + (j - ng2 L))%Z with j in Q by lia.
        replace (off (blk1 L) r1 + (i - ng1 L))%Z with x in Q by (unfold x; lia).
        replace (off (blk2 L) r2 + (j - ng2 L))%Z with y in Q by (unfold y; lia).
        apply Q; unfold inb; lia. }
      assert (FC : forall p0 u v, inb (N_p c) p0 -> inb (n1g L r1) u -> inb (n2g L r2) v ->
         el (F r1 r2) p0 0 u v = U p0 0%Z ((off (blk1 L) r1 + u - ng1 L) mod gN1 L)%Z ((off (blk2 L) r2 + v - ng2 L) mod gN2 L)%Z).
      { intros p0 u v Hp Hu Hv. destruct (CV r1 r2 RK) as (_&VC). apply VC; auto. fold c. unfold inb; lia. }
      assert (LX : forall w, ion P w (fun p0 => el (fl r1 r2) p0 0 i j)
          = ion P w (fun p0 => through1 (vm_problem P k1 k2 t C) U p0 0 (x mod gN1 L)%Z (y mod gN2 L)%Z)).
      { intros w. apply ion_ext. intros p0 Hp. rewrite xs, ys. apply FL; auto. }
      assert (BX : forall w, ion P w (fun p0 => el (fb r1 r2) p0 0 i j)
          = ion P w (fun p0 => through2 (vm_problem P k1 k2 t C) U p0 0 (x mod gN1 L)%Z (y mod gN2 L)%Z)).
      { intros w. apply ion_ext. intros p0 Hp. rewrite xs, ys. apply FL; auto. }
      assert (CX : forall w u v, inb (n1g L r1) u -> inb (n2g L r2) v -> ion P w (fun p0 => el (F r1 r2) p0 0 u v)
          = ion P w (fun p0 => U p0 0%Z ((off (blk1 L) r1 + u - ng1 L) mod gN1 L)%Z ((off (blk2 L) r2 + v - ng2 L) mod gN2 L)%Z)).
      { intros w u v Hu Hv. apply ion_ext. intros p0 Hp. apply FC; auto. }
      apply ohm_near; unfold lf, bf, cf, ions; cbn [num vel_1 vel_2 vel_3 B1 B2 B3 view]; fold c L.
      - intros u v u' v' Hu Hv Bu Bv.
        assert (S : forall k, inb 6 k -> el (yee_val e1 r1 r2) k 0 u v = gper L (yee_val e) k 0 u' v').
        { intros k Hk. rewrite (proj2 SY1 r1 r2 k u v RK Hk); [|unfold inb, n1g; lia|unfold inb, n2g; lia|exact I].
          replace (off (blk1 L) r1 + u - ng1 L)%Z with u' by (unfold x in Hu; lia).
          replace (off (blk2 L) r2 + v - ng2 L)%Z with v' by (unfold y in Hv; lia).
          rewrite V1. apply communicate_gper; auto. unfold inb; lia. }
        split; [|split]; apply S; unfold inb; lia.
      - rewrite Xnl by auto. apply LX.
      - rewrite Xv2l, Xnl by auto. rewrite !LX. reflexivity.
      - rewrite Xv3l, Xnl by auto. rewrite !LX. reflexivity.
      - rewrite Xnb by auto. apply BX.
      - rewrite Xv3b, Xnb by auto. rewrite !BX. reflexivity.
      - rewrite Xv1b, Xnb by auto. rewrite !BX. reflexivity.
      - rewrite Xv1, Xn by auto. rewrite !CX by auto. reflexivity.
      - rewrite Xv2, Xn by auto. rewrite !CX by auto. reflexivity.
      - intros u u' Hu Bu. rewrite Xn by (auto; unfold inb, n1g; lia). rewrite CX by (auto; unfold inb, n1g; lia).
        replace (off (blk1 L) r1 + u - ng1 L)%Z with u' by (unfold x in Hu; lia). reflexivity.
      - intros v v' Hv Bv. rewrite Xn by (auto; unfold inb, n2g; lia). rewrite CX by (auto; unfold inb, n2g; lia).
        replace (off (blk2 L) r2 + v - ng2 L)%Z with v' by (unfold y in Hv; lia). reflexivity. }
    pose proof PL as ((P1&F1&S1)&(P2&F2&S2)&_).
    assert (PER : forall x y m1 m2, let O := ohm (pf P) q (T_e P) lf bf cf (view L (yee_val e)) in
       E1 O (x + m1 * gN1 L)%Z (y + m2 * gN2 L)%Z = E1 O x y /\ E2 O (x + m1 * gN1 L)%Z (y + m2 * gN2 L)%Z = E2 O x y
       /\ E3 O (x + m1 * gN1 L)%Z (y + m2 * gN2 L)%Z = E3 O x y).
    { intros x y m1 m2. cbv zeta. apply ohm_near; unfold lf, bf, cf, ions; cbn [num vel_1 vel_2 vel_3 B1 B2 B3 view]; fold c L;
        rewrite ?Z.mod_add by lia; try reflexivity.
      - intros u v u' v' Hu Hv _ _. replace u with (u' + m1 * gN1 L)%Z by lia. replace v with (v' + m2 * gN2 L)%Z by lia.
        rewrite !gper_add by lia. auto.
      - intros u u' Hu _. replace u with (u' + m1 * gN1 L)%Z by lia. rewrite ?Z.mod_add by lia. reflexivity.
      - intros v v' Hv _. replace v with (v' + m2 * gN2 L)%Z by lia. rewrite ?Z.mod_add by lia. reflexivity. }
    assert (BB : forall k x y, (3 <= k < 6)%Z -> gper L Yn k 0 x y = gper L (yee_val e) k 0 x y).
    { intros k x y Hk. transitivity (gper L (yee_val e1) k 0 x y).
      - apply gper_ext2; auto. intros r1 r2 i j _ _ _. unfold Yn, set_row; cbn [el].
        replace (k =? 2)%Z with false by lia. replace (k =? 1)%Z with false by lia.
        replace (k =? 0)%Z with false by lia. reflexivity.
      - rewrite V1. apply communicate_gper; auto; unfold inb; lia. }
    unfold same. cbn [view E1 E2 E3]. replace (nth 0 [q] 0) with q by reflexivity.
    split; [|split; [|split; [|split; [|split]]]].
    - intros i j. apply (grid_ind L PL Yn 0 (E1 (ohm (pf P) q (T_e P) lf bf cf (view L (yee_val e))))).
      + intros x y m1 m2. exact (proj1 (PER x y m1 m2)).
      + intros r1 r2 u v RK Hu Hv. exact (proj1 (INT r1 r2 u v RK Hu Hv)).
    - intros i j. apply (grid_ind L PL Yn 1 (E2 (ohm (pf P) q (T_e P) lf bf cf (view L (yee_val e))))).
      + intros x y m1 m2. exact (proj1 (proj2 (PER x y m1 m2))).
      + intros r1 r2 u v RK Hu Hv. exact (proj1 (proj2 (INT r1 r2 u v RK Hu Hv))).
    - intros i j. apply (grid_ind L PL Yn 2 (E3 (ohm (pf P) q (T_e P) lf bf cf (view L (yee_val e))))).
      + intros x y m1 m2. exact (proj2 (proj2 (PER x y m1 m2))).
      + intros r1 r2 u v RK Hu Hv. exact (proj2 (proj2 (INT r1 r2 u v RK Hu Hv))).
    - intros. apply BB. lia.
    - intros. apply BB. lia.
    - intros. apply BB. lia.
  Qed.
  Lemma hyb_first t dt F U e : covered P F U -> aliased e -> at_n e = true ->
    Solver.fields_seen P t dt F e
    = Ok (fun r1 r2 => (cc_val e r1 r2, cc_val e r1 r2, cc_val e r1 r2), set_at_n false e).
  Proof.
    intros CV AL AT. pose proof PM as [TB GR CH LY MP MF ON]. fold c in MP, ON. destruct HF as [FT FS HY O _ RG].
    destruct (faces_spec P k1 k2 W PF t (view L (fun _ _ => dummy)) F U CV) as (fl&fb&Ef&_).
    unfold Solver.fields_seen. fold c. rewrite MP, ON. cbn [String.eqb Ascii.eqb Bool.eqb andb].
    unfold update_fields. rewrite Ef. cbn [rbind]. rewrite FT, AT.
    cbn [String.eqb Ascii.eqb Bool.eqb andb negb rbind].
    rewrite !get_fields_aliased by auto. cbn [set_at_n at_n]. rewrite AT. reflexivity.
  Qed.

  Lemma hyb_second t dt F U e C : covered P F U -> good (pf P) e -> at_n e = false ->
    exists e', Solver.fields_seen P t dt F e
      = Ok (fun r1 r2 => (cc_val e' r1 r2, cc_val e' r1 r2, cc_val e' r1 r2), e')
    /\ good (pf P) e' /\ at_n e' = true /\ ftime e' = ftime e + dt
    /\ same (view L (yee_val e')) (hyb_fields P (vm_problem P k1 k2 t C) dt U (view L (yee_val e)))
    /\ same (view L (cc_val e')) (EB (mid (view L (cc_val e)) (centred (view L (yee_val e')))) (centred (view L (yee_val e')))).
  Proof.
    intros CV (We&AL&SY) AT. pose proof PM as [TB GR CH LY MP MF ON]. fold c in LY, MP, ON. fold L in LY.
    pose proof HF as [FT FS HY O _ RG].
    destruct (faces_spec P k1 k2 W PF t C F U CV) as (fl&fb&Ef&_).
    destruct (ohm_view t C F U fl fb e CV We Ef) as (J&e0&EH&FR&CC0&OV).
    destruct (hybrid_evolve P RG HY fl fb F e J e0 dt We EH) as (e1&E1&_&_&_&W0).
    destruct (evolve_ok (pf P) _ _ _ dt e0 e1 RG W0 E1) as (YE&W1&SY1&_&_&_&_&_&AT1&FT1&AL1).
    pose proof (evolve_hybrid_lat (pf P) _ _ _ dt e0 e1 HY RG W0 E1) as LT.
    destruct FR as (FC&FN&FH&FA&FTm&_).
    destruct AL1 as (AL'&CC); [destruct AL; split; congruence|].
    unfold lat in *. rewrite LY in *.
    assert (UF : update_fields P t dt F e = Ok e1).
    { unfold update_fields. rewrite Ef. cbn [rbind]. rewrite FT, AT.
      cbn [String.eqb Ascii.eqb Bool.eqb andb negb]. rewrite HY, EH. cbn [rbind]. rewrite E1. reflexivity. }
    exists (set_at_n true e1). split; [|split; [|split; [|split; [|split]]]].
    - unfold Solver.fields_seen. fold c. rewrite MP, ON. cbn [String.eqb Ascii.eqb Bool.eqb andb].
      rewrite UF. cbn [rbind]. rewrite !get_fields_aliased by auto. cbn [set_at_n at_n]. rewrite AT1, FA, AT. reflexivity.
    - split; [apply wf_at_n; exact W1|]. split; [exact AL'|]. rewrite LY; exact SY1.
    - reflexivity.
    - change (ftime (set_at_n true e1)) with (ftime e1). rewrite FT1, FTm. reflexivity.
    - change (yee_val (set_at_n true e1)) with (yee_val e1).
      eapply same_trans; [exact LT|]. unfold hyb_fields. apply faraday_same. exact OV.
    - rewrite CC0 in CC. exact CC.
  Qed.

  Lemma ohm_same e Te l b ce Y Z : same Y Z -> same (ohm (pf P) e Te l b ce Y) (ohm (pf P) e Te l b ce Z).
  Proof using.
    intros (A&B&C&D&E&F). unfold same, ohm, fwd1, fwd2; cbn [E1 E2 E3 B1 B2 B3]. cbv zeta.
    repeat split; intros; rewrite ?D, ?E, ?F; reflexivity.
  Qed.

  Lemma hyb_op dt s S : cur_dt s = dt -> vm_holds P s S -> good (pf P) (fields s) -> at_n (fields s) = true ->
    exists s', op_fvm P dt s = Ok s' /\ vm_holds P s' (hyb_step P k1 k2 (time_elapsed s) dt S)
    /\ good (pf P) (fields s') /\ at_n (fields s') = true
    /\ time_elapsed s' = time_elapsed s /\ cur_dt s' = cur_dt s /\ ftime (fields s') = ftime (fields s) + dt.
  Proof.
    intros CD (HU&HY&HC) G AT. pose proof G as (We&AL&SY).
    destruct (op_fvm_stages P k1 k2 W PF dt s (vm_f S) HU) as (x0&R0&C0&ST).
    pose proof (hyb_first (time_elapsed s) (cur_dt s) (sf x0) _ (fields s) C0 AL AT) as F0.
    destruct (ST _ _ (components (vm_cc S), components (vm_cc S), components (vm_cc S)) F0) as (xh&Ch&ST2).
    { split; [|split]; apply (shows_components P k1 PF); exact HC. }
    destruct (hyb_second (time_elapsed s) (cur_dt s) (sf xh) _ (set_at_n false (fields s)) (vm_cc S) Ch)
      as (eh&Fh&Gh&ATh&FTh&SY1&SC1).
    { split; [apply wf_at_n; exact We|]. split; [exact AL|exact SY]. }
    { reflexivity. }
    change (yee_val (set_at_n false (fields s))) with (yee_val (fields s)) in SY1.
    change (cc_val (set_at_n false (fields s))) with (cc_val (fields s)) in SC1.
    rewrite CD in *.
    set (S' := hyb_step P k1 k2 (time_elapsed s) dt S).
    assert (YS : same (view L (yee_val eh)) (vm_yee S')).
    { eapply same_trans; [exact SY1|]. unfold S', hyb_step; cbn [vm_yee].
      unfold hyb_fields. apply faraday_same. apply ohm_same. exact HY. }
    assert (CS : same (view L (cc_val eh)) (vm_cc S')).
    { eapply same_trans; [exact SC1|]. change (vm_cc S') with (EB (mid (vm_cc S) (centred (vm_yee S'))) (centred (vm_yee S'))).
      apply EB_mid_same; [exact HC|]. apply centred_same. exact YS. }
    destruct (ST2 _ _ (components (vm_cc S'), components (vm_cc S'), components (vm_cc S')) Fh) as (s'&OP&FE&TE&DE&HH).
    { split; [|split]; apply (shows_components P k1 PF); exact CS. }
    exists s'. split; [exact OP|]. rewrite FE. split; [|split; [exact Gh|split; [exact ATh|split; [exact TE|split; [congruence|exact FTh]]]]].
    unfold vm_holds. rewrite FE. split; [exact HH|]. split; [exact YS|exact CS].
  Qed.

  Let M := solver_stepper P.

  Lemma hyb_history h s S : vm_holds P s S -> good (pf P) (fields s) -> at_n (fields s) = true ->
    exists s', run_steps M h s = Ok (s', None) /\ vm_holds P s' (hyb_run P k1 k2 (time_elapsed s) h S)
    /\ good (pf P) (fields s') /\ at_n (fields s') = true
    /\ time_elapsed s' = time_elapsed s + elapsed h /\ ftime (fields s') = ftime (fields s) + elapsed h.
  Proof.
    revert s S. induction h as [|(m&dt) h IH]; intros s S HS G AT; cbn [run_steps].
    - exists s. cbn [elapsed hyb_run]. rewrite !Rplus_0_r. auto 8.
    - destruct (hyb_op dt (set_dt M dt s) S eq_refl HS G AT) as (s1&OP&H1&G1&A1&T1&D1&F1).
      change (time_elapsed (set_dt M dt s)) with (time_elapsed s) in *.
      change (fields (set_dt M dt s)) with (fields s) in *.
      assert (ST : step_of M m dt s = Ok (set_clock M (clock M s1 + dt) s1, None)).
      { rewrite (fvm_step_eq M m dt s); [|apply PF|left; apply PM].
        change (Timestep.op_fvm M) with (op_fvm P). rewrite OP. cbn [rbind].
        assert (D : diverged M s1 = false) by (apply finite_iff, solver_finite). rewrite D. reflexivity. }
      rewrite ST. cbn [rbind].
      set (s2 := set_clock M (clock M s1 + dt) s1).
      assert (T2 : time_elapsed s2 = time_elapsed s + dt) by (unfold s2; cbn; rewrite T1; reflexivity).
      destruct (IH s2 (hyb_step P k1 k2 (time_elapsed s) dt S)) as (s'&RS&HV&GV&AV&TV&FV); auto.
      exists s'. split; [exact RS|]. cbn [hyb_run elapsed]. rewrite <- T2. split; [exact HV|]. split; [exact GV|]. split; [exact AV|].
      split; [rewrite TV, T2; ring|]. rewrite FV. change (fields s2) with (fields s1). rewrite F1. ring.
  Qed.

  Lemma hyb_starts s : starts P s -> vm_holds P s (VM (gval L (f_of s)) (view L (yee_val (fields s))) (view L (cc_val (fields s))))
    /\ good (pf P) (fields s) /\ at_n (fields s) = true /\ ftime (fields s) = 0.
  Proof using HF.
    intros ((rho&H)&SH). split; [split; [split; [exact SH|reflexivity]|split; apply same_refl]|].
    split; [eapply init_good; [apply HF|exact H]|].
    split; [exact (proj2 (init_calm _ _ _ H))|exact (proj1 (init_calm _ _ _ H))].
  Qed.

  Lemma hyb_refines h s S : starts P s -> vm_holds P s S ->
    exists s', run_steps M h s = Ok (s', None) /\ vm_holds P s' (hyb_run P k1 k2 (time_elapsed s) h S)
    /\ time_elapsed s' = time_elapsed s + elapsed h /\ ftime (fields s') = elapsed h.
  Proof.
    intros ST HS. destruct (hyb_starts s ST) as (_&G&A&T0).
    destruct (hyb_history h s S HS G A) as (s'&Q&H&_&_&T&F).
    exists s'. split; [exact Q|]. split; [exact H|]. split; [exact T|]. rewrite F, T0. ring.
  Qed.

  Lemma hyb_divB_run h : forall t S i j, div_B (fdq1 (pf P)) (fdq2 (pf P)) (vm_yee (hyb_run P k1 k2 t h S)) i j
    = div_B (fdq1 (pf P)) (fdq2 (pf P)) (vm_yee S) i j.
  Proof using HF.
    pose proof (hf_regular _ HF) as RG.
    induction h as [|(m&dt) h IH]; intros t S i j; cbn [hyb_run]; [reflexivity|]. rewrite IH.
    unfold hyb_step, hyb_fields. cbn [vm_yee]. rewrite div_B_faraday by apply RG. reflexivity.
  Qed.

  Lemma hyb_divB_solver h s : starts P s ->
    exists s', run_steps M h s = Ok (s', None)
    /\ forall i j, inb (gN1 L) i -> inb (gN2 L) j ->
       gval L (compute_divB (pf P) (fields s')) 0 0 i j = gval L (compute_divB (pf P) (fields s)) 0 0 i j.
  Proof.
    intros ST. destruct (hyb_starts s ST) as (HS&G&A&_). pose proof PM as [_ _ _ LY _ _ _]. fold c L in LY.
    destruct (hyb_history h s _ HS G A) as (s'&Q&((SH&HU)&HY&HC)&G'&_).
    exists s'. split; [exact Q|]. intros i j Hi Hj. fold c L in HY.
    assert (D : forall x, good (pf P) x -> gval L (compute_divB (pf P) x) 0 0 i j = div_B (fdq1 (pf P)) (fdq2 (pf P)) (view L (yee_val x)) i j).
    { intros x Wx. pose proof (divB_view (pf P) x (hf_regular _ HF) Wx i j) as V. unfold lat in V. rewrite LY in V. apply V; auto. }
    rewrite !D by auto. rewrite (div_B_same _ _ _ _ i j HY). apply hyb_divB_run.
  Qed.
End Hyb.
