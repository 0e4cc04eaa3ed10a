(** The hybrid model: the assertion on the currents always holds on periodic
    domains, so a field step succeeds. *)
From Coq Require Import ZArith Reals Lia Lra String List Bool.
From Verif Require Import Base.Prelude Base.ZSum Model.Af Model.Petsc Model.Config Model.Boundaries
  Model.Fvm Model.Em Model.Moments Model.Solver Spec.Domain Spec.Yee Spec.EmRun
  Proofs.AfLemmas Proofs.PetscLemmas Proofs.FvmLemmas2 Proofs.EmLemmas Proofs.EmStep Proofs.EmGrids
  Proofs.EmInit Proofs.SolverLemmas.
Import ListNotations.
Local Open Scope R_scope.

Lemma asum1_one (a : arr R) i k l : d1 a = 1%Z -> el (asum1 a) i 0 k l = el a i 0 k l.
Proof. intros H. unfold asum1; cbn [el]. rewrite H, zsum_1. reflexivity. Qed.

Lemma mean_abs_zero (a : arr R) : (forall i j k l, inside a i j k l -> el a i j k l = 0) -> mean_abs a = 0.
Proof.
  intros H. unfold mean_abs.
  rewrite (zsum_ext (d0 a) _ (fun _ => 0)); [rewrite zsum_zero; unfold Rdiv; apply Rmult_0_l|].
  intros i Hi. rewrite (zsum_ext (d1 a) _ (fun _ => 0)); [apply zsum_zero|].
  intros j Hj. rewrite (zsum_ext (d2 a) _ (fun _ => 0)); [apply zsum_zero|].
  intros k Hk. rewrite (zsum_ext (d3 a) _ (fun _ => 0)); [apply zsum_zero|].
  intros l Hl. rewrite H; [apply Rabs_R0|]. unfold inside, inb. lia.
Qed.

Lemma mod_inb n i : (0 < n)%Z -> inb n (i mod n)%Z.
Proof. intros. unfold inb. apply Z.mod_pos_bound. lia. Qed.

(** The check passes when the magnetic field the currents were computed from is
    the one in the array. *)
Lemma hybrid_check c dt a b : hybrid c = true -> (0 < d2 a)%Z -> (0 < d3 a)%Z ->
  d1 a = 1%Z -> d2 b = d2 a -> d3 b = d3 a ->
  (forall k i j, (3 <= k < 6)%Z -> inb (d2 a) i -> inb (d3 a) j -> el b k 0 i j = el a k 0 i j) ->
  evolve_E_rank c dt (asum1 (fst3 (ohm_J c a))) (asum1 (snd3 (ohm_J c a))) (asum1 (snd (ohm_J c a))) b = Ok b.
Proof.
  intros Hh P2 P3 D1 D2 D3 H. unfold evolve_E_rank, ohm_J, curlB. rewrite Hh.
  assert (Z10 : 0 < / 10 ^ 14) by (apply Rinv_0_lt_compat, pow_lt; lra).
  assert (T : forall x, mean_abs x = 0 -> Rltb (mean_abs x) (/ 10 ^ 14) = true).
  { intros x ->. unfold Rltb. destruct (Rlt_dec 0 (/ 10 ^ 14)); [reflexivity|lra]. }
  cbn [fst3 snd3 fst snd].
  rewrite !T; [reflexivity| | |]; apply mean_abs_zero; intros i j k l (Hi&Hj&Hk&Hl);
    cbn [d0 d1 d2 d3 amap2 amap asum1 adiv aneg shift Em.row] in Hi, Hj, Hk, Hl;
    unfold inb in Hi, Hj;
    (assert (i = 0 /\ j = 0)%Z as (->&->) by lia);
    cbn [el d0 d1 d2 d3 amap2 amap asum1 adiv aneg shift Em.row]; rewrite !D1, zsum_1, D2, D3;
    rewrite !Z.sub_0_r, !Zmod_0_l;
    rewrite ?H by (try lia; try apply mod_inb; auto); ring.
Qed.

Section Run.
  Context (P : params).
  Let c := pf P.
  Let L := flay c.
  Context (RG : regular c) (Hh : hybrid c = true).

  Lemma hybrid_fields_inv fl fb f e J e' : hybrid_fields P fl fb f e = Ok (J, e') ->
    let e1 := communicate_fields c true e in
    exists E : nat -> nat -> arr R * arr R * arr R,
      J = ((fun r1 r2 => fst3 (ohm_J c (yee_val e1 r1 r2))), (fun r1 r2 => snd3 (ohm_J c (yee_val e1 r1 r2))),
           (fun r1 r2 => snd (ohm_J c (yee_val e1 r1 r2))))
      /\ e' = write (yee e1) (fun r1 r2 => set_row 2 (snd (E r1 r2)) (set_row 1 (snd3 (E r1 r2))
                   (set_row 0 (fst3 (E r1 r2)) (yee_val e1 r1 r2)))) e1.
  Proof.
    unfold hybrid_fields. fold c. generalize (communicate_fields c true e). intros e1 H. cbv zeta in *.
    do 9 (apply rbind_inv in H; let x := fresh "m" in destruct H as (x&_&H); cbv beta in H).
    apply Ok_inj, pair_equal_spec in H. destruct H as (<-&<-).
    exists (fun r1 r2 => ohm_E c (T_e P) (Fvm.dp_arr (charge P)) (yee_val e1 r1 r2) (m r1 r2) (m1 r1 r2) (m0 r1 r2)
                   (m2 r1 r2) (m4 r1 r2) (m3 r1 r2) (m5 r1 r2) (m7 r1 r2) (m6 r1 r2) (m6 r1 r2)).
    split; reflexivity.
  Qed.

  Lemma hybrid_evolve fl fb f e J e' dt : wf_em c e -> hybrid_fields P fl fb f e = Ok (J, e') ->
    exists e'', evolve_electrodynamic_fields c (fst3 J) (snd3 J) (snd J) dt e' = Ok e''
      /\ wf_em c e'' /\ ftime e'' = ftime e + dt /\ at_n e'' = at_n e /\ wf_em c e'.
  Proof.
    intros W H. apply hybrid_fields_inv in H. cbv zeta in H. destruct H as (E&HJ&He').
    set (e1 := communicate_fields c true e) in *.
    assert (W1 : wf_em c e1) by (apply wf_comm; exact W).
    pose proof RG as ((PL&PE)&_).
    assert (V1 : yee_val e1 = communicate L 6 1 (fbuf e) (yee_val e)) by apply yee_val_communicate.
    assert (SY1 : synced L (yee_val e1) everywhere).
    { rewrite V1. apply communicate_synced; auto. apply shaped_yee; auto. }
    set (y := fun r1 r2 => set_row 2 (snd (E r1 r2)) (set_row 1 (snd3 (E r1 r2))
                   (set_row 0 (fst3 (E r1 r2)) (yee_val e1 r1 r2)))) in *.
    assert (SHy : shaped L 6 1 y).
    { intros r1 r2 RK. destruct (proj1 SY1 r1 r2 RK) as (A&B&C&D). repeat split; assumption. }
    assert (We' : wf_em c e') by (rewrite He'; apply wf_write; auto).
    assert (Vy : yee_val e' = y) by (rewrite He'; apply yee_val_write).
    destruct (before_fdtd_ok c e' We') as (W2&Y2&_&_&_&_&A2&T2&_).
    assert (S : exists s, fdtd c dt (dmap asum1 (fst3 J), dmap asum1 (snd3 J), dmap asum1 (snd J)) (before_fdtd e') = Ok s).
    { revert W2 Y2. generalize (before_fdtd e'). intros s2 W2 Y2.
      unfold fdtd. rewrite apply_bcs_fields_periodic by exact PE. cbn [rbind].
      set (s3 := communicate_fields c true s2).
      assert (V3 : yee_val s3 = communicate L 6 1 (fbuf s2) y).
      { unfold s3. rewrite yee_val_communicate, Y2, Vy. reflexivity. }
      destruct (all_ranks_ok (flay c) (fun r1 r2 => evolve_E_rank c dt (dmap asum1 (fst3 J) r1 r2)
         (dmap asum1 (snd3 J) r1 r2) (dmap asum1 (snd J) r1 r2) (yee_val s3 r1 r2))) as (F&EF&_).
      { intros r1 r2 RK. exists (yee_val s3 r1 r2). rewrite HJ. unfold dmap; cbn [fst3 snd3 fst snd].
        destruct (proj1 SY1 r1 r2 RK) as (A0&A1&A2'&A3).
        assert (SH3 : shaped L 6 1 (yee_val s3)) by (rewrite V3; apply communicate_shaped).
        destruct (SH3 r1 r2 RK) as (C0&C1&C2&C3).
        destruct (size_pos L PL r1 r2 RK) as (Z1&Z2).
        pose proof PL as (_&_&G1&G2&_).
        apply hybrid_check; auto.
        - rewrite A2'. unfold n1g. fold L in Z1, G1. lia.
        - rewrite A3. unfold n2g. fold L in Z2, G2. lia.
        - congruence.
        - congruence.
        - intros k i j Hk Hi Hj. rewrite A2' in Hi. rewrite A3 in Hj.
          rewrite V3. rewrite communicate_el; auto; [|unfold inb; lia|unfold inb; lia].
          rewrite (proj2 SY1 r1 r2 k i j RK) by (auto; unfold inb, everywhere; auto; lia).
          apply gper_ext2; auto. intros q1 q2 u v _ _ _. unfold y, set_row; cbn [el].
          replace (k =? 2)%Z with false by lia. replace (k =? 1)%Z with false by lia.
          replace (k =? 0)%Z with false by lia. reflexivity. }
      rewrite EF. cbn [rbind]. rewrite apply_bcs_fields_periodic by exact PE. cbn [rbind]. eauto. }
    destruct S as (s&ES).
    rewrite evolve_split, ES. cbn [rbind].
    assert (Ws : wf_em c s) by (eapply wf_fdtd; [exact PE|exact W2|exact ES]).
    destruct (after_fdtd_ok c (dmap (rows 0 3) (cc_val e')) dt s Ws) as (W4&_&_&_&_&_&A4&T4).
    destruct (fdtd_gen c dt _ _ _ _ s RG (shaped_yee c _ W2) ES) as (YE&_&_&(_&_&_&FA&FT&_)&_).
    eexists. split; [reflexivity|]. split; [exact W4|].
    assert (T0 : ftime e' = ftime e) by (rewrite He'; reflexivity).
    assert (A0 : at_n e' = at_n e) by (rewrite He'; reflexivity).
    split; [rewrite T4, FT, T2, T0; reflexivity|]. split; [rewrite A4, FA, A2, A0; reflexivity|exact We'].
  Qed.
End Run.
