(** The finite-volume step for any way of continuing the lines of cells beyond the
    sides: if after the ghost exchange and the boundary conditions every rank's
    array shows the continued lines, the step is the textbook one on them. *)
From Coq Require Import ZArith Reals Lra Lia Psatz String List Bool.
From Verif Require Import Base.Prelude Base.ZSum Model.Af Model.Grid Model.Petsc Model.Config
  Model.Reconstruct Model.Boundaries Model.Fvm
  Spec.Limiters Spec.Stencil Spec.Lattice Spec.Domain Spec.FvmProblem Spec.FvmRun Spec.Mirror Spec.Walls Spec.Box
  Proofs.AfLemmas Proofs.ReconstructLemmas Proofs.ReconstructApi Proofs.PetscLemmas
  Proofs.FluxLemmas Proofs.ConvLemmas Proofs.FvmLemmas Proofs.FvmLemmas2 Proofs.FvmConserve
  Proofs.BoundaryLemmas Proofs.BoundaryRun Proofs.FvmGeneral.
Import ListNotations.
Local Open Scope R_scope.

Section Lines.
Variables (c : cfg) (k1 k2 : scheme).
Variables la lb : R -> gstate -> Z -> Z -> Z -> Z -> R.
Local Notation L := (lay c).

Definition covers_lines (t : R) (r1 r2 : nat) (f : arr R) (U : gstate) : Prop :=
  q_shaped c r1 r2 f
  /\ (forall x s j z, inb (N_p c) x -> inb (N_species c) s -> inb (bsize (blk2 L) r2) j ->
      inb (n1g L r1) z ->
      el f x s z (ng2 L + j)%Z = la t U x s (off (blk2 L) r2 + j)%Z (z + (off (blk1 L) r1 - ng1 L))%Z)
  /\ (forall x s i z, inb (N_p c) x -> inb (N_species c) s -> inb (bsize (blk1 L) r1) i ->
      inb (n2g L r2) z ->
      el f x s (ng1 L + i)%Z z = lb t U x s (off (blk1 L) r1 + i)%Z (z + (off (blk2 L) r2 - ng2 L))%Z).

Definition rhs_lines (t : R) (P : problem) (u : gstate) : gstate := fun x s g1 g2 =>
  advect (kq P) (h1 P) (fun i => vel1 P x s i g2) (la t u x s g2) g1
  + advect (kq P) (h2 P) (fun j => vel2 P x s g1 j) (lb t u x s g1) g2
  + src P g1 g2 (fun x' s' => u x' s' g1 g2) x s
  + advect_p P g1 g2 (fun x' s' => u x' s' g1 g2) x s.
Definition midpoint_lines (t : R) (P0 Ph : problem) (dt : R) (u : gstate) : gstate :=
  let uh : gstate := fun x s g1 g2 => u x s g1 g2 + dt / 2 * rhs_lines t P0 u x s g1 g2 in
  fun x s g1 g2 => u x s g1 g2 + dt * rhs_lines t Ph uh x s g1 g2.
Fixpoint run_lines (l : list (call * fields3 * fields3)) (u : gstate) : gstate :=
  match l with
  | [] => u
  | (k, E0, Eh) :: l =>
      run_lines l (midpoint_lines (ct k) (prob c k1 k2 (ct k) E0) (prob c k1 k2 (ct k) Eh) (cdt k) u)
  end.

Hypothesis W : wf_cfg c k1 k2.
Hypothesis HQ : solver_method_in_q c = "FVM"%string.
Hypothesis T1 : tiles (gN1 L) (blk1 L).
Hypothesis T2 : tiles (gN2 L) (blk2 L).
Hypothesis NG : (0 < ng1 L)%Z /\ (0 < ng2 L)%Z.
Hypothesis RD : (radius k1 < ng1 L)%Z /\ (radius k1 < ng2 L)%Z.
Hypothesis LI : forall t U x s g1 g2, inb (N_p c) x -> inb (N_species c) s ->
  inb (gN1 L) g1 -> inb (gN2 L) g2 -> la t U x s g2 g1 = U x s g1 g2.
(** The lines near the grid depend on the values on the grid only. *)
Hypothesis LX : forall t u v, (forall x s g1 g2, inb (N_p c) x -> inb (N_species c) s ->
    inb (gN1 L) g1 -> inb (gN2 L) g2 -> u x s g1 g2 = v x s g1 g2) ->
  forall x s g z, inb (N_p c) x -> inb (N_species c) s ->
  (inb (gN2 L) g -> (- ng1 L <= z < gN1 L + ng1 L)%Z -> la t u x s g z = la t v x s g z)
  /\ (inb (gN1 L) g -> (- ng2 L <= z < gN2 L + ng2 L)%Z -> lb t u x s g z = lb t v x s g z).

Lemma ranges r1 r2 : rank_ok L r1 r2 ->
  (0 < bsize (blk1 L) r1 /\ 0 < bsize (blk2 L) r2 /\ 0 <= off (blk1 L) r1 /\ 0 <= off (blk2 L) r2
  /\ off (blk1 L) r1 + bsize (blk1 L) r1 <= gN1 L /\ off (blk2 L) r2 + bsize (blk2 L) r2 <= gN2 L
  /\ 0 < gN1 L /\ 0 < gN2 L /\ 0 < ng1 L /\ 0 < ng2 L)%Z.
Proof using T1 T2 NG.
  intros [R1 R2]. destruct T1 as (N1&F1&S1), T2 as (N2&F2&S2).
  pose proof (bsize_pos (blk1 L) r1 F1 R1). pose proof (bsize_pos (blk2 L) r2 F2 R2).
  pose proof (off_nonneg (blk1 L) r1 F1). pose proof (off_nonneg (blk2 L) r2 F2).
  pose proof (off_end (blk1 L) r1 F1 R1). pose proof (off_end (blk2 L) r2 F2 R2). lia.
Qed.

Lemma rhs_lines_ext tb t E u v :
  gagree (prob c k1 k2 t E) (N_species c) u v ->
  gagree (prob c k1 k2 t E) (N_species c) (rhs_lines tb (prob c k1 k2 t E) u) (rhs_lines tb (prob c k1 k2 t E) v).
Proof using W LX T1 T2 NG RD.
  intros H x s g1 g2 Hx Hs H1 H2. unfold rhs_lines.
  change (inb (N_p c) x) in Hx. change (inb (gN1 (lay c)) g1) in H1. change (inb (gN2 (lay c)) g2) in H2.
  assert (HU : forall x s g1 g2, inb (N_p c) x -> inb (N_species c) s -> inb (gN1 (lay c)) g1 -> inb (gN2 (lay c)) g2 -> u x s g1 g2 = v x s g1 g2) by exact H.
  pose proof (LX tb u v HU) as HL.
  destruct T1 as (Q1&_), T2 as (Q2&_).
  f_equal; [f_equal; [f_equal|]|].
  - apply advect_ext; auto; change (kq (prob c k1 k2 t E)) with k1; intros z Hz.
    apply (HL x s g2 z Hx Hs); auto. unfold inb in H1. lia.
  - apply advect_ext; auto; change (kq (prob c k1 k2 t E)) with k1; intros z Hz.
    apply (HL x s g1 z Hx Hs); auto. unfold inb in H2. lia.
  - unfold prob, problem_of, problem_at; cbn [src]. destruct (source_enabled c); auto.
    apply W; auto.
  - pose proof (wf_pos _ _ _ W) as (P1&P2&P3&PS).
    apply advect_p_ext; auto.
Qed.

Lemma df_dt_fvm_lines tb r1 r2 t (A : fieldseq) (E : fields3) f U :
  rank_ok (lay c) r1 r2 -> covers_lines tb r1 r2 f U ->
  shows3 (lay c) A E ->
  exists d, df_dt_fvm c r1 r2 t (fst (fst (A r1 r2))) (snd (fst (A r1 r2))) (snd (A r1 r2)) f = Ok d
  /\ q_shaped c r1 r2 d
  /\ forall x s i j, inb (N_p c) x -> inb (N_species c) s ->
     inb (bsize (blk1 (lay c)) r1) i -> inb (bsize (blk2 (lay c)) r2) j ->
     el d x s (ng1 (lay c) + i)%Z (ng2 (lay c) + j)%Z
     = rhs_lines tb (prob c k1 k2 t E) U x s (off (blk1 (lay c)) r1 + i)%Z (off (blk2 (lay c)) r2 + j)%Z.
Proof using All.
  intros RK CV SH. pose proof (ranges r1 r2 RK) as RG; pose proof RG as (B1&B2&O1&O2&E1&E2&N1&N2&G1&G2).
  pose proof (wf_pos _ _ _ W) as PC.
  destruct CV as (DM&LQ1&LQ2).
  destruct (df_dt_q_gen c k1 k2 r1 r2 t (fst (fst E)) (snd (fst E)) (snd E) f U
    (la tb U) (lb tb U) W RG RD RK DM LQ1 LQ2 (LI tb U))
    as (dq&fl&fb&Q&Dq&_&_&V).
  unfold df_dt_fvm. rewrite HQ, Q. cbn [rbind String.eqb Ascii.eqb Bool.eqb].
  fold (prob c k1 k2 t E) in V. fold (p_is_fvm c).
  assert (ZP : forall w x s g1 g2, p_is_fvm c = false -> advect_p (prob c k1 k2 t E) g1 g2 w x s = 0).
  { intros w x s g1 g2 HF. unfold advect_p, prob, problem_of, problem_at; cbn [acc1 acc2 acc3 M1 M2 M3 kp hp1 hp2 hp3].
    rewrite HF. unfold advect, flux, periodic. unfold Rdiv. ring. }
  destruct (p_is_fvm c) eqn:HF.
  - assert (WL : Z.of_nat (List.length (dp1 c)) = N_species c /\ Z.of_nat (List.length (dp2 c)) = N_species c
      /\ Z.of_nat (List.length (dp3 c)) = N_species c
      /\ scheme_of_name (reconstruction_method_in_p c) = Some k2)
      by (unfold wf_cfg in W; tauto).
    destruct WL as (L1&L2&L3&Hmp).
    assert (Gp : (0 < n1g (lay c) r1)%Z /\ (0 < n2g (lay c) r2)%Z) by (unfold n1g, n2g; lia).
    set (C1 := force_p1 c r1 r2 t (fst (fst (A r1 r2)))).
    set (C2 := force_p2 c r1 r2 t (snd (fst (A r1 r2)))).
    set (C3 := force_p3 c r1 r2 t (snd (A r1 r2))).
    destruct (df_dt_p_spec c k2 r1 r2 PC Hmp Gp C1 C2 C3 f (prob c k1 k2 t E) L1 L2 L3)
      as (dp&Qp&Dp&Vp); try reflexivity; try (repeat split; reflexivity); [exact DM|].
    rewrite Qp. cbn [rbind]. eexists; split; [reflexivity|].
    split. { destruct Dq as (A0&A1&A2&A3). repeat split; assumption. }
    intros x s i j Hx Hs Hi Hj. cbn [el amap2]. destruct (V x s i j Hx Hs Hi Hj) as [V' _].
    rewrite V'. unfold rhs_lines. f_equal.
    assert (Hk : inb (n1g (lay c) r1) (ng1 (lay c) + i)) by (unfold inb, n1g in *; lia).
    assert (Hl : inb (n2g (lay c) r2) (ng2 (lay c) + j)) by (unfold inb, n2g in *; lia).
    apply (Vp s (ng1 (lay c) + i)%Z (ng2 (lay c) + j)%Z); auto.
    + intros x' Hx'. rewrite (LQ1 x' s j (ng1 (lay c) + i)%Z) by auto.
      replace (ng1 (lay c) + i + (off (blk1 (lay c)) r1 - ng1 (lay c)))%Z
        with (off (blk1 (lay c)) r1 + i)%Z by lia. apply LI; auto; unfold inb in *; lia.
    + intros x' Hx'. unfold C1, force_p1.
      erewrite force_el; eauto.
      * unfold prob, problem_of, problem_at; cbn [acc1]. rewrite HF. reflexivity.
      * intros n Hn. apply SH; auto.
      * intros; eapply p_centers; eauto.
      * intros; eapply p_centers; eauto.
      * intros; eapply p_centers; eauto.
    + intros x' Hx'. unfold C2, force_p2.
      erewrite force_el; eauto.
      * unfold prob, problem_of, problem_at; cbn [acc2]. rewrite HF. reflexivity.
      * intros n Hn. apply SH; auto.
      * intros; eapply p_centers; eauto.
      * intros; eapply p_centers; eauto.
      * intros; eapply p_centers; eauto.
    + intros x' Hx'. unfold C3, force_p3.
      erewrite force_el; eauto.
      * unfold prob, problem_of, problem_at; cbn [acc3]. rewrite HF. reflexivity.
      * intros n Hn. apply SH; auto.
      * intros; eapply p_centers; eauto.
      * intros; eapply p_centers; eauto.
      * intros; eapply p_centers; eauto.
  - eexists; split; [reflexivity|]. split; [exact Dq|].
    intros x s i j Hx Hs Hi Hj. destruct (V x s i j Hx Hs Hi Hj) as [V' _]. rewrite V'.
    unfold rhs_lines. rewrite ZP by auto. rewrite Rplus_0_r. reflexivity.
Qed.

Theorem timestep_fvm_lines t dt A0 Ah E0 Eh s :
  (forall s r1 r2, shaped (lay c) (N_p c) (N_species c) (sf s) -> rank_ok L r1 r2 ->
     exists f', apply_bcs_f c r1 r2 t (sf (communicate_f c s) r1 r2) = Ok f'
     /\ covers_lines t r1 r2 f' (gval L (sf s))) ->
  shaped (lay c) (N_p c) (N_species c) (sf s) ->
  shows3 (lay c) A0 E0 -> shows3 (lay c) Ah Eh ->
  exists s', timestep_fvm c t dt A0 Ah s = Ok s'
  /\ shaped (lay c) (N_p c) (N_species c) (sf s')
  /\ forall x sp g1 g2, inb (N_p c) x -> inb (N_species c) sp ->
     inb (gN1 (lay c)) g1 -> inb (gN2 (lay c)) g2 ->
     gval (lay c) (sf s') x sp g1 g2
     = midpoint_lines t (prob c k1 k2 t E0) (prob c k1 k2 t Eh) dt (gval (lay c) (sf s)) x sp g1 g2.
Proof using All.
  intros AF SH S0 Sh.
  set (U := gval L (sf s)).
  unfold timestep_fvm.
  set (s1 := communicate_f c s).
  destruct (all_ranks_ok L (fun r1 r2 => apply_bcs_f c r1 r2 t (sf s1 r1 r2))) as (f0&Q0&V0).
  { intros r1 r2 RK. destruct (AF s r1 r2 SH RK) as (f'&Q&_). eauto. }
  rewrite Q0. cbn [rbind].
  assert (C0 : forall r1 r2, rank_ok L r1 r2 -> covers_lines t r1 r2 (f0 r1 r2) U).
  { intros r1 r2 RK. specialize (V0 r1 r2 RK).
    destruct (AF s r1 r2 SH RK) as (f'&Q&CV).
    fold s1 in Q. rewrite Q in V0. injection V0 as <-. exact CV. }
  destruct (all_ranks_ok L (fun r1 r2 => let '(a1, a2, a3) := A0 r1 r2 in
      let? d := df_dt_fvm c r1 r2 t a1 a2 a3 (f0 r1 r2) in
      Ok (amap2 (fun f d => f + d * (dt / 2)) (f0 r1 r2) d))) as (fh&Qh&Vh).
  { intros r1 r2 RK. destruct (df_dt_fvm_lines t r1 r2 t A0 E0 _ _ RK (C0 _ _ RK) S0) as (d&Qd&_).
    destruct (A0 r1 r2) as [[a1 a2] a3]. cbn [fst snd] in Qd. rewrite Qd. cbn [rbind]. eauto. }
  rewrite Qh. cbn [rbind].
  assert (Sfh : shaped L (N_p c) (N_species c) fh /\ forall x sp g1 g2, inb (N_p c) x -> inb (N_species c) sp ->
     inb (gN1 L) g1 -> inb (gN2 L) g2 ->
     gval L fh x sp g1 g2 = U x sp g1 g2 + dt / 2 * rhs_lines t (prob c k1 k2 t E0) U x sp g1 g2).
  { split.
    - intros r1 r2 RK. specialize (Vh r1 r2 RK).
      destruct (df_dt_fvm_lines t r1 r2 t A0 E0 _ _ RK (C0 _ _ RK) S0) as (d&Qd&_).
      destruct (A0 r1 r2) as [[a1 a2] a3]. cbn [fst snd] in Qd. rewrite Qd in Vh. cbn [rbind] in Vh.
      injection Vh as <-. destruct (C0 _ _ RK) as (Df&_). exact Df.
    - intros x sp g1 g2 Hx Hs H1 H2. unfold gval.
      destruct (owner_spec (blk1 L) g1) as [R1 B1]; [apply T1|destruct T1 as (_&_&->); exact H1|].
      destruct (owner_spec (blk2 L) g2) as [R2 B2]; [apply T2|destruct T2 as (_&_&->); exact H2|].
      set (r1 := owner (blk1 L) g1) in *. set (r2 := owner (blk2 L) g2) in *.
      assert (RK : rank_ok L r1 r2) by (split; auto).
      specialize (Vh r1 r2 RK). pose proof (C0 _ _ RK) as CV.
      destruct (df_dt_fvm_lines t r1 r2 t A0 E0 _ _ RK CV S0) as (d&Qd&_&Vd).
      destruct (A0 r1 r2) as [[a1 a2] a3]. cbn [fst snd] in Qd. rewrite Qd in Vh. cbn [rbind] in Vh.
      injection Vh as <-. cbn [el amap2]. unfold inb in *.
      rewrite Vd by (unfold inb; auto; lia).
      rewrite (proj1 (proj2 CV) x sp) by (unfold inb, n1g in *; auto; lia).
      
      replace (ng1 L + (g1 - off (blk1 L) r1) + (off (blk1 L) r1 - ng1 L))%Z with g1 by lia.
      replace (off (blk1 L) r1 + (g1 - off (blk1 L) r1))%Z with g1 by lia.
      replace (off (blk2 L) r2 + (g2 - off (blk2 L) r2))%Z with g2 by lia.
      rewrite LI by (unfold inb; auto). lra. }
  destruct Sfh as [Sfh Gfh].
  set (s2 := communicate_f c (FState fh (sbuf s1))).
  destruct (all_ranks_ok L (fun r1 r2 => apply_bcs_f c r1 r2 t (sf s2 r1 r2))) as (f2&Q2&V2).
  { intros r1 r2 RK. destruct (AF (FState fh (sbuf s1)) r1 r2 Sfh RK) as (f'&Q&_). eauto. }
  rewrite Q2. cbn [rbind].
  assert (C2 : forall r1 r2, rank_ok L r1 r2 -> covers_lines t r1 r2 (f2 r1 r2) (gval L fh)).
  { intros r1 r2 RK. specialize (V2 r1 r2 RK).
    destruct (AF (FState fh (sbuf s1)) r1 r2 Sfh RK) as (f'&Q&CV).
    fold s2 in Q. rewrite Q in V2. injection V2 as <-. exact CV. }
  destruct (all_ranks_ok L (fun r1 r2 => let '(a1, a2, a3) := Ah r1 r2 in
      let? d := df_dt_fvm c r1 r2 t a1 a2 a3 (f2 r1 r2) in
      Ok (amap2 (fun f d => f + d * dt) (f0 r1 r2) d))) as (f1&Q1&V1).
  { intros r1 r2 RK. destruct (df_dt_fvm_lines t r1 r2 t Ah Eh _ _ RK (C2 _ _ RK) Sh) as (d&Qd&_).
    destruct (Ah r1 r2) as [[a1 a2] a3]. cbn [fst snd] in Qd. rewrite Qd. cbn [rbind]. eauto. }
  rewrite Q1. cbn [rbind]. eexists; split; [reflexivity|]. cbn [sf]. split.
  - intros r1 r2 RK. specialize (V1 r1 r2 RK).
    destruct (df_dt_fvm_lines t r1 r2 t Ah Eh _ _ RK (C2 _ _ RK) Sh) as (d&Qd&_).
    destruct (Ah r1 r2) as [[a1 a2] a3]. cbn [fst snd] in Qd. rewrite Qd in V1. cbn [rbind] in V1.
    injection V1 as <-. destruct (C0 _ _ RK) as (Df&_). exact Df.
  - intros x sp g1 g2 Hx Hs H1 H2. unfold gval at 1.
    destruct (owner_spec (blk1 L) g1) as [R1 B1]; [apply T1|destruct T1 as (_&_&->); exact H1|].
    destruct (owner_spec (blk2 L) g2) as [R2 B2]; [apply T2|destruct T2 as (_&_&->); exact H2|].
    set (r1 := owner (blk1 L) g1) in *. set (r2 := owner (blk2 L) g2) in *.
    assert (RK : rank_ok L r1 r2) by (split; auto).
    specialize (V1 r1 r2 RK). pose proof (C0 _ _ RK) as CV.
    destruct (df_dt_fvm_lines t r1 r2 t Ah Eh _ _ RK (C2 _ _ RK) Sh) as (d&Qd&_&Vd).
    destruct (Ah r1 r2) as [[a1 a2] a3]. cbn [fst snd] in Qd. rewrite Qd in V1. cbn [rbind] in V1.
    injection V1 as <-. cbn [el amap2]. 
    rewrite Vd by (unfold inb in *; auto; lia).
    rewrite (proj1 (proj2 CV) x sp) by (unfold inb, n1g in *; auto; lia).
      
    replace (ng1 L + (g1 - off (blk1 L) r1) + (off (blk1 L) r1 - ng1 L))%Z with g1 by lia.
    replace (off (blk1 L) r1 + (g1 - off (blk1 L) r1))%Z with g1 by lia.
    replace (off (blk2 L) r2 + (g2 - off (blk2 L) r2))%Z with g2 by lia.
    rewrite LI by auto.
    unfold midpoint_lines.
    rewrite (rhs_lines_ext t t Eh (gval L fh)
      (fun x s g1 g2 => U x s g1 g2 + dt / 2 * rhs_lines t (prob c k1 k2 t E0) U x s g1 g2)); auto.
    + lra.
Qed.

Lemma midpoint_lines_ext t dt E0 Eh u v :
  gagree (prob c k1 k2 t E0) (N_species c) u v ->
  gagree (prob c k1 k2 t E0) (N_species c)
    (midpoint_lines t (prob c k1 k2 t E0) (prob c k1 k2 t Eh) dt u)
    (midpoint_lines t (prob c k1 k2 t E0) (prob c k1 k2 t Eh) dt v).
Proof using All.
  intros H x sp g1 g2 Hx Hs H1 H2. unfold midpoint_lines.
  f_equal; [apply H; auto|]. f_equal. apply rhs_lines_ext; auto.
  intros x' s1 b1 b2 X' S1 B1 B2. f_equal; [apply H; auto|]. f_equal. apply rhs_lines_ext; auto.
Qed.

Definition bcs_give (t : R) : Prop :=
  forall s r1 r2, shaped (lay c) (N_p c) (N_species c) (sf s) -> rank_ok L r1 r2 ->
  exists f', apply_bcs_f c r1 r2 t (sf (communicate_f c s) r1 r2) = Ok f'
  /\ covers_lines t r1 r2 f' (gval L (sf s)).

Lemma refinement_lines l :
  (forall k E0 Eh, In (k, E0, Eh) l ->
     bcs_give (ct k) /\ shows3 (lay c) (cE0 k) E0 /\ shows3 (lay c) (cEh k) Eh) ->
  forall s u, holds c (sf s) u ->
  exists s', run_fvm c (map (fun x => fst (fst x)) l) s = Ok s' /\ holds c (sf s') (run_lines l u).
Proof using All.
  induction l as [|[[k E0] Eh] l IH]; intros SW s u H.
  - exists s. auto.
  - cbn [map run_fvm run_lines fst].
    destruct (SW k E0 Eh (or_introl eq_refl)) as (BG&S0&Sh). destruct H as [SH U].
    destruct (timestep_fvm_lines (ct k) (cdt k) (cE0 k) (cEh k) E0 Eh s BG SH S0 Sh) as (s1&R&S1&V).
    rewrite R. cbn [rbind]. apply IH; auto.
    + intros. apply SW. right; auto.
    + split; [exact S1|]. intros x sp g1 g2 Hx Hs H1 H2. rewrite V by auto.
      apply midpoint_lines_ext; auto; intros a b d e A B D F; apply U; auto.
Qed.

(** A property of the global state kept by the step is kept by runs. *)
Lemma run_invariant_lines (Q : gstate -> Prop) :
  (forall u v, (forall x s g1 g2, inb (N_p c) x -> inb (N_species c) s -> inb (gN1 (lay c)) g1 ->
      inb (gN2 (lay c)) g2 -> u x s g1 g2 = v x s g1 g2) -> Q u -> Q v) ->
  forall l, (forall k, In k l -> bcs_give (ct k)) ->
  (forall k u E0 Eh, In k l -> Q u ->
     Q (midpoint_lines (ct k) (prob c k1 k2 (ct k) E0) (prob c k1 k2 (ct k) Eh) (cdt k) u)) ->
  forall s, shaped (lay c) (N_p c) (N_species c) (sf s) -> Q (gval (lay c) (sf s)) ->
  exists s', run_fvm c l s = Ok s' /\ shaped (lay c) (N_p c) (N_species c) (sf s')
    /\ Q (gval (lay c) (sf s')).
Proof using All.
  intros EX l. induction l as [|k l IH]; intros BG ST s SH Qs.
  - exists s. auto.
  - cbn [run_fvm]. destruct T1 as (_&F1&_), T2 as (_&F2&_).
    destruct (timestep_fvm_lines (ct k) (cdt k) (cE0 k) (cEh k)
       (gfields_of (lay c) (cE0 k)) (gfields_of (lay c) (cEh k)) s (BG k (or_introl eq_refl)) SH) as (s1&Q1&S1&V1);
      try (apply shows3_of; auto).
    rewrite Q1. cbn [rbind]. apply IH; auto.
    + intros; apply BG; simpl; auto.
    + intros; apply ST; simpl; auto.
    + eapply EX; [|apply (ST k); [simpl; auto|exact Qs]]. intros; symmetry; apply V1; auto.
Qed.
End Lines.
