(** Momentum-space flux differences of one rank, and the whole time step. *)
From Coq Require Import ZArith Reals Lra Lia String List Bool.
From Verif Require Import Base.Prelude Base.ZSum Model.Af Model.Grid Model.Petsc Model.Config
  Model.Reconstruct Model.Boundaries Model.Fvm
  Spec.Limiters Spec.Stencil Spec.Lattice Spec.Domain Spec.FvmProblem Spec.FvmRun
  Proofs.AfLemmas Proofs.ReconstructLemmas Proofs.ReconstructApi Proofs.PetscLemmas
  Proofs.FluxLemmas Proofs.ConvLemmas Proofs.FvmLemmas.
Local Open Scope R_scope.

Lemma periodic_ext n u v i : (0 < n)%Z -> (forall z, (0 <= z < n)%Z -> u z = v z) ->
  periodic n u i = periodic n v i.
Proof. intros. unfold periodic. apply H0. apply Z.mod_pos_bound. lia. Qed.

Lemma flux_periodic_ext k n v v' u u' i : (0 < n)%Z ->
  (forall z, (0 <= z < n)%Z -> v z = v' z) -> (forall z, (0 <= z < n)%Z -> u z = u' z) ->
  flux k (periodic n v) (periodic n u) i = flux k (periodic n v') (periodic n u') i.
Proof. intros. apply flux_ext; intros; apply periodic_ext; auto. Qed.

Definition axis_p (x : axis) (c : cfg) : Z :=
  match x with Ax0 => N_p1 c | Ax1 => N_p2 c | Ax2 => N_p3 c | Ax3 => 0 end.

(** The momentum index with its coordinate along [x] replaced by [z]. *)
Definition along (c : cfg) (x : axis) (p z : Z) : Z :=
  let i1 := (p mod N_p1 c)%Z in let i2 := ((p / N_p1 c) mod N_p2 c)%Z in let i3 := (p / N_p1 c / N_p2 c)%Z in
  match x with
  | Ax0 => z + N_p1 c * (i2 + N_p2 c * i3)
  | Ax1 => i1 + N_p1 c * (z + N_p2 c * i3)
  | Ax2 | Ax3 => i1 + N_p1 c * (i2 + N_p2 c * z)
  end%Z.
Definition coord (c : cfg) (x : axis) (p : Z) : Z :=
  match x with Ax0 => p mod N_p1 c | Ax1 => (p / N_p1 c) mod N_p2 c | Ax2 | Ax3 => p / N_p1 c / N_p2 c end%Z.

Section P.
Variables (c : cfg) (k1 k2 : scheme) (r1 r2 : nat).
Hypothesis PC : pos_cfg c.
Hypothesis Hm : scheme_of_name (reconstruction_method_in_p c) = Some k2.
Hypothesis Gp : (0 < n1g (lay c) r1)%Z /\ (0 < n2g (lay c) r2)%Z.

Lemma d_flux_p_spec ax dp C f : ax <> Ax3 -> Z.of_nat (List.length dp) = N_species c ->
  q_shaped c r1 r2 C -> q_shaped c r1 r2 f ->
  exists d, d_flux_p c r1 r2 ax dp C f = Ok d /\ q_shaped c r1 r2 d
  /\ forall x s i j, inb (N_p c) x -> inb (N_species c) s ->
     inb (n1g (lay c) r1) i -> inb (n2g (lay c) r2) j ->
     el d x s i j
     = - advect k2 (nth (Z.to_nat s) dp 0)
           (periodic (axis_p ax c) (fun z => el C (along c ax x z) s i j))
           (periodic (axis_p ax c) (fun z => el f (along c ax x z) s i j)) (coord c ax x).
Proof using PC Hm Gp.
  intros Hax Ldp DC Df. unfold d_flux_p.
  set (C' := convert_to_p_expanded c r1 r2 C). set (f' := convert_to_p_expanded c r1 r2 f).
  destruct (reconstruct_faces f' ax _ _ Hm) as (l&r&Q&_). rewrite Q. cbn [rbind].
  assert (SV : same_dims C' f') by (repeat split).
  destruct (fluxdiff_el f' ax _ _ _ _ _ Hm Q SV) as [DF FD]. cbv zeta in FD.
  set (X := bcast2 Rmult C' (riemann_solver (shift_ax r ax 1) l C')) in *.
  eexists; split; [reflexivity|].
  assert (DX : p_shaped c r1 r2 X).
  { destruct DF as (A0&A1&A2&A3). repeat split; assumption. }
  assert (DX' : p_shaped c r1 r2 (shift_ax X ax (-1))).
  { destruct (shift_ax_dims X ax (-1)) as (S0&S1&S2&S3). destruct DX as (A0&A1&A2&A3).
    repeat split; congruence. }
  pose proof PC as (P1&P2&P3&PS).
  assert (PN : (0 < N_p c)%Z) by (unfold N_p; nia).
  split.
  - unfold q_shaped, bcast2, dp_arr; cbn [d0 d1 d2 d3 amap amap2 convert_to_q_expanded moddims of_flat].
    rewrite Ldp. destruct Gp. repeat split; lia.
  - intros x s i j Hx Hs Hi Hj.
    unfold bcast2 at 1. cbn [el].
    rewrite bel_inside by (unfold inside; cbn [d0 d1 d2 d3 amap2 convert_to_q_expanded moddims of_flat]; auto).
    unfold bel; cbn [el amap amap2 dp_arr d0 d1 d2 d3]. rewrite Ldp, (bidx_id _ s) by auto.
    rewrite !conv_q_el by auto.
    destruct (row_split (N_p1 c) (N_p2 c) (N_p3 c) x) as (Ex&B1&B2&B3); auto.
    set (i1 := (x mod N_p1 c)%Z) in *. set (i2 := ((x / N_p1 c) mod N_p2 c)%Z) in *.
    set (i3 := (x / N_p1 c / N_p2 c)%Z) in *.
    assert (HW := widx_bound c r1 r2 s i j Hs Hi Hj).
    assert (IN : inside f' i1 i2 i3 (widx c r1 s i j)) by (unfold inside; auto).
    destruct (FD _ _ _ _ IN) as [Fa Fb]. rewrite Fa, Fb.
    assert (LN : len f' ax = axis_p ax c) by (destruct ax; try reflexivity; congruence).
    rewrite LN. unfold advect.
    assert (AP : (0 < axis_p ax c)%Z) by (destruct ax; simpl; auto; congruence).
    assert (PO : pos ax i1 i2 i3 (widx c r1 s i j) = coord c ax x)
      by (destruct ax; try reflexivity; congruence).
    rewrite PO.
    assert (LL : forall (a : arr R), q_shaped c r1 r2 a -> forall z, (0 <= z < axis_p ax c)%Z ->
       line (convert_to_p_expanded c r1 r2 a) ax i1 i2 i3 (widx c r1 s i j) z = el a (along c ax x z) s i j).
    { intros a Da z Hz. destruct ax; try congruence; unfold line;
      rewrite conv_p_el by (auto; unfold inb; auto); reflexivity. }
    rewrite !(flux_periodic_ext k2 (axis_p ax c) (line C' ax i1 i2 i3 (widx c r1 s i j))
        (fun z => el C (along c ax x z) s i j) (line f' ax i1 i2 i3 (widx c r1 s i j))
        (fun z => el f (along c ax x z) s i j)) by (auto; apply LL; auto).
    unfold Rdiv. ring.
Qed.

(** The momentum part at one cell is the textbook advection of the column there. *)
Lemma df_dt_p_spec C1 C2 C3 f (P : problem) :
  Z.of_nat (List.length (dp1 c)) = N_species c ->
  Z.of_nat (List.length (dp2 c)) = N_species c ->
  Z.of_nat (List.length (dp3 c)) = N_species c ->
  q_shaped c r1 r2 C1 -> q_shaped c r1 r2 C2 -> q_shaped c r1 r2 C3 -> q_shaped c r1 r2 f ->
  M1 P = N_p1 c -> M2 P = N_p2 c -> M3 P = N_p3 c -> kp P = k2 ->
  (forall s, hp1 P s = nth (Z.to_nat s) (dp1 c) 0) ->
  (forall s, hp2 P s = nth (Z.to_nat s) (dp2 c) 0) ->
  (forall s, hp3 P s = nth (Z.to_nat s) (dp3 c) 0) ->
  exists d, df_dt_p c r1 r2 C1 C2 C3 f = Ok d /\ q_shaped c r1 r2 d
  /\ forall s i j g1 g2 w, inb (N_species c) s ->
     inb (n1g (lay c) r1) i -> inb (n2g (lay c) r2) j ->
     (forall x, inb (N_p c) x -> el f x s i j = w x s) ->
     (forall x, inb (N_p c) x -> el C1 x s i j = acc1 P x s g1 g2) ->
     (forall x, inb (N_p c) x -> el C2 x s i j = acc2 P x s g1 g2) ->
     (forall x, inb (N_p c) x -> el C3 x s i j = acc3 P x s g1 g2) ->
     forall x, inb (N_p c) x -> el d x s i j = advect_p P g1 g2 w x s.
Proof using PC Hm Gp.
  intros L1 L2 L3 S1 S2 S3 Sf E1 E2 E3 EK H1 H2 H3.
  destruct (d_flux_p_spec Ax0 (dp1 c) C1 f ltac:(discriminate) L1 S1 Sf) as (e1&Q1&D1&V1).
  destruct (d_flux_p_spec Ax1 (dp2 c) C2 f ltac:(discriminate) L2 S2 Sf) as (e2&Q2&D2&V2).
  destruct (d_flux_p_spec Ax2 (dp3 c) C3 f ltac:(discriminate) L3 S3 Sf) as (e3&Q3&D3&V3).
  unfold df_dt_p. rewrite Q1, Q2, Q3. cbn [rbind]. eexists; split; [reflexivity|].
  split; [destruct D1 as (A0&A1&A2&A3); repeat split; assumption|].
  intros s i j g1 g2 w Hs Hi Hj Hf HC1 HC2 HC3 x Hx.
  cbn [el amap amap2]. rewrite V1, V2, V3 by auto.
  unfold advect_p. rewrite EK, H1, H2, H3, E1, E2, E3.
  pose proof PC as (P1&P2&P3&PS).
  destruct (row_split (N_p1 c) (N_p2 c) (N_p3 c) x) as (Ex&B1&B2&B3); auto.
  unfold axis_p, coord, along.
  set (i1 := (x mod N_p1 c)%Z) in *. set (i2 := ((x / N_p1 c) mod N_p2 c)%Z) in *.
  set (i3 := (x / N_p1 c / N_p2 c)%Z) in *.
  assert (EI : forall a b d, pidx P a b d = (a + N_p1 c * (b + N_p2 c * d))%Z)
    by (intros; unfold pidx; rewrite E1, E2; reflexivity).
  unfold advect.
  rewrite !(flux_periodic_ext k2 (N_p1 c) (fun z => acc1 P (pidx P z i2 i3) s g1 g2)
    (fun z => el C1 (z + N_p1 c * (i2 + N_p2 c * i3)) s i j) (fun z => w (pidx P z i2 i3) s)
    (fun z => el f (z + N_p1 c * (i2 + N_p2 c * i3)) s i j))
    by (first [assumption | intros z Hz; rewrite EI; symmetry; first [apply HC1|apply Hf]; apply pidx_bound; assumption]).
  rewrite !(flux_periodic_ext k2 (N_p2 c) (fun z => acc2 P (pidx P i1 z i3) s g1 g2)
    (fun z => el C2 (i1 + N_p1 c * (z + N_p2 c * i3)) s i j) (fun z => w (pidx P i1 z i3) s)
    (fun z => el f (i1 + N_p1 c * (z + N_p2 c * i3)) s i j))
    by (first [assumption | intros z Hz; rewrite EI; symmetry; first [apply HC2|apply Hf]; apply pidx_bound; assumption]).
  rewrite !(flux_periodic_ext k2 (N_p3 c) (fun z => acc3 P (pidx P i1 i2 z) s g1 g2)
    (fun z => el C3 (i1 + N_p1 c * (i2 + N_p2 c * z)) s i j) (fun z => w (pidx P i1 i2 z) s)
    (fun z => el f (i1 + N_p1 c * (i2 + N_p2 c * z)) s i j))
    by (first [assumption | intros z Hz; rewrite EI; symmetry; first [apply HC3|apply Hf]; apply pidx_bound; assumption]).
  lra.
Qed.
End P.

(** ** Periodic boundaries do nothing *)
Lemma apply_bcs_periodic c r1 r2 t f : (forall e, in_q c e = "periodic"%string) ->
  apply_bcs_f c r1 r2 t f = Ok f.
Proof.
  intros H. assert (M : forall e g, maybe_edge c r1 r2 t e g = Ok g).
  { intros. unfold maybe_edge, apply_edge. rewrite H. destruct (touches _ _ _ _); reflexivity. }
  unfold apply_bcs_f. rewrite !M. cbn [rbind]. rewrite !M. cbn [rbind]. rewrite M. cbn [rbind]. apply M.
Qed.

(** ** Ranks *)
Lemma in_ranks L r1 r2 : rank_ok L r1 r2 <-> In (r1, r2) (ranks L).
Proof.
  unfold ranks, rank_ok. rewrite in_prod_iff, !in_seq. lia.
Qed.

Lemma all_ranks_ok L F : (forall r1 r2, rank_ok L r1 r2 -> exists a, F r1 r2 = Ok a) ->
  exists G, all_ranks L F = Ok G /\ forall r1 r2, rank_ok L r1 r2 -> F r1 r2 = Ok (G r1 r2).
Proof.
  intros H. exists (fun r1 r2 => match F r1 r2 with Ok a => a | Err _ => dummy end). split.
  - unfold all_ranks. 
    assert (forall l, (forall r, In r l -> rank_ok L (fst r) (snd r)) ->
      fold_right (fun r k => match F (fst r) (snd r) with Ok _ => k | Err e => Err e end)
    (Ok (fun r1 r2 => match F r1 r2 with Ok a => a | Err _ => dummy end)) l = 
     Ok (fun r1 r2 => match F r1 r2 with Ok a => a | Err _ => dummy end)) as A.
    { induction l as [|r l IH]; intros Hl; cbn [fold_right]; auto.
      destruct (H (fst r) (snd r)) as [a Ea]; [apply Hl; simpl; auto|]. rewrite Ea.
      apply IH. intros; apply Hl; simpl; auto. }
    apply A. intros [a b] Hr. apply in_ranks. exact Hr.
  - intros r1 r2 Hr. destruct (H r1 r2 Hr) as [a Ea]. rewrite Ea. reflexivity.
Qed.

(** ** The right-hand side of one rank *)
Lemma advect_p_ext P g1 g2 w w' x s : (0 < M1 P)%Z -> (0 < M2 P)%Z -> (0 < M3 P)%Z ->
  inb (M1 P * M2 P * M3 P) x ->
  (forall x', inb (M1 P * M2 P * M3 P) x' -> w x' s = w' x' s) ->
  advect_p P g1 g2 w x s = advect_p P g1 g2 w' x s.
Proof.
  intros P1 P2 P3 Hx H. unfold advect_p.
  destruct (row_split (M1 P) (M2 P) (M3 P) x) as (Ex&B1&B2&B3); auto.
  f_equal; [f_equal|]; apply advect_ext; auto; intros z _; apply periodic_ext; auto;
  intros y Hy; apply H; unfold pidx; apply pidx_bound; auto.
Qed.

Lemma force_el c k1 k2 r1 r2 t E (e : gfields) A B D oA oB oD pick i j x s :
  wf_cfg c k1 k2 -> (0 < ng1 (lay c))%Z -> (0 < ng2 (lay c))%Z ->
  inb (bsize (blk1 (lay c)) r1) i -> inb (bsize (blk2 (lay c)) r2) j ->
  inb (N_p c) x -> inb (N_species c) s ->
  (forall n, inb 6 n -> el E n 0 (ng1 (lay c) + i) (ng2 (lay c) + j)
                        = e n (off (blk1 (lay c)) r1 + i) (off (blk2 (lay c)) r2 + j))%Z ->
  (forall i j, bel A x s i j = mom1 c oA x s) ->
  (forall i j, bel B x s i j = mom2 c oB x s) ->
  (forall i j, bel D x s i j = mom3 c oD x s) ->
  el (force c r1 r2 t E A B D pick) x s (ng1 (lay c) + i) (ng2 (lay c) + j)
  = pick (accel c t e oA oB oD x s (off (blk1 (lay c)) r1 + i) (off (blk2 (lay c)) r2 + j))%Z.
Proof.
  intros W G1 G2 Hi Hj Hx Hs HE HA HB HD. unfold force; cbn [el].
  assert (Hk : inb (n1g (lay c) r1) (ng1 (lay c) + i)) by (unfold inb, n1g in *; lia).
  assert (Hl : inb (n2g (lay c) r2) (ng2 (lay c) + j)) by (unfold inb, n2g in *; lia).
  destruct (q_coords c r1 r2 x s _ _ Hk Hl) as (_&_&_&_&_&_&Q1&Q2). rewrite Q1, Q2.
  rewrite HA, HB, HD. rewrite !HE by (unfold inb; lia). unfold accel.
  replace (off (blk1 (lay c)) r1 + (ng1 (lay c) + i) - ng1 (lay c))%Z with (off (blk1 (lay c)) r1 + i)%Z by lia.
  replace (off (blk2 (lay c)) r2 + (ng2 (lay c) + j) - ng2 (lay c))%Z with (off (blk2 (lay c)) r2 + j)%Z by lia.
  reflexivity.
Qed.

Lemma df_dt_fvm_spec c k1 k2 r1 r2 t (A : fieldseq) (E : fields3) f U :
  wf_cfg c k1 k2 -> periodic_fvm c k1 -> rank_ok (lay c) r1 r2 -> covers c r1 r2 f U ->
  shows3 (lay c) A E ->
  exists d, df_dt_fvm c r1 r2 t (fst (fst (A r1 r2))) (snd (fst (A r1 r2))) (snd (A r1 r2)) f = Ok d
  /\ q_shaped c r1 r2 d
  /\ forall x s i j, inb (N_p c) x -> inb (N_species c) s ->
     inb (bsize (blk1 (lay c)) r1) i -> inb (bsize (blk2 (lay c)) r2) j ->
     el d x s (ng1 (lay c) + i)%Z (ng2 (lay c) + j)%Z
     = rhs (prob c k1 k2 t E) U x s (off (blk1 (lay c)) r1 + i)%Z (off (blk2 (lay c)) r2 + j)%Z.
Proof.
  intros W PF RK CV SH. destruct (rank_ranges c k1 r1 r2 PF RK) as (B1&B2&O1&O2&T1&T2&N1&N2&G1&G2).
  pose proof (wf_pos _ _ _ W) as PC.
  destruct (df_dt_q_spec c k1 k2 r1 r2 t (fst (fst E)) (snd (fst E)) (snd E) f U W PF RK CV)
    as (dq&fl&fb&Q&Dq&_&_&V).
  assert (HQ : solver_method_in_q c = "FVM"%string) by apply PF.
  unfold df_dt_fvm. rewrite HQ, Q. cbn [rbind String.eqb Ascii.eqb Bool.eqb].
  fold (prob c k1 k2 t E) in V. fold (p_is_fvm c).
  assert (ZP : forall w x s g1 g2, p_is_fvm c = false -> advect_p (prob c k1 k2 t E) g1 g2 w x s = 0).
  { intros w x s g1 g2 HF. unfold advect_p, prob, problem_of, problem_at; cbn [acc1 acc2 acc3 M1 M2 M3 kp hp1 hp2 hp3].
    rewrite HF. unfold advect, flux, periodic. unfold Rdiv. ring. }
  destruct (p_is_fvm c) eqn:HF.
  - assert (WL : Z.of_nat (List.length (dp1 c)) = N_species c /\ Z.of_nat (List.length (dp2 c)) = N_species c
      /\ Z.of_nat (List.length (dp3 c)) = N_species c
      /\ scheme_of_name (reconstruction_method_in_p c) = Some k2)
      by (unfold wf_cfg in W; tauto).
    destruct WL as (L1&L2&L3&Hmp).
    assert (Gp : (0 < n1g (lay c) r1)%Z /\ (0 < n2g (lay c) r2)%Z) by (unfold n1g, n2g; lia).
    set (C1 := force_p1 c r1 r2 t (fst (fst (A r1 r2)))).
    set (C2 := force_p2 c r1 r2 t (snd (fst (A r1 r2)))).
    set (C3 := force_p3 c r1 r2 t (snd (A r1 r2))).
    destruct (df_dt_p_spec c k2 r1 r2 PC Hmp Gp C1 C2 C3 f (prob c k1 k2 t E) L1 L2 L3)
      as (dp&Qp&Dp&Vp); try reflexivity; try (repeat split; reflexivity); [apply CV|].
    rewrite Qp. cbn [rbind]. eexists; split; [reflexivity|].
    split. { destruct Dq as (A0&A1&A2&A3). repeat split; assumption. }
    intros x s i j Hx Hs Hi Hj. cbn [el amap2]. destruct (V x s i j Hx Hs Hi Hj) as [V' _].
    rewrite V'. unfold rhs. f_equal.
    assert (Hk : inb (n1g (lay c) r1) (ng1 (lay c) + i)) by (unfold inb, n1g in *; lia).
    assert (Hl : inb (n2g (lay c) r2) (ng2 (lay c) + j)) by (unfold inb, n2g in *; lia).
    apply (Vp s (ng1 (lay c) + i)%Z (ng2 (lay c) + j)%Z); auto.
    + intros x' Hx'. rewrite (line_q1 c k1 r1 r2 f U PF RK CV x' s j (ng1 (lay c) + i)) by auto.
      unfold periodic. f_equal. replace (ng1 (lay c) + i + (off (blk1 (lay c)) r1 - ng1 (lay c)))%Z
        with (off (blk1 (lay c)) r1 + i)%Z by lia. apply Z.mod_small. unfold inb in *. lia.
    + intros x' Hx'. unfold C1, force_p1.
      erewrite force_el; eauto.
      * unfold prob, problem_of, problem_at; cbn [acc1]. rewrite HF. reflexivity.
      * intros n Hn. apply SH; auto.
      * intros; eapply p_centers; eauto.
      * intros; eapply p_centers; eauto.
      * intros; eapply p_centers; eauto.
    + intros x' Hx'. unfold C2, force_p2.
      erewrite force_el; eauto.
      * unfold prob, problem_of, problem_at; cbn [acc2]. rewrite HF. reflexivity.
      * intros n Hn. apply SH; auto.
      * intros; eapply p_centers; eauto.
      * intros; eapply p_centers; eauto.
      * intros; eapply p_centers; eauto.
    + intros x' Hx'. unfold C3, force_p3.
      erewrite force_el; eauto.
      * unfold prob, problem_of, problem_at; cbn [acc3]. rewrite HF. reflexivity.
      * intros n Hn. apply SH; auto.
      * intros; eapply p_centers; eauto.
      * intros; eapply p_centers; eauto.
      * intros; eapply p_centers; eauto.
  - eexists; split; [reflexivity|]. split; [exact Dq|].
    intros x s i j Hx Hs Hi Hj. destruct (V x s i j Hx Hs Hi Hj) as [V' _]. rewrite V'.
    unfold rhs. rewrite ZP by auto. lra.
Qed.

(** ** The whole step *)
Lemma covers_communicate c k1 r1 r2 s :
  periodic_fvm c k1 -> shaped (lay c) (N_p c) (N_species c) (sf s) -> rank_ok (lay c) r1 r2 ->
  covers c r1 r2 (sf (communicate_f c s) r1 r2) (gval (lay c) (sf s)).
Proof.
  intros PF SH RK. split.
  - repeat split.
  - intros x sp i j Hx Hs Hi Hj. unfold communicate_f; cbn [sf].
    rewrite communicate_el by (auto; apply PF). reflexivity.
Qed.

Lemma advect_periodic_ext k n h v u u' i : (0 < n)%Z ->
  (forall z, (0 <= z < n)%Z -> u z = u' z) ->
  advect k h v (periodic n u) i = advect k h v (periodic n u') i.
Proof. intros. apply advect_ext; auto. intros; apply periodic_ext; auto. Qed.

(** Two states that agree on the grid have the same right-hand side there. *)
Definition gagree (P : problem) (ns : Z) (u v : gstate) : Prop :=
  forall x s g1 g2, inb (M1 P * M2 P * M3 P) x -> inb ns s -> inb (n1 P) g1 -> inb (n2 P) g2 ->
  u x s g1 g2 = v x s g1 g2.

Lemma rhs_ext c k1 k2 t E u v : wf_cfg c k1 k2 -> (0 < gN1 (lay c))%Z -> (0 < gN2 (lay c))%Z ->
  gagree (prob c k1 k2 t E) (N_species c) u v ->
  gagree (prob c k1 k2 t E) (N_species c) (rhs (prob c k1 k2 t E) u) (rhs (prob c k1 k2 t E) v).
Proof.
  intros W N1 N2 H x s g1 g2 Hx Hs H1 H2. unfold rhs. f_equal; [f_equal|].
  - unfold advect_q. f_equal; apply advect_periodic_ext; auto; intros; apply H; auto.
  - unfold prob, problem_of, problem_at; cbn [src]. destruct (source_enabled c); auto.
    apply W; auto.
  - pose proof (wf_pos _ _ _ W) as (P1&P2&P3&PS).
    apply advect_p_ext; auto.
Qed.

Theorem timestep_fvm_spec c k1 k2 t dt A0 Ah E0 Eh s :
  wf_cfg c k1 k2 -> periodic_fvm c k1 -> shaped (lay c) (N_p c) (N_species c) (sf s) ->
  shows3 (lay c) A0 E0 -> shows3 (lay c) Ah Eh ->
  exists s', timestep_fvm c t dt A0 Ah s = Ok s'
  /\ shaped (lay c) (N_p c) (N_species c) (sf s')
  /\ forall x sp g1 g2, inb (N_p c) x -> inb (N_species c) sp ->
     inb (gN1 (lay c)) g1 -> inb (gN2 (lay c)) g2 ->
     gval (lay c) (sf s') x sp g1 g2
     = midpoint (prob c k1 k2 t E0) (prob c k1 k2 t Eh) dt (gval (lay c) (sf s)) x sp g1 g2.
Proof.
  intros W PF SH S0 Sh. set (L := lay c) in *.
  pose proof PF as (_&PB&PL&_). pose proof PL as (T1&T2&_). fold L in T1, T2.
  set (U := gval L (sf s)).
  unfold timestep_fvm. fold L.
  set (s1 := communicate_f c s).
  destruct (all_ranks_ok L (fun r1 r2 => apply_bcs_f c r1 r2 t (sf s1 r1 r2))) as (f0&Q0&V0).
  { intros; rewrite apply_bcs_periodic; eauto. }
  rewrite Q0. cbn [rbind].
  assert (C0 : forall r1 r2, rank_ok L r1 r2 -> covers c r1 r2 (f0 r1 r2) U).
  { intros r1 r2 RK. specialize (V0 r1 r2 RK). rewrite apply_bcs_periodic in V0 by auto.
    injection V0 as <-. eapply covers_communicate; eauto. }
  destruct (all_ranks_ok L (fun r1 r2 => let '(a1, a2, a3) := A0 r1 r2 in
      let? d := df_dt_fvm c r1 r2 t a1 a2 a3 (f0 r1 r2) in
      Ok (amap2 (fun f d => f + d * (dt / 2)) (f0 r1 r2) d))) as (fh&Qh&Vh).
  { intros r1 r2 RK. destruct (df_dt_fvm_spec c k1 k2 r1 r2 t A0 E0 _ _ W PF RK (C0 _ _ RK) S0) as (d&Qd&_).
    destruct (A0 r1 r2) as [[a1 a2] a3]. cbn [fst snd] in Qd. rewrite Qd. cbn [rbind]. eauto. }
  rewrite Qh. cbn [rbind].
  assert (Sfh : shaped L (N_p c) (N_species c) fh /\ forall x sp g1 g2, inb (N_p c) x -> inb (N_species c) sp ->
     inb (gN1 L) g1 -> inb (gN2 L) g2 ->
     gval L fh x sp g1 g2 = U x sp g1 g2 + dt / 2 * rhs (prob c k1 k2 t E0) U x sp g1 g2).
  { split.
    - intros r1 r2 RK. specialize (Vh r1 r2 RK).
      destruct (df_dt_fvm_spec c k1 k2 r1 r2 t A0 E0 _ _ W PF RK (C0 _ _ RK) S0) as (d&Qd&_).
      destruct (A0 r1 r2) as [[a1 a2] a3]. cbn [fst snd] in Qd. rewrite Qd in Vh. cbn [rbind] in Vh.
      injection Vh as <-. destruct (C0 _ _ RK) as [Df _]. exact Df.
    - intros x sp g1 g2 Hx Hs H1 H2. unfold gval.
      destruct (owner_spec (blk1 L) g1) as [R1 B1]; [apply T1|destruct T1 as (_&_&->); exact H1|].
      destruct (owner_spec (blk2 L) g2) as [R2 B2]; [apply T2|destruct T2 as (_&_&->); exact H2|].
      set (r1 := owner (blk1 L) g1) in *. set (r2 := owner (blk2 L) g2) in *.
      assert (RK : rank_ok L r1 r2) by (split; auto).
      specialize (Vh r1 r2 RK). pose proof (C0 _ _ RK) as CV.
      destruct (df_dt_fvm_spec c k1 k2 r1 r2 t A0 E0 _ _ W PF RK CV S0) as (d&Qd&_&Vd).
      destruct (A0 r1 r2) as [[a1 a2] a3]. cbn [fst snd] in Qd. rewrite Qd in Vh. cbn [rbind] in Vh.
      injection Vh as <-. cbn [el amap2]. fold L in Vd. unfold inb in *.
      rewrite Vd by (unfold inb; auto; lia).
      rewrite (line_q1 c k1 r1 r2 _ U PF RK CV x sp) by (fold L; unfold inb, n1g;
          destruct PL as (_&_&G1&G2&_); fold L in G1, G2; auto; lia).
      fold L. unfold periodic.
      replace (ng1 L + (g1 - off (blk1 L) r1) + (off (blk1 L) r1 - ng1 L))%Z with g1 by lia.
      replace (off (blk1 L) r1 + (g1 - off (blk1 L) r1))%Z with g1 by lia.
      replace (off (blk2 L) r2 + (g2 - off (blk2 L) r2))%Z with g2 by lia.
      rewrite Z.mod_small by lia. lra. }
  destruct Sfh as [Sfh Gfh].
  set (s2 := communicate_f c (FState fh (sbuf s1))).
  destruct (all_ranks_ok L (fun r1 r2 => apply_bcs_f c r1 r2 t (sf s2 r1 r2))) as (f2&Q2&V2).
  { intros; rewrite apply_bcs_periodic; eauto. }
  rewrite Q2. cbn [rbind].
  assert (C2 : forall r1 r2, rank_ok L r1 r2 -> covers c r1 r2 (f2 r1 r2) (gval L fh)).
  { intros r1 r2 RK. specialize (V2 r1 r2 RK). rewrite apply_bcs_periodic in V2 by auto.
    injection V2 as <-. eapply (covers_communicate c k1 r1 r2 (FState fh (sbuf s1))); eauto. }
  destruct (all_ranks_ok L (fun r1 r2 => let '(a1, a2, a3) := Ah r1 r2 in
      let? d := df_dt_fvm c r1 r2 t a1 a2 a3 (f2 r1 r2) in
      Ok (amap2 (fun f d => f + d * dt) (f0 r1 r2) d))) as (f1&Q1&V1).
  { intros r1 r2 RK. destruct (df_dt_fvm_spec c k1 k2 r1 r2 t Ah Eh _ _ W PF RK (C2 _ _ RK) Sh) as (d&Qd&_).
    destruct (Ah r1 r2) as [[a1 a2] a3]. cbn [fst snd] in Qd. rewrite Qd. cbn [rbind]. eauto. }
  rewrite Q1. cbn [rbind]. eexists; split; [reflexivity|]. cbn [sf]. split.
  - intros r1 r2 RK. specialize (V1 r1 r2 RK).
    destruct (df_dt_fvm_spec c k1 k2 r1 r2 t Ah Eh _ _ W PF RK (C2 _ _ RK) Sh) as (d&Qd&_).
    destruct (Ah r1 r2) as [[a1 a2] a3]. cbn [fst snd] in Qd. rewrite Qd in V1. cbn [rbind] in V1.
    injection V1 as <-. destruct (C0 _ _ RK) as [Df _]. exact Df.
  - intros x sp g1 g2 Hx Hs H1 H2. unfold gval at 1.
    destruct (owner_spec (blk1 L) g1) as [R1 B1]; [apply T1|destruct T1 as (_&_&->); exact H1|].
    destruct (owner_spec (blk2 L) g2) as [R2 B2]; [apply T2|destruct T2 as (_&_&->); exact H2|].
    set (r1 := owner (blk1 L) g1) in *. set (r2 := owner (blk2 L) g2) in *.
    assert (RK : rank_ok L r1 r2) by (split; auto).
    specialize (V1 r1 r2 RK). pose proof (C0 _ _ RK) as CV.
    destruct (df_dt_fvm_spec c k1 k2 r1 r2 t Ah Eh _ _ W PF RK (C2 _ _ RK) Sh) as (d&Qd&_&Vd).
    destruct (Ah r1 r2) as [[a1 a2] a3]. cbn [fst snd] in Qd. rewrite Qd in V1. cbn [rbind] in V1.
    injection V1 as <-. cbn [el amap2]. fold L in Vd.
    rewrite Vd by (unfold inb in *; auto; lia).
    rewrite (line_q1 c k1 r1 r2 _ U PF RK CV x sp) by (fold L; unfold inb, n1g in *;
        destruct PL as (_&_&G1&G2&_); fold L in G1, G2; auto; lia).
    fold L. unfold periodic.
    replace (ng1 L + (g1 - off (blk1 L) r1) + (off (blk1 L) r1 - ng1 L))%Z with g1 by lia.
    replace (off (blk1 L) r1 + (g1 - off (blk1 L) r1))%Z with g1 by lia.
    replace (off (blk2 L) r2 + (g2 - off (blk2 L) r2))%Z with g2 by lia.
    rewrite Z.mod_small by (unfold inb in *; lia).
    unfold midpoint. 
    rewrite (rhs_ext c k1 k2 t Eh (gval L fh)
      (fun x s g1 g2 => U x s g1 g2 + dt / 2 * rhs (prob c k1 k2 t E0) U x s g1 g2)); auto.
    + lra.
    + apply T1.
    + apply T2.
Qed.
