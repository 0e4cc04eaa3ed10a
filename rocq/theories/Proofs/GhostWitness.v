(** One ghost zone is accepted with minmod, but the step is then not the global
    scheme.  Three cells, one rank, unit velocity. *)
From Coq Require Import ZArith Reals Lra Lia Psatz String List Bool.
From Verif Require Import Base.Prelude Base.ZSum Model.Af Model.Grid Model.Petsc Model.Config
  Model.Reconstruct Model.Boundaries Model.Fvm
  Spec.Limiters Spec.Stencil Spec.Lattice Spec.Domain Spec.FvmProblem Spec.FvmRun
  Proofs.AfLemmas Proofs.ReconstructLemmas Proofs.ReconstructApi Proofs.PetscLemmas
  Proofs.FluxLemmas Proofs.ConvLemmas Proofs.FvmLemmas Proofs.FvmLemmas2 Proofs.FvmConserve.
Import ListNotations.
Local Open Scope R_scope.

(** What a rank computes at any cell, ghosts included, with no assumption on the
    ghost width: the local array treated as periodic. *)
Lemma df_dt_q_local c k1 r1 r2 t f :
  scheme_of_name (reconstruction_method_in_q c) = Some k1 -> source_enabled c = false ->
  q_shaped c r1 r2 f ->
  exists d fl fb, df_dt_q c r1 r2 t f = Ok (d, fl, fb) /\ q_shaped c r1 r2 d
  /\ forall x s i j, inside f x s i j ->
     el d x s i j
     = advect k1 (dq1 c) (periodic (n1g (lay c) r1) (fun z => el (face_velocity_q1 c r1 r2 t) x s z j))
         (periodic (n1g (lay c) r1) (fun z => el f x s z j)) i
       + advect k1 (dq2 c) (periodic (n2g (lay c) r2) (fun z => el (face_velocity_q2 c r1 r2 t) x s i z))
         (periodic (n2g (lay c) r2) (fun z => el f x s i z)) j.
Proof.
  intros Hm SO Dm.
  destruct (reconstruct_faces f Ax2 _ _ Hm) as (l2&r2'&Q2&_).
  destruct (reconstruct_faces f Ax3 _ _ Hm) as (l3&r3'&Q3&_).
  destruct (face_velocity_dims c r1 r2 t) as [DV1 DV2].
  assert (SV1 : same_dims (face_velocity_q1 c r1 r2 t) f) by (eapply q_shaped_same; eauto).
  assert (SV2 : same_dims (face_velocity_q2 c r1 r2 t) f) by (eapply q_shaped_same; eauto).
  pose proof (fluxdiff_el f Ax2 _ _ _ _ _ Hm Q2 SV1) as [DF1 FD1].
  pose proof (fluxdiff_el f Ax3 _ _ _ _ _ Hm Q3 SV2) as [DF2 FD2].
  unfold df_dt_q. rewrite Q2, Q3. cbn [rbind]. rewrite SO.
  change (shift r2' 0 0 1 0) with (shift_ax r2' Ax2 1).
  change (shift r3' 0 0 0 1) with (shift_ax r3' Ax3 1).
  set (fl := riemann_solver (shift_ax r2' Ax2 1) l2 (face_velocity_q1 c r1 r2 t)) in *.
  set (fb := riemann_solver (shift_ax r3' Ax3 1) l3 (face_velocity_q2 c r1 r2 t)) in *.
  set (X1 := bcast2 Rmult (face_velocity_q1 c r1 r2 t) fl) in *.
  set (X2 := bcast2 Rmult (face_velocity_q2 c r1 r2 t) fb) in *.
  change (shift X1 0 0 (-1) 0) with (shift_ax X1 Ax2 (-1)).
  change (shift X2 0 0 0 (-1)) with (shift_ax X2 Ax3 (-1)).
  eexists; eexists; eexists; split; [reflexivity|]. split.
  { destruct Dm as (A0&A1&A2&A3), DF1 as (F0&F1&F2&F3).
    unfold q_shaped, shift_ax; cbn [d0 d1 d2 d3 amap2 shift]. repeat split; congruence. }
  intros x s i j IN. specialize (FD1 _ _ _ _ IN). specialize (FD2 _ _ _ _ IN). cbv zeta in FD1, FD2.
  destruct FD1 as [Fa1 Fb1]. destruct FD2 as [Fa2 Fb2].
  cbn [el amap2]. rewrite Fa1, Fb1, Fa2, Fb2.
  assert (D2f : len f Ax2 = n1g (lay c) r1) by (simpl; apply Dm).
  assert (D3f : len f Ax3 = n2g (lay c) r2) by (simpl; apply Dm).
  rewrite D2f, D3f. unfold advect, line, pos. unfold Rdiv. ring.
Qed.

Definition w_lay : layout := Layout 3 1 [3%Z] [1%Z] 1 1 PPeriodic PPeriodic.
Definition w_cfg : cfg :=
  Cfg w_lay 1 1 1 1 1 0 3 0 1 1 1 [0] [0] [0] [1] [1] [1]
    "FVM" "FVM" "minmod" "minmod" "cartesian" false false
    (fun _ _ _ _ _ _ _ => (1, 0)) (fun _ _ _ _ _ _ _ => (1, 0))
    (fun _ _ _ _ _ _ _ _ _ _ _ _ _ => (0, 0, 0)) (fun _ _ _ _ _ _ _ _ _ _ _ _ _ => (0, 0, 0))
    (fun _ _ _ _ _ _ => 0) (fun _ => "periodic"%string) (fun _ _ _ _ f => f) 0 0
    (fun v _ _ _ _ => v) 0.
Definition w_init (z : Z) : R := if Z.eqb z 0 then 2 else if Z.eqb z 1 then 0 else 1.
Definition w_state : fstate :=
  FState (fun _ _ => Arr 1 1 5 3 (fun _ _ i _ => w_init ((i - 1) mod 3)%Z)) (fun _ _ _ => 0).
Definition w_E : fieldseq := fun _ _ => (dummy, dummy, dummy).
Definition no_fields : fields3 := (fun _ _ _ => 0, fun _ _ _ => 0, fun _ _ _ => 0).

Lemma w_wf : wf_cfg w_cfg MC MC.
Proof. unfold wf_cfg. cbn. repeat split; try lia; try discriminate; auto. Qed.

Lemma w_layout : periodic_layout w_lay.
Proof. unfold periodic_layout, tiles; cbn. repeat split; try lia; repeat constructor. Qed.

Lemma w_shaped : shaped w_lay 1 1 (sf w_state).
Proof. intros r1 r2 [H1 H2]. cbn in *. destruct r1; [|lia]. destruct r2; [|lia]. cbn. auto. Qed.

Lemma w_holds : holds w_cfg (sf w_state) (fun _ _ g1 _ => w_init g1).
Proof.
  split; [apply w_shaped|]. intros x s g1 g2 Hx Hs H1 H2. change (lay w_cfg) with w_lay in *. cbn [gN1 gN2 w_lay] in *. unfold inb in *.
  assert (g2 = 0)%Z by lia. subst.
  unfold gval. cbn [sf w_state el ng1 w_lay blk1].
  assert (owner [3%Z] g1 = 0%nat) as -> by (cbn [owner]; destruct (Z.ltb_spec g1 3); [auto|lia]).
  change (off [3%Z] 0) with 0%Z.
  replace (1 + (g1 - 0) - 1)%Z with g1 by lia. rewrite Z.mod_small by lia. reflexivity.
Qed.

(** The rank's update of a line of three values. *)
Definition w_rate (u : Z -> R) (i : Z) : R :=
  advect MC 1 (fun _ => 1) (periodic 5 (fun z => u ((z - 1) mod 3)%Z)) (1 + i).

Lemma w_local (f : arr R) (u : Z -> R) : q_shaped w_cfg 0 0 f ->
  (forall i j, inb 5 i -> inb 3 j -> el f 0 0 i j = u ((i - 1) mod 3)%Z) ->
  exists d, df_dt_fvm w_cfg 0 0 0 dummy dummy dummy f = Ok d /\ q_shaped w_cfg 0 0 d
  /\ forall i, inb 3 i -> el d 0 0 (1 + i)%Z 1 = w_rate u i.
Proof.
  intros D V.
  destruct (df_dt_q_local w_cfg MC 0 0 0 f eq_refl eq_refl D) as (d&fl&fb&Q&Dd&F).
  exists d. unfold df_dt_fvm. 
  replace (String.eqb (solver_method_in_q w_cfg) "FVM") with true by reflexivity.
  rewrite Q. cbn [rbind]. split; [reflexivity|]. split; [auto|].
  intros i Hi. unfold inb in Hi. rewrite F.
  - cbn [dq1 dq2 w_cfg]. change (n1g (lay w_cfg) 0) with 5%Z. change (n2g (lay w_cfg) 0) with 3%Z.
    unfold w_rate.
    rewrite (advect_ext MC 1 _ (fun _ => 1) _ (periodic 5 (fun z => u ((z - 1) mod 3)%Z)) (1 + i)).
    + unfold advect at 2, flux, periodic. cbn. unfold Rdiv. ring.
    + reflexivity.
    + reflexivity.
    + intros z _. apply periodic_ext; [lia|]. intros y Hy. apply V; unfold inb; lia.
  - destruct D as (A0&A1&A2&A3). unfold inside. rewrite A0, A1, A2, A3.
    change (N_p w_cfg) with 1%Z. change (N_species w_cfg) with 1%Z.
    change (n1g (lay w_cfg) 0) with 5%Z. change (n2g (lay w_cfg) 0) with 3%Z. unfold inb. lia.
Qed.

Lemma w_comm (F : dist R) old (u : Z -> R) : shaped w_lay 1 1 F ->
  (forall i, inb 3 i -> el (F 0%nat 0%nat) 0 0 (1 + i)%Z 1 = u i) ->
  forall i j, inb 5 i -> inb 3 j ->
  el (communicate w_lay 1 1 old F 0%nat 0%nat) 0 0 i j = u ((i - 1) mod 3)%Z.
Proof.
  intros SH V i j Hi Hj.
  rewrite communicate_el; auto using w_layout; try (unfold inb; lia); [|split; cbn; lia].
  unfold gper, gval. cbn [gN1 gN2 blk1 blk2 ng1 ng2 w_lay].
  replace (off [3%Z] 0 + i - 1)%Z with (i - 1)%Z by (cbn; lia).
  assert (B : (0 <= (i - 1) mod 3 < 3)%Z) by (apply Z.mod_pos_bound; lia).
  set (g := ((i - 1) mod 3)%Z) in *.
  rewrite Z.mod_1_r. cbn [owner]. destruct (Z.ltb_spec g 3); [|lia].
  change (off [3%Z] 0) with 0%Z. change (1 + (0 - off [1%Z] (if (0 <? 1)%Z then 0 else 1)))%Z with 1%Z.
  replace (1 + (g - 0))%Z with (1 + g)%Z by lia. apply V; auto.
Qed.

Ltac mcc := unfold mc_slope, w_init; cbn;
  repeat (destruct (Rlt_dec _ _); try (exfalso; lra));
  unfold Rmin, Rmax; repeat (destruct (Rle_dec _ _); try (exfalso; lra)); try lra.

Lemma flux1 u i : flux MC (fun _ => 1) u i = u (i - 1)%Z + mc_slope (u (i - 1 - 1)%Z) (u (i - 1)%Z) (u (i - 1 + 1)%Z) / 2.
Proof. unfold flux, upwind. destruct (Rlt_dec 0 1); [|lra]. cbn. lra. Qed.

Definition w_half (z : Z) : R := w_init z + 1 / 2 * w_rate w_init z.

Lemma w_half_val : w_half 0 = 3/2 /\ w_half 1 = 1 /\ w_half 2 = 1/4.
Proof.
  unfold w_half, w_rate, advect. rewrite !flux1. unfold periodic.
  cbn [Z.add Z.sub Z.opp Z.pos_sub Pos.add Pos.succ Pos.pred_double Z.succ_double Z.pred_double Z.double].
  repeat split; cbn; mcc.
Qed.

Lemma w_rate_half : w_rate w_half 0 = - (5 / 4).
Proof.
  destruct w_half_val as (A&B&C). unfold w_rate, advect. rewrite !flux1. unfold periodic.
  cbn -[w_half]. rewrite A, B, C. mcc.
Qed.
(** One step of a run on a single rank. *)
Lemma single_step c t dt a1 a2 a3 s :
  (forall e, in_q c e = "periodic"%string) ->
  (forall r1 r2, rank_ok (lay c) r1 r2 <-> r1 = 0%nat /\ r2 = 0%nat) ->
  forall d, let f0 := sf (communicate_f c s) 0%nat 0%nat in
  df_dt_fvm c 0 0 t a1 a2 a3 f0 = Ok d ->
  (forall G B, G 0%nat 0%nat = amap2 (fun f d => f + d * (dt / 2)) f0 d ->
     exists e, df_dt_fvm c 0 0 t a1 a2 a3 (sf (communicate_f c (FState G B)) 0%nat 0%nat) = Ok e) ->
  exists s' G B e, timestep_fvm c t dt (fun _ _ => (a1, a2, a3)) (fun _ _ => (a1, a2, a3)) s = Ok s'
    /\ G 0%nat 0%nat = amap2 (fun f d => f + d * (dt / 2)) f0 d
    /\ df_dt_fvm c 0 0 t a1 a2 a3 (sf (communicate_f c (FState G B)) 0%nat 0%nat) = Ok e
    /\ sf s' 0%nat 0%nat = amap2 (fun f d => f + d * dt) f0 e.
Proof.
  intros PB RK d f0 Qd He. set (L := lay c) in *.
  assert (RK0 : rank_ok L 0 0) by (apply RK; auto).
  unfold timestep_fvm. fold L. set (s1 := communicate_f c s) in *.
  destruct (all_ranks_ok L (fun r1 r2 => apply_bcs_f c r1 r2 t (sf s1 r1 r2))) as (g0&Q0&V0).
  { intros; rewrite apply_bcs_periodic; eauto. }
  rewrite Q0. cbn [rbind].
  assert (E0 : g0 0%nat 0%nat = f0).
  { specialize (V0 0%nat 0%nat RK0). rewrite apply_bcs_periodic in V0 by auto. injection V0 as V0. auto. }
  destruct (all_ranks_ok L (fun r1 r2 => 
      let? d := df_dt_fvm c r1 r2 t a1 a2 a3 (g0 r1 r2) in
      Ok (amap2 (fun f d => f + d * (dt / 2)) (g0 r1 r2) d))) as (fh&Qh&Vh).
  { intros r1 r2 H. apply RK in H. destruct H; subst. rewrite E0, Qd. cbn [rbind]. eauto. }
  rewrite Qh. cbn [rbind].
  assert (EH : fh 0%nat 0%nat = amap2 (fun f d => f + d * (dt / 2)) f0 d).
  { specialize (Vh 0%nat 0%nat RK0). rewrite E0, Qd in Vh. cbn [rbind] in Vh. injection Vh as Vh. auto. }
  destruct (He fh (sbuf s1) EH) as (e&Qe).
  set (s2 := communicate_f c (FState fh (sbuf s1))) in *.
  destruct (all_ranks_ok L (fun r1 r2 => apply_bcs_f c r1 r2 t (sf s2 r1 r2))) as (g2&Q2&V2).
  { intros; rewrite apply_bcs_periodic; eauto. }
  rewrite Q2. cbn [rbind].
  assert (E2 : g2 0%nat 0%nat = sf s2 0%nat 0%nat).
  { specialize (V2 0%nat 0%nat RK0). rewrite apply_bcs_periodic in V2 by auto. injection V2 as V2. auto. }
  destruct (all_ranks_ok L (fun r1 r2 => 
      let? d := df_dt_fvm c r1 r2 t a1 a2 a3 (g2 r1 r2) in
      Ok (amap2 (fun f d => f + d * dt) (g0 r1 r2) d))) as (f1&Q1&V1).
  { intros r1 r2 H. apply RK in H. destruct H; subst. rewrite E2, Qe. cbn [rbind]. eauto. }
  rewrite Q1. cbn [rbind].
  exists (FState f1 (sbuf s2)), fh, (sbuf s1), e. split; [reflexivity|]. split; [exact EH|].
  split; [exact Qe|]. cbn [sf].
  specialize (V1 0%nat 0%nat RK0). rewrite E0, E2, Qe in V1. cbn [rbind] in V1. injection V1 as V1. auto.
Qed.

Lemma w_code : exists s', timestep_fvm w_cfg 0 1 w_E w_E w_state = Ok s'
     /\ gval w_lay (sf s') 0 0 0 0 = 3/4.
Proof.
  set (f0 := sf (communicate_f w_cfg w_state) 0%nat 0%nat).
  assert (D0 : q_shaped w_cfg 0 0 f0) by (repeat split).
  assert (V0 : forall i j, inb 5 i -> inb 3 j -> el f0 0 0 i j = w_init ((i - 1) mod 3)%Z).
  { apply (w_comm (sf w_state) (sbuf w_state) w_init w_shaped). intros i Hi. cbn [sf w_state el]. unfold inb in Hi.
    replace (1 + i - 1)%Z with i by lia. rewrite Z.mod_small by lia. reflexivity. }
  destruct (w_local f0 w_init D0 V0) as (d&Qd&Dd&Vd).
  assert (H2 : forall G B, G 0%nat 0%nat = amap2 (fun f d => f + d * (1 / 2)) f0 d ->
     exists e, df_dt_fvm w_cfg 0 0 0 dummy dummy dummy (sf (communicate_f w_cfg (FState G B)) 0%nat 0%nat) = Ok e
       /\ forall i, inb 3 i -> el e 0 0 (1 + i)%Z 1 = w_rate w_half i).
  { intros G B EG.
    destruct (w_local (sf (communicate_f w_cfg (FState G B)) 0%nat 0%nat) w_half) as (e&Qe&De&Ve).
    - repeat split.
    - unfold communicate_f. cbn [sf sbuf].
      change (lay w_cfg) with w_lay. change (N_p w_cfg) with 1%Z. change (N_species w_cfg) with 1%Z.
      intros i j Hi Hj. rewrite (w_comm G B w_half); auto.
      + intros r1 r2 [H1 H2]. cbn in H1, H2. assert (r1 = 0%nat) by lia. assert (r2 = 0%nat) by lia. subst.
        rewrite EG. repeat split.
      + intros z Hz. rewrite EG. cbn [el amap2]. rewrite Vd by auto. unfold inb in Hz. rewrite V0 by (unfold inb; lia).
        replace (1 + z - 1)%Z with z by lia. rewrite Z.mod_small by lia. unfold w_half. lra.
    - eauto. }
  destruct (single_step w_cfg 0 1 dummy dummy dummy w_state (fun _ => eq_refl)) with (d := d)
    as (s'&G&B&e&Q&EG&Qe&ES); auto.
  { intros r1 r2. unfold rank_ok. cbn. lia. }
  { intros G B EG. destruct (H2 G B EG) as (e&Qe&_). eauto. }
  exists s'. split; [exact Q|].
  destruct (H2 G B EG) as (e'&Qe'&Ve). rewrite Qe in Qe'. injection Qe' as <-.
  unfold gval. change (owner (blk1 w_lay) 0) with 0%nat. change (owner (blk2 w_lay) 0) with 0%nat.
  change (ng1 w_lay + (0 - off (blk1 w_lay) 0))%Z with (1 + 0)%Z.
  change (ng2 w_lay + (0 - off (blk2 w_lay) 0))%Z with 1%Z.
  rewrite ES. cbn [el amap2]. fold f0. rewrite Ve by (unfold inb; lia). rewrite V0 by (unfold inb; lia).
  rewrite w_rate_half. unfold w_init. cbn. lra.
Qed.

Lemma w_spec : midpoint (prob w_cfg MC MC 0 no_fields) (prob w_cfg MC MC 0 no_fields) 1
          (fun _ _ g1 _ => w_init g1) 0%Z 0%Z 0%Z 0%Z = 1/2.
Proof.
    unfold midpoint.
    assert (RH : forall v : gstate, (forall g1 g2, v 0%Z 0%Z g1 g2 = v 0%Z 0%Z g1 0%Z) ->
       forall g1, rhs (prob w_cfg MC MC 0 no_fields) v 0%Z 0%Z g1 0%Z
       = advect MC 1 (fun _ => 1) (periodic 3 (fun z => v 0%Z 0%Z z 0%Z)) g1).
    { intros v Hv g1. unfold rhs. rewrite src_off, advect_p_off by reflexivity. unfold advect_q.
      cbn [kq h1 h2 n1 n2 vel1 vel2 prob problem_of problem_at w_cfg dq1 dq2 C_q fst snd lay gN1 gN2 w_lay].
      unfold advect at 2, flux. unfold Rdiv. ring. }
    set (uh := fun x s g1 g2 => w_init g1 + 1 / 2 * rhs (prob w_cfg MC MC 0 no_fields) (fun _ _ g1 _ => w_init g1) x s g1 g2).
    assert (Hh : forall g1, inb 3 g1 -> uh 0%Z 0%Z g1 0%Z = if Z.eqb g1 0 then 7/4 else if Z.eqb g1 1 then 1 else 1/4).
    { intros g1 Hg. unfold uh. rewrite RH by auto. unfold advect. rewrite !flux1. unfold periodic, inb in *.
      assert (g1 = 0 \/ g1 = 1 \/ g1 = 2)%Z as [->|[->| ->]] by lia; cbn; mcc. }
    assert (RU : rhs (prob w_cfg MC MC 0 no_fields) uh 0%Z 0%Z 0%Z 0%Z
       = advect MC 1 (fun _ => 1) (periodic 3 (fun z => if Z.eqb z 0 then 7/4 else if Z.eqb z 1 then 1 else 1/4)) 0).
    { unfold rhs at 1. rewrite src_off, advect_p_off by reflexivity. unfold advect_q.
      cbn [kq h1 h2 n1 n2 vel1 vel2 prob problem_of problem_at w_cfg dq1 dq2 C_q fst snd lay gN1 gN2 w_lay].
      rewrite (advect_periodic_ext MC 3 1 (fun _ => 1) _ (fun z => if Z.eqb z 0 then 7/4 else if Z.eqb z 1 then 1 else 1/4))
        by (try lia; intros; apply Hh; auto).
      unfold advect at 2, flux. unfold Rdiv. ring. }
    fold uh. rewrite RU. unfold advect. rewrite !flux1. unfold periodic. cbn. mcc.
Qed.

Lemma ghost_witness :
  wf_cfg w_cfg MC MC /\ periodic_layout (lay w_cfg)
  /\ holds w_cfg (sf w_state) (fun _ _ g1 _ => w_init g1)
  /\ exists s', timestep_fvm w_cfg 0 1 w_E w_E w_state = Ok s'
     /\ gval (lay w_cfg) (sf s') 0 0 0 0 = 3/4
     /\ midpoint (prob w_cfg MC MC 0 no_fields) (prob w_cfg MC MC 0 no_fields) 1
          (fun _ _ g1 _ => w_init g1) 0%Z 0%Z 0%Z 0%Z = 1/2.
Proof.
  split; [apply w_wf|]. split; [apply w_layout|]. split; [apply w_holds|].
  destruct w_code as (s'&Q&V). exists s'. split; [exact Q|]. split; [exact V|]. exact w_spec.
Qed.
