(** The FDTD step and histories of steps. *)
From Coq Require Import ZArith Reals Lia Lra String List Bool.
From Verif Require Import Base.Prelude Base.ZSum Model.Af Model.Grid Model.Petsc Model.Config
  Model.Boundaries Model.Fvm Model.Em Spec.Domain Spec.Yee Spec.EmRun Proofs.AfLemmas Proofs.PetscLemmas Proofs.EmLemmas.
Import ListNotations.
Local Open Scope R_scope.

Lemma faraday_lift c dt (F : dist R) :
  periodic_layout (flay c) -> synced (flay c) F everywhere -> fdq1 c <> 0 -> fdq2 c <> 0 ->
  let F' := dmap (evolve_B_rank c dt) F in
  synced (flay c) F' after_faraday
  /\ same (view (flay c) F') (faraday (fdq1 c) (fdq2 c) dt (view (flay c) F)).
Proof.
  intros PL (SH&SY) H1 H2 F'. set (L := flay c) in *.
  assert (LOC : forall r1 r2, rank_ok L r1 r2 -> _) by
    (intros r1 r2 RK; destruct (SH r1 r2 RK) as (D0&D1&D2&D3);
     exact (evolve_B_el c dt (F r1 r2) D0 D1)).
  assert (SH' : shaped L 6 1 F').
  { intros r1 r2 RK. destruct (SH r1 r2 RK) as (D0&D1&D2&D3). repeat split; auto. }
  assert (PL' := PL). destruct PL' as (_&_&G1&G2&_).
  set (Y := faraday (fdq1 c) (fdq2 c) dt (view L F)).
  assert (G : forall r1 r2 i j, rank_ok L r1 r2 -> inb (n1g L r1) i -> inb (n2g L r2) j ->
     let x := (off (blk1 L) r1 + i - ng1 L)%Z in
     let y := (off (blk2 L) r2 + j - ng2 L)%Z in
     let a := F' r1 r2 in
     el a 0 0 i j = E1 Y x y /\ el a 1 0 i j = E2 Y x y /\ el a 2 0 i j = E3 Y x y
     /\ ((1 <= j)%Z -> el a 3 0 i j = B1 Y x y)
     /\ ((1 <= i)%Z -> el a 4 0 i j = B2 Y x y)
     /\ ((1 <= i)%Z -> (1 <= j)%Z -> el a 5 0 i j = B3 Y x y)).
  { intros r1 r2 i j RK Hi Hj x y a. destruct (SH r1 r2 RK) as (D0&D1&D2&D3).
    destruct (LOC r1 r2 RK) as (_&LE).
    destruct (LE i j ltac:(rewrite D2; exact Hi) ltac:(rewrite D3; exact Hj)) as ((X0&X1&X2)&X3&X4&X5).
    assert (S : forall k, inb 6 k -> el (F r1 r2) k 0 i j = gper L F k 0 x y)
      by (intros; apply SY; auto; exact I).
    assert (S1 : forall k, inb 6 k -> (1 <= i)%Z -> el (F r1 r2) k 0 (i - 1) j = gper L F k 0 (x - 1) y).
    { intros. rewrite SY; auto; [|unfold inb in *; lia|exact I].
      f_equal. subst x; lia. }
    assert (S2 : forall k, inb 6 k -> (1 <= j)%Z -> el (F r1 r2) k 0 i (j - 1) = gper L F k 0 x (y - 1)).
    { intros. rewrite SY; auto; [|unfold inb in *; lia|exact I].
      f_equal. subst y; lia. }
    subst a. unfold F', dmap. cbn [Y faraday view E1 E2 E3 B1 B2 B3]. unfold bwd1, bwd2.
    split; [rewrite X0; apply S; unfold inb; lia|].
    split; [rewrite X1; apply S; unfold inb; lia|].
    split; [rewrite X2; apply S; unfold inb; lia|].
    split; [intros; rewrite X3 by auto; rewrite !S, S2 by (unfold inb; lia); field; auto|].
    split; [intros; rewrite X4 by auto; rewrite !S, S1 by (unfold inb; lia); field; auto|].
    intros; rewrite X5 by auto. rewrite !S, S1, S2 by (unfold inb; lia). field; auto. }
  assert (V : same (view L F') Y).
  { unfold same. cbn [Y faraday view E1 E2 E3 B1 B2 B3].
    repeat split; apply grid_ind; auto; try (gper_per PL; fail); intros r1 r2 i j RK Hi Hj;
      destruct (G r1 r2 i j RK) as (X0&X1&X2&X3&X4&X5); try (unfold inb, n1g, n2g; lia);
      first [exact X0|exact X1|exact X2|apply X3; lia|apply X4; lia|apply X5; lia]. }
  split; [|exact V].
  split; [exact SH'|].
  intros r1 r2 k i j RK Hk Hi Hj (A3&A4&A5).
  destruct (G r1 r2 i j RK Hi Hj) as (X0&X1&X2&X3&X4&X5).
  destruct V as (V0&V1&V2&V3&V4&V5). cbn [view E1 E2 E3 B1 B2 B3] in *.
  assert (K : (k = 0 \/ k = 1 \/ k = 2 \/ k = 3 \/ k = 4 \/ k = 5)%Z) by (unfold inb in Hk; lia).
  destruct K as [K|[K|[K|[K|[K|K]]]]]; subst k.
  - rewrite X0. symmetry. apply V0.
  - rewrite X1. symmetry. apply V1.
  - rewrite X2. symmetry. apply V2.
  - rewrite X3 by auto. symmetry. apply V3.
  - rewrite X4 by auto. symmetry. apply V4.
  - destruct A5; auto. rewrite X5 by auto. symmetry. apply V5.
Qed.

(** What fdtd does to the Yee array, and what it leaves alone. *)
Lemma ampere_same h1 h2 e m dt J1 J2 J3 Y Z : same Y Z ->
  same (ampere h1 h2 e m dt J1 J2 J3 Y) (ampere h1 h2 e m dt J1 J2 J3 Z).
Proof.
  intros (A&B&C&D&E&F). unfold same, ampere, fwd1, fwd2; simpl.
  repeat split; intros; rewrite ?A, ?B, ?C, ?D, ?E, ?F; reflexivity.
Qed.
Lemma faraday_same h1 h2 dt Y Z : same Y Z -> same (faraday h1 h2 dt Y) (faraday h1 h2 dt Z).
Proof.
  intros (A&B&C&D&E&F). unfold same, faraday, bwd1, bwd2; simpl.
  repeat split; intros; rewrite ?A, ?B, ?C, ?D, ?E, ?F; reflexivity.
Qed.

(** The attributes that fdtd may touch: only yee, the heap above the old top, and
    the buffer. *)
Definition frame (s s' : em) : Prop :=
  cc s' = cc s /\ cc_n s' = cc_n s /\ cc_nh s' = cc_nh s /\ at_n s' = at_n s /\ ftime s' = ftime s
  /\ (next s <= next s')%nat /\ (next s <= yee s' < next s')%nat
  /\ forall l, (l < next s)%nat -> mem s' l = mem s l.

Lemma frame_bind v b s s1 :
  cc s1 = cc s -> cc_n s1 = cc_n s -> cc_nh s1 = cc_nh s -> at_n s1 = at_n s -> ftime s1 = ftime s ->
  (next s <= next s1)%nat -> (forall l, (l < next s)%nat -> mem s1 l = mem s l) ->
  frame s (bind_yee v (set_fbuf b s1)).
Proof.
  intros. unfold frame, bind_yee, set_fbuf, write; cbn [cc cc_n cc_nh at_n ftime next yee mem].
  repeat split; auto; try lia.
  intros l Hl. destruct (Nat.eqb_spec l (next s1)); [lia|auto].
Qed.

Lemma frame_comm c s : frame s (communicate_fields c true s).
Proof. unfold communicate_fields. apply frame_bind; auto. Qed.

Lemma frame_comm_trans c s s1 : frame s s1 -> frame s (communicate_fields c true s1).
Proof. intros (A&B&C&D&E&F&_&G). unfold communicate_fields. apply frame_bind; auto. Qed.

Lemma frame_write v s s1 : frame s s1 -> frame s (write (yee s1) v s1).
Proof.
  intros (A&B&C&D&E&F&(X&Y)&G). unfold frame, write; cbn [cc cc_n cc_nh at_n ftime next yee mem].
  repeat split; auto. intros l Hl. destruct (Nat.eqb_spec l (yee s1)); [lia|auto].
Qed.

Lemma fdtd_gen c dt J1 J2 J3 s s' :
  regular c -> shaped (flay c) 6 1 (yee_val s) ->
  fdtd c dt (J1, J2, J3) s = Ok s' ->
  exists YE, same (lat c s') (faraday (fdq1 c) (fdq2 c) dt YE)
    /\ synced (flay c) (yee_val s') after_faraday /\ frame s s'
    /\ (forall i j, B1 YE i j = B1 (lat c s) i j) /\ (forall i j, B2 YE i j = B2 (lat c s) i j)
    /\ (forall i j, B3 YE i j = B3 (lat c s) i j)
    /\ (hybrid c = false ->
        same YE (ampere (fdq1 c) (fdq2 c) (eps c) (mu c) dt (grid_of (flay c) J1)
                   (grid_of (flay c) J2) (grid_of (flay c) J3) (lat c s))).
Proof.
  intros ((PL&PE)&Hmu&Heps&H1&H2) SH H. set (L := flay c) in *.
  unfold fdtd in H. rewrite apply_bcs_fields_periodic in H by exact PE. cbn [rbind] in H. fold L in H.
  set (s1 := communicate_fields c true s) in *.
  assert (V1 : yee_val s1 = communicate L 6 1 (fbuf s) (yee_val s)) by apply yee_val_communicate.
  assert (SY1 : synced L (yee_val s1) everywhere) by (rewrite V1; apply communicate_synced; auto).
  assert (W1 : same (view L (yee_val s1)) (lat c s)) by (rewrite V1; apply view_communicate; auto).
  destruct (all_ranks L (fun r1 r2 => evolve_E_rank c dt (J1 r1 r2) (J2 r1 r2) (J3 r1 r2) (yee_val s1 r1 r2)))
    as [F|ex] eqn:EF; cbn [rbind] in H; [|discriminate H].
  pose proof (all_ranks_Ok L _ _ EF) as HF. cbv beta in HF.
  set (s2 := write (yee s1) F s1) in *.
  assert (V2 : yee_val s2 = F) by apply yee_val_write.
  set (s3 := communicate_fields c true s2) in *.
  rewrite apply_bcs_fields_periodic in H by exact PE. cbn [rbind] in H.
  assert (Hs : s' = write (yee s3) (dmap (evolve_B_rank c dt) (yee_val s3)) s3).
  { assert (Ok s' = Ok (write (yee s3) (dmap (evolve_B_rank c dt) (yee_val s3)) s3)) as X by (rewrite <- H; reflexivity).
    injection X as X. exact X. }
  clear H.
  assert (SHF : shaped L 6 1 F /\ (forall i j, B1 (view L F) i j = B1 (lat c s) i j)
     /\ (forall i j, B2 (view L F) i j = B2 (lat c s) i j)
     /\ (forall i j, B3 (view L F) i j = B3 (lat c s) i j)
     /\ (hybrid c = false ->
        same (view L F) (ampere (fdq1 c) (fdq2 c) (eps c) (mu c) dt (grid_of L J1) (grid_of L J2) (grid_of L J3) (lat c s)))).
  { destruct (hybrid c) eqn:Hh.
    - assert (EQ : forall r1 r2, rank_ok L r1 r2 -> F r1 r2 = yee_val s1 r1 r2)
        by (intros; eapply evolve_E_hybrid; eauto).
      assert (GP : forall k i j, gper L F k 0 i j = gper L (yee_val s1) k 0 i j).
      { intros. unfold gper, gval. rewrite EQ; auto.
        destruct PL as (T1&T2&_). apply (owner_rank L i j T1 T2). }
      destruct W1 as (_&_&_&X&Y&Z). cbn [view B1 B2 B3] in *.
      split; [intros r1 r2 RK; rewrite (EQ r1 r2 RK); apply (proj1 SY1); auto|].
      repeat split; intros; try discriminate; rewrite GP; auto.
    - destruct (ampere_lift c dt J1 J2 J3 (yee_val s1) F PL SY1 Hh Hmu Heps H1 H2 HF) as (A&B).
      assert (B' : same (view L F) (ampere (fdq1 c) (fdq2 c) (eps c) (mu c) dt (grid_of L J1) (grid_of L J2) (grid_of L J3) (lat c s)))
        by (eapply same_trans; [exact B|apply ampere_same; exact W1]).
      split; [exact A|]. split; [apply B'|]. split; [apply B'|]. split; [apply B'|]. auto. }
  destruct SHF as (SHF&XB1&XB2&XB3&XE).
  assert (V3 : yee_val s3 = communicate L 6 1 (fbuf s2) F) by (rewrite <- V2; apply yee_val_communicate).
  assert (SY3 : synced L (yee_val s3) everywhere) by (rewrite V3; apply communicate_synced; auto).
  assert (W3 : same (view L (yee_val s3)) (view L F)) by (rewrite V3; apply view_communicate; auto).
  destruct (faraday_lift c dt (yee_val s3) PL SY3 H1 H2) as (SY4&W4).
  exists (view L F).
  assert (V4 : yee_val (write (yee s3) (dmap (evolve_B_rank c dt) (yee_val s3)) s3)
               = dmap (evolve_B_rank c dt) (yee_val s3)) by apply yee_val_write.
  rewrite Hs.
  split; [unfold lat; rewrite V4; eapply same_trans; [exact W4|apply faraday_same; exact W3]|].
  split; [rewrite V4; exact SY4|].
  split.
  { apply frame_write, frame_comm_trans, frame_write, frame_comm. }
  auto.
Qed.

Lemma fdtd_total c dt J1 J2 J3 s : (forall e, fin_q c e = "periodic"%string) -> hybrid c = false ->
  exists s', fdtd c dt (J1, J2, J3) s = Ok s'.
Proof.
  intros PE Hh. unfold fdtd. rewrite apply_bcs_fields_periodic by exact PE. cbn [rbind].
  set (s1 := communicate_fields c true s).
  assert (T : exists F, all_ranks (flay c) (fun r1 r2 =>
     evolve_E_rank c dt (J1 r1 r2) (J2 r1 r2) (J3 r1 r2) (yee_val s1 r1 r2)) = Ok F).
  { unfold all_ranks. induction (ranks (flay c)) as [|r l IH]; cbn [fold_right]; [eauto|].
    destruct (evolve_E_total c dt (J1 (fst r) (snd r)) (J2 (fst r) (snd r)) (J3 (fst r) (snd r)) (yee_val s1 (fst r) (snd r)) Hh) as (a&->).
    exact IH. }
  destruct T as (F&->). cbn [rbind]. rewrite apply_bcs_fields_periodic by exact PE. cbn [rbind]. eauto.
Qed.

(** ** Heap invariant *)
Definition wf_em (c : fcfg) (s : em) : Prop :=
  ((cc s < next s)%nat /\ (yee s < next s)%nat /\ (cc_n s < next s)%nat /\ (cc_nh s < next s)%nat)
  /\ (yee s <> cc s /\ yee s <> cc_n s /\ yee s <> cc_nh s)
  /\ forall l, (l < next s)%nat -> shaped (flay c) 6 1 (mem s l).

Lemma wf_write c l v s : wf_em c s -> shaped (flay c) 6 1 v -> wf_em c (write l v s).
Proof.
  intros (A&B&C) H. unfold wf_em, write; cbn [cc cc_n cc_nh next yee mem].
  split; [auto|split; [auto|]]. intros x Hx. destruct (Nat.eqb_spec x l); auto.
Qed.

Lemma wf_fbuf c b s : wf_em c s -> wf_em c (set_fbuf b s). Proof. auto. Qed.
Lemma wf_at_n c b s : wf_em c s -> wf_em c (set_at_n b s). Proof. auto. Qed.
Lemma wf_ftime c b s : wf_em c s -> wf_em c (set_ftime b s). Proof. auto. Qed.

Lemma wf_bind_yee c v s : wf_em c s -> shaped (flay c) 6 1 v -> wf_em c (bind_yee v s).
Proof.
  intros ((A1&A2&A3&A4)&(B1&B2&B3)&C) H. unfold wf_em, bind_yee, write; cbn [cc cc_n cc_nh next yee mem].
  split; [lia|split; [lia|]]. intros x Hx. destruct (Nat.eqb_spec x (next s)); auto. apply C. lia.
Qed.
Lemma wf_bind_cc c v s : wf_em c s -> shaped (flay c) 6 1 v -> wf_em c (bind_cc v s).
Proof.
  intros ((A1&A2&A3&A4)&(B1&B2&B3)&C) H. unfold wf_em, bind_cc, write; cbn [cc cc_n cc_nh next yee mem].
  split; [lia|split; [lia|]]. intros x Hx. destruct (Nat.eqb_spec x (next s)); auto. apply C. lia.
Qed.

Lemma wf_comm c b s : wf_em c s -> wf_em c (communicate_fields c b s).
Proof.
  intros H. unfold communicate_fields. destruct b; [apply wf_bind_yee|apply wf_bind_cc];
    try apply wf_fbuf; auto; apply communicate_shaped.
Qed.

Lemma shaped_dmap L (f : arr R -> arr R) F :
  (forall a, d0 (f a) = d0 a /\ d1 (f a) = d1 a /\ d2 (f a) = d2 a /\ d3 (f a) = d3 a) ->
  shaped L 6 1 F -> shaped L 6 1 (dmap f F).
Proof.
  intros Hf H r1 r2 RK. destruct (H r1 r2 RK) as (A&B&C&D). destruct (Hf (F r1 r2)) as (A'&B'&C'&D').
  unfold dmap. repeat split; congruence.
Qed.
Lemma shaped_dmap2 {A} L (f : arr A -> arr R -> arr R) (G : dist A) F :
  (forall g a, d0 (f g a) = d0 a /\ d1 (f g a) = d1 a /\ d2 (f g a) = d2 a /\ d3 (f g a) = d3 a) ->
  shaped L 6 1 F -> shaped L 6 1 (dmap2 f G F).
Proof.
  intros Hf H r1 r2 RK. destruct (H r1 r2 RK) as (A0&B&C&D). destruct (Hf (G r1 r2) (F r1 r2)) as (A'&B'&C'&D').
  unfold dmap2. repeat split; congruence.
Qed.

Lemma shaped_cc c s : wf_em c s -> shaped (flay c) 6 1 (cc_val s).
Proof. intros ((A&_)&_&C). apply C. exact A. Qed.
Lemma shaped_yee c s : wf_em c s -> shaped (flay c) 6 1 (yee_val s).
Proof. intros ((_&A&_)&_&C). apply C. exact A. Qed.
Lemma shaped_cc_n c s : wf_em c s -> shaped (flay c) 6 1 (mem s (cc_n s)).
Proof. intros ((_&_&A&_)&_&C). apply C. exact A. Qed.
Lemma shaped_cc_nh c s : wf_em c s -> shaped (flay c) 6 1 (mem s (cc_nh s)).
Proof. intros ((_&_&_&A)&_&C). apply C. exact A. Qed.

Lemma evolve_E_dims c dt J1 J2 J3 a a' : evolve_E_rank c dt J1 J2 J3 a = Ok a' ->
  d0 a' = d0 a /\ d1 a' = d1 a /\ d2 a' = d2 a /\ d3 a' = d3 a.
Proof.
  unfold evolve_E_rank, curlB. destruct (hybrid c).
  - match goal with |- (if ?x then _ else _) = _ -> _ => destruct x end; intros H; [|discriminate].
    injection H as <-. auto.
  - intros H. injection H as <-. repeat split.
Qed.

Lemma wf_fdtd c dt J s s' : (forall e, fin_q c e = "periodic"%string) -> wf_em c s ->
  fdtd c dt J s = Ok s' -> wf_em c s'.
Proof.
  intros PE W H. destruct J as ((J1&J2)&J3). unfold fdtd in H.
  rewrite apply_bcs_fields_periodic in H by exact PE. cbn [rbind] in H.
  set (s1 := communicate_fields c true s) in *.
  assert (W1 : wf_em c s1) by (apply wf_comm; auto).
  destruct (all_ranks (flay c) (fun r1 r2 => evolve_E_rank c dt (J1 r1 r2) (J2 r1 r2) (J3 r1 r2) (yee_val s1 r1 r2)))
    as [F|ex] eqn:EF; cbn [rbind] in H; [|discriminate H].
  pose proof (all_ranks_Ok _ _ _ EF) as HF. cbv beta in HF.
  rewrite apply_bcs_fields_periodic in H by exact PE. cbn [rbind] in H.
  assert (W2 : wf_em c (communicate_fields c true (write (yee s1) F s1))).
  { apply wf_comm, wf_write; auto. intros r1 r2 RK.
    destruct (evolve_E_dims _ _ _ _ _ _ _ (HF r1 r2 RK)) as (A&B&C&D).
    destruct (shaped_yee c s1 W1 r1 r2 RK) as (A'&B'&C'&D'). repeat split; congruence. }
  revert H W2. generalize (communicate_fields c true (write (yee s1) F s1)). intros s2 H W2.
  injection H as <-. apply wf_write; auto. apply shaped_dmap; [|apply shaped_yee; auto].
  intros a. repeat split.
Qed.
