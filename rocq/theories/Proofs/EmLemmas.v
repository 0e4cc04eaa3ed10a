(** The distributed FDTD update refines the lattice scheme. *)
From Coq Require Import ZArith Reals Lia Lra String List Bool FunctionalExtensionality.
From Verif Require Import Base.Prelude Base.ZSum Model.Af Model.Grid Model.Petsc Model.Config
  Model.Boundaries Model.Fvm Model.Em Spec.Domain Spec.Yee Proofs.AfLemmas Proofs.PetscLemmas Proofs.FvmLemmas2.
Local Open Scope R_scope.

(** Ranks, offsets *)
Lemma owner_rank L g1 g2 : tiles (gN1 L) (blk1 L) -> tiles (gN2 L) (blk2 L) ->
  let o1 := owner (blk1 L) (g1 mod gN1 L) in
  let o2 := owner (blk2 L) (g2 mod gN2 L) in
  rank_ok L o1 o2
  /\ (off (blk1 L) o1 <= g1 mod gN1 L < off (blk1 L) o1 + bsize (blk1 L) o1)%Z
  /\ (off (blk2 L) o2 <= g2 mod gN2 L < off (blk2 L) o2 + bsize (blk2 L) o2)%Z.
Proof.
  intros (N1&F1&S1) (N2&F2&S2) o1 o2.
  destruct (owner_spec (blk1 L) (g1 mod gN1 L) F1) as [A B].
  { rewrite S1. apply Z.mod_pos_bound; lia. }
  destruct (owner_spec (blk2 L) (g2 mod gN2 L) F2) as [C D].
  { rewrite S2. apply Z.mod_pos_bound; lia. }
  subst o1 o2. split; [split; auto|split; [exact B|exact D]].
Qed.

(** A property of global cells follows from the local one. *)
Lemma gper_ind L (F : dist R) (P : R -> Z -> Z -> Prop) k s :
  periodic_layout L ->
  (forall v g1 g2 m1 m2, P v (g1 + m1 * gN1 L)%Z (g2 + m2 * gN2 L)%Z -> P v g1 g2) ->
  (forall r1 r2 i j, rank_ok L r1 r2 ->
     (ng1 L <= i < ng1 L + bsize (blk1 L) r1)%Z -> (ng2 L <= j < ng2 L + bsize (blk2 L) r2)%Z ->
     P (el (F r1 r2) k s i j) (off (blk1 L) r1 + i - ng1 L)%Z (off (blk2 L) r2 + j - ng2 L)%Z) ->
  forall g1 g2, P (gper L F k s g1 g2) g1 g2.
Proof.
  intros (T1&T2&G1&G2&_) HP HL g1 g2.
  destruct (owner_rank L g1 g2 T1 T2) as (RK&B1&B2). cbv zeta in *.
  apply (HP _ g1 g2 (- (g1 / gN1 L))%Z (- (g2 / gN2 L))%Z).
  assert (M1 := Z.div_mod g1 (gN1 L)). assert (M2 := Z.div_mod g2 (gN2 L)).
  destruct T1 as (N1&_). destruct T2 as (N2&_).
  set (o1 := owner (blk1 L) (g1 mod gN1 L)) in *. set (o2 := owner (blk2 L) (g2 mod gN2 L)) in *.
  specialize (HL o1 o2 (ng1 L + (g1 mod gN1 L - off (blk1 L) o1))%Z (ng2 L + (g2 mod gN2 L - off (blk2 L) o2))%Z RK).
  replace (g1 + - (g1 / gN1 L) * gN1 L)%Z
    with (off (blk1 L) o1 + (ng1 L + (g1 mod gN1 L - off (blk1 L) o1)) - ng1 L)%Z by lia.
  replace (g2 + - (g2 / gN2 L) * gN2 L)%Z
    with (off (blk2 L) o2 + (ng2 L + (g2 mod gN2 L - off (blk2 L) o2)) - ng2 L)%Z by lia.
  apply HL; lia.
Qed.

Lemma gper_add {A} L (F : dist A) k s g1 g2 m1 m2 : (0 < gN1 L)%Z -> (0 < gN2 L)%Z ->
  gper L F k s (g1 + m1 * gN1 L) (g2 + m2 * gN2 L) = gper L F k s g1 g2.
Proof. intros. unfold gper. rewrite !Z.mod_add by lia. reflexivity. Qed.

Lemma gper_add1 {A} L (F : dist A) k s g1 g2 m1 : (0 < gN1 L)%Z ->
  gper L F k s (g1 + m1 * gN1 L) g2 = gper L F k s g1 g2.
Proof. intros. unfold gper. rewrite !Z.mod_add by lia. reflexivity. Qed.
Lemma gper_add2 {A} L (F : dist A) k s g1 g2 m2 : (0 < gN2 L)%Z ->
  gper L F k s g1 (g2 + m2 * gN2 L) = gper L F k s g1 g2.
Proof. intros. unfold gper. rewrite !Z.mod_add by lia. reflexivity. Qed.

(** Interior cells of a rank in the periodic view. *)
Lemma gper_interior {A} L (F : dist A) r1 r2 k s i j :
  periodic_layout L -> rank_ok L r1 r2 ->
  (ng1 L <= i < ng1 L + bsize (blk1 L) r1)%Z -> (ng2 L <= j < ng2 L + bsize (blk2 L) r2)%Z ->
  gper L F k s (off (blk1 L) r1 + i - ng1 L) (off (blk2 L) r2 + j - ng2 L) = el (F r1 r2) k s i j.
Proof.
  intros ((N1&F1&S1)&(N2&F2&S2)&G1&G2&_) (R1&R2) Hi Hj.
  pose proof (off_nonneg (blk1 L) r1 F1). pose proof (off_nonneg (blk2 L) r2 F2).
  pose proof (off_end (blk1 L) r1 F1 R1). pose proof (off_end (blk2 L) r2 F2 R2).
  rewrite gper_small by lia.
  replace (off (blk1 L) r1 + i - ng1 L)%Z with (off (blk1 L) r1 + (i - ng1 L))%Z by lia.
  replace (off (blk2 L) r2 + j - ng2 L)%Z with (off (blk2 L) r2 + (j - ng2 L))%Z by lia.
  rewrite gval_interior; unfold inb; try lia; auto.
  - f_equal; lia.
  - split; auto.
Qed.

Lemma communicate_gper {A} L nv0 nv1 old (F : dist A) k s g1 g2 :
  periodic_layout L -> shaped L nv0 nv1 F -> inb nv0 k -> inb nv1 s ->
  gper L (communicate L nv0 nv1 old F) k s g1 g2 = gper L F k s g1 g2.
Proof.
  intros PL SH Hk Hs. unfold gper at 1. unfold gval.
  assert (PL' := PL). destruct PL' as (T1&T2&G1&G2&_).
  destruct (owner_rank L g1 g2 T1 T2) as (RK&B1&B2). cbv zeta in *.
  rewrite communicate_el; auto; unfold inb, n1g, n2g; try lia.
  destruct T1 as (N1&_). destruct T2 as (N2&_).
  rewrite <- (gper_mod L F k s g1 g2) by lia.
  f_equal; lia.
Qed.

(** Everything local equals the periodic view, ghosts included. *)
Definition synced (L : layout) (F : dist R) (P : Z -> Z -> Z -> Prop) : Prop :=
  shaped L 6 1 F
  /\ forall r1 r2 k i j, rank_ok L r1 r2 -> inb 6 k -> inb (n1g L r1) i -> inb (n2g L r2) j -> P k i j ->
       el (F r1 r2) k 0 i j = gper L F k 0 (off (blk1 L) r1 + i - ng1 L) (off (blk2 L) r2 + j - ng2 L).

Definition everywhere (k i j : Z) : Prop := True.

(** After the update of B the outermost layer of ghosts is stale. *)
Definition after_faraday (k i j : Z) : Prop :=
  (k = 3 -> 1 <= j)%Z /\ (k = 4 -> 1 <= i)%Z /\ (k = 5 -> 1 <= i /\ 1 <= j)%Z.

Lemma communicate_synced L old F : periodic_layout L -> shaped L 6 1 F ->
  synced L (communicate L 6 1 old F) everywhere.
Proof.
  intros PL SH. split; [apply communicate_shaped|].
  intros. rewrite communicate_gper; auto; [|unfold inb; lia].
  apply communicate_el; auto. unfold inb; lia.
Qed.

(** Boundary conditions of a periodic box do nothing. *)
Lemma bcs_fields_periodic c b t r1 r2 a : (forall e, fin_q c e = "periodic"%string) ->
  bcs_fields_rank c b t r1 r2 a = Ok a.
Proof.
  intros H. unfold bcs_fields_rank, maybe_edge_fields, edge_fields. rewrite !H. simpl.
  repeat match goal with |- context [if ?x then _ else _] => destruct x; cbn [rbind] end; reflexivity.
Qed.

Lemma all_ranks_total L (F : nat -> nat -> arr R) :
  exists G, all_ranks L (fun r1 r2 => Ok (F r1 r2)) = Ok G /\ forall r1 r2, G r1 r2 = F r1 r2.
Proof.
  unfold all_ranks. exists F. split; [|auto].
  induction (ranks L); simpl; auto.
Qed.

Lemma all_ranks_Ok L (F : nat -> nat -> res (arr R)) G : all_ranks L F = Ok G ->
  forall r1 r2, rank_ok L r1 r2 -> F r1 r2 = Ok (G r1 r2).
Proof.
  unfold all_ranks. intros H r1 r2 RK.
  assert (H0 : In (r1, r2) (ranks L)).
  { unfold ranks. destruct RK. apply in_prod; apply in_seq; lia. }
  assert (E : fold_right (fun r (k : res (dist R)) => match F (fst r) (snd r) with Ok _ => k | Err e => Err e end)
    (Ok (fun r1 r2 => match F r1 r2 with Ok a => a | Err _ => dummy end)) (ranks L) = Ok G) by exact H.
  clear H. revert H0 E. generalize (ranks L) as l. induction l as [|r l IH]; simpl; intros H0 E; [tauto|].
  destruct (F (fst r) (snd r)) eqn:Er; [|discriminate].
  destruct H0 as [->|H0]; [|apply IH; auto].
  simpl in Er.
  assert (G = fun r1 r2 => match F r1 r2 with Ok a => a | Err _ => dummy end).
  { clear IH Er. induction l; simpl in E; [congruence|].
    destruct (F (fst a0) (snd a0)); [auto|discriminate]. }
  subst G. rewrite Er. reflexivity.
Qed.

Lemma write_same l s : write l (mem s l) s = s.
Proof.
  destruct s as [m n a b c d e f g]. unfold write; simpl. f_equal.
  apply functional_extensionality; intros x. destruct (Nat.eqb_spec x l); subst; auto.
Qed.

Lemma apply_bcs_fields_periodic c b s : (forall e, fin_q c e = "periodic"%string) ->
  apply_bcs_fields c b s = Ok s.
Proof.
  intros H. unfold apply_bcs_fields.
  assert (E : all_ranks (flay c) (fun r1 r2 => bcs_fields_rank c b (ftime s) r1 r2
             (mem s (if b then yee s else cc s) r1 r2)) = Ok (mem s (if b then yee s else cc s))).
  { unfold all_ranks.
    assert (E2 : forall r1 r2, bcs_fields_rank c b (ftime s) r1 r2 (mem s (if b then yee s else cc s) r1 r2)
                  = Ok (mem s (if b then yee s else cc s) r1 r2)) by (intros; apply bcs_fields_periodic; auto).
    induction (ranks (flay c)) as [|r l IH]; simpl.
    - apply (f_equal (@Ok (dist R))). apply functional_extensionality; intros r1. apply functional_extensionality; intros r2.
      rewrite E2. reflexivity.
    - rewrite E2. apply IH. }
  rewrite E. cbn [rbind]. rewrite write_same. reflexivity.
Qed.

(** ** Local formulas *)
Lemma mod1 : ((0 - 0) mod 1 = 0)%Z. Proof. reflexivity. Qed.

Lemma succ_mod n i : (0 <= i < n - 1)%Z -> ((i - -1) mod n = i + 1)%Z.
Proof. intros. replace (i - -1)%Z with (i + 1)%Z by lia. apply Z.mod_small; lia. Qed.
Lemma pred_mod n i : (1 <= i < n)%Z -> ((i - 1) mod n = i - 1)%Z.
Proof. intros. apply Z.mod_small; lia. Qed.
Lemma zero_mod n i : (0 <= i < n)%Z -> ((i - 0) mod n = i)%Z.
Proof. intros. rewrite Z.sub_0_r. apply Z.mod_small; lia. Qed.

Ltac local_el :=
  cbn [el d0 d1 d2 d3 row set_row amap amap2 ascale adiv aneg shift mean2 mean4 fst snd];
  rewrite ?Z.eqb_refl;
  repeat match goal with |- context [(?a =? ?b)%Z] =>
    let v := eval compute in (a =? b)%Z in change (a =? b)%Z with v; cbv iota end.

Lemma evolve_E_el c dt J1 J2 J3 a a' :
  hybrid c = false -> d0 a = 6%Z -> d1 a = 1%Z ->
  evolve_E_rank c dt J1 J2 J3 a = Ok a' ->
  (d0 a' = d0 a /\ d1 a' = d1 a /\ d2 a' = d2 a /\ d3 a' = d3 a)
  /\ forall i j, (0 <= i < d2 a - 1)%Z -> (0 <= j < d3 a - 1)%Z ->
     el a' 0 0 i j = el a 0 0 i j + (dt / (mu c * eps c) * ((el a 5 0 i (j + 1) - el a 5 0 i j) / fdq2 c) - el J1 0 0 i j * dt / eps c)
  /\ el a' 1 0 i j = el a 1 0 i j + (dt / (mu c * eps c) * (- (el a 5 0 (i + 1) j - el a 5 0 i j) / fdq1 c) - el J2 0 0 i j * dt / eps c)
  /\ el a' 2 0 i j = el a 2 0 i j + (dt / (mu c * eps c) * ((el a 4 0 (i + 1) j - el a 4 0 i j) / fdq1 c - (el a 3 0 i (j + 1) - el a 3 0 i j) / fdq2 c) - el J3 0 0 i j * dt / eps c)
  /\ el a' 3 0 i j = el a 3 0 i j /\ el a' 4 0 i j = el a 4 0 i j /\ el a' 5 0 i j = el a 5 0 i j.
Proof.
  intros Hh D0 D1 H. unfold evolve_E_rank, curlB in H. rewrite Hh in H.
  injection H as <-. split; [repeat split|].
  intros i j Hi Hj. local_el. rewrite !D1, !mod1, !succ_mod, !zero_mod by lia.
  repeat split; reflexivity.
Qed.

Lemma evolve_E_total c dt J1 J2 J3 a : hybrid c = false ->
  exists a', evolve_E_rank c dt J1 J2 J3 a = Ok a'.
Proof. intros H. unfold evolve_E_rank, curlB. rewrite H. eauto. Qed.

Lemma evolve_E_hybrid c dt J1 J2 J3 a a' : hybrid c = true ->
  evolve_E_rank c dt J1 J2 J3 a = Ok a' -> a' = a.
Proof.
  intros H. unfold evolve_E_rank, curlB. rewrite H.
  match goal with |- (if ?x then _ else _) = _ -> _ => destruct x end; congruence.
Qed.

Lemma evolve_B_el c dt a : d0 a = 6%Z -> d1 a = 1%Z ->
  let a' := evolve_B_rank c dt a in
  (d0 a' = d0 a /\ d1 a' = d1 a /\ d2 a' = d2 a /\ d3 a' = d3 a)
  /\ forall i j, (0 <= i < d2 a)%Z -> (0 <= j < d3 a)%Z ->
     (el a' 0 0 i j = el a 0 0 i j /\ el a' 1 0 i j = el a 1 0 i j /\ el a' 2 0 i j = el a 2 0 i j)
  /\ ((1 <= j)%Z -> el a' 3 0 i j = el a 3 0 i j + (- dt) * ((el a 2 0 i j - el a 2 0 i (j - 1)) / fdq2 c))
  /\ ((1 <= i)%Z -> el a' 4 0 i j = el a 4 0 i j + (- dt) * (- (el a 2 0 i j - el a 2 0 (i - 1) j) / fdq1 c))
  /\ ((1 <= i)%Z -> (1 <= j)%Z ->
      el a' 5 0 i j = el a 5 0 i j + (- dt) * ((el a 1 0 i j - el a 1 0 (i - 1) j) / fdq1 c
                                              - (el a 0 0 i j - el a 0 0 i (j - 1)) / fdq2 c)).
Proof.
  intros D0 D1 a'. split; [repeat split|].
  intros i j Hi Hj. subst a'. unfold evolve_B_rank.
  split; [|split; [|split]]; intros; local_el; rewrite ?D1, ?mod1, ?pred_mod, ?zero_mod by lia;
    repeat split; reflexivity.
Qed.

(** ** The FDTD step *)
Definition lat (c : fcfg) (s : em) : lattice := view (flay c) (yee_val s).

Lemma yee_val_communicate c s :
  yee_val (communicate_fields c true s) = communicate (flay c) 6 1 (fbuf s) (yee_val s).
Proof. unfold yee_val, communicate_fields, bind_yee, write, set_fbuf; simpl. rewrite Nat.eqb_refl. reflexivity. Qed.

Lemma yee_val_write v s : yee_val (write (yee s) v s) = v.
Proof. unfold yee_val, write; simpl. rewrite Nat.eqb_refl. reflexivity. Qed.

Lemma view_communicate L old F : periodic_layout L -> shaped L 6 1 F ->
  same (view L (communicate L 6 1 old F)) (view L F).
Proof.
  intros PL SH. unfold same, view; simpl.
  repeat split; intros; apply communicate_gper; auto; unfold inb; lia.
Qed.

Lemma same_refl Y : same Y Y. Proof. repeat split. Qed.
Lemma same_sym Y Z : same Y Z -> same Z Y.
Proof. intros (A&B&C&D&E&F). repeat split; intros; symmetry; auto. Qed.
Lemma same_trans X Y Z : same X Y -> same Y Z -> same X Z.
Proof.
  intros (A&B&C&D&E&F) (A'&B'&C'&D'&E'&F').
  repeat split; intros; [rewrite A|rewrite B|rewrite C|rewrite D|rewrite E|rewrite F]; auto.
Qed.

(** From the local formulas to the lattice. *)
Section Lift.
  Context (L : layout) (PL : periodic_layout L).

  Lemma grid_ind (F : dist R) k (u : grid) :
    (forall g1 g2 m1 m2, u (g1 + m1 * gN1 L)%Z (g2 + m2 * gN2 L)%Z = u g1 g2) ->
    (forall r1 r2 i j, rank_ok L r1 r2 ->
       (ng1 L <= i < ng1 L + bsize (blk1 L) r1)%Z -> (ng2 L <= j < ng2 L + bsize (blk2 L) r2)%Z ->
       el (F r1 r2) k 0 i j = u (off (blk1 L) r1 + i - ng1 L)%Z (off (blk2 L) r2 + j - ng2 L)%Z) ->
    forall g1 g2, gper L F k 0 g1 g2 = u g1 g2.
  Proof.
    intros Hu H g1 g2.
    apply (gper_ind L F (fun v g1 g2 => v = u g1 g2) k 0 PL); auto.
    intros v x y m1 m2 E. rewrite <- (Hu x y m1 m2). exact E.
  Qed.

  Lemma size_pos r1 r2 : rank_ok L r1 r2 -> (0 < bsize (blk1 L) r1 /\ 0 < bsize (blk2 L) r2)%Z.
  Proof.
    intros (R1&R2). destruct PL as ((_&F1&_)&(_&F2&_)&_). split; apply bsize_pos; auto.
  Qed.
End Lift.

Lemma lift_per L (F : dist R) k g1 g2 m1 m2 : periodic_layout L ->
  gper L F k 0 (g1 + m1 * gN1 L) (g2 + m2 * gN2 L) = gper L F k 0 g1 g2.
Proof. intros ((?&_)&(?&_)&_). apply gper_add; lia. Qed.

Ltac gper_per PL :=
  intros; unfold fwd1, fwd2, bwd1, bwd2, grid_of;
  repeat match goal with |- context [gper ?L ?F ?k 0 ((?g1 + ?m1 * ?n1) + ?d)%Z ?x] =>
     replace ((g1 + m1 * n1) + d)%Z with ((g1 + d) + m1 * n1)%Z by lia end;
  repeat match goal with |- context [gper ?L ?F ?k 0 ?x ((?g1 + ?m1 * ?n1) + ?d)%Z] =>
     replace ((g1 + m1 * n1) + d)%Z with ((g1 + d) + m1 * n1)%Z by lia end;
  repeat match goal with |- context [gper ?L ?F ?k 0 ((?g1 + ?m1 * ?n1) - ?d)%Z ?x] =>
     replace ((g1 + m1 * n1) - d)%Z with ((g1 - d) + m1 * n1)%Z by lia end;
  repeat match goal with |- context [gper ?L ?F ?k 0 ?x ((?g1 + ?m1 * ?n1) - ?d)%Z] =>
     replace ((g1 + m1 * n1) - d)%Z with ((g1 - d) + m1 * n1)%Z by lia end;
  rewrite ?lift_per by exact PL; try reflexivity.

Lemma ampere_lift c dt J1 J2 J3 (F F' : dist R) :
  periodic_layout (flay c) -> synced (flay c) F everywhere -> hybrid c = false ->
  mu c <> 0 -> eps c <> 0 -> fdq1 c <> 0 -> fdq2 c <> 0 ->
  (forall r1 r2, rank_ok (flay c) r1 r2 ->
     evolve_E_rank c dt (J1 r1 r2) (J2 r1 r2) (J3 r1 r2) (F r1 r2) = Ok (F' r1 r2)) ->
  shaped (flay c) 6 1 F'
  /\ same (view (flay c) F')
       (ampere (fdq1 c) (fdq2 c) (eps c) (mu c) dt
          (grid_of (flay c) J1) (grid_of (flay c) J2) (grid_of (flay c) J3) (view (flay c) F)).
Proof.
  intros PL (SH&SY) Hh Hmu Heps H1 H2 HF. set (L := flay c) in *.
  assert (LOC : forall r1 r2, rank_ok L r1 r2 -> _) by
    (intros r1 r2 RK; destruct (SH r1 r2 RK) as (D0&D1&D2&D3);
     exact (evolve_E_el c dt (J1 r1 r2) (J2 r1 r2) (J3 r1 r2) (F r1 r2) (F' r1 r2) Hh D0 D1 (HF r1 r2 RK))).
  split.
  { intros r1 r2 RK. destruct (SH r1 r2 RK) as (D0&D1&D2&D3).
    destruct (LOC r1 r2 RK) as ((A0&A1&A2&A3)&_). repeat split; congruence. }
  assert (PL' := PL). destruct PL' as (_&_&G1&G2&_).
  assert (IDX : forall r1 r2 i j, rank_ok L r1 r2 ->
     (ng1 L <= i < ng1 L + bsize (blk1 L) r1)%Z -> (ng2 L <= j < ng2 L + bsize (blk2 L) r2)%Z ->
     (0 <= i < d2 (F r1 r2) - 1)%Z /\ (0 <= j < d3 (F r1 r2) - 1)%Z).
  { intros r1 r2 i j RK Hi Hj. destruct (SH r1 r2 RK) as (D0&D1&D2&D3). rewrite D2, D3. unfold n1g, n2g. lia. }
  assert (NB : forall r1 r2 k i j di dj, rank_ok L r1 r2 -> inb 6 k ->
     (ng1 L <= i < ng1 L + bsize (blk1 L) r1)%Z -> (ng2 L <= j < ng2 L + bsize (blk2 L) r2)%Z ->
     (0 <= di <= 1)%Z -> (0 <= dj <= 1)%Z ->
     el (F r1 r2) k 0 (i + di) (j + dj)
     = gper L F k 0 (off (blk1 L) r1 + i - ng1 L + di) (off (blk2 L) r2 + j - ng2 L + dj)).
  { intros r1 r2 k i j di dj RK Hk Hi Hj Hdi Hdj.
    rewrite SY; auto; [f_equal; lia|unfold inb, n1g; lia|unfold inb, n2g; lia|exact I]. }
  assert (NB0 : forall r1 r2 k i j, rank_ok L r1 r2 -> inb 6 k ->
     (ng1 L <= i < ng1 L + bsize (blk1 L) r1)%Z -> (ng2 L <= j < ng2 L + bsize (blk2 L) r2)%Z ->
     el (F r1 r2) k 0 i j = gper L F k 0 (off (blk1 L) r1 + i - ng1 L) (off (blk2 L) r2 + j - ng2 L)
     /\ el (F r1 r2) k 0 (i + 1) j = gper L F k 0 (off (blk1 L) r1 + i - ng1 L + 1) (off (blk2 L) r2 + j - ng2 L)
     /\ el (F r1 r2) k 0 i (j + 1) = gper L F k 0 (off (blk1 L) r1 + i - ng1 L) (off (blk2 L) r2 + j - ng2 L + 1)).
  { intros r1 r2 k i j RK Hk Hi Hj.
    pose proof (NB r1 r2 k i j 0%Z 0%Z RK Hk Hi Hj ltac:(lia) ltac:(lia)) as X.
    pose proof (NB r1 r2 k i j 1%Z 0%Z RK Hk Hi Hj ltac:(lia) ltac:(lia)) as Y.
    pose proof (NB r1 r2 k i j 0%Z 1%Z RK Hk Hi Hj ltac:(lia) ltac:(lia)) as Z.
    rewrite !Z.add_0_r in *. auto. }
  assert (JN : forall (J : dist R) r1 r2 i j, rank_ok L r1 r2 ->
     (ng1 L <= i < ng1 L + bsize (blk1 L) r1)%Z -> (ng2 L <= j < ng2 L + bsize (blk2 L) r2)%Z ->
     el (J r1 r2) 0 0 i j = gper L J 0 0 (off (blk1 L) r1 + i - ng1 L) (off (blk2 L) r2 + j - ng2 L)).
  { intros. symmetry. apply gper_interior; auto. }
  unfold same, view, ampere; simpl.
  repeat split; apply grid_ind; auto; try (gper_per PL; fail);
    intros r1 r2 i j RK Hi Hj; destruct (LOC r1 r2 RK) as (_&LE);
    destruct (IDX r1 r2 i j RK Hi Hj) as (Ii&Ij);
    destruct (LE i j Ii Ij) as (X1&X2&X3&X4&X5&X6);
    destruct (NB0 r1 r2 5%Z i j RK ltac:(unfold inb; lia) Hi Hj) as (P5&Q5&R5);
    destruct (NB0 r1 r2 4%Z i j RK ltac:(unfold inb; lia) Hi Hj) as (P4&Q4&R4);
    destruct (NB0 r1 r2 3%Z i j RK ltac:(unfold inb; lia) Hi Hj) as (P3&Q3&R3);
    destruct (NB0 r1 r2 2%Z i j RK ltac:(unfold inb; lia) Hi Hj) as (P2&Q2&R2);
    destruct (NB0 r1 r2 1%Z i j RK ltac:(unfold inb; lia) Hi Hj) as (P1&Q1&R1);
    destruct (NB0 r1 r2 0%Z i j RK ltac:(unfold inb; lia) Hi Hj) as (P0&Q0&R0);
    pose proof (JN J1 r1 r2 i j RK Hi Hj) as K1;
    pose proof (JN J2 r1 r2 i j RK Hi Hj) as K2;
    pose proof (JN J3 r1 r2 i j RK Hi Hj) as K3.
  - rewrite X1, P0, R5, P5, K1. unfold fwd2, grid_of. field. auto.
  - rewrite X2, P1, Q5, P5, K2. unfold fwd1, grid_of. field. auto.
  - rewrite X3, P2, Q4, P4, R3, P3, K3. unfold fwd1, fwd2, grid_of. field. auto.
  - rewrite X4, P3. reflexivity.
  - rewrite X5, P4. reflexivity.
  - rewrite X6, P5. reflexivity.
Qed.
