(** FDTD in a box with mirror walls is the Yee scheme with reflected electric fields. *)
From Coq Require Import ZArith Reals Lia Lra String List Bool.
From Verif Require Import Base.Prelude Base.ZSum Model.Af Model.Grid Model.Petsc Model.Config
  Model.Boundaries Model.Fvm Model.Fft Model.Em Spec.Domain Spec.Mirror Spec.Walls Spec.Yee Spec.EmRun Spec.FieldWalls
  Proofs.AfLemmas Proofs.PetscLemmas Proofs.BoundaryLemmas Proofs.BoundaryRun Proofs.EmLemmas Proofs.EmStep Proofs.EmGrids Proofs.EmInit
  Proofs.FieldWalls.
Import ListNotations.
Local Open Scope R_scope.

Section Box.
  Context (c : fcfg) (w1 w2 : bool) (BX : boxed c w1 w2).
  Let L := flay c.

  Let PL : periodic_layout L. Proof. apply BX. Qed.
  Let NG1 : fN_g c = ng1 L. Proof. apply BX. Qed.
  Let NG2 : fN_g c = ng2 L. Proof. apply BX. Qed.
  Let G1 : (0 < ng1 L)%Z. Proof. apply PL. Qed.
  Let G2 : (0 < ng2 L)%Z. Proof. apply PL. Qed.

  Lemma box_name e : fin_q c e = match e with
                            | ELeft | ERight => if w1 then "mirror" else "periodic"
                            | EBottom | ETop => if w2 then "mirror" else "periodic"
                            end%string.
  Proof. apply BX. Qed.

  Definition wall (e : edge) : bool := match e with ELeft | ERight => w1 | EBottom | ETop => w2 end.

  Lemma box_edge r1 r2 t e a :
    maybe_edge_fields c true r1 r2 t e a
    = Ok (if (touches L r1 r2 e && wall e)%bool then mirror_fields c true e a else a).
  Proof.
    unfold maybe_edge_fields. fold L. destruct (touches L r1 r2 e); cbn [andb]; [|reflexivity].
    unfold edge_fields. rewrite box_name. unfold wall. destruct e; [destruct w1|destruct w1|destruct w2|destruct w2]; reflexivity.
  Qed.

  (** Cells within one cell of the rank's own. *)
  Definition near r1 r2 i j : Prop :=
    (ng1 L - 1 <= i <= ng1 L + bsize (blk1 L) r1)%Z /\ (ng2 L - 1 <= j <= ng2 L + bsize (blk2 L) r2)%Z.
  Definition own1 r1 i : Prop := (ng1 L <= i < ng1 L + bsize (blk1 L) r1)%Z.
  Definition own2 r2 j : Prop := (ng2 L <= j < ng2 L + bsize (blk2 L) r2)%Z.

  Definition fold1 r1 r2 (i : Z) : Z :=
    if (touches L r1 r2 ELeft && w1 && (i =? ng1 L - 1)%Z)%bool then ng1 L
    else if (touches L r1 r2 ERight && w1 && (i =? ng1 L + bsize (blk1 L) r1)%Z)%bool then (i - 1)%Z
    else i.
  Definition fold2 r1 r2 (j : Z) : Z :=
    if (touches L r1 r2 EBottom && w2 && (j =? ng2 L - 1)%Z)%bool then ng2 L
    else if (touches L r1 r2 ETop && w2 && (j =? ng2 L + bsize (blk2 L) r2)%Z)%bool then (j - 1)%Z
    else j.

  Lemma fold1_own r1 r2 i : own1 r1 i -> fold1 r1 r2 i = i.
  Proof.
    unfold own1, fold1. intros H. destruct (Z.eqb_spec i (ng1 L - 1)); [lia|].
    destruct (Z.eqb_spec i (ng1 L + bsize (blk1 L) r1)); [lia|]. rewrite !andb_false_r. reflexivity.
  Qed.
  Lemma fold2_own r1 r2 j : own2 r2 j -> fold2 r1 r2 j = j.
  Proof.
    unfold own2, fold2. intros H. destruct (Z.eqb_spec j (ng2 L - 1)); [lia|].
    destruct (Z.eqb_spec j (ng2 L + bsize (blk2 L) r2)); [lia|]. rewrite !andb_false_r. reflexivity.
  Qed.

  Lemma one_edge r1 r2 e a k i j : rank_ok L r1 r2 ->
    d2 a = n1g L r1 -> d3 a = n2g L r2 -> inb (n1g L r1) i -> inb (n2g L r2) j ->
    let a' := if (touches L r1 r2 e && wall e)%bool then mirror_fields c true e a else a in
    el a' k 0 i j
    = if (touches L r1 r2 e && wall e && (reflects true e k && in_slab e (fN_g c) (n1g L r1) (n2g L r2) i j))%bool
      then el a k 0 (fst (mirror_cell e (fN_g c) (n1g L r1) (n2g L r2) i j)) (snd (mirror_cell e (fN_g c) (n1g L r1) (n2g L r2) i j))
      else el a k 0 i j.
  Proof.
    intros RK D2 D3 Hi Hj a'. subst a'. destruct (touches L r1 r2 e && wall e)%bool; cbn [andb]; [|reflexivity].
    pose proof (size_pos L PL r1 r2 RK) as (P1&P2).
    rewrite mirror_fields_el; rewrite ?D2, ?D3; auto; [lia|].
    unfold roomy, n1g, n2g. destruct e; lia.
  Qed.

  Lemma cond_dims (b : bool) e a : same_dims (if b then mirror_fields c true e a else a) a.
  Proof. destruct b; [apply mirror_fields_dims|apply same_dims_refl]. Qed.

  Lemma box_bcs r1 r2 t a : rank_ok L r1 r2 ->
    d0 a = 6%Z -> d1 a = 1%Z -> d2 a = n1g L r1 -> d3 a = n2g L r2 ->
    exists a', bcs_fields_rank c true t r1 r2 a = Ok a'
    /\ same_dims a' a
    /\ (forall k i j, (3 <= k < 6)%Z -> inb (n1g L r1) i -> inb (n2g L r2) j -> el a' k 0 i j = el a k 0 i j)
    /\ (forall k i j, inb 6 k -> own1 r1 i -> own2 r2 j -> el a' k 0 i j = el a k 0 i j)
    /\ (forall i j, near r1 r2 i j ->
          el a' 0 0 i j = el a 0 0 i (fold2 r1 r2 j)
          /\ el a' 1 0 i j = el a 1 0 (fold1 r1 r2 i) j
          /\ (own2 r2 j -> el a' 2 0 i j = el a 2 0 (fold1 r1 r2 i) j)
          /\ (own1 r1 i -> el a' 2 0 i j = el a 2 0 i (fold2 r1 r2 j))).
  Proof.
    intros RK D0 D1 D2 D3. unfold bcs_fields_rank.
    rewrite box_edge. cbn [rbind]. rewrite box_edge. cbn [rbind]. rewrite box_edge. cbn [rbind]. rewrite box_edge.
    eexists. split; [reflexivity|].
    set (a1 := if (touches L r1 r2 ELeft && wall ELeft)%bool then mirror_fields c true ELeft a else a).
    set (a2 := if (touches L r1 r2 ERight && wall ERight)%bool then mirror_fields c true ERight a1 else a1).
    set (a3 := if (touches L r1 r2 EBottom && wall EBottom)%bool then mirror_fields c true EBottom a2 else a2).
    set (a4 := if (touches L r1 r2 ETop && wall ETop)%bool then mirror_fields c true ETop a3 else a3).
    assert (S1 : same_dims a1 a) by (apply cond_dims).
    assert (S2 : same_dims a2 a).
    { eapply same_dims_trans; [|exact S1]. apply cond_dims. }
    assert (S3 : same_dims a3 a).
    { eapply same_dims_trans; [|exact S2]. apply cond_dims. }
    assert (S4 : same_dims a4 a).
    { eapply same_dims_trans; [|exact S3]. apply cond_dims. }
    split; [exact S4|].
    pose proof (size_pos L PL r1 r2 RK) as (P1&P2).
    assert (X1 : forall k i j, inb (n1g L r1) i -> inb (n2g L r2) j -> _)
      by (intros k i j Hi Hj; exact (one_edge r1 r2 ELeft a k i j RK D2 D3 Hi Hj)).
    assert (X2 : forall k i j, inb (n1g L r1) i -> inb (n2g L r2) j -> _)
      by (intros k i j Hi Hj; exact (one_edge r1 r2 ERight a1 k i j RK
            ltac:(rewrite <- D2; apply S1) ltac:(rewrite <- D3; apply S1) Hi Hj)).
    assert (X3 : forall k i j, inb (n1g L r1) i -> inb (n2g L r2) j -> _)
      by (intros k i j Hi Hj; exact (one_edge r1 r2 EBottom a2 k i j RK
            ltac:(rewrite <- D2; apply S2) ltac:(rewrite <- D3; apply S2) Hi Hj)).
    assert (X4 : forall k i j, inb (n1g L r1) i -> inb (n2g L r2) j -> _)
      by (intros k i j Hi Hj; exact (one_edge r1 r2 ETop a3 k i j RK
            ltac:(rewrite <- D2; apply S3) ltac:(rewrite <- D3; apply S3) Hi Hj)).
    cbv zeta in X1, X2, X3, X4. fold a1 in X1. fold a2 in X2. fold a3 in X3. fold a4 in X4.
    split; [|split].
    - intros k i j Hk Hi Hj. rewrite (X4 k i j), (X3 k i j), (X2 k i j), (X1 k i j) by auto.
      assert (R : forall e, reflects true e k = false) by (intros e; destruct e; unfold reflects; lia).
      rewrite !R. cbn [andb]. rewrite !andb_false_r. reflexivity.
    - unfold own1, own2. intros k i j Hk Hi Hj.
      assert (Hi' : inb (n1g L r1) i) by (unfold inb, n1g; lia).
      assert (Hj' : inb (n2g L r2) j) by (unfold inb, n2g; lia).
      rewrite (X4 k i j), (X3 k i j), (X2 k i j), (X1 k i j) by auto.
      assert (R : forall e, in_slab e (fN_g c) (n1g L r1) (n2g L r2) i j = false)
        by (intros e; unfold in_slab, n1g, n2g; destruct e; lia).
      rewrite !R, !andb_false_r. reflexivity.
    - unfold near. intros i j (Hi&Hj).
      assert (Hi' : inb (n1g L r1) i) by (unfold inb, n1g; lia).
      assert (Hj' : inb (n2g L r2) j) by (unfold inb, n2g; lia).
      assert (Rl : forall k, reflects true ELeft k = ((k =? 1) || (k =? 2))%Z%bool) by reflexivity.
      assert (Rr : forall k, reflects true ERight k = ((k =? 1) || (k =? 2))%Z%bool) by reflexivity.
      assert (Rb : forall k, reflects true EBottom k = ((k =? 0) || (k =? 2))%Z%bool) by reflexivity.
      assert (Rt : forall k, reflects true ETop k = ((k =? 0) || (k =? 2))%Z%bool) by reflexivity.
      (* the two axes separately *)
      assert (H12 : forall k j, inb (n2g L r2) j -> (k = 1 \/ k = 2)%Z -> el a2 k 0 i j = el a k 0 (fold1 r1 r2 i) j).
      { intros k j' Hj'' Hk.
        assert (IN : forall i, own1 r1 i -> el a2 k 0 i j' = el a k 0 i j').
        { intros x Hx. unfold own1 in Hx. rewrite (X2 k x j'), (X1 k x j') by (auto; unfold inb, n1g; lia).
          assert (R : in_slab ELeft (fN_g c) (n1g L r1) (n2g L r2) x j' = false /\ in_slab ERight (fN_g c) (n1g L r1) (n2g L r2) x j' = false)
            by (unfold in_slab, n1g; lia).
          destruct R as (->&->). rewrite !andb_false_r. reflexivity. }
        assert (IN1 : forall i, own1 r1 i -> el a1 k 0 i j' = el a k 0 i j').
        { intros x Hx. unfold own1 in Hx. rewrite X1 by (auto; unfold inb, n1g; lia).
          assert (R : in_slab ELeft (fN_g c) (n1g L r1) (n2g L r2) x j' = false) by (unfold in_slab, n1g; lia).
          rewrite R, !andb_false_r. reflexivity. }
        assert (RR : ((k =? 1) || (k =? 2))%Z%bool = true) by lia.
        unfold fold1. destruct (Z.eqb_spec i (ng1 L - 1)); [|destruct (Z.eqb_spec i (ng1 L + bsize (blk1 L) r1))].
        - rewrite X2 by auto.
          replace (in_slab ERight (fN_g c) (n1g L r1) (n2g L r2) i j') with false by (unfold in_slab, n1g; lia).
          rewrite !andb_false_r. rewrite X1 by auto.
          replace (in_slab ELeft (fN_g c) (n1g L r1) (n2g L r2) i j') with true by (unfold in_slab, n1g; lia).
          rewrite Rl, RR, !andb_true_r. cbn [wall].
          destruct (touches L r1 r2 ELeft && w1)%bool.
          + cbn [mirror_cell fst snd]. f_equal; lia.
          + destruct (Z.eqb_spec i (ng1 L + bsize (blk1 L) r1)); [lia|]. rewrite andb_false_r. reflexivity.
        - rewrite X2 by auto.
          replace (in_slab ERight (fN_g c) (n1g L r1) (n2g L r2) i j') with true by (unfold in_slab, n1g; lia).
          rewrite Rr, RR, !andb_true_r, !andb_false_r. cbn [wall].
          destruct (touches L r1 r2 ERight && w1)%bool.
          + cbn [mirror_cell fst snd]. rewrite IN1 by (unfold own1, n1g; lia). f_equal; unfold n1g; lia.
          + rewrite X1 by auto.
            replace (in_slab ELeft (fN_g c) (n1g L r1) (n2g L r2) i j') with false by (unfold in_slab, n1g; lia).
            rewrite !andb_false_r. reflexivity.
        - rewrite !andb_false_r. apply IN. unfold own1; lia. }
      assert (H34 : forall k i, inb (n1g L r1) i -> (k = 0 \/ k = 2)%Z -> el a4 k 0 i j = el a2 k 0 i (fold2 r1 r2 j)).
      { intros k i' Hi'' Hk.
        assert (IN : forall j, own2 r2 j -> el a4 k 0 i' j = el a2 k 0 i' j).
        { intros x Hx. unfold own2 in Hx. rewrite (X4 k i' x), (X3 k i' x) by (auto; unfold inb, n2g; lia).
          assert (R : in_slab EBottom (fN_g c) (n1g L r1) (n2g L r2) i' x = false /\ in_slab ETop (fN_g c) (n1g L r1) (n2g L r2) i' x = false)
            by (unfold in_slab, n2g; lia).
          destruct R as (->&->). rewrite !andb_false_r. reflexivity. }
        assert (IN1 : forall j, own2 r2 j -> el a3 k 0 i' j = el a2 k 0 i' j).
        { intros x Hx. unfold own2 in Hx. rewrite X3 by (auto; unfold inb, n2g; lia).
          assert (R : in_slab EBottom (fN_g c) (n1g L r1) (n2g L r2) i' x = false) by (unfold in_slab, n2g; lia).
          rewrite R, !andb_false_r. reflexivity. }
        assert (RR : ((k =? 0) || (k =? 2))%Z%bool = true) by lia.
        unfold fold2. destruct (Z.eqb_spec j (ng2 L - 1)); [|destruct (Z.eqb_spec j (ng2 L + bsize (blk2 L) r2))].
        - rewrite X4 by auto.
          replace (in_slab ETop (fN_g c) (n1g L r1) (n2g L r2) i' j) with false by (unfold in_slab, n2g; lia).
          rewrite !andb_false_r. rewrite X3 by auto.
          replace (in_slab EBottom (fN_g c) (n1g L r1) (n2g L r2) i' j) with true by (unfold in_slab, n2g; lia).
          rewrite Rb, RR, !andb_true_r. cbn [wall].
          destruct (touches L r1 r2 EBottom && w2)%bool.
          + cbn [mirror_cell fst snd]. f_equal; lia.
          + destruct (Z.eqb_spec j (ng2 L + bsize (blk2 L) r2)); [lia|]. rewrite andb_false_r. reflexivity.
        - rewrite X4 by auto.
          replace (in_slab ETop (fN_g c) (n1g L r1) (n2g L r2) i' j) with true by (unfold in_slab, n2g; lia).
          rewrite Rt, RR, !andb_true_r, !andb_false_r. cbn [wall].
          destruct (touches L r1 r2 ETop && w2)%bool.
          + cbn [mirror_cell fst snd]. rewrite IN1 by (unfold own2, n2g; lia). f_equal; unfold n2g; lia.
          + rewrite X3 by auto.
            replace (in_slab EBottom (fN_g c) (n1g L r1) (n2g L r2) i' j) with false by (unfold in_slab, n2g; lia).
            rewrite !andb_false_r. reflexivity.
        - rewrite !andb_false_r. apply IN. unfold own2; lia. }
      assert (F1 : inb (n1g L r1) (fold1 r1 r2 i)).
      { unfold fold1. repeat match goal with |- context [if ?x then _ else _] => destruct x eqn:? end; unfold inb, n1g in *; lia. }
      assert (F2 : inb (n2g L r2) (fold2 r1 r2 j)).
      { unfold fold2. repeat match goal with |- context [if ?x then _ else _] => destruct x eqn:? end; unfold inb, n2g in *; lia. }
      split; [|split; [|split]].
      + rewrite H34 by auto. rewrite (X2 0%Z i), (X1 0%Z i) by auto. rewrite Rl, Rr. cbn [Z.eqb orb andb]. rewrite !andb_false_r. reflexivity.
      + rewrite (X4 1%Z i j), (X3 1%Z i j) by auto. rewrite Rb, Rt. cbn [Z.eqb orb andb]. rewrite !andb_false_r. apply H12; auto.
      + intros O2. rewrite H34 by auto. rewrite fold2_own by exact O2. apply H12; auto.
      + intros O1. rewrite H34 by auto. rewrite H12 by auto. rewrite fold1_own by exact O1. reflexivity.
  Qed.

  (** Global position of a local cell, and what a folded cell is there. *)
  Let gx r1 (i : Z) : Z := (off (blk1 L) r1 + i - ng1 L)%Z.
  Let gy r2 (j : Z) : Z := (off (blk2 L) r2 + j - ng2 L)%Z.

  Lemma rank_off r1 r2 : rank_ok L r1 r2 ->
    (0 <= off (blk1 L) r1)%Z /\ (off (blk1 L) r1 + bsize (blk1 L) r1 <= gN1 L)%Z
    /\ (0 <= off (blk2 L) r2)%Z /\ (off (blk2 L) r2 + bsize (blk2 L) r2 <= gN2 L)%Z.
  Proof.
    intros (R1&R2). destruct PL as ((N1&F1&S1)&(N2&F2&S2)&_).
    pose proof (off_nonneg (blk1 L) r1 F1). pose proof (off_nonneg (blk2 L) r2 F2).
    pose proof (off_end (blk1 L) r1 F1 R1). pose proof (off_end (blk2 L) r2 F2 R2). lia.
  Qed.

  Lemma mod_zero1 n x : (0 < n)%Z -> (-1 < x <= n)%Z -> ((x mod n =? 0)%Z = ((x =? 0) || (x =? n))%Z%bool).
  Proof.
    intros Hn Hx. destruct (Z.eq_dec x n) as [->|NE].
    - rewrite Z.mod_same by lia. rewrite (Z.eqb_refl n), orb_true_r. reflexivity.
    - rewrite Z.mod_small by lia. destruct (Z.eqb_spec x n); [lia|]. rewrite orb_false_r. reflexivity.
  Qed.

  (** The difference towards the previous cell, near the rank's own cells. *)
  Lemma before1_lift (F : dist R) r1 r2 k i y : rank_ok L r1 r2 ->
    (ng1 L <= i <= ng1 L + bsize (blk1 L) r1)%Z ->
    let u := gper L F k 0 in
    u (gx r1 (fold1 r1 r2 i)) y - u (gx r1 (fold1 r1 r2 (i - 1))) y
    = u (gx r1 i) y - before1 w1 (gN1 L) u (gx r1 i) y.
  Proof.
    intros RK Hi u. pose proof (rank_off r1 r2 RK) as (O1&O2&_). pose proof (size_pos L PL r1 r2 RK) as (P1&_).
    unfold before1, fold1, gx. rewrite mod_zero1 by lia. unfold touches.
    assert (EQ : (off (blk1 L) r1 + (i - 1) - ng1 L = off (blk1 L) r1 + i - ng1 L - 1)%Z) by lia.
    assert (E1 : (i =? ng1 L - 1)%Z = false) by lia. rewrite E1, !andb_false_r.
    assert (E2 : (i - 1 =? ng1 L + bsize (blk1 L) r1)%Z = false) by lia. rewrite E2, !andb_false_r.
    destruct w1; cbn [andb]; rewrite ?andb_true_r, ?andb_false_r; cbn [andb].
    2: rewrite EQ; reflexivity.
    destruct (Z.eqb_spec (off (blk1 L) r1 + i - ng1 L) 0) as [Z0|Z0]; cbn [orb].
    - assert (E3 : (off (blk1 L) r1 =? 0)%Z = true) by lia.
      assert (E4 : (i - 1 =? ng1 L - 1)%Z = true) by lia.
      assert (E5 : (i =? ng1 L + bsize (blk1 L) r1)%Z = false) by lia.
      rewrite E3, E4, E5, andb_false_r. cbn [andb]. replace (off (blk1 L) r1 + ng1 L - ng1 L)%Z with (off (blk1 L) r1 + i - ng1 L)%Z by lia.
      reflexivity.
    - destruct (Z.eqb_spec (off (blk1 L) r1 + i - ng1 L) (gN1 L)) as [ZN|ZN].
      + assert (E3 : (off (blk1 L) r1 + bsize (blk1 L) r1 - 1 =? gN1 L - 1)%Z = true) by lia.
        assert (E5 : (i =? ng1 L + bsize (blk1 L) r1)%Z = true) by lia.
        assert (E4 : (i - 1 =? ng1 L - 1)%Z = false) by lia.
        rewrite E3, E4, E5, andb_false_r. cbn [andb]. lra.
      + assert (E4 : ((off (blk1 L) r1 =? 0) && (i - 1 =? ng1 L - 1))%Z%bool = false) by lia.
        assert (E5 : ((off (blk1 L) r1 + bsize (blk1 L) r1 - 1 =? gN1 L - 1) && (i =? ng1 L + bsize (blk1 L) r1))%Z%bool = false) by lia.
        rewrite E4, E5, EQ. reflexivity.
  Qed.

  Lemma before2_lift (F : dist R) r1 r2 k j x : rank_ok L r1 r2 ->
    (ng2 L <= j <= ng2 L + bsize (blk2 L) r2)%Z ->
    let u := gper L F k 0 in
    u x (gy r2 (fold2 r1 r2 j)) - u x (gy r2 (fold2 r1 r2 (j - 1)))
    = u x (gy r2 j) - before2 w2 (gN2 L) u x (gy r2 j).
  Proof.
    intros RK Hi u. pose proof (rank_off r1 r2 RK) as (_&_&O1&O2). pose proof (size_pos L PL r1 r2 RK) as (_&P1).
    unfold before2, fold2, gy. rewrite mod_zero1 by lia. unfold touches.
    assert (EQ : (off (blk2 L) r2 + (j - 1) - ng2 L = off (blk2 L) r2 + j - ng2 L - 1)%Z) by lia.
    assert (E1 : (j =? ng2 L - 1)%Z = false) by lia. rewrite E1, !andb_false_r.
    assert (E2 : (j - 1 =? ng2 L + bsize (blk2 L) r2)%Z = false) by lia. rewrite E2, !andb_false_r.
    destruct w2; cbn [andb]; rewrite ?andb_true_r, ?andb_false_r; cbn [andb].
    2: rewrite EQ; reflexivity.
    destruct (Z.eqb_spec (off (blk2 L) r2 + j - ng2 L) 0) as [Z0|Z0]; cbn [orb].
    - assert (E3 : (off (blk2 L) r2 =? 0)%Z = true) by lia.
      assert (E4 : (j - 1 =? ng2 L - 1)%Z = true) by lia.
      assert (E5 : (j =? ng2 L + bsize (blk2 L) r2)%Z = false) by lia.
      rewrite E3, E4, E5, andb_false_r. cbn [andb]. replace (off (blk2 L) r2 + ng2 L - ng2 L)%Z with (off (blk2 L) r2 + j - ng2 L)%Z by lia.
      reflexivity.
    - destruct (Z.eqb_spec (off (blk2 L) r2 + j - ng2 L) (gN2 L)) as [ZN|ZN].
      + assert (E3 : (off (blk2 L) r2 + bsize (blk2 L) r2 - 1 =? gN2 L - 1)%Z = true) by lia.
        assert (E5 : (j =? ng2 L + bsize (blk2 L) r2)%Z = true) by lia.
        assert (E4 : (j - 1 =? ng2 L - 1)%Z = false) by lia.
        rewrite E3, E4, E5, andb_false_r. cbn [andb]. lra.
      + assert (E4 : ((off (blk2 L) r2 =? 0) && (j - 1 =? ng2 L - 1))%Z%bool = false) by lia.
        assert (E5 : ((off (blk2 L) r2 + bsize (blk2 L) r2 - 1 =? gN2 L - 1) && (j =? ng2 L + bsize (blk2 L) r2))%Z%bool = false) by lia.
        rewrite E4, E5, EQ. reflexivity.
  Qed.

  Let H1 : fdq1 c <> 0. Proof. apply BX. Qed.
  Let H2 : fdq2 c <> 0. Proof. apply BX. Qed.

  (** Everything the interpolation to cell centres reads after the update of B. *)
  Definition matches (F : dist R) (Y : lattice) : Prop :=
    forall r1 r2 i j, rank_ok L r1 r2 ->
      (ng1 L <= i <= ng1 L + bsize (blk1 L) r1)%Z -> (ng2 L <= j <= ng2 L + bsize (blk2 L) r2)%Z ->
      let x := (off (blk1 L) r1 + i - ng1 L)%Z in
      let y := (off (blk2 L) r2 + j - ng2 L)%Z in
      (own2 r2 j -> el (F r1 r2) 0 0 i j = E1 Y x y) /\ (own1 r1 i -> el (F r1 r2) 1 0 i j = E2 Y x y)
      /\ (own1 r1 i -> own2 r2 j -> el (F r1 r2) 2 0 i j = E3 Y x y)
      /\ (own1 r1 i -> el (F r1 r2) 3 0 i j = B1 Y x y) /\ (own2 r2 j -> el (F r1 r2) 4 0 i j = B2 Y x y)
      /\ el (F r1 r2) 5 0 i j = B3 Y x y.

  Definition per (u : grid) : Prop :=
    forall g1 g2 m1 m2, u (g1 + m1 * gN1 L)%Z (g2 + m2 * gN2 L)%Z = u g1 g2.

  Lemma before1_per u : per u -> per (before1 w1 (gN1 L) u).
  Proof.
    destruct PL as ((N1&_)&_). intros P g1 g2 m1 m2. unfold before1. rewrite Z.mod_add by lia.
    destruct (w1 && (g1 mod gN1 L =? 0)%Z)%bool; [apply P|].
    replace (g1 + m1 * gN1 L - 1)%Z with ((g1 - 1) + m1 * gN1 L)%Z by lia. apply P.
  Qed.
  Lemma before2_per u : per u -> per (before2 w2 (gN2 L) u).
  Proof.
    destruct PL as (_&(N2&_)&_). intros P g1 g2 m1 m2. unfold before2. rewrite Z.mod_add by lia.
    destruct (w2 && (g2 mod gN2 L =? 0)%Z)%bool; [apply P|].
    replace (g2 + m2 * gN2 L - 1)%Z with ((g2 - 1) + m2 * gN2 L)%Z by lia. apply P.
  Qed.

  Lemma per_gper (F : dist R) k : per (gper L F k 0).
  Proof. intros g1 g2 m1 m2. apply lift_per. exact PL. Qed.

  Definition per_lattice (Y : lattice) : Prop :=
    per (E1 Y) /\ per (E2 Y) /\ per (E3 Y) /\ per (B1 Y) /\ per (B2 Y) /\ per (B3 Y).

  Lemma per_faraday dt Y : per_lattice Y -> per_lattice (faraday_walls w1 w2 (gN1 L) (gN2 L) (fdq1 c) (fdq2 c) dt Y).
  Proof.
    intros (P1&P2&P3&P4&P5&P6).
    pose proof (before1_per _ P2) as Q2. pose proof (before1_per _ P3) as Q3.
    pose proof (before2_per _ P1) as T1. pose proof (before2_per _ P3) as T3.
    unfold per_lattice, faraday_walls; cbn [E1 E2 E3 B1 B2 B3].
    split; [|split; [|split; [|split; [|split]]]]; auto;
      intros g1 g2 m1 m2; cbv beta;
      rewrite ?P1, ?P2, ?P3, ?P4, ?P5, ?P6, ?Q2, ?Q3, ?T1, ?T3; reflexivity.
  Qed.

  Lemma matches_view F Y : per_lattice Y -> matches F Y -> same (view L F) Y.
  Proof.
    intros (P1&P2&P3&P4&P5&P6) M. unfold same; cbn [view E1 E2 E3 B1 B2 B3].
    repeat split; apply grid_ind; auto; intros r1 r2 i j RK Hi Hj;
      destruct (M r1 r2 i j RK ltac:(lia) ltac:(lia)) as (X0&X1&X2&X3&X4&X5); auto.
  Qed.

  Lemma box_faraday dt t (F F4 : dist R) : synced L F everywhere ->
    (forall r1 r2, rank_ok L r1 r2 -> bcs_fields_rank c true t r1 r2 (F r1 r2) = Ok (F4 r1 r2)) ->
    shaped L 6 1 (dmap (evolve_B_rank c dt) F4)
    /\ matches (dmap (evolve_B_rank c dt) F4)
         (faraday_walls w1 w2 (gN1 L) (gN2 L) (fdq1 c) (fdq2 c) dt (view L F)).
  Proof.
    intros (SH&SY) HB.
    assert (SH4 : shaped L 6 1 F4).
    { intros r1 r2 RK. destruct (bcs_fields_dims _ _ _ _ _ _ _ (HB r1 r2 RK)) as (A&B&C&D).
      destruct (SH r1 r2 RK) as (A'&B'&C'&D'). repeat split; congruence. }
    split; [apply shaped_dmap; auto; intros a; repeat split|].
    intros r1 r2 i j RK Hi Hj x y.
    destruct (SH r1 r2 RK) as (D0&D1&D2&D3). destruct (SH4 r1 r2 RK) as (D0'&D1'&D2'&D3').
    destruct (box_bcs r1 r2 t (F r1 r2) RK D0 D1 D2 D3) as (a'&HA&_&MB&MO&MN).
    assert (EA : a' = F4 r1 r2) by (rewrite (HB r1 r2 RK) in HA; congruence). subst a'.
    destruct (evolve_B_el c dt (F4 r1 r2) D0' D1') as (_&LE).
    assert (Hi' : inb (n1g L r1) i) by (unfold inb, n1g; lia).
    assert (Hj' : inb (n2g L r2) j) by (unfold inb, n2g; lia).
    destruct (LE i j ltac:(rewrite D2'; exact Hi') ltac:(rewrite D3'; exact Hj')) as ((X0&X1&X2)&X3&X4&X5).
    specialize (X3 ltac:(lia)). specialize (X4 ltac:(lia)). specialize (X5 ltac:(lia) ltac:(lia)).
    assert (S : forall k i j, inb 6 k -> inb (n1g L r1) i -> inb (n2g L r2) j ->
       el (F r1 r2) k 0 i j = gper L F k 0 (gx r1 i) (gy r2 j))
      by (intros; apply SY; auto; exact I).
    pose proof (size_pos L PL r1 r2 RK) as (P1&P2).
    assert (F1 : forall i, (ng1 L - 1 <= i <= ng1 L + bsize (blk1 L) r1)%Z -> inb (n1g L r1) (fold1 r1 r2 i)).
    { intros z Hz. unfold fold1. repeat match goal with |- context [if ?x then _ else _] => destruct x eqn:? end; unfold inb, n1g in *; lia. }
    assert (F2 : forall j, (ng2 L - 1 <= j <= ng2 L + bsize (blk2 L) r2)%Z -> inb (n2g L r2) (fold2 r1 r2 j)).
    { intros z Hz. unfold fold2. repeat match goal with |- context [if ?x then _ else _] => destruct x eqn:? end; unfold inb, n2g in *; lia. }
    assert (N00 : near r1 r2 i j) by (unfold near; lia).
    assert (N10 : near r1 r2 (i - 1) j) by (unfold near; lia).
    assert (N01 : near r1 r2 i (j - 1)) by (unfold near; lia).
    destruct (MN i j N00) as (M0&M1&M2&M2'). destruct (MN _ _ N10) as (L0&L1&L2&L2'). destruct (MN _ _ N01) as (K0&K1&K2&K2').
    unfold dmap. cbn [faraday_walls view E1 E2 E3 B1 B2 B3].
    split; [|split; [|split; [|split; [|split]]]].
    - intros O2. rewrite X0, M0, (fold2_own r1 r2 j O2), S by (auto; unfold inb; lia). reflexivity.
    - intros O1. rewrite X1, M1, (fold1_own r1 r2 i O1), S by (auto; unfold inb; lia). reflexivity.
    - intros O1 O2. rewrite X2, (M2 O2), (fold1_own r1 r2 i O1), S by (auto; unfold inb; lia). reflexivity.
    - intros O1. rewrite X3, MB by (auto; lia). rewrite (M2' O1), (K2' O1).
      rewrite !S by (first [apply F2; lia|auto; unfold inb; lia]).
      rewrite (before2_lift F r1 r2 2 j (gx r1 i) RK Hj). unfold gx, gy. fold x y. field; auto.
    - intros O2. rewrite X4, MB by (auto; lia). rewrite (M2 O2), (L2 O2).
      rewrite !S by (first [apply F1; lia|auto; unfold inb; lia]).
      rewrite (before1_lift F r1 r2 2 i (gy r2 j) RK Hi). unfold gx, gy. fold x y. field; auto.
    - rewrite X5, MB by (auto; lia). rewrite M1, L1, M0, K0.
      rewrite !S by (first [apply F1; lia|apply F2; lia|auto; unfold inb; lia]).
      rewrite (before1_lift F r1 r2 1 i (gy r2 j) RK Hi), (before2_lift F r1 r2 0 j (gx r1 i) RK Hj).
      unfold gx, gy. fold x y. field; auto.
  Qed.

  (** apply_bcs_fields on the Yee arrays. *)
  Lemma box_apply s : shaped L 6 1 (yee_val s) ->
    exists G, apply_bcs_fields c true s = Ok (write (yee s) G s)
      /\ shaped L 6 1 G
      /\ forall r1 r2, rank_ok L r1 r2 -> bcs_fields_rank c true (ftime s) r1 r2 (yee_val s r1 r2) = Ok (G r1 r2).
  Proof.
    intros SH. unfold apply_bcs_fields. fold L.
    destruct (all_ranks_holds L (fun r1 r2 => bcs_fields_rank c true (ftime s) r1 r2 (mem s (yee s) r1 r2))) as (G&E).
    { intros r1 r2 RK. destruct (SH r1 r2 RK) as (D0&D1&D2&D3).
      destruct (box_bcs r1 r2 (ftime s) (yee_val s r1 r2) RK D0 D1 D2 D3) as (a'&X&_). exists a'. exact X. }
    rewrite E. cbn [rbind]. exists G. split; [reflexivity|]. split.
    - eapply shaped_bcs; [exact E|exact SH].
    - exact (all_ranks_Ok L _ _ E).
  Qed.

  Lemma fdtd_box dt J1 J2 J3 s : hybrid c = false -> wf_em c s ->
    exists s', fdtd c dt (J1, J2, J3) s = Ok s'
    /\ wf_em c s' /\ frame s s'
    /\ exists Z, per_lattice Z /\ matches (yee_val s') Z
    /\ same Z (wall_step w1 w2 (gN1 L) (gN2 L) (fdq1 c) (fdq2 c) (eps c) (mu c) dt
                (grid_of L J1) (grid_of L J2) (grid_of L J3) (lat c s)).
  Proof.
    intros Hh W. assert (Hmu : mu c <> 0) by apply BX. assert (Heps : eps c <> 0) by apply BX.
    unfold fdtd.
    set (s1 := communicate_fields c true s).
    assert (W1 : wf_em c s1) by (apply wf_comm; auto).
    assert (V1 : yee_val s1 = communicate L 6 1 (fbuf s) (yee_val s)) by apply yee_val_communicate.
    assert (SY1 : synced L (yee_val s1) everywhere) by (rewrite V1; apply communicate_synced; auto; apply shaped_yee; auto).
    assert (Q1 : same (view L (yee_val s1)) (lat c s)) by (rewrite V1; apply view_communicate; auto; apply shaped_yee; auto).
    assert (FR1 : frame s s1) by apply frame_comm.
    destruct (box_apply s1 (shaped_yee c s1 W1)) as (G&AB&SG&HG). rewrite AB. cbn [rbind]. fold L.
    set (s2 := write (yee s1) G s1).
    assert (V2 : yee_val s2 = G) by apply yee_val_write.
    assert (W2 : wf_em c s2) by (apply wf_write; auto).
    assert (FR2 : frame s s2) by (apply frame_write; auto).
    destruct (all_ranks_holds L (fun r1 r2 => evolve_E_rank c dt (J1 r1 r2) (J2 r1 r2) (J3 r1 r2) (yee_val s2 r1 r2))) as (F&EF).
    { intros. apply evolve_E_total; auto. }
    destruct (all_ranks_holds L (fun r1 r2 => evolve_E_rank c dt (J1 r1 r2) (J2 r1 r2) (J3 r1 r2) (yee_val s1 r1 r2))) as (F0&EF0).
    { intros. apply evolve_E_total; auto. }
    rewrite EF. cbn [rbind].
    pose proof (all_ranks_Ok L _ _ EF) as HF. pose proof (all_ranks_Ok L _ _ EF0) as HF0. cbv beta in HF, HF0.
    destruct (ampere_lift c dt J1 J2 J3 (yee_val s1) F0 PL SY1 Hh Hmu Heps H1 H2 HF0) as (SHF0&QF0). fold L in SHF0, QF0.
    rewrite V2 in HF.
    assert (SHF : shaped L 6 1 F).
    { intros r1 r2 RK. destruct (evolve_E_dims _ _ _ _ _ _ _ (HF r1 r2 RK)) as (A&B&C&D).
      destruct (SG r1 r2 RK) as (A'&B'&C'&D'). repeat split; congruence. }
    (* the walls only touch ghost cells of E, which this update does not read *)
    assert (AG : forall k r1 r2 i j, inb 6 k -> rank_ok L r1 r2 ->
      (ng1 L <= i < ng1 L + bsize (blk1 L) r1)%Z -> (ng2 L <= j < ng2 L + bsize (blk2 L) r2)%Z ->
      el (F r1 r2) k 0 i j = el (F0 r1 r2) k 0 i j).
    { intros k r1 r2 i j Hk RK Hi Hj.
      destruct (proj1 SY1 r1 r2 RK) as (D0&D1&D2&D3). destruct (SG r1 r2 RK) as (D0'&D1'&D2'&D3').
      destruct (box_bcs r1 r2 (ftime s1) (yee_val s1 r1 r2) RK D0 D1 D2 D3) as (a'&HA&_&MB&MO&_).
      assert (EA : a' = G r1 r2) by (rewrite (HG r1 r2 RK) in HA; congruence). subst a'.
      destruct (evolve_E_el c dt _ _ _ _ _ Hh D0' D1' (HF r1 r2 RK)) as (_&LE).
      destruct (evolve_E_el c dt _ _ _ _ _ Hh D0 D1 (HF0 r1 r2 RK)) as (_&LE0).
      assert (I1 : (0 <= i < n1g L r1 - 1)%Z) by (unfold n1g; lia).
      assert (I2 : (0 <= j < n2g L r2 - 1)%Z) by (unfold n2g; lia).
      destruct (LE i j ltac:(rewrite D2'; exact I1) ltac:(rewrite D3'; exact I2)) as (X0&X1&X2&X3&X4&X5).
      destruct (LE0 i j ltac:(rewrite D2; exact I1) ltac:(rewrite D3; exact I2)) as (Y0&Y1&Y2&Y3&Y4&Y5).
      assert (K : (k = 0 \/ k = 1 \/ k = 2 \/ k = 3 \/ k = 4 \/ k = 5)%Z) by (unfold inb in Hk; lia).
      assert (BI : forall k i j, (3 <= k < 6)%Z -> (0 <= i < n1g L r1)%Z -> (0 <= j < n2g L r2)%Z -> el (G r1 r2) k 0 i j = el (yee_val s1 r1 r2) k 0 i j)
        by (intros; apply MB; auto).
      assert (OI : forall k, inb 6 k -> el (G r1 r2) k 0 i j = el (yee_val s1 r1 r2) k 0 i j) by (intros; apply MO; auto).
      rewrite !OI, (BI 5%Z i (j + 1)%Z) in X0 by (unfold inb; lia).
      rewrite !OI, (BI 5%Z (i + 1)%Z j) in X1 by (unfold inb; lia).
      rewrite !OI, (BI 4%Z (i + 1)%Z j), (BI 3%Z i (j + 1)%Z) in X2 by (unfold inb; lia).
      rewrite OI in X3 by (unfold inb; lia). rewrite OI in X4 by (unfold inb; lia). rewrite OI in X5 by (unfold inb; lia).
      destruct K as [K|[K|[K|[K|[K|K]]]]]; subst k; congruence. }
    assert (QF : same (view L F) (ampere (fdq1 c) (fdq2 c) (eps c) (mu c) dt (grid_of L J1) (grid_of L J2) (grid_of L J3) (lat c s))).
    { eapply same_trans; [|eapply same_trans; [exact QF0|apply ampere_same; exact Q1]].
      unfold same; cbn [view E1 E2 E3 B1 B2 B3].
      repeat split; intros; apply gper_ext2; auto; intros; apply AG; auto; unfold inb; lia. }
    set (s3 := communicate_fields c true (write (yee s2) F s2)).
    assert (W3 : wf_em c s3) by (apply wf_comm, wf_write; auto).
    assert (FR3 : frame s s3) by (apply frame_comm_trans, frame_write; auto).
    assert (V3 : yee_val s3 = communicate L 6 1 (fbuf (write (yee s2) F s2)) F).
    { unfold s3. rewrite yee_val_communicate, yee_val_write. reflexivity. }
    assert (SY3 : synced L (yee_val s3) everywhere) by (rewrite V3; apply communicate_synced; auto).
    assert (Q3 : same (view L (yee_val s3)) (view L F)) by (rewrite V3; apply view_communicate; auto).
    destruct (box_apply s3 (shaped_yee c s3 W3)) as (G4&AB4&SG4&HG4). rewrite AB4. cbn [rbind].
    set (s4 := write (yee s3) G4 s3).
    assert (V4 : yee_val s4 = G4) by apply yee_val_write.
    destruct (box_faraday dt (ftime s3) (yee_val s3) G4 SY3 HG4) as (SF&MF).
    eexists. split; [reflexivity|]. rewrite V4.
    split; [apply wf_write; auto; apply wf_write; auto|].
    split; [apply frame_write, frame_write; auto|].
    exists (faraday_walls w1 w2 (gN1 L) (gN2 L) (fdq1 c) (fdq2 c) dt (view L (yee_val s3))).
    split; [apply per_faraday; repeat split; apply per_gper|].
    split; [rewrite yee_val_write; exact MF|].
    assert (FS : forall Y Z, same Y Z -> same (faraday_walls w1 w2 (gN1 L) (gN2 L) (fdq1 c) (fdq2 c) dt Y)
                                              (faraday_walls w1 w2 (gN1 L) (gN2 L) (fdq1 c) (fdq2 c) dt Z)).
    { intros Y Z (A&B&C&D&E&F'). unfold same, faraday_walls, before1, before2; cbn [E1 E2 E3 B1 B2 B3].
      repeat split; intros; rewrite ?A, ?B, ?C, ?D, ?E, ?F'; reflexivity. }
    unfold wall_step. apply FS. eapply same_trans; [exact Q3|exact QF].
  Qed.

  Lemma centred_per Y : per_lattice Y -> per_lattice (centred Y).
  Proof.
    intros (P1&P2&P3&P4&P5&P6). unfold per_lattice, centred; cbn [E1 E2 E3 B1 B2 B3].
    split; [|split; [|split; [|split; [|split]]]]; auto; intros g1 g2 m1 m2; cbv beta;
      rewrite ?(Z.add_shuffle0 g1 (m1 * gN1 L) 1), ?(Z.add_shuffle0 g2 (m2 * gN2 L) 1);
      rewrite ?P1, ?P2, ?P3, ?P4, ?P5, ?P6; reflexivity.
  Qed.

  Lemma box_centred (F G : dist R) Y : shaped L 6 1 F -> per_lattice Y -> matches F Y ->
    same (view L (dmap2 (yee_to_cc_rank Both) F G)) (centred Y).
  Proof.
    intros SH PY M. pose proof (centred_per Y PY) as (P1&P2&P3&P4&P5&P6).
    unfold same; cbn [view E1 E2 E3 B1 B2 B3].
    pose proof (fun r1 r2 (RK : rank_ok L r1 r2) i j (Hi : (ng1 L <= i < ng1 L + bsize (blk1 L) r1)%Z)
       (Hj : (ng2 L <= j < ng2 L + bsize (blk2 L) r2)%Z) =>
       proj2 (yee_to_cc_el Both (F r1 r2) (G r1 r2) (proj1 (proj2 (SH r1 r2 RK)))) i j
          ltac:(destruct (SH r1 r2 RK) as (_&_&->&_); unfold n1g; lia)
          ltac:(destruct (SH r1 r2 RK) as (_&_&_&->); unfold n2g; lia)) as LOC.
    cbn [does_E does_B] in LOC.
    assert (Q1 : forall r1 i, (off (blk1 L) r1 + (i + 1) - ng1 L = off (blk1 L) r1 + i - ng1 L + 1)%Z) by (intros; lia).
    assert (Q2 : forall r2 j, (off (blk2 L) r2 + (j + 1) - ng2 L = off (blk2 L) r2 + j - ng2 L + 1)%Z) by (intros; lia).
    assert (MM : (forall r1 r2 i j, rank_ok L r1 r2 ->
     (ng1 L <= i < ng1 L + bsize (blk1 L) r1)%Z -> (ng2 L <= j < ng2 L + bsize (blk2 L) r2)%Z ->
     let x := (off (blk1 L) r1 + i - ng1 L)%Z in
     let y := (off (blk2 L) r2 + j - ng2 L)%Z in
     (el (F r1 r2) 0 0 i j = E1 Y x y /\ el (F r1 r2) 0 0 (i + 1) j = E1 Y (x + 1) y)
     /\ (el (F r1 r2) 1 0 i j = E2 Y x y /\ el (F r1 r2) 1 0 i (j + 1) = E2 Y x (y + 1))
     /\ el (F r1 r2) 2 0 i j = E3 Y x y
     /\ (el (F r1 r2) 3 0 i j = B1 Y x y /\ el (F r1 r2) 3 0 i (j + 1) = B1 Y x (y + 1))
     /\ (el (F r1 r2) 4 0 i j = B2 Y x y /\ el (F r1 r2) 4 0 (i + 1) j = B2 Y (x + 1) y)
     /\ (el (F r1 r2) 5 0 i j = B3 Y x y /\ el (F r1 r2) 5 0 (i + 1) j = B3 Y (x + 1) y
        /\ el (F r1 r2) 5 0 i (j + 1) = B3 Y x (y + 1) /\ el (F r1 r2) 5 0 (i + 1) (j + 1) = B3 Y (x + 1) (y + 1)))%Z).
    { intros r1 r2 i j RK Hi Hj x y.
      destruct (M r1 r2 i j RK ltac:(lia) ltac:(lia)) as (a0&a1&a2&a3&a4&a5).
      destruct (M r1 r2 (i + 1)%Z j RK ltac:(lia) ltac:(lia)) as (b0&b1&b2&b3&b4&b5).
      destruct (M r1 r2 i (j + 1)%Z RK ltac:(lia) ltac:(lia)) as (c0&c1&c2&c3&c4&c5).
      destruct (M r1 r2 (i + 1)%Z (j + 1)%Z RK ltac:(lia) ltac:(lia)) as (_&_&_&_&_&e5).
      rewrite Q1 in *. rewrite Q2 in *. fold x y in a0, a1, a2, a3, a4, a5, b0, b1, b2, b3, b4, b5, c0, c1, c2, c3, c4, c5, e5.
      unfold own1, own2 in *. repeat split; auto. }
    repeat split; apply grid_ind; auto;
    intros r1 r2 i j RK Hi Hj; destruct (LOC r1 r2 RK i j Hi Hj) as ((X0&X1&X2)&(X3&X4&X5)); unfold dmap2;
    destruct (MM r1 r2 i j RK Hi Hj) as ((m0&m1)&(m2&m3)&m4&(m5&m6)&(m7&m8)&(m9&m10&m11&m12));
    cbn [centred E1 E2 E3 B1 B2 B3].
    - rewrite X0, m0, m1. reflexivity.
    - rewrite X1, m2, m3. reflexivity.
    - rewrite X2, m4. reflexivity.
    - rewrite X3, m5, m6. reflexivity.
    - rewrite X4, m7, m8. reflexivity.
    - rewrite X5, m9, m10, m11, m12. reflexivity.
  Qed.

  Lemma evolve_box J1 J2 J3 dt s : hybrid c = false -> wf_em c s ->
    exists s', evolve_electrodynamic_fields c J1 J2 J3 dt s = Ok s'
    /\ wf_em c s' /\ ftime s' = ftime s + dt
    /\ same (lat c s') (wall_step w1 w2 (gN1 L) (gN2 L) (fdq1 c) (fdq2 c) (eps c) (mu c) dt
          (grid_of L (dmap asum1 J1)) (grid_of L (dmap asum1 J2)) (grid_of L (dmap asum1 J3)) (lat c s))
    /\ (aliased s -> aliased s' /\ same (view L (cc_val s'))
             (EB (mid (view L (cc_val s)) (centred (lat c s'))) (centred (lat c s')))).
  Proof.
    intros Hh W. rewrite evolve_split.
    destruct (before_fdtd_ok c s W) as (W1&Y1&C1&_&N1&HH1&A1&T1&_).
    assert (BC : aliased s -> same (view (flay c) (cc_val (before_fdtd s))) (view (flay c) (cc_val s)))
      by (intros; apply before_fdtd_cc; auto).
    revert W1 Y1 C1 N1 HH1 A1 T1 BC. generalize (before_fdtd s). intros s1 W1 Y1 C1 N1 HH1 A1 T1 BC.
    destruct (fdtd_box dt (dmap asum1 J1) (dmap asum1 J2) (dmap asum1 J3) s1 Hh W1) as (s2&ES&W2&FR&Z&PZ&MZ&QZ).
    rewrite ES. cbn [rbind].
    set (En := dmap (rows 0 3) (cc_val s)).
    destruct (after_fdtd_ok c En dt s2 W2) as (W3&Y3&C3&_&N3&HH3&A3&T3).
    destruct FR as (FC&FN&FH&FA&FT&_&_&FM).
    eexists. split; [reflexivity|]. set (s' := after_fdtd En dt s2) in *.
    assert (LS : lat c s1 = lat c s) by (unfold lat; rewrite Y1; reflexivity).
    assert (LS' : lat c s' = lat c s2) by (unfold lat; rewrite Y3; reflexivity).
    assert (VZ : same (lat c s2) Z) by (apply matches_view; auto).
    split; [exact W3|]. split; [rewrite T3, FT, T1; reflexivity|].
    split; [rewrite LS', <- LS; eapply same_trans; [exact VZ|exact QZ]|].
    intros AL. assert (AL' := AL). destruct AL' as (AN&AH).
    assert (ALs2 : aliased s2) by (split; congruence).
    split; [split; congruence|].
    pose proof (box_centred (yee_val s2) (cc_val s2) Z (shaped_yee c s2 W2) PZ MZ) as YC.
    set (V := dmap2 (yee_to_cc_rank Both) (yee_val s2) (cc_val s2)) in *.
    assert (CZ : same (centred (lat c s')) (centred Z)).
    { rewrite LS'. destruct VZ as (A&B&C&D&E&F). unfold same, centred; cbn [E1 E2 E3 B1 B2 B3].
      repeat split; intros; rewrite ?A, ?B, ?C, ?D, ?E, ?F; reflexivity. }
    assert (CV : cc_val s' = dmap2 (set_rows 0 3) (dmap2 mean2 En (dmap (rows 0 3) V)) V).
    { unfold s', after_fdtd, yee_grid_to_cell_centered_grid, cc_val.
      cbn [set_ftime write cc cc_nh yee mem]. destruct ALs2 as (_&->). rewrite !Nat.eqb_refl. reflexivity. }
    assert (EE : forall k x y, (0 <= k < 3)%Z ->
       gper L (cc_val s') k 0 x y = (gper L (cc_val s) k 0 x y + gper L V k 0 x y) / 2).
    { intros k x y Hk. revert x y. apply grid_ind; auto; [gper_per PL|].
      intros r1 r2 i j RK Hi Hj. rewrite CV. rewrite !gper_interior by auto.
      unfold dmap2, dmap, mean2, ascale, set_rows, rows, amap, amap2; cbn [el].
      replace ((0 <=? k) && (k <? 3))%Z%bool with true by lia.
      unfold En, dmap, rows; cbn [el]. replace (0 + (k - 0))%Z with k by lia. field. }
    assert (BB : forall k x y, (3 <= k)%Z -> gper L (cc_val s') k 0 x y = gper L V k 0 x y).
    { intros k x y Hk. apply gper_ext2; auto. intros r1 r2 i j RK Hi Hj. rewrite CV.
      unfold dmap2 at 1; unfold set_rows; cbn [el].
      replace ((0 <=? k) && (k <? 3))%Z%bool with false by lia. reflexivity. }
    destruct YC as (Z1&Z2&Z3&Z4&Z5&Z6). destruct CZ as (U1&U2&U3&U4&U5&U6).
    unfold same. cbn [view EB mid E1 E2 E3 B1 B2 B3] in *.
    repeat split; intros; first [rewrite EE by lia|rewrite BB by lia];
      rewrite ?Z1, ?Z2, ?Z3, ?Z4, ?Z5, ?Z6, ?U1, ?U2, ?U3, ?U4, ?U5, ?U6; reflexivity.
  Qed.

  (** ** Histories *)
  Lemma wall_step_same h1 h2 e m dt J1 J2 J3 Y Z : same Y Z ->
    same (wall_step w1 w2 (gN1 L) (gN2 L) h1 h2 e m dt J1 J2 J3 Y) (wall_step w1 w2 (gN1 L) (gN2 L) h1 h2 e m dt J1 J2 J3 Z).
  Proof.
    intros (A&B&C&D&E&F). unfold wall_step, faraday_walls, ampere, before1, before2, same, fwd1, fwd2; cbn [E1 E2 E3 B1 B2 B3].
    repeat split; intros; rewrite ?A, ?B, ?C, ?D, ?E, ?F; reflexivity.
  Qed.
  Lemma wall_run_same h1 h2 e m l : forall Y Z, same Y Z ->
    same (wall_run w1 w2 (gN1 L) (gN2 L) h1 h2 e m l Y) (wall_run w1 w2 (gN1 L) (gN2 L) h1 h2 e m l Z).
  Proof.
    induction l as [|(((dt&J1)&J2)&J3) l IH]; intros Y Z H; cbn [wall_run]; auto.
    apply IH, wall_step_same; auto.
  Qed.

  Lemma events_box l : hybrid c = false -> forall s, wf_em c s -> aliased s ->
    exists s', do_events c l s = Ok s' /\ wf_em c s' /\ aliased s'
    /\ same (lat c s') (wall_run w1 w2 (gN1 L) (gN2 L) (fdq1 c) (fdq2 c) (eps c) (mu c) (currents_of L l) (lat c s)).
  Proof.
    intros Hh. induction l as [|e l IH]; intros s W A; cbn [do_events currents_of wall_run].
    { exists s. split; [reflexivity|]. split; [exact W|]. split; [exact A|]. unfold same; repeat split; reflexivity. }
    destruct e as [J1 J2 J3 dt| |]; cbn [do_event].
    - destruct (evolve_box J1 J2 J3 dt s Hh W) as (s1&->&W1&_&Q1&A1). cbn [rbind].
      destruct (IH s1 W1 (proj1 (A1 A))) as (s'&->&W'&A'&Q').
      exists s'. split; [reflexivity|]. split; [auto|]. split; [auto|].
      cbn [wall_run]. eapply same_trans; [exact Q'|]. apply wall_run_same. exact Q1.
    - cbn [rbind].
      assert (WG : wf_em c (snd (get_fields c s)) /\ aliased (snd (get_fields c s))).
      { unfold get_fields; cbn [snd]. destruct (String.eqb (method_in_p c) "FVM"); auto. }
      destruct (IH _ (proj1 WG) (proj2 WG)) as (s'&->&W'&A'&Q').
      exists s'. split; [reflexivity|]. split; [auto|]. split; [auto|].
      unfold lat in Q' at 2. rewrite (proj1 (get_fields_keeps c s)) in Q'. exact Q'.
    - cbn [rbind]. change (snd (compute_divE c s)) with (communicate_fields c true s).
      assert (WG : wf_em c (communicate_fields c true s)) by (apply wf_comm; auto).
      destruct (IH _ WG A) as (s'&->&W'&A'&Q').
      exists s'. split; [reflexivity|]. split; [auto|]. split; [auto|].
      eapply same_trans; [exact Q'|]. apply wall_run_same.
      unfold lat. rewrite yee_val_communicate. apply view_communicate; [exact PL|apply shaped_yee; auto].
  Qed.
End Box.
