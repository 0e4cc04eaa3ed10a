(** Interpolation between the grids, and evolve_electrodynamic_fields. *)
From Coq Require Import ZArith Reals Lia Lra String List Bool.
From Verif Require Import Base.Prelude Base.ZSum Model.Af Model.Grid Model.Petsc Model.Config
  Model.Boundaries Model.Fvm Model.Em Spec.Domain Spec.Yee Spec.EmRun
  Proofs.AfLemmas Proofs.PetscLemmas Proofs.EmLemmas Proofs.EmStep.
Import ListNotations.
Local Open Scope R_scope.

Lemma yee_to_cc_el w y a : d1 y = 1%Z ->
  let a' := yee_to_cc_rank w y a in
  (d0 a' = d0 a /\ d1 a' = d1 a /\ d2 a' = d2 a /\ d3 a' = d3 a)
  /\ forall i j, (0 <= i < d2 y - 1)%Z -> (0 <= j < d3 y - 1)%Z ->
    (if does_E w then
       el a' 0 0 i j = (el y 0 0 i j + el y 0 0 (i + 1) j) / 2
       /\ el a' 1 0 i j = (el y 1 0 i j + el y 1 0 i (j + 1)) / 2
       /\ el a' 2 0 i j = el y 2 0 i j
     else el a' 0 0 i j = el a 0 0 i j /\ el a' 1 0 i j = el a 1 0 i j /\ el a' 2 0 i j = el a 2 0 i j)
    /\ (if does_B w then
       el a' 3 0 i j = (el y 3 0 i j + el y 3 0 i (j + 1)) / 2
       /\ el a' 4 0 i j = (el y 4 0 i j + el y 4 0 (i + 1) j) / 2
       /\ el a' 5 0 i j = (el y 5 0 i j + el y 5 0 i (j + 1) + el y 5 0 (i + 1) j + el y 5 0 (i + 1) (j + 1)) / 4
     else el a' 3 0 i j = el a 3 0 i j /\ el a' 4 0 i j = el a 4 0 i j /\ el a' 5 0 i j = el a 5 0 i j).
Proof.
  intros D1 a'. split; [destruct w; repeat split|].
  intros i j Hi Hj. subst a'. unfold yee_to_cc_rank.
  destruct w; cbn [does_E does_B]; local_el; rewrite ?D1, ?mod1, ?succ_mod, ?zero_mod by lia;
    repeat split; try reflexivity; field.
Qed.

Lemma cc_to_yee_el w y a : d1 y = 1%Z ->
  let a' := cc_to_yee_rank w y a in
  (d0 a' = d0 a /\ d1 a' = d1 a /\ d2 a' = d2 a /\ d3 a' = d3 a)
  /\ forall i j, (1 <= i < d2 y)%Z -> (1 <= j < d3 y)%Z ->
    (if does_E w then
       el a' 0 0 i j = (el y 0 0 i j + el y 0 0 (i - 1) j) / 2
       /\ el a' 1 0 i j = (el y 1 0 i j + el y 1 0 i (j - 1)) / 2
       /\ el a' 2 0 i j = el y 2 0 i j
     else el a' 0 0 i j = el a 0 0 i j /\ el a' 1 0 i j = el a 1 0 i j /\ el a' 2 0 i j = el a 2 0 i j)
    /\ (if does_B w then
       el a' 3 0 i j = (el y 3 0 i j + el y 3 0 i (j - 1)) / 2
       /\ el a' 4 0 i j = (el y 4 0 i j + el y 4 0 (i - 1) j) / 2
       /\ el a' 5 0 i j = (el y 5 0 i j + el y 5 0 (i - 1) j + el y 5 0 i (j - 1) + el y 5 0 (i - 1) (j - 1)) / 4
     else el a' 3 0 i j = el a 3 0 i j /\ el a' 4 0 i j = el a 4 0 i j /\ el a' 5 0 i j = el a 5 0 i j).
Proof.
  intros D1 a'. split; [destruct w; repeat split|].
  intros i j Hi Hj. subst a'. unfold cc_to_yee_rank.
  destruct w; cbn [does_E does_B]; local_el; rewrite ?D1, ?mod1, ?pred_mod, ?zero_mod by lia;
    repeat split; try reflexivity; field.
Qed.

(** The neighbours an interpolation or a difference reads. *)
Lemma synced_near L F P r1 r2 k i j di dj : periodic_layout L -> synced L F P ->
  (forall k i j, (1 <= i)%Z -> (1 <= j)%Z -> P k i j) ->
  rank_ok L r1 r2 -> inb 6 k ->
  (ng1 L <= i < ng1 L + bsize (blk1 L) r1)%Z -> (ng2 L <= j < ng2 L + bsize (blk2 L) r2)%Z ->
  (0 <= di <= 1)%Z -> (0 <= dj <= 1)%Z ->
  el (F r1 r2) k 0 (i + di) (j + dj)
  = gper L F k 0 (off (blk1 L) r1 + i - ng1 L + di) (off (blk2 L) r2 + j - ng2 L + dj).
Proof.
  intros (_&_&G1&G2&_) (SH&SY) HP RK Hk Hi Hj Hdi Hdj.
  rewrite SY; auto; [f_equal; lia|unfold inb, n1g; lia|unfold inb, n2g; lia|apply HP; lia].
Qed.

Lemma after_faraday_inner k i j : (1 <= i)%Z -> (1 <= j)%Z -> after_faraday k i j.
Proof. unfold after_faraday. lia. Qed.

Lemma yee_to_cc_lift L w (F G : dist R) P :
  periodic_layout L -> synced L F P -> (forall k i j, (1 <= i)%Z -> (1 <= j)%Z -> P k i j) ->
  same (view L (dmap2 (yee_to_cc_rank w) F G))
       (EB (if does_E w then centred (view L F) else view L G)
           (if does_B w then centred (view L F) else view L G)).
Proof.
  intros PL SY HP. assert (PL' := PL). destruct PL' as (_&_&G1&G2&_).
  assert (NB : forall r1 r2 k i j, rank_ok L r1 r2 -> inb 6 k ->
     (ng1 L <= i < ng1 L + bsize (blk1 L) r1)%Z -> (ng2 L <= j < ng2 L + bsize (blk2 L) r2)%Z ->
     let x := (off (blk1 L) r1 + i - ng1 L)%Z in
     let y := (off (blk2 L) r2 + j - ng2 L)%Z in
     el (F r1 r2) k 0 i j = gper L F k 0 x y
     /\ el (F r1 r2) k 0 (i + 1) j = gper L F k 0 (x + 1) y
     /\ el (F r1 r2) k 0 i (j + 1) = gper L F k 0 x (y + 1)
     /\ el (F r1 r2) k 0 (i + 1) (j + 1) = gper L F k 0 (x + 1) (y + 1)).
  { intros r1 r2 k i j RK Hk Hi Hj x y.
    pose proof (synced_near L F P r1 r2 k i j 0%Z 0%Z PL SY HP RK Hk Hi Hj ltac:(lia) ltac:(lia)) as X.
    pose proof (synced_near L F P r1 r2 k i j 1%Z 0%Z PL SY HP RK Hk Hi Hj ltac:(lia) ltac:(lia)) as Y.
    pose proof (synced_near L F P r1 r2 k i j 0%Z 1%Z PL SY HP RK Hk Hi Hj ltac:(lia) ltac:(lia)) as Z.
    pose proof (synced_near L F P r1 r2 k i j 1%Z 1%Z PL SY HP RK Hk Hi Hj ltac:(lia) ltac:(lia)) as W.
    rewrite !Z.add_0_r in *. auto. }
  assert (GI : forall r1 r2 k i j, rank_ok L r1 r2 ->
     (ng1 L <= i < ng1 L + bsize (blk1 L) r1)%Z -> (ng2 L <= j < ng2 L + bsize (blk2 L) r2)%Z ->
     el (G r1 r2) k 0 i j = gper L G k 0 (off (blk1 L) r1 + i - ng1 L) (off (blk2 L) r2 + j - ng2 L))
    by (intros; symmetry; apply gper_interior; auto).
  assert (LOC : forall r1 r2 i j, rank_ok L r1 r2 ->
     (ng1 L <= i < ng1 L + bsize (blk1 L) r1)%Z -> (ng2 L <= j < ng2 L + bsize (blk2 L) r2)%Z -> _)
    by (intros r1 r2 i j RK Hi Hj; destruct (proj1 SY r1 r2 RK) as (D0&D1&D2&D3);
        exact (proj2 (yee_to_cc_el w (F r1 r2) (G r1 r2) D1) i j
          ltac:(rewrite D2; unfold n1g; lia) ltac:(rewrite D3; unfold n2g; lia))).
  unfold same. cbn [view EB E1 E2 E3 B1 B2 B3].
  repeat split; apply grid_ind; auto;
    try (destruct w; cbn [does_E does_B centred view E1 E2 E3 B1 B2 B3]; gper_per PL; fail);
    intros r1 r2 i j RK Hi Hj; destruct (LOC r1 r2 i j RK Hi Hj) as (LE&LB); unfold dmap2;
    destruct w; cbn [does_E does_B centred view E1 E2 E3 B1 B2 B3] in *;
    destruct LE as (X0&X1&X2); destruct LB as (X3&X4&X5);
    first [rewrite X0|rewrite X1|rewrite X2|rewrite X3|rewrite X4|rewrite X5];
    try (apply GI; auto; fail);
    match goal with |- context [el (F r1 r2) ?k 0 _ _] =>
      destruct (NB r1 r2 k i j RK ltac:(unfold inb; lia) Hi Hj) as (n0&n1&n2&n3) end;
    rewrite ?n0, ?n1, ?n2, ?n3; reflexivity.
Qed.

Lemma cc_to_yee_lift L w (F G : dist R) :
  periodic_layout L -> synced L F everywhere ->
  same (view L (dmap2 (cc_to_yee_rank w) F G))
       (EB (if does_E w then staggered (view L F) else view L G)
           (if does_B w then staggered (view L F) else view L G)).
Proof.
  intros PL SY. assert (PL' := PL). destruct PL' as (_&_&G1&G2&_).
  assert (NB : forall r1 r2 k i j, rank_ok L r1 r2 -> inb 6 k ->
     (ng1 L <= i < ng1 L + bsize (blk1 L) r1)%Z -> (ng2 L <= j < ng2 L + bsize (blk2 L) r2)%Z ->
     let x := (off (blk1 L) r1 + i - ng1 L)%Z in
     let y := (off (blk2 L) r2 + j - ng2 L)%Z in
     el (F r1 r2) k 0 i j = gper L F k 0 x y
     /\ el (F r1 r2) k 0 (i - 1) j = gper L F k 0 (x - 1) y
     /\ el (F r1 r2) k 0 i (j - 1) = gper L F k 0 x (y - 1)
     /\ el (F r1 r2) k 0 (i - 1) (j - 1) = gper L F k 0 (x - 1) (y - 1)).
  { intros r1 r2 k i j RK Hk Hi Hj x y. destruct SY as (SH&SY).
    repeat split; (rewrite SY;
      [subst x y; f_equal; lia|exact RK|exact Hk|unfold inb, n1g; lia|unfold inb, n2g; lia|exact I]). }
  assert (GI : forall r1 r2 k i j, rank_ok L r1 r2 ->
     (ng1 L <= i < ng1 L + bsize (blk1 L) r1)%Z -> (ng2 L <= j < ng2 L + bsize (blk2 L) r2)%Z ->
     el (G r1 r2) k 0 i j = gper L G k 0 (off (blk1 L) r1 + i - ng1 L) (off (blk2 L) r2 + j - ng2 L))
    by (intros; symmetry; apply gper_interior; auto).
  assert (LOC : forall r1 r2 i j, rank_ok L r1 r2 ->
     (ng1 L <= i < ng1 L + bsize (blk1 L) r1)%Z -> (ng2 L <= j < ng2 L + bsize (blk2 L) r2)%Z -> _)
    by (intros r1 r2 i j RK Hi Hj; destruct (proj1 SY r1 r2 RK) as (D0&D1&D2&D3);
        exact (proj2 (cc_to_yee_el w (F r1 r2) (G r1 r2) D1) i j
          ltac:(rewrite D2; unfold n1g; lia) ltac:(rewrite D3; unfold n2g; lia))).
  unfold same. cbn [view EB E1 E2 E3 B1 B2 B3].
  repeat split; apply grid_ind; auto;
    try (destruct w; cbn [does_E does_B staggered view E1 E2 E3 B1 B2 B3]; gper_per PL; fail);
    intros r1 r2 i j RK Hi Hj; destruct (LOC r1 r2 i j RK Hi Hj) as (LE&LB); unfold dmap2;
    destruct w; cbn [does_E does_B staggered view E1 E2 E3 B1 B2 B3] in *;
    destruct LE as (X0&X1&X2); destruct LB as (X3&X4&X5);
    first [rewrite X0|rewrite X1|rewrite X2|rewrite X3|rewrite X4|rewrite X5];
    try (apply GI; auto; fail);
    match goal with |- context [el (F r1 r2) ?k 0 _ _] =>
      destruct (NB r1 r2 k i j RK ltac:(unfold inb; lia) Hi Hj) as (n0&n1&n2&n3) end;
    rewrite ?n0, ?n1, ?n2, ?n3; reflexivity.
Qed.

(** ** evolve_electrodynamic_fields *)
Definition before_fdtd (s : em) : em :=
  let E_at_n := dmap (rows 0 3) (cc_val s) in
  let s := write (cc_n s) (dmap2 (set_rows 0 3) E_at_n (mem s (cc_n s))) s in
  let B_at_n_minus_half := dmap (rows 3 6) (mem s (cc_nh s)) in
  let B_at_n_plus_half := dmap (rows 3 6) (cc_val s) in
  let B_at_n := dmap2 mean2 B_at_n_minus_half B_at_n_plus_half in
  let s := write (cc_n s) (dmap2 (set_rows 3 6) B_at_n (mem s (cc_n s))) s in
  write (cc_nh s) (dmap2 (set_rows 3 6) B_at_n_plus_half (mem s (cc_nh s))) s.

Definition after_fdtd (E_at_n : dist R) (dt : R) (s : em) : em :=
  let s := yee_grid_to_cell_centered_grid Both s in
  let E_at_n_plus_one := dmap (rows 0 3) (cc_val s) in
  let E_at_n_plus_half := dmap2 mean2 E_at_n E_at_n_plus_one in
  let s := write (cc_nh s) (dmap2 (set_rows 0 3) E_at_n_plus_half (mem s (cc_nh s))) s in
  set_ftime (ftime s + dt) s.

Lemma evolve_split c J1 J2 J3 dt s :
  evolve_electrodynamic_fields c J1 J2 J3 dt s
  = (let? s' := fdtd c dt (dmap asum1 J1, dmap asum1 J2, dmap asum1 J3) (before_fdtd s) in
     Ok (after_fdtd (dmap (rows 0 3) (cc_val s)) dt s')).
Proof. reflexivity. Qed.

Lemma mem_write_other l m v s : l <> m -> mem (write m v s) l = mem s l.
Proof. intros. unfold write; cbn [mem]. destruct (Nat.eqb_spec l m); congruence. Qed.
Lemma mem_write_same m v s : mem (write m v s) m = v.
Proof. unfold write; cbn [mem]. now rewrite Nat.eqb_refl. Qed.

Lemma wf_write_n c w lo hi G l s : (l < next s)%nat -> wf_em c s ->
  w = dmap2 (set_rows lo hi) G (mem s l) -> wf_em c (write l w s).
Proof.
  intros Hl W ->. apply wf_write; auto. apply shaped_dmap2; [repeat split|]. apply W. exact Hl.
Qed.

Lemma before_fdtd_ok c s : wf_em c s ->
  wf_em c (before_fdtd s) /\ yee_val (before_fdtd s) = yee_val s
  /\ cc (before_fdtd s) = cc s /\ yee (before_fdtd s) = yee s /\ cc_n (before_fdtd s) = cc_n s
  /\ cc_nh (before_fdtd s) = cc_nh s /\ at_n (before_fdtd s) = at_n s
  /\ ftime (before_fdtd s) = ftime s /\ next (before_fdtd s) = next s.
Proof.
  intros W. split; [|split; [|repeat split]].
  - unfold before_fdtd. cbn [write cc cc_n cc_nh].
    eapply wf_write_n; [| |reflexivity]; [cbn; apply W|].
    eapply wf_write_n; [| |reflexivity]; [cbn; apply W|].
    eapply wf_write_n; [| |reflexivity]; [cbn; apply W|exact W].
  - destruct W as (_&(A&B&C)&_). unfold before_fdtd, yee_val. cbn [write cc cc_n cc_nh yee].
    rewrite !mem_write_other; auto.
Qed.

Lemma shaped_y2c L w F G : shaped L 6 1 G -> shaped L 6 1 (dmap2 (yee_to_cc_rank w) F G).
Proof. apply shaped_dmap2. intros; destruct w; repeat split. Qed.
Lemma shaped_c2y L w F G : shaped L 6 1 G -> shaped L 6 1 (dmap2 (cc_to_yee_rank w) F G).
Proof. apply shaped_dmap2. intros; destruct w; repeat split. Qed.

Lemma after_fdtd_ok c E dt s : wf_em c s ->
  wf_em c (after_fdtd E dt s) /\ yee_val (after_fdtd E dt s) = yee_val s
  /\ cc (after_fdtd E dt s) = cc s /\ yee (after_fdtd E dt s) = yee s /\ cc_n (after_fdtd E dt s) = cc_n s
  /\ cc_nh (after_fdtd E dt s) = cc_nh s /\ at_n (after_fdtd E dt s) = at_n s
  /\ ftime (after_fdtd E dt s) = ftime s + dt.
Proof.
  intros W. split; [|split; [|repeat split]].
  - unfold after_fdtd. apply wf_ftime. unfold yee_grid_to_cell_centered_grid. cbn [write cc_nh].
    assert (W' : wf_em c (write (cc s) (dmap2 (yee_to_cc_rank Both) (yee_val s) (cc_val s)) s))
      by (apply wf_write; auto; apply shaped_y2c, shaped_cc; auto).
    eapply wf_write_n; [|exact W'|reflexivity]. exact (proj2 (proj2 (proj2 (proj1 W)))).
  - destruct W as (_&(A&B&C)&_). unfold after_fdtd, yee_val, yee_grid_to_cell_centered_grid.
    cbn [set_ftime write cc cc_nh yee mem].
    destruct (Nat.eqb_spec (yee s) (cc_nh s)); [congruence|].
    destruct (Nat.eqb_spec (yee s) (cc s)); [congruence|]. reflexivity.
Qed.

(** The three cell-centred attributes refer to one array. *)
Definition aliased (s : em) : Prop := cc_n s = cc s /\ cc_nh s = cc s.

Lemma gper_ext2 L (F G : dist R) k x y : periodic_layout L ->
  (forall r1 r2 i j, rank_ok L r1 r2 ->
     (ng1 L <= i < ng1 L + bsize (blk1 L) r1)%Z -> (ng2 L <= j < ng2 L + bsize (blk2 L) r2)%Z ->
     el (F r1 r2) k 0 i j = el (G r1 r2) k 0 i j) ->
  gper L F k 0 x y = gper L G k 0 x y.
Proof.
  intros PL H. revert x y. apply grid_ind; auto; [gper_per PL|].
  intros r1 r2 i j RK Hi Hj. rewrite H by auto. symmetry. apply gper_interior; auto.
Qed.

Lemma before_fdtd_cc c s : periodic_layout (flay c) -> aliased s ->
  same (view (flay c) (cc_val (before_fdtd s))) (view (flay c) (cc_val s)).
Proof.
  intros PL (A&B).
  unfold same; cbn [view E1 E2 E3 B1 B2 B3].
  repeat split; intros; apply gper_ext2; auto; intros r1 r2 x y RK Hx Hy;
    unfold before_fdtd, cc_val; cbn [write cc cc_n cc_nh yee mem]; rewrite !A, !B, !Nat.eqb_refl;
    unfold dmap2, dmap, mean2, amap2, ascale, rows, set_rows, amap, el; cbn; try reflexivity; field.
Qed.

Lemma evolve_ok c J1 J2 J3 dt s s' : regular c -> wf_em c s ->
  evolve_electrodynamic_fields c J1 J2 J3 dt s = Ok s' ->
  exists YE,
    wf_em c s' /\ synced (flay c) (yee_val s') after_faraday
    /\ same (lat c s') (faraday (fdq1 c) (fdq2 c) dt YE)
    /\ (forall i j, B1 YE i j = B1 (lat c s) i j) /\ (forall i j, B2 YE i j = B2 (lat c s) i j)
    /\ (forall i j, B3 YE i j = B3 (lat c s) i j)
    /\ (hybrid c = false ->
        same YE (ampere (fdq1 c) (fdq2 c) (eps c) (mu c) dt (grid_of (flay c) (dmap asum1 J1))
                   (grid_of (flay c) (dmap asum1 J2)) (grid_of (flay c) (dmap asum1 J3)) (lat c s)))
    /\ at_n s' = at_n s /\ ftime s' = ftime s + dt
    /\ (aliased s -> aliased s'
        /\ same (view (flay c) (cc_val s'))
             (EB (mid (view (flay c) (cc_val s)) (centred (lat c s'))) (centred (lat c s')))).
Proof.
  intros RG W H. rewrite evolve_split in H.
  destruct (before_fdtd_ok c s W) as (W1&Y1&C1&_&N1&H1&A1&T1&_).
  assert (BC : aliased s -> same (view (flay c) (cc_val (before_fdtd s))) (view (flay c) (cc_val s)))
    by (intros; apply before_fdtd_cc; auto; apply RG).
  revert H W1 Y1 C1 N1 H1 A1 T1 BC. generalize (before_fdtd s). intros s1 H W1 Y1 C1 N1 H1 A1 T1 BC.
  destruct (fdtd c dt (dmap asum1 J1, dmap asum1 J2, dmap asum1 J3) s1) as [s2|e] eqn:ES; cbn [rbind] in H;
    [|discriminate H].
  destruct (fdtd_gen c dt _ _ _ s1 s2 RG (shaped_yee c s1 W1) ES) as (YE&L2&S2&FR&XB1&XB2&XB3&XA).
  assert (W2 : wf_em c s2) by (eapply wf_fdtd; [apply RG|exact W1|exact ES]).
  set (En := dmap (rows 0 3) (cc_val s)) in *.
  assert (Es : s' = after_fdtd En dt s2) by congruence.
  destruct (after_fdtd_ok c En dt s2 W2) as (W3&Y3&C3&_&N3&H3&A3&T3).
  destruct FR as (FC&FN&FH&FA&FT&_&_&FM).
  assert (LS : lat c s1 = lat c s) by (unfold lat; rewrite Y1; reflexivity).
  assert (LS' : lat c s' = lat c s2) by (unfold lat; rewrite Es, Y3; reflexivity).
  assert (YS' : yee_val s' = yee_val s2) by (rewrite Es; exact Y3).
  exists YE. rewrite LS', YS'. rewrite LS in *.
  split; [rewrite Es; exact W3|]. split; [exact S2|]. split; [exact L2|].
  split; [exact XB1|]. split; [exact XB2|]. split; [exact XB3|]. split; [exact XA|].
  split; [rewrite Es; congruence|]. split; [rewrite Es, T3, FT, T1; reflexivity|].
  intros AL. assert (AL' := AL). destruct AL' as (AN&AH).
  assert (ALs2 : aliased s2) by (split; congruence).
  split; [rewrite Es; split; congruence|].
  assert (PL : periodic_layout (flay c)) by apply RG.
  pose proof (yee_to_cc_lift (flay c) Both (yee_val s2) (cc_val s2) after_faraday PL S2 after_faraday_inner) as YC.
  cbn [does_E does_B] in YC. fold (lat c s2) in YC.
  set (V := dmap2 (yee_to_cc_rank Both) (yee_val s2) (cc_val s2)) in *.
  assert (CV : cc_val s' = dmap2 (set_rows 0 3) (dmap2 mean2 En (dmap (rows 0 3) V)) V).
  { rewrite Es. unfold after_fdtd, yee_grid_to_cell_centered_grid, cc_val.
    cbn [set_ftime write cc cc_nh yee mem]. destruct ALs2 as (_&->). rewrite !Nat.eqb_refl. reflexivity. }
  assert (EE : forall k x y, (0 <= k < 3)%Z ->
     gper (flay c) (cc_val s') k 0 x y = (gper (flay c) (cc_val s) k 0 x y + gper (flay c) V k 0 x y) / 2).
  { intros k x y Hk. revert x y. apply grid_ind; auto; [gper_per PL|].
    intros r1 r2 i j RK Hi Hj. rewrite CV. rewrite !gper_interior by auto.
    unfold dmap2, dmap, mean2, ascale, set_rows, rows, amap, amap2; cbn [el].
    replace ((0 <=? k) && (k <? 3))%Z%bool with true by lia.
    unfold En, dmap, rows; cbn [el]. replace (0 + (k - 0))%Z with k by lia. field. }
  assert (BB : forall k x y, (3 <= k)%Z -> gper (flay c) (cc_val s') k 0 x y = gper (flay c) V k 0 x y).
  { intros k x y Hk. apply gper_ext2; auto. intros r1 r2 i j RK Hi Hj. rewrite CV.
    unfold dmap2 at 1; unfold set_rows; cbn [el].
    replace ((0 <=? k) && (k <? 3))%Z%bool with false by lia. reflexivity. }
  destruct YC as (Z1&Z2&Z3&Z4&Z5&Z6).
  unfold same. cbn [view EB mid centred lat E1 E2 E3 B1 B2 B3] in *.
  repeat split; intros; first [rewrite EE by lia|rewrite BB by lia]; rewrite ?Z1, ?Z2, ?Z3, ?Z4, ?Z5, ?Z6; reflexivity.
Qed.
