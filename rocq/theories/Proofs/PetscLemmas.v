(** Ghost exchange lemmas. *)
From Coq Require Import ZArith List Lia Reals.
From Verif Require Import Base.Prelude Base.ZSum Model.Af Model.Petsc Spec.Domain Proofs.AfLemmas.
Import ListNotations.
Local Open Scope Z_scope.

Lemma off_0 bl : off bl 0 = 0.
Proof. reflexivity. Qed.

Lemma off_S bl r : (r < length bl)%nat -> off bl (S r) = off bl r + bsize bl r.
Proof.
  revert r; induction bl as [|b t IH]; intros r H; simpl in H; [lia|].
  destruct r.
  - unfold off, bsize. simpl. lia.
  - specialize (IH r ltac:(lia)). unfold off, bsize in *. simpl in *. lia.
Qed.

Lemma off_cons b t r : off (b :: t) (S r) = b + off t r.
Proof. reflexivity. Qed.

Lemma zlsum_nonneg bl : Forall (fun b => 0 < b) bl -> 0 <= zlsum bl.
Proof. induction 1; simpl; [reflexivity|]. unfold zlsum in *. simpl. lia. Qed.

Lemma off_nonneg bl r : Forall (fun b => 0 < b) bl -> 0 <= off bl r.
Proof.
  intros H. revert r; induction H; intros r.
  - unfold off. rewrite firstn_nil. simpl. lia.
  - destruct r; [unfold off; simpl; lia|]. rewrite off_cons. specialize (IHForall r). lia.
Qed.

Lemma bsize_pos bl r : Forall (fun b => 0 < b) bl -> (r < length bl)%nat -> 0 < bsize bl r.
Proof. intros H Hr. unfold bsize. rewrite Forall_forall in H. apply H. apply nth_In; auto. Qed.

Lemma off_end bl r : Forall (fun b => 0 < b) bl -> (r < length bl)%nat ->
  off bl r + bsize bl r <= zlsum bl.
Proof.
  intros H. revert r; induction H; intros r Hr; simpl in Hr; [lia|].
  destruct r.
  - unfold off, bsize; simpl. pose proof (zlsum_nonneg l H0). unfold zlsum in *. lia.
  - rewrite off_cons. unfold bsize; simpl. specialize (IHForall r ltac:(lia)).
    unfold bsize in IHForall. unfold zlsum in *. lia.
Qed.

Lemma owner_spec bl g : Forall (fun b => 0 < b) bl -> 0 <= g < zlsum bl ->
  (owner bl g < length bl)%nat /\ off bl (owner bl g) <= g < off bl (owner bl g) + bsize bl (owner bl g).
Proof.
  intros H. revert g; induction H; intros g Hg.
  - unfold zlsum in Hg; simpl in Hg; lia.
  - simpl. destruct (Z.ltb_spec g x).
    + split; [simpl; lia|]. unfold off, bsize; simpl. lia.
    + unfold zlsum in Hg; simpl in Hg. destruct (IHForall (g - x)) as [A B]; [unfold zlsum; lia|].
      split; [simpl; lia|]. rewrite off_cons. unfold bsize in *; simpl. lia.
Qed.

Lemma owner_off bl r i : Forall (fun b => 0 < b) bl -> (r < length bl)%nat ->
  0 <= i < bsize bl r -> owner bl (off bl r + i) = r.
Proof.
  intros H. revert r; induction H; intros r Hr Hi; simpl in Hr; [lia|].
  destruct r.
  - unfold off, bsize in *; simpl in *. destruct (Z.ltb_spec i x); auto; lia.
  - rewrite off_cons. simpl. pose proof (off_nonneg l r H0).
    destruct (Z.ltb_spec (x + off l r + i) x); [lia|].
    f_equal. replace (x + off l r + i - x) with (off l r + i) by lia.
    apply IHForall; [lia|]. unfold bsize in *; simpl in Hi; auto.
Qed.

(** Interior slice of a local array. *)
Lemma slice_interior n g : 0 < g -> 0 <= n ->
  slice_bound (n + 2 * g) g = g /\ slice_len (n + 2 * g) g (i_end g) = n.
Proof.
  intros Hg Hn. unfold slice_len, slice_bound, i_end.
  destruct (Z.eqb_spec g 0); [lia|].
  destruct (Z.ltb_spec g 0); [lia|]. destruct (Z.ltb_spec (- g) 0); [|lia]. lia.
Qed.

Lemma interior_el {A} (L : layout) (a : arr A) r1 r2 p s i j :
  0 < ng1 L -> 0 < ng2 L -> d2 a = n1g L r1 -> d3 a = n2g L r2 ->
  0 <= bsize (blk1 L) r1 -> 0 <= bsize (blk2 L) r2 ->
  el (interior L a) p s i j = el a p s (ng1 L + i) (ng2 L + j)
  /\ d0 (interior L a) = d0 a /\ d1 (interior L a) = d1 a
  /\ d2 (interior L a) = bsize (blk1 L) r1 /\ d3 (interior L a) = bsize (blk2 L) r2.
Proof.
  intros G1 G2 D2 D3 B1 B2. unfold interior, slice23; simpl. rewrite D2, D3. unfold n1g, n2g.
  destruct (slice_interior (bsize (blk1 L) r1) (ng1 L)) as [X1 Y1]; auto.
  destruct (slice_interior (bsize (blk2 L) r2) (ng2 L)) as [X2 Y2]; auto.
  rewrite X1, X2, Y1, Y2. auto.
Qed.

(** The ghost exchange, periodic case: every local cell, ghosts included, holds
    the value of the periodic global cell it stands for. *)
Lemma communicate_el {A} (L : layout) nv0 nv1 old (F : dist A) r1 r2 p s i j :
  periodic_layout L -> shaped L nv0 nv1 F -> rank_ok L r1 r2 ->
  inb nv0 p -> inb nv1 s -> inb (n1g L r1) i -> inb (n2g L r2) j ->
  el (communicate L nv0 nv1 old F r1 r2) p s i j
  = gper L F p s (off (blk1 L) r1 + i - ng1 L) (off (blk2 L) r2 + j - ng2 L).
Proof.
  intros (T1&T2&G1&G2&P1&P2) SH (R1&R2) Hp Hs Hi Hj. unfold inb in *.
  destruct T1 as (N1&F1&S1). destruct T2 as (N2&F2&S2).
  unfold communicate, petsc_local_array_to_af, of_flat; simpl.
  assert (POS1 : 0 < n1g L r1) by lia.
  unfold global_to_local.
  set (x := lin nv0 nv1 (n1g L r1) p s i j).
  assert (Ex : x = (p + nv0 * s) + (nv0 * nv1) * (i + n1g L r1 * j)) by (unfold x, lin; ring).
  assert (B : 0 <= p + nv0 * s < nv0 * nv1) by nia.
  assert (Ec : x mod (nv0 * nv1) = p + nv0 * s).
  { rewrite Ex. apply mod_unique_small; nia. }
  assert (Ed : x / (nv0 * nv1) = i + n1g L r1 * j).
  { rewrite Ex. apply div_add_mul; nia. }
  rewrite Ec, Ed. rewrite mod_unique_small by lia. rewrite div_add_mul by lia.
  rewrite P1, P2. cbn [global_index].
  unfold gper, gval.
  set (g1 := (off (blk1 L) r1 + i - ng1 L) mod gN1 L).
  set (g2 := (off (blk2 L) r2 + j - ng2 L) mod gN2 L).
  assert (Hg1 : 0 <= g1 < gN1 L) by (apply Z.mod_pos_bound; lia).
  assert (Hg2 : 0 <= g2 < gN2 L) by (apply Z.mod_pos_bound; lia).
  destruct (owner_spec (blk1 L) g1) as [O1 I1]; [auto|lia|].
  destruct (owner_spec (blk2 L) g2) as [O2 I2]; [auto|lia|].
  set (o1 := owner (blk1 L) g1) in *. set (o2 := owner (blk2 L) g2) in *.
  destruct (SH o1 o2) as (D0&D1&D2&D3); [split; auto|].
  unfold af_to_petsc_glob_array.
  destruct (interior_el L (F o1 o2) o1 o2 p s (g1 - off (blk1 L) o1) (g2 - off (blk2 L) o2))
    as (E&E0&E1&E2&E3); auto; try lia.
  rewrite <- E.
  rewrite <- (flat_lin (interior L (F o1 o2))).
  - f_equal. rewrite E0, E1, E2, D0, D1. unfold lin. ring.
  - unfold inside, inb. rewrite E0, E1, E2, E3, D0, D1. lia.
Qed.

(** The same for any kind of edge: local cells that stand for a global cell hold
    its value. *)
Lemma communicate_gen {A} (L : layout) nv0 nv1 old (F : dist A) r1 r2 p s i j g1 g2 :
  tiles (gN1 L) (blk1 L) -> tiles (gN2 L) (blk2 L) -> 0 < ng1 L -> 0 < ng2 L ->
  shaped L nv0 nv1 F -> rank_ok L r1 r2 ->
  inb nv0 p -> inb nv1 s -> inb (n1g L r1) i -> inb (n2g L r2) j ->
  global_index (pbc1 L) (gN1 L) (off (blk1 L) r1 + i - ng1 L) = Some g1 ->
  global_index (pbc2 L) (gN2 L) (off (blk2 L) r2 + j - ng2 L) = Some g2 ->
  el (communicate L nv0 nv1 old F r1 r2) p s i j = gval L F p s g1 g2.
Proof.
  intros T1 T2 G1 G2 SH (R1&R2) Hp Hs Hi Hj I1 I2. unfold inb in *.
  destruct T1 as (N1&F1&S1). destruct T2 as (N2&F2&S2).
  assert (GI : forall b N g h, 0 < N -> global_index b N g = Some h -> 0 <= h < N).
  { intros b N g h HN. destruct b; cbn [global_index].
    - intros E. injection E as <-. apply Z.mod_pos_bound; auto.
    - destruct (Z.leb_spec 0 g), (Z.ltb_spec g N); cbn; intros E; inversion E; lia.
    - destruct (Z.leb_spec 0 g), (Z.ltb_spec g N); cbn; intros E; inversion E; lia. }
  assert (Hg1 := GI _ _ _ _ N1 I1). assert (Hg2 := GI _ _ _ _ N2 I2).
  unfold communicate, petsc_local_array_to_af, of_flat; simpl.
  assert (POS1 : 0 < n1g L r1) by lia.
  unfold global_to_local.
  set (x := lin nv0 nv1 (n1g L r1) p s i j).
  assert (Ex : x = (p + nv0 * s) + (nv0 * nv1) * (i + n1g L r1 * j)) by (unfold x, lin; ring).
  assert (B : 0 <= p + nv0 * s < nv0 * nv1) by nia.
  assert (Ec : x mod (nv0 * nv1) = p + nv0 * s).
  { rewrite Ex. apply mod_unique_small; nia. }
  assert (Ed : x / (nv0 * nv1) = i + n1g L r1 * j).
  { rewrite Ex. apply div_add_mul; nia. }
  rewrite Ec, Ed. rewrite mod_unique_small by lia. rewrite div_add_mul by lia.
  rewrite I1, I2. unfold gval.
  destruct (owner_spec (blk1 L) g1) as [O1 J1]; [auto|lia|].
  destruct (owner_spec (blk2 L) g2) as [O2 J2]; [auto|lia|].
  set (o1 := owner (blk1 L) g1) in *. set (o2 := owner (blk2 L) g2) in *.
  destruct (SH o1 o2) as (D0&D1&D2&D3); [split; auto|].
  unfold af_to_petsc_glob_array.
  destruct (interior_el L (F o1 o2) o1 o2 p s (g1 - off (blk1 L) o1) (g2 - off (blk2 L) o2))
    as (E&E0&E1&E2&E3); auto; try lia.
  rewrite <- E.
  rewrite <- (flat_lin (interior L (F o1 o2))).
  - f_equal. rewrite E0, E1, E2, D0, D1. unfold lin. ring.
  - unfold inside, inb. rewrite E0, E1, E2, E3, D0, D1. lia.
Qed.

Lemma communicate_shaped {A} (L : layout) nv0 nv1 old (F : dist A) :
  shaped L nv0 nv1 (communicate L nv0 nv1 old F).
Proof. intros r1 r2 _. repeat split. Qed.

(** Interior cells in terms of the global view. *)
Lemma gval_interior {A} (L : layout) (F : dist A) r1 r2 p s i j :
  Forall (fun b => 0 < b) (blk1 L) -> Forall (fun b => 0 < b) (blk2 L) ->
  rank_ok L r1 r2 -> inb (bsize (blk1 L) r1) i -> inb (bsize (blk2 L) r2) j ->
  gval L F p s (off (blk1 L) r1 + i) (off (blk2 L) r2 + j)
  = el (F r1 r2) p s (ng1 L + i) (ng2 L + j).
Proof.
  intros F1 F2 (R1&R2) Hi Hj. unfold gval.
  rewrite !owner_off by auto. f_equal; lia.
Qed.

Lemma gper_mod {A} (L : layout) (F : dist A) p s g1 g2 :
  0 < gN1 L -> 0 < gN2 L ->
  gper L F p s (g1 mod gN1 L) (g2 mod gN2 L) = gper L F p s g1 g2.
Proof. intros. unfold gper. rewrite !Z.mod_mod by lia. reflexivity. Qed.

Lemma gper_small {A} (L : layout) (F : dist A) p s g1 g2 :
  0 <= g1 < gN1 L -> 0 <= g2 < gN2 L -> gper L F p s g1 g2 = gval L F p s g1 g2.
Proof. intros. unfold gper. rewrite !Z.mod_small by lia. reflexivity. Qed.
