(** Runs in a shearing box against the textbook method on the global grid. *)
From Coq Require Import ZArith Reals Lra Lia Psatz String List Bool.
From Verif Require Import Base.Prelude Base.ZSum Model.Af Model.Grid Model.Petsc Model.Config
  Model.Boundaries Model.Fvm
  Spec.Limiters Spec.Stencil Spec.Lattice Spec.Domain Spec.FvmProblem Spec.FvmRun Spec.Mirror Spec.Walls Spec.Interp Spec.Shear
  Proofs.AfLemmas Proofs.PetscLemmas Proofs.ConvLemmas Proofs.FvmLemmas Proofs.FvmLemmas2
  Proofs.FvmConserve Proofs.BoundaryLemmas Proofs.BoundaryRun Proofs.FvmGeneral Proofs.FvmLines
  Proofs.InterpLemmas Proofs.SemiLagLemmas Proofs.ShearLemmas.
Import ListNotations.
Local Open Scope R_scope.

Section Run.
Variables (c : cfg) (w : weights) (ap : arr R -> arr R -> arr R -> arr R) (lr : bool) (k1 k2 : scheme).
Local Notation L := (lay c).
Local Notation g := (N_ghost c).
Hypothesis W : wf_cfg c k1 k2.
Hypothesis SF : shear_fvm c lr k1.
Hypothesis IT : interpolates_layers w ap.
Hypothesis US : uses c ap.

Lemma block_le bl N : tiles N bl -> Forall (fun b => (g <= b)%Z) bl -> (g <= N)%Z.
Proof.
  intros (HN&F&S) B. destruct bl as [|b bl]; [cbn in S; lia|].
  inversion F as [|? ? ? F']; inversion B; subst. pose proof (zlsum_nonneg bl F'). cbn in *. fold (zlsum bl). lia.
Qed.

Lemma sh_widths : (g <= gN1 L /\ g <= gN2 L)%Z.
Proof using SF.
  destruct SF. destruct sh_layout as (T1&T2&_). split; eapply block_le; eauto.
Qed.

Lemma mod_low G N : (- N <= G < 0)%Z -> (G mod N = G + N)%Z.
Proof. intros H. replace G with (G + N + (-1) * N)%Z at 1 by lia. rewrite Z_mod_plus_full. apply Z.mod_small. lia. Qed.
Lemma mod_high G N : (N <= G < 2 * N)%Z -> (G mod N = G - N)%Z.
Proof. intros H. replace G with (G - N + 1 * N)%Z at 1 by lia. rewrite Z_mod_plus_full. apply Z.mod_small. lia. Qed.

(** Both edges of the sheared pair applied to an array of one rank. *)
Lemma pair_lr r1 r2 t F U : lr = true -> in_time c lr t -> rank_ok L r1 r2 -> covers c r1 r2 F U ->
  exists f', apply_bcs_f c r1 r2 t F = Ok f' /\ q_shaped c r1 r2 f'
  /\ forall x s i j, inb (N_p c) x -> inb (N_species c) s -> inb (n1g L r1) i -> inb (n2g L r2) j ->
     el f' x s i j =
       let G1 := (off (blk1 L) r1 + i - ng1 L)%Z in let G2 := (off (blk2 L) r2 + j - ng2 L)%Z in
       if touches L r1 r2 ELeft && (i <? g)%Z then slid w (gN2 L) (U x s (G1 mod gN1 L)%Z) (IZR G2 - drift c lr t)
       else if touches L r1 r2 ERight && (n1g L r1 - g <=? i)%Z
            then slid w (gN2 L) (U x s (G1 mod gN1 L)%Z) (IZR G2 + drift c lr t)
       else U x s (G1 mod gN1 L)%Z (G2 mod gN2 L)%Z.
Proof using SF IT US.
  intros LR TM RK (QS&CV).
  destruct (edge_ranges c lr k1 r1 r2 SF RK) as (B1&B2&_).
  assert (GP : (0 < g)%Z) by (pose proof (sh_two c lr k1 SF); lia).
  assert (NG1 : ng1 L = g) by (eapply sh_ng1; eauto). assert (NG2 : ng2 L = g) by (eapply sh_ng2; eauto).
  assert (EL : in_q c ELeft = "shearing-box"%string) by (rewrite (sh_left c lr k1 SF), LR; reflexivity).
  assert (ER : in_q c ERight = "shearing-box"%string) by (rewrite (sh_right c lr k1 SF), LR; reflexivity).
  assert (EB : in_q c EBottom = "periodic"%string) by (rewrite (sh_bottom c lr k1 SF), LR; reflexivity).
  assert (ET : in_q c ETop = "periodic"%string) by (rewrite (sh_top c lr k1 SF), LR; reflexivity).
  assert (PB : forall f, maybe_edge c r1 r2 t EBottom f = Ok f).
  { intros. unfold maybe_edge, apply_edge. rewrite EB. destruct (touches _ _ _ _); reflexivity. }
  assert (PT : forall f, maybe_edge c r1 r2 t ETop f = Ok f).
  { intros. unfold maybe_edge, apply_edge. rewrite ET. destruct (touches _ _ _ _); reflexivity. }
  assert (ML : forall f, maybe_edge c r1 r2 t ELeft f = if touches L r1 r2 ELeft then apply_shearing_box_bcs_f c r1 r2 t ELeft f else Ok f).
  { intros. unfold maybe_edge, apply_edge. rewrite EL. reflexivity. }
  assert (MR : forall f, maybe_edge c r1 r2 t ERight f = if touches L r1 r2 ERight then apply_shearing_box_bcs_f c r1 r2 t ERight f else Ok f).
  { intros. unfold maybe_edge, apply_edge. rewrite ER. reflexivity. }
  assert (SL : exists f1, maybe_edge c r1 r2 t ELeft F = Ok f1 /\ q_shaped c r1 r2 f1
    /\ forall x s i j, inb (N_p c) x -> inb (N_species c) s -> inb (n1g L r1) i -> inb (n2g L r2) j ->
       el f1 x s i j = if touches L r1 r2 ELeft && (i <? g)%Z
         then slid w (gN2 L) (U x s ((off (blk1 L) r1 + i - ng1 L) mod gN1 L)%Z)
              (IZR (off (blk2 L) r2 + j - ng2 L) - drift c lr t) else el F x s i j).
  { rewrite ML. destruct (touches L r1 r2 ELeft).
    - destruct (shear_lr c w ap lr k1 r1 r2 t SF IT US TM RK ELeft F U LR (or_introl eq_refl) QS) as (f1&Q1&S1&V1).
      { intros. apply CV; auto. }
      exists f1. split; [exact Q1|]. split; [exact S1|]. intros x s i j Hx Hs Hi Hj. rewrite V1 by auto.
      cbn [in_slab andb sign_of]. destruct (i <? g)%Z; [f_equal; ring|reflexivity].
    - exists F. auto. }
  destruct SL as (f1&Q1&S1&V1).
  assert (NF : (n1g L r1 = bsize (blk1 L) r1 + 2 * g)%Z) by (unfold n1g; lia).
  assert (SR : exists f2, maybe_edge c r1 r2 t ERight f1 = Ok f2 /\ q_shaped c r1 r2 f2
    /\ forall x s i j, inb (N_p c) x -> inb (N_species c) s -> inb (n1g L r1) i -> inb (n2g L r2) j ->
       el f2 x s i j = if touches L r1 r2 ERight && (n1g L r1 - g <=? i)%Z
         then slid w (gN2 L) (U x s ((off (blk1 L) r1 + i - ng1 L) mod gN1 L)%Z)
              (IZR (off (blk2 L) r2 + j - ng2 L) + drift c lr t) else el f1 x s i j).
  { rewrite MR. destruct (touches L r1 r2 ERight).
    - destruct (shear_lr c w ap lr k1 r1 r2 t SF IT US TM RK ERight f1 U LR (or_intror eq_refl) S1) as (f2&Q2&S2&V2).
      { intros x s i j Hx Hs Hi Hj SB. cbn [in_slab] in SB. apply Z.leb_le in SB. rewrite V1 by auto.
        replace (i <? g)%Z with false by (symmetry; apply Z.ltb_ge; lia). rewrite andb_false_r. apply CV; auto. }
      exists f2. split; [exact Q2|]. split; [exact S2|]. intros x s i j Hx Hs Hi Hj. rewrite V2 by auto.
      cbn [in_slab andb sign_of]. destruct (n1g L r1 - g <=? i)%Z; [f_equal; ring|reflexivity].
    - exists f1. auto. }
  destruct SR as (f2&Q2&S2&V2).
  exists f2. split.
  { unfold apply_bcs_f. rewrite Q1. cbn [rbind]. rewrite Q2. cbn [rbind]. rewrite PB. cbn [rbind]. apply PT. }
  split; [exact S2|]. intros x s i j Hx Hs Hi Hj. cbv zeta. rewrite V2 by auto.
  destruct (touches L r1 r2 ERight && (n1g L r1 - g <=? i)%Z) eqn:TR.
  - apply andb_prop in TR. destruct TR as (TR&IR). apply Z.leb_le in IR.
    replace (i <? g)%Z with false by (symmetry; apply Z.ltb_ge; lia). rewrite andb_false_r. reflexivity.
  - rewrite V1 by auto. destruct (touches L r1 r2 ELeft && (i <? g)%Z); [reflexivity|]. apply CV; auto.
Qed.

Lemma pair_bt r1 r2 t F U : lr = false -> in_time c lr t -> rank_ok L r1 r2 -> covers c r1 r2 F U ->
  exists f', apply_bcs_f c r1 r2 t F = Ok f' /\ q_shaped c r1 r2 f'
  /\ forall x s i j, inb (N_p c) x -> inb (N_species c) s -> inb (n1g L r1) i -> inb (n2g L r2) j ->
     el f' x s i j =
       let G1 := (off (blk1 L) r1 + i - ng1 L)%Z in let G2 := (off (blk2 L) r2 + j - ng2 L)%Z in
       if touches L r1 r2 EBottom && (j <? g)%Z
       then slid w (gN1 L) (fun a => U x s a (G2 mod gN2 L)%Z) (IZR G1 - drift c lr t)
       else if touches L r1 r2 ETop && (n2g L r2 - g <=? j)%Z
            then slid w (gN1 L) (fun a => U x s a (G2 mod gN2 L)%Z) (IZR G1 + drift c lr t)
       else U x s (G1 mod gN1 L)%Z (G2 mod gN2 L)%Z.
Proof using SF IT US.
  intros LR TM RK (QS&CV).
  destruct (edge_ranges c lr k1 r1 r2 SF RK) as (B1&B2&_).
  assert (GP : (0 < g)%Z) by (pose proof (sh_two c lr k1 SF); lia).
  assert (NG1 : ng1 L = g) by (eapply sh_ng1; eauto). assert (NG2 : ng2 L = g) by (eapply sh_ng2; eauto).
  assert (EL : in_q c ELeft = "periodic"%string) by (rewrite (sh_left c lr k1 SF), LR; reflexivity).
  assert (ER : in_q c ERight = "periodic"%string) by (rewrite (sh_right c lr k1 SF), LR; reflexivity).
  assert (EB : in_q c EBottom = "shearing-box"%string) by (rewrite (sh_bottom c lr k1 SF), LR; reflexivity).
  assert (ET : in_q c ETop = "shearing-box"%string) by (rewrite (sh_top c lr k1 SF), LR; reflexivity).
  assert (PL : forall f, maybe_edge c r1 r2 t ELeft f = Ok f).
  { intros. unfold maybe_edge, apply_edge. rewrite EL. destruct (touches _ _ _ _); reflexivity. }
  assert (PR : forall f, maybe_edge c r1 r2 t ERight f = Ok f).
  { intros. unfold maybe_edge, apply_edge. rewrite ER. destruct (touches _ _ _ _); reflexivity. }
  assert (MB : forall f, maybe_edge c r1 r2 t EBottom f = if touches L r1 r2 EBottom then apply_shearing_box_bcs_f c r1 r2 t EBottom f else Ok f).
  { intros. unfold maybe_edge, apply_edge. rewrite EB. reflexivity. }
  assert (MT : forall f, maybe_edge c r1 r2 t ETop f = if touches L r1 r2 ETop then apply_shearing_box_bcs_f c r1 r2 t ETop f else Ok f).
  { intros. unfold maybe_edge, apply_edge. rewrite ET. reflexivity. }
  assert (SL : exists f1, maybe_edge c r1 r2 t EBottom F = Ok f1 /\ q_shaped c r1 r2 f1
    /\ forall x s i j, inb (N_p c) x -> inb (N_species c) s -> inb (n1g L r1) i -> inb (n2g L r2) j ->
       el f1 x s i j = if touches L r1 r2 EBottom && (j <? g)%Z
         then slid w (gN1 L) (fun a => U x s a ((off (blk2 L) r2 + j - ng2 L) mod gN2 L)%Z)
              (IZR (off (blk1 L) r1 + i - ng1 L) - drift c lr t) else el F x s i j).
  { rewrite MB. destruct (touches L r1 r2 EBottom).
    - destruct (shear_bt c w ap lr k1 r1 r2 t SF IT US TM RK EBottom F U LR (or_introl eq_refl) QS) as (f1&Q1&S1&V1).
      { intros. apply CV; auto. }
      exists f1. split; [exact Q1|]. split; [exact S1|]. intros x s i j Hx Hs Hi Hj. rewrite V1 by auto.
      cbn [in_slab andb sign_of]. destruct (j <? g)%Z; [f_equal; ring|reflexivity].
    - exists F. auto. }
  destruct SL as (f1&Q1&S1&V1).
  assert (NF : (n2g L r2 = bsize (blk2 L) r2 + 2 * g)%Z) by (unfold n2g; lia).
  assert (SR : exists f2, maybe_edge c r1 r2 t ETop f1 = Ok f2 /\ q_shaped c r1 r2 f2
    /\ forall x s i j, inb (N_p c) x -> inb (N_species c) s -> inb (n1g L r1) i -> inb (n2g L r2) j ->
       el f2 x s i j = if touches L r1 r2 ETop && (n2g L r2 - g <=? j)%Z
         then slid w (gN1 L) (fun a => U x s a ((off (blk2 L) r2 + j - ng2 L) mod gN2 L)%Z)
              (IZR (off (blk1 L) r1 + i - ng1 L) + drift c lr t) else el f1 x s i j).
  { rewrite MT. destruct (touches L r1 r2 ETop).
    - destruct (shear_bt c w ap lr k1 r1 r2 t SF IT US TM RK ETop f1 U LR (or_intror eq_refl) S1) as (f2&Q2&S2&V2).
      { intros x s i j Hx Hs Hi Hj SB. cbn [in_slab] in SB. apply Z.leb_le in SB. rewrite V1 by auto.
        replace (j <? g)%Z with false by (symmetry; apply Z.ltb_ge; lia). rewrite andb_false_r. apply CV; auto. }
      exists f2. split; [exact Q2|]. split; [exact S2|]. intros x s i j Hx Hs Hi Hj. rewrite V2 by auto.
      cbn [in_slab andb sign_of]. destruct (n2g L r2 - g <=? j)%Z; [f_equal; ring|reflexivity].
    - exists f1. auto. }
  destruct SR as (f2&Q2&S2&V2).
  exists f2. split.
  { unfold apply_bcs_f. rewrite PL. cbn [rbind]. rewrite PR. cbn [rbind]. rewrite Q1. cbn [rbind]. exact Q2. }
  split; [exact S2|]. intros x s i j Hx Hs Hi Hj. cbv zeta. rewrite V2 by auto.
  destruct (touches L r1 r2 ETop && (n2g L r2 - g <=? j)%Z) eqn:TR.
  - apply andb_prop in TR. destruct TR as (TR&IR). apply Z.leb_le in IR.
    replace (j <? g)%Z with false by (symmetry; apply Z.ltb_ge; lia). rewrite andb_false_r. reflexivity.
  - rewrite V1 by auto. destruct (touches L r1 r2 EBottom && (j <? g)%Z); [reflexivity|]. apply CV; auto.
Qed.

Lemma shear_gives t : in_time c lr t -> bcs_give c (shear_line1 c w lr) (shear_line2 c w lr) t.
Proof using SF IT US.
  intros TM s r1 r2 SH RK. pose proof (sh_layout c lr k1 SF) as PL.
  pose proof (covers_exchange c s r1 r2 PL SH RK) as CV.
  set (F := sf (communicate_f c s) r1 r2) in *. set (U := gval L (sf s)) in *.
  assert (GP : (0 < g)%Z) by (pose proof (sh_two c lr k1 SF); lia).
  assert (NG1 : ng1 L = g) by (eapply sh_ng1; eauto). assert (NG2 : ng2 L = g) by (eapply sh_ng2; eauto).
  destruct sh_widths as (WD1&WD2).
  destruct PL as (T1&T2&_).
  destruct (touches_spec L r1 r2 T1 T2 RK) as (TL&TR&TB&TT).
  assert (RG : (0 < bsize (blk1 L) r1 /\ 0 < bsize (blk2 L) r2 /\ 0 <= off (blk1 L) r1 /\ 0 <= off (blk2 L) r2
    /\ off (blk1 L) r1 + bsize (blk1 L) r1 <= gN1 L /\ off (blk2 L) r2 + bsize (blk2 L) r2 <= gN2 L)%Z).
  { destruct RK as (R1&R2). pose proof T1 as (N1&F1&S1). pose proof T2 as (N2&F2&S2).
    pose proof (bsize_pos (blk1 L) r1 F1 R1). pose proof (bsize_pos (blk2 L) r2 F2 R2).
    pose proof (off_nonneg (blk1 L) r1 F1). pose proof (off_nonneg (blk2 L) r2 F2).
    pose proof (off_end (blk1 L) r1 F1 R1). pose proof (off_end (blk2 L) r2 F2 R2). lia. }
  destruct RG as (B1&B2&O1&O2&E1&E2).
  assert (n1 : n1g L r1 = (bsize (blk1 L) r1 + 2 * g)%Z) by (unfold n1g; lia).
  assert (n2 : n2g L r2 = (bsize (blk2 L) r2 + 2 * g)%Z) by (unfold n2g; lia).
  assert (LL : lr = true \/ lr = false) by (destruct lr; auto). destruct LL as [LR|LR].
  - destruct (pair_lr r1 r2 t F U LR TM RK CV) as (f'&Q&QS&V).
    exists f'. split; [exact Q|]. split; [exact QS|]. split.
    + intros x sp j z Hx Hs Hj Hz. unfold inb in Hj, Hz. rewrite V; auto; [|unfold inb; lia]. cbv zeta.
      unfold shear_line1. rewrite LR.
      replace (z + (off (blk1 L) r1 - ng1 L))%Z with (off (blk1 L) r1 + z - ng1 L)%Z by lia.
      replace (off (blk2 L) r2 + (ng2 L + j) - ng2 L)%Z with (off (blk2 L) r2 + j)%Z by lia.
      rewrite (Z.mod_small (off (blk2 L) r2 + j)) by lia.
      set (G := (off (blk1 L) r1 + z - ng1 L)%Z).
      destruct (axis_cases (gN1 L) (blk1 L) (ng1 L) r1 z T1) as [(C1&C2)|[(C1&[(C2&C3)|(C2&C3)])|(C1&[(C2&C3)|(C2&C3)])]];
        try (rewrite NG1; exact (sh_wide1 c _ k1 SF)); try lia; try apply RK; fold G in C2 || idtac.
      * replace (z <? g)%Z with false by (symmetry; apply Z.ltb_ge; lia).
        replace (n1g L r1 - g <=? z)%Z with false by (symmetry; apply Z.leb_gt; lia). rewrite !andb_false_r.
        replace (G <? 0)%Z with false by (symmetry; apply Z.ltb_ge; unfold G; lia).
        replace (G <? gN1 L)%Z with true by (symmetry; apply Z.ltb_lt; unfold G; lia).
        rewrite Z.mod_small by (unfold G; lia). reflexivity.
      * rewrite (proj2 TL C2). replace (z <? g)%Z with true by (symmetry; apply Z.ltb_lt; lia). cbn [andb].
        replace (G <? 0)%Z with true by (symmetry; apply Z.ltb_lt; unfold G; lia).
        rewrite mod_low by (unfold G; lia). reflexivity.
      * fold G in C3. replace (touches L r1 r2 ELeft) with false.
        2:{ symmetry. destruct (touches L r1 r2 ELeft); auto. exfalso. apply C2, TL. reflexivity. }
        replace (n1g L r1 - g <=? z)%Z with false by (symmetry; apply Z.leb_gt; lia). rewrite !andb_false_r. cbn [andb].
        replace (G <? 0)%Z with false by (symmetry; apply Z.ltb_ge; lia).
        replace (G <? gN1 L)%Z with true by (symmetry; apply Z.ltb_lt; lia).
        rewrite Z.mod_small by lia. reflexivity.
      * replace (z <? g)%Z with false by (symmetry; apply Z.ltb_ge; lia). rewrite andb_false_r.
        rewrite (proj2 TR C2). replace (n1g L r1 - g <=? z)%Z with true by (symmetry; apply Z.leb_le; lia). cbn [andb].
        replace (G <? 0)%Z with false by (symmetry; apply Z.ltb_ge; unfold G; lia).
        replace (G <? gN1 L)%Z with false by (symmetry; apply Z.ltb_ge; unfold G; lia).
        rewrite mod_high by (unfold G; lia). reflexivity.
      * fold G in C3. replace (z <? g)%Z with false by (symmetry; apply Z.ltb_ge; lia). rewrite andb_false_r.
        replace (touches L r1 r2 ERight) with false.
        2:{ symmetry. destruct (touches L r1 r2 ERight); auto. exfalso. apply C2, TR. reflexivity. }
        cbn [andb].
        replace (G <? 0)%Z with false by (symmetry; apply Z.ltb_ge; lia).
        replace (G <? gN1 L)%Z with true by (symmetry; apply Z.ltb_lt; lia).
        rewrite Z.mod_small by lia. reflexivity.
    + intros x sp i z Hx Hs Hi Hz. unfold inb in Hi, Hz. rewrite V; auto; [|unfold inb; lia]. cbv zeta.
      unfold shear_line2. rewrite LR.
      replace (ng1 L + i <? g)%Z with false by (symmetry; apply Z.ltb_ge; lia).
      replace (n1g L r1 - g <=? ng1 L + i)%Z with false by (symmetry; apply Z.leb_gt; lia). rewrite !andb_false_r.
      f_equal; [rewrite Z.mod_small by lia; lia|f_equal; lia].
  - destruct (pair_bt r1 r2 t F U LR TM RK CV) as (f'&Q&QS&V).
    exists f'. split; [exact Q|]. split; [exact QS|]. split.
    + intros x sp j z Hx Hs Hj Hz. unfold inb in Hj, Hz. rewrite V; auto; [|unfold inb; lia]. cbv zeta.
      unfold shear_line1. rewrite LR.
      replace (ng2 L + j <? g)%Z with false by (symmetry; apply Z.ltb_ge; lia).
      replace (n2g L r2 - g <=? ng2 L + j)%Z with false by (symmetry; apply Z.leb_gt; lia). rewrite !andb_false_r.
      f_equal; [f_equal; lia|rewrite Z.mod_small by lia; lia].
    + intros x sp i z Hx Hs Hi Hz. unfold inb in Hi, Hz. rewrite V; auto; [|unfold inb; lia]. cbv zeta.
      unfold shear_line2. rewrite LR.
      replace (z + (off (blk2 L) r2 - ng2 L))%Z with (off (blk2 L) r2 + z - ng2 L)%Z by lia.
      replace (off (blk1 L) r1 + (ng1 L + i) - ng1 L)%Z with (off (blk1 L) r1 + i)%Z by lia.
      rewrite (Z.mod_small (off (blk1 L) r1 + i)) by lia.
      set (G := (off (blk2 L) r2 + z - ng2 L)%Z).
      destruct (axis_cases (gN2 L) (blk2 L) (ng2 L) r2 z T2) as [(C1&C2)|[(C1&[(C2&C3)|(C2&C3)])|(C1&[(C2&C3)|(C2&C3)])]];
        try (rewrite NG2; exact (sh_wide2 c _ k1 SF)); try lia; try apply RK; fold G in C2 || idtac.
      * replace (z <? g)%Z with false by (symmetry; apply Z.ltb_ge; lia).
        replace (n2g L r2 - g <=? z)%Z with false by (symmetry; apply Z.leb_gt; lia). rewrite !andb_false_r.
        replace (G <? 0)%Z with false by (symmetry; apply Z.ltb_ge; unfold G; lia).
        replace (G <? gN2 L)%Z with true by (symmetry; apply Z.ltb_lt; unfold G; lia).
        rewrite Z.mod_small by (unfold G; lia). reflexivity.
      * rewrite (proj2 TB C2). replace (z <? g)%Z with true by (symmetry; apply Z.ltb_lt; lia). cbn [andb].
        replace (G <? 0)%Z with true by (symmetry; apply Z.ltb_lt; unfold G; lia).
        rewrite mod_low by (unfold G; lia). reflexivity.
      * fold G in C3. replace (touches L r1 r2 EBottom) with false.
        2:{ symmetry. destruct (touches L r1 r2 EBottom); auto. exfalso. apply C2, TB. reflexivity. }
        replace (n2g L r2 - g <=? z)%Z with false by (symmetry; apply Z.leb_gt; lia). rewrite !andb_false_r. cbn [andb].
        replace (G <? 0)%Z with false by (symmetry; apply Z.ltb_ge; lia).
        replace (G <? gN2 L)%Z with true by (symmetry; apply Z.ltb_lt; lia).
        rewrite Z.mod_small by lia. reflexivity.
      * replace (z <? g)%Z with false by (symmetry; apply Z.ltb_ge; lia). rewrite andb_false_r.
        rewrite (proj2 TT C2). replace (n2g L r2 - g <=? z)%Z with true by (symmetry; apply Z.leb_le; lia). cbn [andb].
        replace (G <? 0)%Z with false by (symmetry; apply Z.ltb_ge; unfold G; lia).
        replace (G <? gN2 L)%Z with false by (symmetry; apply Z.ltb_ge; unfold G; lia).
        rewrite mod_high by (unfold G; lia). reflexivity.
      * fold G in C3. replace (z <? g)%Z with false by (symmetry; apply Z.ltb_ge; lia). rewrite andb_false_r.
        replace (touches L r1 r2 ETop) with false.
        2:{ symmetry. destruct (touches L r1 r2 ETop); auto. exfalso. apply C2, TT. reflexivity. }
        cbn [andb].
        replace (G <? 0)%Z with false by (symmetry; apply Z.ltb_ge; lia).
        replace (G <? gN2 L)%Z with true by (symmetry; apply Z.ltb_lt; lia).
        rewrite Z.mod_small by lia. reflexivity.
Qed.
End Run.
