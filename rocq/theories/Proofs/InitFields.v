(** Initial fields from functions of position. *)
From Coq Require Import ZArith Reals Lia Lra String List Bool.
From Verif Require Import Base.Prelude Base.ZSum Model.Af Model.Grid Model.Petsc Model.Config
  Model.Boundaries Model.Fvm Model.Fft Model.Em Spec.Domain Spec.Yee Spec.EmRun Spec.InitFields
  Proofs.AfLemmas Proofs.PetscLemmas Proofs.EmLemmas Proofs.EmStep Proofs.EmGrids Proofs.EmInit Proofs.EmVector.
Import ListNotations.
Local Open Scope R_scope.

Definition row (Y : lattice) (k : Z) : grid :=
  if (k =? 0)%Z then E1 Y else if (k =? 1)%Z then E2 Y else if (k =? 2)%Z then E3 Y
  else if (k =? 3)%Z then B1 Y else if (k =? 4)%Z then B2 Y else B3 Y.

Lemma q_corner_el c r1 r2 k s i j :
  let x := IZR (off (blk1 (flay c)) r1 + i - ng1 (flay c)) in let y := IZR (off (blk2 (flay c)) r2 + j - ng2 (flay c)) in
  el (fst (q_left_bot (fq c r1 r2))) k s i j = fq1_start c + (x + 0) * fdq1 c
  /\ el (snd (q_left_bot (fq c r1 r2))) k s i j = fq2_start c + (y + 0) * fdq2 c
  /\ el (fst (q_left_center (fq c r1 r2))) k s i j = fq1_start c + (x + 0) * fdq1 c
  /\ el (snd (q_left_center (fq c r1 r2))) k s i j = fq2_start c + (y + 0) * fdq2 c
  /\ el (fst (q_center_bot (fq c r1 r2))) k s i j = fq1_start c + (x + 1/2) * fdq1 c
  /\ el (snd (q_center_bot (fq c r1 r2))) k s i j = fq2_start c + (y + 0) * fdq2 c.
Proof.
  intros x y. unfold x, y, fq, calculate_q, coord_arr, q_left_bot, q_left_center, q_center_bot, amap; cbn [fst snd el].
  replace (off (blk1 (flay c)) r1 + i - ng1 (flay c))%Z with (off (blk1 (flay c)) r1 + (i - ng1 (flay c)))%Z by lia.
  replace (off (blk2 (flay c)) r2 + j - ng2 (flay c))%Z with (off (blk2 (flay c)) r2 + (j - ng2 (flay c)))%Z by lia.
  rewrite !plus_IZR. repeat split; lra.
Qed.

Lemma sample_placed c r1 r2 g k s i j :
  let x := (off (blk1 (flay c)) r1 + i - ng1 (flay c))%Z in let y := (off (blk2 (flay c)) r2 + j - ng2 (flay c))%Z in
  let q := fq c r1 r2 in
  el (sample g (q_left_bot q)) k s i j = placed c 0 0 g x y
  /\ el (sample g (q_left_center q)) k s i j = placed c 0 0 g x y
  /\ el (sample g (q_center_bot q)) k s i j = placed c (1/2) 0 g x y
  /\ el (sample g (q_center q)) k s i j = placed c (1/2) (1/2) g x y.
Proof.
  intros x y q. destruct (q_corner_el c r1 r2 k s i j) as (A&B&C&D&F&G). destruct (q_center_el c r1 r2 k s i j) as (H&I).
  cbv zeta in *. unfold sample, amap2, placed, q; cbn [el]. rewrite A, B, C, D, F, G, H, I. repeat split.
Qed.

Lemma all_ranks_exists L (F : nat -> nat -> res (arr R)) : (forall r1 r2, exists a, F r1 r2 = Ok a) -> exists G, all_ranks L F = Ok G.
Proof.
  intros H. unfold all_ranks. eexists. induction (ranks L) as [|r l IH]; cbn [fold_right]; [reflexivity|].
  destruct (H (fst r) (snd r)) as (a&->). exact IH.
Qed.

(** Filling three rows of the staggered array. *)
Definition gives (c : fcfg) (lo : Z) (Y : lattice) (f : nat -> nat -> res (arr R * arr R * arr R)) : Prop :=
  forall r1 r2, exists a b d, f r1 r2 = Ok (a, b, d) /\ d0 a = 1%Z /\ d0 b = 1%Z
     /\ forall i j, (1 <= i < n1g (flay c) r1)%Z -> (1 <= j < n2g (flay c) r2)%Z ->
        let x := (off (blk1 (flay c)) r1 + i - ng1 (flay c))%Z in let y := (off (blk2 (flay c)) r2 + j - ng2 (flay c))%Z in
        el a 0 0 i j = row Y lo x y /\ el b 0 0 i j = row Y (lo + 1) x y /\ el d 0 0 i j = row Y (lo + 2) x y.

Lemma fill c lo f s (Y : lattice) : gives c lo Y f ->
  exists F, set_joined c lo (lo + 3) f s = Ok (write (yee s) F s)
  /\ forall r1 r2 k i j, rank_ok (flay c) r1 r2 -> (1 <= i < n1g (flay c) r1)%Z -> (1 <= j < n2g (flay c) r2)%Z ->
     el (F r1 r2) k 0 i j = if ((lo <=? k) && (k <? lo + 3))%Z%bool
       then row Y k (off (blk1 (flay c)) r1 + i - ng1 (flay c))%Z (off (blk2 (flay c)) r2 + j - ng2 (flay c))%Z
       else el (yee_val s r1 r2) k 0 i j.
Proof.
  intros H. unfold set_joined.
  match goal with |- context [all_ranks ?L ?G] => destruct (all_ranks_exists L G) as (F&HF) end.
  { intros r1 r2. destruct (H r1 r2) as (a&b&d&E&_). rewrite E. cbn [rbind]. eauto. }
  exists F. rewrite HF. split; [reflexivity|]. intros r1 r2 k i j RK Hi Hj.
  pose proof (all_ranks_Ok _ _ _ HF r1 r2 RK) as E. cbv beta in E.
  destruct (H r1 r2) as (a&b&d&Ef&Da&Db&V). rewrite Ef in E. cbn [rbind] in E. apply Ok_inj in E. rewrite <- E.
  destruct (V i j Hi Hj) as (V0&V1&V2). cbv zeta in *.
  destruct (set_joined_rows lo (lo + 3) a b d (yee_val s r1 r2) 0 i j Da Db eq_refl) as (A&B&D).
  destruct ((lo <=? k) && (k <? lo + 3))%Z%bool eqn:EK.
  - assert (K : (k = lo \/ k = lo + 1 \/ k = lo + 2)%Z) by lia.
    destruct K as [->|[->| ->]]; congruence.
  - unfold set_rows; cbn [el]. rewrite EK. reflexivity.
Qed.

Lemma gives_E c E B : init_E c = Some E -> gives c 0 (on_shifted_grid c E B) (initial_E_rank c).
Proof.
  intros IE r1 r2. unfold initial_E_rank. rewrite IE. do 3 eexists. split; [reflexivity|].
  split; [reflexivity|]. split; [reflexivity|]. intros i j Hi Hj. set (x := (off (blk1 (flay c)) r1 + i - ng1 (flay c))%Z). set (y := (off (blk2 (flay c)) r2 + j - ng2 (flay c))%Z).
  repeat split; apply sample_placed.
Qed.
Lemma gives_B c E B : init_B c = Some B -> init_A3_B3 c = None -> gives c 3 (on_shifted_grid c E B) (initial_B_rank c).
Proof.
  intros IB IA r1 r2. unfold initial_B_rank. rewrite IB, IA. do 3 eexists. split; [reflexivity|].
  split; [reflexivity|]. split; [reflexivity|]. intros i j Hi Hj. set (x := (off (blk1 (flay c)) r1 + i - ng1 (flay c))%Z). set (y := (off (blk2 (flay c)) r2 + j - ng2 (flay c))%Z).
  repeat split; apply sample_placed.
Qed.
Lemma gives_A c ab Y : init_B c = None -> init_A c = None -> init_A3_B3 c = Some ab -> gives c 3 (with_curl c ab Y) (initial_B_rank c).
Proof.
  intros IB IA IC r1 r2. unfold initial_B_rank. rewrite IB, IA, IC. do 3 eexists. split; [reflexivity|].
  split; [reflexivity|]. split; [reflexivity|]. intros i j Hi Hj. set (x := (off (blk1 (flay c)) r1 + i - ng1 (flay c))%Z). set (y := (off (blk2 (flay c)) r2 + j - ng2 (flay c))%Z).
  assert (C : forall k s i j, el (sample (fun x y => fst (ab x y)) (q_center (fq c r1 r2))) k s i j
     = placed c (1/2) (1/2) (fun x y => fst (ab x y)) (off (blk1 (flay c)) r1 + i - ng1 (flay c))%Z (off (blk2 (flay c)) r2 + j - ng2 (flay c))%Z).
  { intros. apply sample_placed. }
  revert C. set (A3 := sample (fun x y => fst (ab x y)) (q_center (fq c r1 r2))). intros C.
  assert (D2 : d2 A3 = n1g (flay c) r1) by reflexivity.
  assert (D3 : d3 A3 = n2g (flay c) r2) by reflexivity.
  assert (D0 : d0 A3 = 1%Z) by reflexivity. assert (D1 : d1 A3 = 1%Z) by reflexivity.
  split; [|split; [|apply sample_placed]].
  - local_el. rewrite D0, D1, D2, D3, !C, ?mod1, ?zero_mod, ?pred_mod by lia. cbn [row with_curl B1 Z.eqb Pos.eqb]. unfold bwd2, x, y.
    replace (off (blk2 (flay c)) r2 + (j - 1) - ng2 (flay c))%Z with (off (blk2 (flay c)) r2 + j - ng2 (flay c) - 1)%Z by lia. reflexivity.
  - local_el. rewrite D0, D1, D2, D3, !C, ?mod1, ?zero_mod, ?pred_mod by lia. change (row (with_curl c ab Y) (3 + 1)) with (B2 (with_curl c ab Y)).
    cbn [with_curl B2]. unfold bwd1, x, y.
    replace (off (blk1 (flay c)) r1 + (i - 1) - ng1 (flay c))%Z with (off (blk1 (flay c)) r1 + i - ng1 (flay c) - 1)%Z by lia.
    unfold Rdiv. ring.
Qed.

Lemma init_rows c rho Y : regular c -> fields_initialize c = "user-defined"%string ->
  gives c 0 Y (initial_E_rank c) -> gives c 3 Y (initial_B_rank c) ->
  exists s, fields_solver_init c rho = Ok s
  /\ same_on (gN1 (flay c)) (gN2 (flay c)) (view (flay c) (yee_val s)) Y
  /\ same_on (gN1 (flay c)) (gN2 (flay c)) (view (flay c) (cc_val s)) (centred Y).
Proof.
  intros RG FI GE GB. assert (PL : periodic_layout (flay c)) by apply RG.
  destruct (fill c 0 _ (fresh c) Y GE) as (F1&HF1&VF1). cbn [Z.add] in HF1.
  assert (W1 := wf_set_joined c 0 3 _ _ _ (wf_fresh c) HF1).
  revert HF1 W1. set (s1 := write (yee (fresh c)) F1 (fresh c)). intros HF1 W1.
  destruct (fill c 3 _ s1 Y GB) as (F2&HF2&VF2). change (3 + 3)%Z with 6%Z in HF2.
  assert (W2 := wf_set_joined c 3 6 _ _ _ W1 HF2).
  revert HF2 W2. set (s2 := write (yee s1) F2 s1). intros HF2 W2.
  assert (U : forall r1 r2 k i j, rank_ok (flay c) r1 r2 -> inb 6 k -> (1 <= i < n1g (flay c) r1)%Z -> (1 <= j < n2g (flay c) r2)%Z ->
     el (yee_val s2 r1 r2) k 0 i j = row Y k (off (blk1 (flay c)) r1 + i - ng1 (flay c))%Z (off (blk2 (flay c)) r2 + j - ng2 (flay c))%Z).
  { intros r1 r2 k i j RK Hk Hi Hj. unfold s2. rewrite yee_val_write. rewrite VF2 by auto.
    destruct ((3 <=? k) && (k <? 3 + 3))%Z%bool eqn:EK; [reflexivity|].
    unfold s1. rewrite yee_val_write. rewrite VF1 by auto. unfold inb in Hk.
    replace ((0 <=? k) && (k <? 0 + 3))%Z%bool with true by lia. reflexivity. }
  set (s3 := yee_grid_to_cell_centered_grid Both s2).
  assert (W3 : wf_em c s3) by (apply wf_y2c; auto).
  assert (Y3 : yee_val s3 = yee_val s2) by (apply (y2c_yee_val c); auto).
  assert (PL' := PL). destruct PL' as (_&_&G1&G2&_).
  set (s4 := Em (mem s3) (next s3) (cc s3) (yee s3) (cc s3) (cc s3) (at_n s3) (fbuf s3) (ftime s3)).
  assert (I : initialize_fields c (dmap asum1 rho) = Ok s4).
  { unfold initialize_fields. rewrite FI. cbn [String.eqb Ascii.eqb eqb].
    unfold initialize_electric_fields. rewrite HF1. cbn [rbind].
    unfold initialize_magnetic_fields. rewrite HF2. cbn [rbind]. reflexivity. }
  exists (communicate_fields c true s4). split; [unfold fields_solver_init; rewrite I; reflexivity|].
  assert (R : forall F Z, (forall k i j, inb 6 k -> inb (gN1 (flay c)) i -> inb (gN2 (flay c)) j -> gper (flay c) F k 0 i j = row Z k i j) ->
     same_on (gN1 (flay c)) (gN2 (flay c)) (view (flay c) F) Z).
  { intros F Z H i j Hi Hj. unfold view; cbn [E1 E2 E3 B1 B2 B3].
    repeat split; (rewrite H; [reflexivity|unfold inb; lia|auto|auto]). }
  assert (V : forall (F : dist Rdefinitions.R) k i j, inb (gN1 (flay c)) i -> inb (gN2 (flay c)) j -> gper (flay c) F k 0 i j = gval (flay c) F k 0 i j).
  { intros F k i j Hi Hj. unfold gper. unfold inb in *. rewrite !Z.mod_small by lia. reflexivity. }
  split; apply R; intros k i j Hk Hi Hj.
  - rewrite yee_val_communicate. change (yee_val s4) with (yee_val s3). rewrite Y3.
    rewrite communicate_gper; auto; [|apply shaped_yee; auto|unfold inb; lia].
    rewrite V by auto. apply (gval_of_el (flay c) _ k (row Y k) PL); auto.
    intros r1 r2 i' j' RK Hi' Hj'. apply U; auto; unfold n1g, n2g; lia.
  - change (cc_val (communicate_fields c true s4)) with (cc_val s3).
    rewrite V by auto. apply (gval_of_el (flay c) _ k (row (centred Y) k) PL); auto.
    clear i j Hi Hj. intros r1 r2 i j RK Hi Hj.
    unfold s3, yee_grid_to_cell_centered_grid, cc_val; cbn [write cc mem]. rewrite Nat.eqb_refl.
    destruct (shaped_yee c s2 W2 r1 r2 RK) as (D0&D1&D2&D3). unfold dmap2.
    destruct (yee_to_cc_el Both (yee_val s2 r1 r2) (mem s2 (cc s2) r1 r2) D1) as (_&B).
    destruct (B i j) as (BE&BB); [rewrite D2; unfold n1g; lia|rewrite D3; unfold n2g; lia|]. cbn [does_E does_B] in BE, BB.
    destruct BE as (B0&B1'&B2'). destruct BB as (B3'&B4&B5).
    repeat match goal with H : context [el (yee_val s2 r1 r2) ?k 0 ?x ?y] |- _ => rewrite (U r1 r2 k x y) in H by (auto; unfold inb, n1g, n2g; lia) end.
    replace (off (blk1 (flay c)) r1 + (i + 1) - ng1 (flay c))%Z with (off (blk1 (flay c)) r1 + i - ng1 (flay c) + 1)%Z in * by lia.
    replace (off (blk2 (flay c)) r2 + (j + 1) - ng2 (flay c))%Z with (off (blk2 (flay c)) r2 + j - ng2 (flay c) + 1)%Z in * by lia.
    unfold inb in Hk. assert (K : (k = 0 \/ k = 1 \/ k = 2 \/ k = 3 \/ k = 4 \/ k = 5)%Z) by lia.
    destruct K as [->|[->|[->|[->|[->| ->]]]]]; assumption.
Qed.

Lemma initial_EB c rho E B : regular c -> defines_EB c E B ->
  exists s, fields_solver_init c rho = Ok s
  /\ same_on (gN1 (flay c)) (gN2 (flay c)) (view (flay c) (yee_val s)) (on_shifted_grid c E B)
  /\ same_on (gN1 (flay c)) (gN2 (flay c)) (view (flay c) (cc_val s)) (centred (on_shifted_grid c E B)).
Proof. intros RG (FI&IE&IB&IA). apply init_rows; auto; [apply gives_E|apply gives_B]; auto. Qed.

Lemma initial_EA c rho E ab : regular c -> defines_EA c E ab ->
  let Y := with_curl c ab (on_shifted_grid c E E) in
  exists s, fields_solver_init c rho = Ok s
  /\ same_on (gN1 (flay c)) (gN2 (flay c)) (view (flay c) (yee_val s)) Y
  /\ same_on (gN1 (flay c)) (gN2 (flay c)) (view (flay c) (cc_val s)) (centred Y).
Proof.
  intros RG (FI&IE&IB&IA&IC) Y. apply init_rows; auto; [|apply gives_A; auto].
  exact (gives_E c E E IE).
Qed.
