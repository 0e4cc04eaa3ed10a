(** The field solver of an electrostatic run: what compute_electrostatic_fields
    leaves in the arrays that get_fields returns. *)
From Coq Require Import ZArith Reals Lia Lra String List Bool.
From Verif Require Import Base.Prelude Base.ZSum Model.Af Model.Petsc Model.Config
  Model.Boundaries Model.Fvm Model.Fft Model.Em Spec.Domain Spec.Dft Spec.Waves Spec.Yee Spec.EmRun
  Proofs.AfLemmas Proofs.PetscLemmas Proofs.EmLemmas Proofs.EmStep Proofs.EmGrids Proofs.EmInit
  Proofs.MomentLemmas Proofs.PoissonLemmas.
Import ListNotations.
Local Open Scope R_scope.

Lemma cc_val_write0 v s : cc_val (write (cc s) v s) = v.
Proof. unfold cc_val, write; cbn [mem cc]. rewrite Nat.eqb_refl. reflexivity. Qed.
Lemma cc_val_communicate c s :
  cc_val (communicate_fields c false s) = communicate (flay c) 6 1 (fbuf s) (cc_val s).
Proof. unfold cc_val, communicate_fields, bind_cc, write, set_fbuf; simpl. rewrite Nat.eqb_refl. reflexivity. Qed.

Lemma set_interior_el g n1 n2 (a v : arr R) k s i j : (0 < g)%Z -> d2 a = (n1 + 2 * g)%Z -> d3 a = (n2 + 2 * g)%Z ->
  inb n1 i -> inb n2 j -> el (set_interior g a v) k s (g + i) (g + j) = el v k s i j.
Proof.
  unfold inb. intros G A B Hi Hj. unfold set_interior, set_slice23, in_slice, slice_bound; cbn [el]. rewrite A, B.
  destruct (Z.ltb_spec g 0); [lia|]. destruct (Z.ltb_spec (- g) 0); [|lia].
  replace (_ && _)%bool with true; [f_equal; lia|]. symmetry. rewrite !andb_true_iff, !Z.leb_le, !Z.ltb_lt. lia.
Qed.

Lemma one_rank c : tiles (gN1 (flay c)) (blk1 (flay c)) -> tiles (gN2 (flay c)) (blk2 (flay c)) -> comm_size c = 1%nat ->
  blk1 (flay c) = [gN1 (flay c)] /\ blk2 (flay c) = [gN2 (flay c)].
Proof.
  intros T1 T2 H. unfold comm_size in H.
  apply Nat.eq_mul_1 in H. destruct H as (A&B).
  unfold tiles in *. split.
  - destruct (blk1 (flay c)) as [|b [|]]; try discriminate. destruct T1 as (_&_&T1). cbn in T1. f_equal. lia.
  - destruct (blk2 (flay c)) as [|b [|]]; try discriminate. destruct T2 as (_&_&T2). cbn in T2. f_equal. lia.
Qed.

(** The field arrays after the update, on the whole domain. *)
Definition electrostatic_ok (c : fcfg) : Prop :=
  regular c /\ ng1 (flay c) = fN_g c /\ ng2 (flay c) = fN_g c /\ 0 < fdq1 c /\ 0 < fdq2 c
  /\ fields_solver c = "fft"%string /\ comm_size c = 1%nat.

Lemma electrostatic_fields c rho s : electrostatic_ok c -> wf_em c s ->
  shaped (flay c) 1 1 (dmap asum1 rho) ->
  let E := fft_poisson_E (fN_g c) (fdq1 c) (fdq2 c) (eps c) (asum1 (rho 0%nat 0%nat)) in
  exists s', compute_electrostatic_fields c rho s = Ok s' /\ wf_em c s'
  /\ synced (flay c) (cc_val s') everywhere
  /\ (forall i j, inb (gN1 (flay c)) i -> inb (gN2 (flay c)) j ->
        gval (flay c) (cc_val s') 0 0 i j = el (fst E) 0 0 i j
        /\ gval (flay c) (cc_val s') 1 0 i j = el (snd E) 0 0 i j)
  /\ (forall k i j, (2 <= k < 6)%Z -> inb (gN1 (flay c)) i -> inb (gN2 (flay c)) j ->
        gval (flay c) (cc_val s') k 0 i j = gval (flay c) (cc_val s) k 0 i j)
  /\ (yee_val s' = yee_val s).
Proof.
  intros (RG&G1&G2&Q1&Q2&FS&CS) W SR E.
  pose proof RG as ((PL&PE)&_). pose proof PL as (T1&T2&P1&P2&PB).
  destruct (one_rank c T1 T2 CS) as (B1&B2).
  unfold compute_electrostatic_fields. rewrite FS, String.eqb_refl.
  unfold electrostatic_update, fft_poisson. rewrite CS. cbn [Nat.eqb negb rbind].
  rewrite apply_bcs_fields_periodic by exact PE.
  match goal with |- context [write (cc s) ?F s] => set (FF := F) end.
  assert (SH : shaped (flay c) 6 1 FF).
  { apply shaped_dmap2; [|apply shaped_cc; auto].
    intros g a. destruct (fft_poisson_E (fN_g c) (fdq1 c) (fdq2 c) (eps c) g) as (x&y). repeat split. }
  eexists. split; [reflexivity|].
  split; [apply wf_comm, wf_write; auto|].
  rewrite cc_val_communicate, cc_val_write0.
  split; [apply communicate_synced; auto|].
  assert (GV : forall k i j, inb 6 k -> inb (gN1 (flay c)) i -> inb (gN2 (flay c)) j ->
     gval (flay c) (communicate (flay c) 6 1 (fbuf (write (cc s) FF s)) FF) k 0 i j = gval (flay c) FF k 0 i j).
  { intros k i j Hk Hi Hj.
    pose proof (communicate_gper (flay c) 6 1 (fbuf (write (cc s) FF s)) FF k 0 i j PL SH Hk ltac:(unfold inb; lia)) as X.
    unfold gper in X. unfold inb in Hi, Hj. rewrite !Z.mod_small in X by lia. exact X. }
  assert (RK : rank_ok (flay c) 0 0) by (unfold rank_ok; rewrite B1, B2; cbn; lia).
  assert (O : forall i j k F, inb (gN1 (flay c)) i -> inb (gN2 (flay c)) j ->
     gval (flay c) F k 0 i j = el (F 0%nat 0%nat : arr R) k 0 (fN_g c + i) (fN_g c + j)).
  { intros i j k F Hi Hj. unfold gval. rewrite B1, B2, G1, G2. unfold inb in *. cbn [owner].
    replace (i <? gN1 (flay c))%Z with true by lia. replace (j <? gN2 (flay c))%Z with true by lia.
    unfold off; cbn [firstn zlsum fold_right]. rewrite !Z.sub_0_r. reflexivity. }
  destruct (shaped_cc c s W 0%nat 0%nat RK) as (D0&D1&D2&D3).
  unfold n1g, n2g, bsize in D2, D3. rewrite B1 in D2. rewrite B2 in D3. cbn [nth] in D2, D3. rewrite G1 in D2. rewrite G2 in D3.
  assert (EQ : FF 0%nat 0%nat = set_row 1 (set_interior (fN_g c) (Em.row 1 (set_row 0 (set_interior (fN_g c) (Em.row 0 (cc_val s 0%nat 0%nat)) (fst E)) (cc_val s 0%nat 0%nat))) (snd E))
        (set_row 0 (set_interior (fN_g c) (Em.row 0 (cc_val s 0%nat 0%nat)) (fst E)) (cc_val s 0%nat 0%nat))).
  { unfold FF, dmap2, dmap, E. destruct (fft_poisson_E (fN_g c) (fdq1 c) (fdq2 c) (eps c) (asum1 (rho 0%nat 0%nat))); reflexivity. }
  split; [|split].
  - intros i j Hi Hj. rewrite !GV by (auto; unfold inb; lia). rewrite !O by auto. rewrite EQ. unfold set_row at 1 2 3 4; cbn [el Z.eqb Pos.eqb].
    split; apply (set_interior_el (fN_g c) (gN1 (flay c)) (gN2 (flay c))); auto; cbn [d2 d3 Em.row set_row]; auto; lia.
  - intros k i j Hk Hi Hj. rewrite !GV by (auto; unfold inb; lia). rewrite !O by auto. rewrite EQ. unfold set_row; cbn [el].
    replace (k =? 1)%Z with false by lia. replace (k =? 0)%Z with false by lia. reflexivity.
  - destruct W as ((A&B&C&D)&(N1&_)&_).
    unfold yee_val, communicate_fields, bind_cc, set_fbuf, write; cbn [mem yee cc next].
    destruct (Nat.eqb_spec (yee s) (next s)); [lia|]. destruct (Nat.eqb_spec (yee s) (cc s)); [congruence|]. reflexivity.
Qed.

(** Neither component has a mean. *)
Lemma electrostatic_mean c rho s s' : electrostatic_ok c -> wf_em c s -> shaped (flay c) 1 1 (dmap asum1 rho) ->
  compute_electrostatic_fields c rho s = Ok s' ->
  zsum (gN1 (flay c)) (fun i => zsum (gN2 (flay c)) (fun j => gval (flay c) (cc_val s') 0 0 i j)) = 0
  /\ zsum (gN1 (flay c)) (fun i => zsum (gN2 (flay c)) (fun j => gval (flay c) (cc_val s') 1 0 i j)) = 0.
Proof.
  intros OK W SR H. destruct (electrostatic_fields c rho s OK W SR) as (s1&H1&_&_&HE&_).
  rewrite H in H1. apply Ok_inj in H1. rewrite <- H1 in HE. clear s1 H1.
  destruct OK as (RG&G1&G2&Q1&Q2&FS&CS).
  pose proof RG as ((PL&PE)&_&QE&_). pose proof PL as (T1&T2&P1&P2&PB).
  destruct (one_rank c T1 T2 CS) as (B1&B2).
  assert (RK : rank_ok (flay c) 0 0) by (unfold rank_ok; rewrite B1, B2; cbn; lia).
  assert (PP : (0 < gN1 (flay c) /\ 0 < gN2 (flay c))%Z).
  { split; [apply T1|apply T2]. }
  destruct (SR 0%nat 0%nat RK) as (D0&D1&D2&D3).
  assert (D : dims4 (asum1 (rho 0%nat 0%nat)) 1 1 (gN1 (flay c) + 2 * fN_g c) (gN2 (flay c) + 2 * fN_g c)).
  { unfold dmap in *. unfold n1g, n2g, bsize in D2, D3. rewrite B1 in D2. rewrite B2 in D3. cbn [nth] in D2, D3.
    rewrite G1 in D2. rewrite G2 in D3. repeat split; auto. }
  pose proof (poisson (fN_g c) (gN1 (flay c)) (gN2 (flay c)) ltac:(lia) (proj1 PP) (proj2 PP) (fdq1 c) (fdq2 c) (eps c) Q1 Q2 QE _ D)
    as (_&_&M1&M2&_).
  assert (NZ : IZR (gN1 (flay c)) <> 0 /\ IZR (gN2 (flay c)) <> 0) by (split; apply not_0_IZR; lia).
  destruct NZ as (NZ1&NZ2).
  unfold Waves.mean2 in M1, M2. split.
  - rewrite (zsum_ext _ _ (fun i => zsum (gN2 (flay c)) (fun j => el (fst (fft_poisson_E (fN_g c) (fdq1 c) (fdq2 c) (eps c) (asum1 (rho 0%nat 0%nat)))) 0 0 i j))).
    + match type of M1 with ?x / _ = 0 => apply (Rmult_eq_reg_r (/ (IZR (gN1 (flay c)) * IZR (gN2 (flay c))))) end.
      * unfold Rdiv in M1. rewrite Rmult_0_l. exact M1.
      * apply Rinv_neq_0_compat. apply Rmult_integral_contrapositive; auto.
    + intros i Hi. apply zsum_ext. intros j Hj. apply HE; unfold inb; lia.
  - rewrite (zsum_ext _ _ (fun i => zsum (gN2 (flay c)) (fun j => el (snd (fft_poisson_E (fN_g c) (fdq1 c) (fdq2 c) (eps c) (asum1 (rho 0%nat 0%nat)))) 0 0 i j))).
    + match type of M2 with ?x / _ = 0 => apply (Rmult_eq_reg_r (/ (IZR (gN1 (flay c)) * IZR (gN2 (flay c))))) end.
      * unfold Rdiv in M2. rewrite Rmult_0_l. exact M2.
      * apply Rinv_neq_0_compat. apply Rmult_integral_contrapositive; auto.
    + intros i Hi. apply zsum_ext. intros j Hj. apply HE; unfold inb; lia.
Qed.
