(** Lemmas on the constructor checks. *)
From Coq Require Import ZArith Reals Lra Lia String List Bool.
From Verif Require Import Base.Prelude Model.Af Model.Petsc Model.Config Model.Validate Model.Boundaries Spec.Inputs
  Proofs.BoundaryRun.
Import ListNotations.
Local Open Scope Z_scope.

Lemma raise_ok b e : raise_if b e = Ok tt <-> b = false.
Proof. destruct b; cbn; split; congruence. Qed.

Lemma rb_raise {A} b e (k : res A) v : rbind (raise_if b e) (fun _ => k) = Ok v <-> b = false /\ k = Ok v.
Proof. destruct b; cbn; split; try tauto; try discriminate. intros [? _]; discriminate. Qed.

Lemma rb_list {A} p (k : list R -> res A) v : rbind (as_list p) k = Ok v <-> exists l, p = PList l /\ k l = Ok v.
Proof.
  destruct p; cbn; split.
  - eauto. - intros (l'&E&H). congruence. - discriminate. - intros (l'&E&H). discriminate.
Qed.

Lemma rb_div {A} x n (k : R -> res A) v : rbind (pydiv x n) k = Ok v <-> n <> 0 /\ k (x / IZR n)%R = Ok v.
Proof.
  unfold pydiv. destruct (Z.eqb_spec n 0); cbn; split; try tauto; try discriminate.
Qed.

Lemma spacing_ok s e n : List.length s = List.length e ->
  forall d, spacing s e n = Ok d ->
     ((0 < List.length s)%nat -> n <> 0) /\ List.length d = List.length s
     /\ forall k, (k < List.length s)%nat -> (nth k d 0 * IZR n = nth k e 0 - nth k s 0)%R.
Proof.
  intros L. revert e L. induction s as [|x s IH]; intros [|y e] L; try discriminate.
  - intros d [= <-]. cbn. repeat split; intros; lia.
  - intros d. cbn [spacing]. intros H. apply rb_div in H. destruct H as [N H].
    destruct (spacing s e n) as [r|] eqn:E; cbn [rbind] in H; [|discriminate]. injection H as <-.
    destruct (IH e ltac:(cbn in L; lia) r E) as (_&LR&K).
    split; [auto|]. split; [cbn; lia|]. intros [|k] Hk; cbn [nth].
    + field. apply not_0_IZR. auto.
    + apply K. cbn in Hk. lia.
Qed.

Lemma spacing_total s e n : ((0 < List.length s)%nat -> n <> 0) -> exists d, spacing s e n = Ok d.
Proof.
  revert e. induction s as [|x s IH]; intros e N; [eexists; reflexivity|].
  destruct e as [|y e]; [eexists; reflexivity|]. cbn [spacing].
  assert (n <> 0) by (apply N; cbn; lia).
  destruct (IH e (fun _ => H)) as [d ->]. unfold pydiv. destruct (Z.eqb_spec n 0); [contradiction|]. cbn. eauto.
Qed.

Lemma list_gt_spec a b : List.length a = List.length b -> (list_gt a b = false <-> lex_le a b).
Proof.
  revert b; induction a as [|x a IH]; intros [|y b] L; try discriminate.
  - cbn. split; auto. intros _ k Hk. cbn in Hk. lia.
  - cbn [list_gt]. destruct (Req_EM_T x y) as [->|N].
    + rewrite IH by (cbn in L; lia). split; intros H k Hk E.
      * destruct k; [cbn; lra|]. cbn. apply H; [cbn in Hk; lia|]. intros k' Hk'. apply (E (S k')). lia.
      * apply (H (S k)); [cbn; lia|]. intros [|k'] Hk'; [reflexivity|]. apply E. lia.
    + rewrite Rgtb_false. split; intros H.
      * intros k Hk E. destruct k; [exact H|]. exfalso. apply N. apply (E 0%nat). lia.
      * apply (H 0%nat); [cbn; lia|]. intros; lia.
Qed.

Lemma check_fields_spec ft fs : check_fields ft fs = Ok tt <-> solver_known ft fs.
Proof.
  unfold check_fields, solver_known. rewrite rb_raise, raise_ok.
  destruct (String.eqb_spec ft "electrodynamic"), (String.eqb_spec ft "electrostatic"),
    (String.eqb_spec (upper fs) "FDTD"), (String.eqb_spec (upper fs) "SNES"), (String.eqb_spec (upper fs) "FFT");
    cbn; split; intros; try tauto; try intuition discriminate.
Qed.

Lemma unit_ok (x : res unit) : (exists u, x = Ok u) <-> x = Ok tt.
Proof. split; [intros [[] H]; auto|eauto]. Qed.

Lemma forallb_len ls n : forallb (fun l : list R => Nat.eqb (List.length l) n) ls = true
  <-> forall l, In l ls -> List.length l = n.
Proof. rewrite forallb_forall. split; intros H l I; specialize (H l I); apply Nat.eqb_eq; auto. Qed.

Lemma typed_bc l : forallb bc_attr_ok l = true <-> ~ In TOther l.
Proof.
  rewrite forallb_forall. split.
  - intros H I. specialize (H _ I). discriminate.
  - intros N x I. destruct x; auto; contradiction.
Qed.
Lemma typed_fm l : forallb fun_or_module l = true <-> forall t, In t l -> t = TFunction \/ t = TModule.
Proof.
  rewrite forallb_forall. split; intros H t I; specialize (H t I); destruct t; auto; try discriminate; intuition discriminate.
Qed.

Lemma negb_f b : negb b = false <-> b = true.
Proof. destruct b; cbn; split; congruence. Qed.

Theorem accepted_iff a : (exists sy, physical_system a = Ok sy) <-> acceptable lex_le a.
Proof.
  unfold physical_system, acceptable, well_typed, species_ok, has_domains.
  split.
  - intros [sy H].
    repeat (apply rb_raise in H; destruct H as [? H]).
    rewrite negb_f in *.
    destruct (hybrid a) as [h|] eqn:HY; cbn [rbind] in H; [|discriminate].
    apply rb_raise in H. destruct H as [HH H].
    apply rb_list in H. destruct H as (p1s&E1&H). apply rb_list in H. destruct H as (p2s&E2&H).
    apply rb_list in H. destruct H as (p3s&E3&H). apply rb_list in H. destruct H as (p1e&E4&H).
    apply rb_list in H. destruct H as (p2e&E5&H). apply rb_list in H. destruct H as (p3e&E6&H).
    apply rb_raise in H. destruct H as [LN H]. apply negb_f in LN. rewrite forallb_len in LN.
    apply rb_raise in H. destruct H as [NN H]. apply rb_raise in H. destruct H as [OR H].
    apply rb_div in H. destruct H as [Q1 H]. apply rb_div in H. destruct H as [Q2 H].
    destruct (spacing p1s p1e (i_N_p1 a)) as [x1|] eqn:S1; cbn [rbind] in H; [|discriminate].
    destruct (spacing p2s p2e (i_N_p2 a)) as [x2|] eqn:S2; cbn [rbind] in H; [|discriminate].
    destruct (spacing p3s p3e (i_N_p3 a)) as [x3|] eqn:S3; cbn [rbind] in H; [|discriminate].
    destruct (check_fields (fields_type a) (fields_solver a)) as [[]|] eqn:CF; [|discriminate].
    rewrite !orb_false_iff, !Z.ltb_ge in NN. rewrite !orb_false_iff, !Rgtb_false in OR.
    assert (L1 : List.length p1s = n_charge a) by (apply LN; simpl; auto).
    assert (L2 : List.length p2s = n_charge a) by (apply LN; simpl; auto).
    assert (L3 : List.length p3s = n_charge a) by (apply LN; simpl; auto).
    assert (L4 : List.length p1e = n_charge a) by (apply LN; simpl; auto).
    assert (L5 : List.length p2e = n_charge a) by (apply LN; simpl; auto 10).
    assert (L6 : List.length p3e = n_charge a) by (apply LN; simpl; auto 10).
    apply spacing_ok in S1; [|congruence]. apply spacing_ok in S2; [|congruence]. apply spacing_ok in S3; [|congruence].
    rewrite L1 in S1. rewrite L2 in S2. rewrite L3 in S3.
    repeat match goal with H : forallb _ _ = true |- _ => rewrite typed_bc in H || rewrite typed_fm in H end.
    rewrite !list_gt_spec in OR by congruence.
    split; [|split; [|split; [|repeat split; try lia; try tauto]]].
    + split; [tauto|]. split; [destruct (ic_type a); auto; discriminate|].
      split; [destruct (source_type a); auto; discriminate|].
      intros t I. apply in_app_or in I. destruct I; auto.
    + split; [apply Nat.eqb_eq; auto|]. exists h. split; auto. intros ->. cbn in HH. apply negb_f in HH. apply Nat.eqb_eq; auto.
    + apply check_fields_spec; auto.
    + exists p1s, p2s, p3s, p1e, p2e, p3e. tauto.
  - intros ((T1&T2&T3&T4)&(M&h&HY&HS)&SK&G0&Q1&Q2&O1&O2&P1&P2&P3&PP&p1s&p2s&p3s&p1e&p2e&p3e&
      (E1&L1)&(E2&L2)&(E3&L3)&(E4&L4)&(E5&L5)&(E6&L6)&X1&X2&X3).
    destruct (spacing_total p1s p1e (i_N_p1 a)) as [y1 S1]. { rewrite L1. intros. specialize (PP H). lia. }
    destruct (spacing_total p2s p2e (i_N_p2 a)) as [y2 S2]. { rewrite L2. intros. specialize (PP H). lia. }
    destruct (spacing_total p3s p3e (i_N_p3 a)) as [y3 S3]. { rewrite L3. intros. specialize (PP H). lia. }
    eexists (System _ _ _ y1 y2 y3).
    rewrite HY, E1, E2, E3, E4, E5, E6.
    rewrite (proj2 (typed_bc _) T1), T2, T3.
    rewrite (proj2 (typed_fm (adv_attrs a))) by (intros; apply T4, in_or_app; auto).
    rewrite (proj2 (typed_fm (mom_attrs a))) by (intros; apply T4, in_or_app; auto).
    rewrite M, Nat.eqb_refl. cbn [negb raise_if rbind is_module is_function as_list].
    replace (h && negb (n_charge a =? 1)%nat)%bool with false
      by (destruct h; cbn; auto; symmetry; apply negb_f, Nat.eqb_eq; auto).
    cbn [negb raise_if rbind].
    rewrite (proj2 (forallb_len _ _)) by (simpl; intuition congruence).
    cbn [negb raise_if rbind].
    replace ((i_N_q1 a <? 0) || (i_N_q2 a <? 0) || (i_N_p1 a <? 0) || (i_N_p2 a <? 0) || (i_N_p3 a <? 0) || (i_N_ghost a <? 0))%bool
      with false by (symmetry; rewrite !orb_false_iff, !Z.ltb_ge; repeat split; lia).
    cbn [negb raise_if rbind].
    rewrite (proj2 (Rgtb_false _ _) O1), (proj2 (Rgtb_false _ _) O2).
    rewrite (proj2 (list_gt_spec p1s p1e (eq_trans L1 (eq_sym L4))) X1),
      (proj2 (list_gt_spec p2s p2e (eq_trans L2 (eq_sym L5))) X2),
      (proj2 (list_gt_spec p3s p3e (eq_trans L3 (eq_sym L6))) X3).
    cbn [orb raise_if rbind]. unfold pydiv.
    destruct (Z.eqb_spec (i_N_q1 a) 0); [lia|]. destruct (Z.eqb_spec (i_N_q2 a) 0); [lia|]. cbn [rbind].
    rewrite S1, S2, S3. cbn [rbind]. rewrite (proj2 (check_fields_spec _ _) SK). reflexivity.
Qed.

Theorem accepted_spacings a sy : physical_system a = Ok sy -> spacings_fit a sy.
Proof.
  intros H. unfold physical_system in H. unfold spacings_fit.
  repeat (apply rb_raise in H; destruct H as [_ H]).
  destruct (hybrid a) as [h|] eqn:HY; cbn [rbind] in H; [|discriminate].
  apply rb_raise in H. destruct H as [_ H].
  apply rb_list in H. destruct H as (p1s&E1&H). apply rb_list in H. destruct H as (p2s&E2&H).
  apply rb_list in H. destruct H as (p3s&E3&H). apply rb_list in H. destruct H as (p1e&E4&H).
  apply rb_list in H. destruct H as (p2e&E5&H). apply rb_list in H. destruct H as (p3e&E6&H).
  apply rb_raise in H. destruct H as [LN H]. apply negb_f in LN. rewrite forallb_len in LN.
  apply rb_raise in H. destruct H as [NN H]. apply rb_raise in H. destruct H as [OR H].
  apply rb_div in H. destruct H as [Q1 H]. apply rb_div in H. destruct H as [Q2 H].
  destruct (spacing p1s p1e (i_N_p1 a)) as [x1|] eqn:S1; cbn [rbind] in H; [|discriminate].
  destruct (spacing p2s p2e (i_N_p2 a)) as [x2|] eqn:S2; cbn [rbind] in H; [|discriminate].
  destruct (spacing p3s p3e (i_N_p3 a)) as [x3|] eqn:S3; cbn [rbind] in H; [|discriminate].
  destruct (check_fields (fields_type a) (fields_solver a)) as [[]|] eqn:CF; [|discriminate].
  cbn [rbind] in H. injection H as <-. cbn [s_species s_dq1 s_dq2 s_dp1 s_dp2 s_dp3].
  assert (L1 : List.length p1s = n_charge a) by (apply LN; simpl; auto).
  assert (L2 : List.length p2s = n_charge a) by (apply LN; simpl; auto).
  assert (L3 : List.length p3s = n_charge a) by (apply LN; simpl; auto).
  assert (L4 : List.length p1e = n_charge a) by (apply LN; simpl; auto).
  assert (L5 : List.length p2e = n_charge a) by (apply LN; simpl; auto 10).
  assert (L6 : List.length p3e = n_charge a) by (apply LN; simpl; auto 10).
  apply spacing_ok in S1; [|congruence]. apply spacing_ok in S2; [|congruence]. apply spacing_ok in S3; [|congruence].
  rewrite L1 in S1. rewrite L2 in S2. rewrite L3 in S3.
  split; [reflexivity|]. split; [field; apply not_0_IZR; auto|]. split; [field; apply not_0_IZR; auto|].
  intros p e d n I. simpl in I.
  destruct I as [I|[I|[I|[]]]]; injection I as <- <- <- <-.
  - exists p1s, p1e. tauto.
  - exists p2s, p2e. tauto.
  - exists p3s, p3e. tauto.
Qed.

(** ** Boundary pairs *)
Lemma require_ok name lo hi : require_pair name lo hi = Ok tt <-> (lo = name -> hi = name).
Proof.
  unfold require_pair. rewrite raise_ok. destruct (String.eqb_spec lo name), (String.eqb_spec hi name); cbn; split; try tauto; try discriminate.
Qed.

Lemma rb_pair {A} name lo hi (k : res A) v : rbind (require_pair name lo hi) (fun _ => k) = Ok v
  <-> (lo = name -> hi = name) /\ k = Ok v.
Proof.
  rewrite <- require_ok. unfold require_pair. rewrite rb_raise, raise_ok. tauto.
Qed.

Theorem pairs_iff in_q : (exists r, check_boundaries in_q = Ok r)
  <-> (forall name, In name ["periodic"; "shearing-box"; "none"]%string ->
        (in_q ELeft = name -> in_q ERight = name) /\ (in_q EBottom = name -> in_q ETop = name)).
Proof.
  unfold check_boundaries. split.
  - intros [r H]. repeat (apply rb_pair in H; destruct H as [? H]).
    intros name [<-|[<-|[<-|[]]]]; auto.
  - intros H. eexists. rewrite !rb_pair.
    repeat split; try (apply H; simpl; tauto); reflexivity.
Qed.

(** ** Field solver names *)
Lemma no_electrostatic_update_in_op_fields fs : ~ In UFft (op_fields_updates fs).
Proof.
  unfold op_fields_updates, compute_electrostatic_updates.
  destruct (String.eqb_spec fs "electrostatic") as [->|]; cbn.
  - tauto.
  - destruct (String.eqb fs "fdtd"); simpl; intuition discriminate.
Qed.

Lemma df_dt_updates_spec ft fs at_n :
  (In UFdtd (df_dt_updates ft fs at_n) <-> ft = "electrodynamic"%string /\ at_n = false)
  /\ (In UFft (df_dt_updates ft fs at_n) <-> ft = "electrostatic"%string /\ fs = "fft"%string).
Proof.
  unfold df_dt_updates, compute_electrostatic_updates.
  destruct (String.eqb_spec ft "electrodynamic"), (String.eqb_spec ft "electrostatic"), at_n,
    (String.eqb_spec fs "fft"); try congruence; simpl; intuition congruence.
Qed.

Lemma op_fields_updates_spec fs : op_fields_updates fs = if String.eqb fs "fdtd" then [UFdtd] else [].
Proof.
  unfold op_fields_updates, compute_electrostatic_updates.
  destruct (String.eqb_spec fs "electrostatic") as [->|]; reflexivity.
Qed.
