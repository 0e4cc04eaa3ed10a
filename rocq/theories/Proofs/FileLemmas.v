(** Dumps and loads. *)
From Coq Require Import ZArith Reals Lia Lra String Ascii List Bool Sorted Permutation.
From Verif Require Import Base.Prelude Base.ZSum Model.Af Model.Petsc Model.Config Model.Fvm Model.Em
  Model.Moments Model.FileIO Spec.Domain Spec.Lattice Spec.FvmProblem Spec.FvmRun Spec.Files
  Proofs.AfLemmas Proofs.PetscLemmas Proofs.FvmLemmas2 Proofs.MomentLemmas.
Import ListNotations.
Local Open Scope Z_scope.

Lemma slice_interior_ok N bl r g : axis_ok N bl g -> (r < List.length bl)%nat ->
  slice_bound (bsize bl r + 2 * g) g = g /\ slice_len (bsize bl r + 2 * g) g (i_end g) = bsize bl r.
Proof.
  intros ((P&F&S)&[H|(->&->)]) R.
  - apply slice_interior; auto. pose proof (bsize_pos bl r F R). lia.
  - pose proof (bsize_pos bl r F R). pose proof (off_end bl r F R). pose proof (off_nonneg bl r F).
    assert (bsize bl r = 1) as -> by lia. split; reflexivity.
Qed.

Lemma interior_ok {A} (L : layout) (a : arr A) r1 r2 : layout_ok L -> rank_ok L r1 r2 ->
  d2 a = n1g L r1 -> d3 a = n2g L r2 ->
  (forall p s i j, el (interior L a) p s i j = el a p s (ng1 L + i) (ng2 L + j))
  /\ d0 (interior L a) = d0 a /\ d1 (interior L a) = d1 a
  /\ d2 (interior L a) = bsize (blk1 L) r1 /\ d3 (interior L a) = bsize (blk2 L) r2.
Proof.
  intros (A1&A2) (R1&R2) D2 D3. unfold interior, slice23; cbn. rewrite D2, D3. unfold n1g, n2g.
  destruct (slice_interior_ok _ _ _ _ A1 R1) as (->&->). destruct (slice_interior_ok _ _ _ _ A2 R2) as (->&->). auto.
Qed.

(** Cell (o1, o2) of the owner of a global cell. *)
Lemma owner_in N bl g : tiles N bl -> inb N g ->
  (owner bl g < List.length bl)%nat /\ inb (bsize bl (owner bl g)) (g - off bl (owner bl g)).
Proof. intros (P&F&S) H. unfold inb in *. destruct (owner_spec bl g F); [lia|]. split; auto. lia. Qed.

(** The file holds every cell's components at its natural place. *)
Lemma view_component {A} (L : layout) n0 n1 (F : dist A) p s g1 g2 : layout_ok L -> shaped L n0 n1 F ->
  inb n0 p -> inb n1 s -> inb (gN1 L) g1 -> inb (gN2 L) g2 ->
  component (vec_view L (n0 * n1) (fun r1 r2 => af_to_petsc_glob_array L (F r1 r2))) (gN1 L) (n0 * n1) (p + n0 * s) g1 g2
  = gval L F p s g1 g2.
Proof.
  intros LO SH Hp Hs H1 H2. pose proof LO as ((T1&_)&(T2&_)).
  destruct (owner_in _ _ _ T1 H1) as (O1&I1). destruct (owner_in _ _ _ T2 H2) as (O2&I2).
  unfold component, vec_view; cbn [fdat]. unfold inb in *.
  assert (B : 0 <= p + n0 * s < n0 * n1) by nia.
  rewrite (mod_unique_small (n0 * n1)) by nia. rewrite (div_add_mul (n0 * n1)) by nia.
  rewrite mod_unique_small by lia. rewrite div_add_mul by lia.
  unfold gval. set (o1 := owner (blk1 L) g1) in *. set (o2 := owner (blk2 L) g2) in *.
  destruct (SH o1 o2) as (D0&D1&D2&D3); [split; auto|].
  destruct (interior_ok L (F o1 o2) o1 o2 LO (conj O1 O2) D2 D3) as (E&E0&E1&E2&E3).
  unfold af_to_petsc_glob_array. rewrite <- E, <- (flat_lin (interior L (F o1 o2))).
  - f_equal. rewrite E0, E1, E2, D0, D1. unfold lin. ring.
  - unfold inside, inb. rewrite E0, E1, E2, E3, D0, D1. lia.
Qed.

(** What load puts at the cells of a rank that stand for a global cell. *)
Lemma load_local {A} (L : layout) n0 n1 (F : file A) G old r1 r2 p s i j : layout_ok L ->
  vec_load L (n0 * n1) F = Ok G -> rank_ok L r1 r2 ->
  inb n0 p -> inb n1 s -> inb (n1g L r1) i -> inb (n2g L r2) j ->
  el (petsc_local_array_to_af L r1 r2 n0 n1 (global_to_local L (n0 * n1) G old r1 r2)) p s i j
  = match global_index (pbc1 L) (gN1 L) (off (blk1 L) r1 + i - ng1 L),
          global_index (pbc2 L) (gN2 L) (off (blk2 L) r2 + j - ng2 L) with
    | Some g1, Some g2 => component F (gN1 L) (n0 * n1) (p + n0 * s) g1 g2
    | _, _ => old (lin n0 n1 (n1g L r1) p s i j)
    end.
Proof.
  intros LO V RK Hp Hs Hi Hj. pose proof LO as ((T1&_)&(T2&_)).
  unfold vec_load in V. destruct (Z.eqb_spec (flen F) (n0 * n1 * gN1 L * gN2 L)); [|discriminate].
  injection V as <-. unfold petsc_local_array_to_af, of_flat; cbn [el]. unfold inb in *.
  assert (POS1 : 0 < n1g L r1) by lia.
  unfold global_to_local.
  set (x := lin n0 n1 (n1g L r1) p s i j).
  assert (Ex : x = (p + n0 * s) + (n0 * n1) * (i + n1g L r1 * j)) by (unfold x, lin; ring).
  assert (B : 0 <= p + n0 * s < n0 * n1) by nia.
  assert (Ec : x mod (n0 * n1) = p + n0 * s) by (rewrite Ex; apply mod_unique_small; nia).
  assert (Ed : x / (n0 * n1) = i + n1g L r1 * j) by (rewrite Ex; apply div_add_mul; nia).
  rewrite Ec, Ed. rewrite mod_unique_small by lia. rewrite div_add_mul by lia.
  assert (GI : forall bc N g v, 0 < N -> global_index bc N g = Some v -> 0 <= v < N).
  { intros bc N g v HN H. destruct bc; cbn in H.
    - injection H as <-. apply Z.mod_pos_bound; lia.
    - destruct (Z.leb_spec 0 g), (Z.ltb_spec g N); cbn in H; try discriminate. injection H as <-. lia.
    - destruct (Z.leb_spec 0 g), (Z.ltb_spec g N); cbn in H; try discriminate. injection H as <-. lia. }
  destruct (global_index (pbc1 L) _ _) as [g1|] eqn:Q1; [|reflexivity].
  destruct (global_index (pbc2 L) _ _) as [g2|] eqn:Q2; [|reflexivity].
  apply GI in Q1; [|apply T1]. apply GI in Q2; [|apply T2].
  destruct (owner_in _ _ _ T1 Q1) as (O1&I1). destruct (owner_in _ _ _ T2 Q2) as (O2&I2). unfold inb in *.
  set (o1 := owner (blk1 L) g1) in *. set (o2 := owner (blk2 L) g2) in *.
  rewrite (mod_unique_small (n0 * n1)) by nia. rewrite (div_add_mul (n0 * n1)) by nia.
  rewrite mod_unique_small by lia. rewrite div_add_mul by lia.
  unfold component. f_equal. ring.
Qed.

Lemma load_gval {A} (L : layout) n0 n1 (F : file A) G old p s g1 g2 : layout_ok L ->
  vec_load L (n0 * n1) F = Ok G ->
  inb n0 p -> inb n1 s -> inb (gN1 L) g1 -> inb (gN2 L) g2 ->
  gval L (fun r1 r2 => petsc_local_array_to_af L r1 r2 n0 n1 (global_to_local L (n0 * n1) G (old r1 r2) r1 r2)) p s g1 g2
  = component F (gN1 L) (n0 * n1) (p + n0 * s) g1 g2.
Proof.
  intros LO V Hp Hs H1 H2. pose proof LO as ((T1&K1)&(T2&K2)).
  destruct (owner_in _ _ _ T1 H1) as (O1&I1). destruct (owner_in _ _ _ T2 H2) as (O2&I2).
  unfold gval. rewrite (load_local L n0 n1 F G); auto; try (split; auto; fail);
    unfold inb, n1g, n2g in *; try lia.
  assert (GI : forall bc N g, 0 <= g < N -> global_index bc N g = Some g).
  { intros bc N g H. destruct bc; cbn.
    - rewrite Z.mod_small; auto.
    - destruct (Z.leb_spec 0 g), (Z.ltb_spec g N); auto; lia.
    - destruct (Z.leb_spec 0 g), (Z.ltb_spec g N); auto; lia. }
  rewrite !GI by lia. f_equal; lia.
Qed.

Lemma vec_load_ok {A} (L : layout) dof (F : file A) : flen F = dof * gN1 L * gN2 L ->
  exists G, vec_load L dof F = Ok G.
Proof. intros H. unfold vec_load. rewrite H, Z.eqb_refl. eauto. Qed.

(** ** Distribution function *)
Lemma np_dof c : N_species c * N_p1 c * N_p2 c * N_p3 c = N_p c * N_species c.
Proof. unfold N_p. ring. Qed.

Lemma dump_cells c s x sp g1 g2 : layout_ok (lay c) -> shaped (lay c) (N_p c) (N_species c) (sf s) ->
  inb (N_p c) x -> inb (N_species c) sp -> inb (gN1 (lay c)) g1 -> inb (gN2 (lay c)) g2 ->
  component (dump_distribution_function c s) (gN1 (lay c)) (N_p c * N_species c) (x + N_p c * sp) g1 g2
  = gval (lay c) (sf s) x sp g1 g2.
Proof. intros. unfold dump_distribution_function. apply view_component; auto. Qed.

Lemma dump_load c L' s old : layout_ok (lay c) -> layout_ok L' -> same_grid (lay c) L' ->
  shaped (lay c) (N_p c) (N_species c) (sf s) ->
  exists r, load_distribution_function (with_layout c L') (dump_distribution_function c s) old = Ok r
  /\ shaped L' (N_p c) (N_species c) (sf r)
  /\ forall x sp g1 g2, inb (N_p c) x -> inb (N_species c) sp -> inb (gN1 L') g1 -> inb (gN2 L') g2 ->
     gval L' (sf r) x sp g1 g2 = gval (lay c) (sf s) x sp g1 g2.
Proof.
  intros LO LO' (E1&E2) SH. unfold load_distribution_function.
  change (N_species (with_layout c L') * N_p1 (with_layout c L') * N_p2 (with_layout c L') * N_p3 (with_layout c L'))
    with (N_species c * N_p1 c * N_p2 c * N_p3 c). rewrite np_dof.
  change (lay (with_layout c L')) with L'. change (N_p (with_layout c L')) with (N_p c).
  change (N_species (with_layout c L')) with (N_species c).
  destruct (vec_load_ok L' (N_p c * N_species c) (dump_distribution_function c s)) as (G&Q).
  { cbn [dump_distribution_function vec_view flen]. rewrite E1, E2. reflexivity. }
  rewrite Q. cbn [rbind]. eexists. split; [reflexivity|]. split; [intros r1 r2 _; repeat split|].
  intros x sp g1 g2 Hx Hs H1 H2. cbn [sf].
  rewrite (load_gval L' (N_p c) (N_species c) (dump_distribution_function c s) G (sbuf old)); auto.
  rewrite E1 in *. rewrite E2 in *. apply dump_cells; auto.
Qed.

Lemma load_ghosts c F old r : periodic_layout (lay c) -> load_distribution_function c F old = Ok r ->
  ghosts_filled c (sf r).
Proof.
  intros PL H. assert (LO : layout_ok (lay c)) by (destruct PL as (A&B&C&D&_); split; split; auto).
  unfold load_distribution_function in H. rewrite np_dof in H.
  destruct (vec_load (lay c) (N_p c * N_species c) F) as [G|] eqn:Q; [|discriminate]. cbn [rbind] in H.
  injection H as <-. intros r1 r2 x s i j RK Hx Hs Hi Hj. cbn [sf].
  rewrite (load_local (lay c) (N_p c) (N_species c) F G); auto.
  pose proof PL as ((N1&_)&(N2&_)&_&_&P1&P2). rewrite P1, P2. cbn [global_index].
  unfold gper. rewrite (load_gval (lay c) (N_p c) (N_species c) F G); auto; apply Z.mod_pos_bound; lia.
Qed.

Lemma load_wrong_size c F old : flen F <> N_p c * N_species c * gN1 (lay c) * gN2 (lay c) ->
  load_distribution_function c F old = Err PetscError.
Proof.
  intros H. unfold load_distribution_function. rewrite np_dof. unfold vec_load.
  destruct (Z.eqb_spec (flen F) (N_p c * N_species c * gN1 (lay c) * gN2 (lay c))); [contradiction|reflexivity].
Qed.

(** ** Moments *)
Definition sleb (a b : string) : Prop := String.leb a b = true.

Lemma insert_perm x l : Permutation (x :: l) (insert x l).
Proof.
  induction l as [|y t IH]; cbn; auto. destruct (String.leb x y); auto.
  eapply perm_trans; [apply perm_swap|]. auto.
Qed.
Lemma sorted_perm l : Permutation l (sorted_names l).
Proof. induction l; cbn; auto. eapply perm_trans; [|apply insert_perm]. auto. Qed.

Lemma leb_cons a b s t : String.leb (String a s) (String b t) = true <->
  (N_of_ascii a < N_of_ascii b)%N \/ a = b /\ String.leb s t = true.
Proof.
  unfold String.leb. cbn [String.compare]. unfold Ascii.compare.
  destruct (N.compare_spec (N_of_ascii a) (N_of_ascii b)) as [E|E|E].
  - assert (a = b) as -> by (rewrite <- (ascii_N_embedding a), E; apply ascii_N_embedding).
    split; [intros H; right; auto|]. intros [H|(_&H)]; [lia|exact H].
  - split; auto.
  - split; [discriminate|]. intros [H|(->&_)]; lia.
Qed.

Lemma sleb_trans a : forall b c, sleb a b -> sleb b c -> sleb a c.
Proof.
  unfold sleb. induction a as [|x a IH]; intros [|y b] [|z c] H K; try reflexivity; try discriminate.
  apply leb_cons in H. apply leb_cons in K. apply leb_cons.
  destruct H as [H|(->&H)], K as [K|(->&K)].
  - left; lia.
  - left; auto.
  - left; auto.
  - right. split; eauto.
Qed.

Lemma insert_sorted x l : StronglySorted sleb l -> StronglySorted sleb (insert x l).
Proof.
  induction 1 as [|y t S IH H]; cbn; [repeat constructor|]. destruct (String.leb x y) eqn:E.
  - constructor; [constructor; auto|]. constructor; [exact E|].
    eapply Forall_impl; [|exact H]. intros z Hz. eapply sleb_trans; eauto.
  - constructor; auto. assert (Y : sleb y x) by (unfold sleb; destruct (String.leb_total x y); congruence).
    apply (Permutation_Forall (insert_perm x t)). constructor; auto.
Qed.
Lemma names_sorted l : StronglySorted sleb (sorted_names l).
Proof. induction l; cbn; [constructor|apply insert_sorted; auto]. Qed.

Lemma filter_sorted {A} (R : A -> A -> Prop) p l : StronglySorted R l -> StronglySorted R (filter p l).
Proof.
  induction 1; cbn; [constructor|]. destruct (p a); auto. constructor; auto.
  rewrite Forall_forall in *. intros x Hx. apply filter_In in Hx. apply H0, Hx.
Qed.
Lemma remove_first_in x y l : In y (remove_first x l) -> In y l.
Proof. induction l; cbn; auto. destruct (String.eqb a x); cbn; auto. intros [->|H]; auto. Qed.
Lemma remove_first_sorted R x l : StronglySorted R l -> StronglySorted R (remove_first x l).
Proof.
  induction 1; cbn; [constructor|]. destruct (String.eqb a x); auto. constructor; auto.
  rewrite Forall_forall in *. intros y Hy. apply H0, (remove_first_in _ _ _ Hy).
Qed.
Lemma remove_first_iff x y l : NoDup l -> In y (remove_first x l) <-> In y l /\ y <> x.
Proof.
  induction 1 as [|a l NI ND IH]; cbn; [tauto|].
  destruct (String.eqb_spec a x) as [->|N]; cbn.
  - split; [intros H; split; auto; intros ->; auto|]. intros ([->|H]&K); [contradiction|auto].
  - rewrite IH. split; [intros [->|(H&K)]; auto|]. intros ([->|H]&K); auto.
Qed.
Lemma remove_first_nodup x l : NoDup l -> NoDup (remove_first x l).
Proof.
  induction 1 as [|a l NI ND IH]; cbn; [constructor|]. destruct (String.eqb a x); auto.
  constructor; auto. intros K. apply NI, (remove_first_in _ _ _ K).
Qed.

Lemma private_iff a : private a = true <-> exists r, a = String "_"%char r.
Proof.
  destruct a as [|ch r]; cbn; [split; [discriminate|intros (?&?); discriminate]|].
  rewrite Ascii.eqb_eq. split; [intros ->; eauto|intros (r'&E); injection E; auto].
Qed.

Lemma attributes_spec names : NoDup names ->
  StronglySorted sleb (attributes names) /\ NoDup (attributes names)
  /\ forall a, In a (attributes names) <-> public names a.
Proof.
  intros ND. assert (NS : NoDup (filter (fun a => negb (private a)) (sorted_names names)))
    by (apply NoDup_filter; eapply Permutation_NoDup; [apply sorted_perm|auto]).
  split; [apply remove_first_sorted, filter_sorted, names_sorted|]. split; [apply remove_first_nodup; auto|].
  intros a. unfold attributes, public. rewrite remove_first_iff by auto. rewrite filter_In.
  assert (IN : In a (sorted_names names) <-> In a names).
  { split; apply Permutation_in; [apply Permutation_sym|]; apply sorted_perm. }
  rewrite IN. split.
  - intros ((H&K)&E). split; [auto|split; auto]. intros r ->. cbn in K. discriminate.
  - intros (H&E&K). split; auto. split; auto. destruct (private a) eqn:Q; auto.
    apply private_iff in Q. destruct Q as (r&->). exfalso. eapply K; reflexivity.
Qed.

(** The joined array: component k N_s + s is species s of the k-th moment. *)
Lemma join_moments_spec c T mu f n1 n2 : 0 < N_species c -> forall l acc K, 
  dims4 acc 1 (N_species c * K) n1 n2 -> 0 <= K ->
  (forall a, In a l -> exists M, compute_moments c T mu a f = Ok M /\ dims4 M 1 (N_species c) n1 n2) ->
  exists A, join_moments c T mu f acc l = Ok A
  /\ dims4 A 1 (N_species c * (K + Z.of_nat (List.length l))) n1 n2
  /\ (forall p x i j, 0 <= x < N_species c * K -> el A p x i j = el acc p x i j)
  /\ forall k a M, nth_error l k = Some a -> compute_moments c T mu a f = Ok M ->
     forall p s i j, inb (N_species c) s -> el A p (N_species c * (K + Z.of_nat k) + s) i j = el M p s i j.
Proof.
  intros NS. induction l as [|a l IH]; intros acc K D HK H; cbn [join_moments].
  - exists acc. split; auto. cbn [List.length]. split; [rewrite Z.add_0_r; auto|]. split; auto.
    intros [|k] a M E; discriminate.
  - destruct (H a (or_introl eq_refl)) as (M&Q&DM). rewrite Q. cbn [rbind].
    destruct D as (A0&A1&A2&A3). destruct DM as (M0&M1&M2&M3).
    destruct (IH (join1 acc M) (K + 1)) as (A&QA&DA&LO&HI); [|lia|intros; apply H; right; auto|].
    { repeat split; cbn; auto. rewrite A1, M1. ring. }
    exists A. split; auto. split; [|split].
    + replace (K + Z.of_nat (List.length (a :: l))) with (K + 1 + Z.of_nat (List.length l)) by (cbn [List.length]; lia). auto.
    + intros p x i j Hx. rewrite LO by lia. cbn [join1 el]. rewrite A1. destruct (Z.ltb_spec x (N_species c * K)); auto; lia.
    + intros [|k] b M' E QM p s i j Hs; cbn [nth_error] in E.
      * injection E as <-. rewrite QM in Q. injection Q as <-. unfold inb in Hs. rewrite LO by (cbn; lia).
        cbn [join1 el]. rewrite A1. destruct (Z.ltb_spec (N_species c * (K + Z.of_nat 0) + s) (N_species c * K)); [cbn in *; lia|].
        f_equal. cbn. lia.
      * rewrite <- (HI k b M' E QM p s i j Hs). f_equal. lia.
Qed.

Lemma moments_array_spec c T mu f n1 n2 l : 0 < N_species c -> l <> [] ->
  (forall a, In a l -> exists M, compute_moments c T mu a f = Ok M /\ dims4 M 1 (N_species c) n1 n2) ->
  exists A, moments_array c T mu f l = Ok A
  /\ dims4 A 1 (N_species c * Z.of_nat (List.length l)) n1 n2
  /\ forall k a M, nth_error l k = Some a -> compute_moments c T mu a f = Ok M ->
     forall p s i j, inb (N_species c) s -> el A p (Z.of_nat k * N_species c + s) i j = el M p s i j.
Proof.
  intros NS NE H. destruct l as [|a l]; [contradiction|]. cbn [moments_array].
  destruct (H a (or_introl eq_refl)) as (M&Q&DM). rewrite Q. cbn [rbind].
  destruct (join_moments_spec c T mu f n1 n2 NS l M 1) as (A&QA&DA&LO&HI); [rewrite Z.mul_1_r; auto|lia|intros; apply H; right; auto|].
  exists A. split; auto. split.
  - replace (Z.of_nat (List.length (a :: l))) with (1 + Z.of_nat (List.length l)) by (cbn [List.length]; lia). auto.
  - intros [|k] b M' E QM p s i j Hs; cbn [nth_error] in E.
    + injection E as <-. rewrite QM in Q. injection Q as <-. unfold inb in Hs. rewrite LO by (cbn; lia). f_equal; cbn; lia.
    + rewrite <- (HI k b M' E QM p s i j Hs). f_equal. lia.
Qed.

Lemma dump_moments_spec c names T mu s : layout_ok (lay c) -> 0 < N_species c -> attributes names <> [] ->
  (forall a r1 r2, In a (attributes names) -> rank_ok (lay c) r1 r2 ->
     exists M, compute_moments c T mu a (sf s r1 r2) = Ok M
     /\ dims4 M 1 (N_species c) (n1g (lay c) r1) (n2g (lay c) r2)) ->
  exists F, dump_moments c names T mu s = Ok F
  /\ flen F = N_species c * Z.of_nat (List.length (attributes names)) * gN1 (lay c) * gN2 (lay c)
  /\ forall k a V, nth_error (attributes names) k = Some a ->
     (forall r1 r2, rank_ok (lay c) r1 r2 -> compute_moments c T mu a (sf s r1 r2) = Ok (V r1 r2)) ->
     forall sp g1 g2, inb (N_species c) sp -> inb (gN1 (lay c)) g1 -> inb (gN2 (lay c)) g2 ->
     component F (gN1 (lay c)) (N_species c * Z.of_nat (List.length (attributes names)))
       (Z.of_nat k * N_species c + sp) g1 g2 = gval (lay c) V 0 sp g1 g2.
Proof.
  intros LO NS NE H. unfold dump_moments. set (l := attributes names) in *.
  set (dof := N_species c * Z.of_nat (List.length l)). set (L := lay c) in *.
  assert (X : forall r1 r2, rank_ok L r1 r2 -> exists A, moments_array c T mu (sf s r1 r2) l = Ok A
     /\ fill_buffer (interior L A) (dof * bsize (blk1 L) r1 * bsize (blk2 L) r2) = Ok (interior L A)
     /\ dims4 A 1 dof (n1g L r1) (n2g L r2)
     /\ forall k a M, nth_error l k = Some a -> compute_moments c T mu a (sf s r1 r2) = Ok M ->
        forall p s i j, inb (N_species c) s -> el A p (Z.of_nat k * N_species c + s) i j = el M p s i j).
  { intros r1 r2 RK. destruct (moments_array_spec c T mu (sf s r1 r2) (n1g L r1) (n2g L r2) l NS NE) as (A&Q&D&V).
    { intros a Ha. destruct (H a r1 r2 Ha RK) as (M&Q&D). eauto. }
    exists A. split; auto. split; [|auto]. destruct D as (D0&D1&D2&D3).
    destruct (interior_ok L A r1 r2 LO RK D2 D3) as (_&E0&E1&E2&E3).
    unfold fill_buffer, size. rewrite E0, E1, E2, E3, D0, D1. unfold dof. rewrite Z.mul_1_l, Z.eqb_refl. reflexivity. }
  destruct (all_ranks_ok L (fun r1 r2 =>
      let? a := moments_array c T mu (sf s r1 r2) l in
      fill_buffer (interior L a) (dof * bsize (blk1 L) r1 * bsize (blk2 L) r2))) as (A&QA&VA).
  { intros r1 r2 RK. destruct (X r1 r2 RK) as (A&->&Q&_). cbn [rbind]. eauto. }
  rewrite QA. cbn [rbind]. eexists. split; [reflexivity|]. split; [reflexivity|].
  intros k a V NK HV sp g1 g2 Hs H1 H2. unfold component, vec_view; cbn [fdat].
  assert (KL : (k < List.length l)%nat) by (apply nth_error_Some; rewrite NK; discriminate).
  pose proof LO as ((T1&_)&(T2&_)).
  destruct (owner_in _ _ _ T1 H1) as (O1&I1). destruct (owner_in _ _ _ T2 H2) as (O2&I2). unfold inb in *.
  assert (B : 0 <= Z.of_nat k * N_species c + sp < dof) by (unfold dof; nia).
  rewrite (mod_unique_small dof) by lia. rewrite (div_add_mul dof) by lia.
  rewrite mod_unique_small by lia. rewrite div_add_mul by lia.
  unfold gval. set (o1 := owner (blk1 L) g1) in *. set (o2 := owner (blk2 L) g2) in *.
  assert (RK : rank_ok L o1 o2) by (split; auto).
  specialize (VA o1 o2 RK). destruct (X o1 o2 RK) as (B0&QB&FB&(D0&D1&D2&D3)&VB). rewrite QB in VA. cbn [rbind] in VA.
  rewrite FB in VA. injection VA as VA. rewrite <- VA.
  destruct (interior_ok L B0 o1 o2 LO RK D2 D3) as (E&E0&E1&E2&E3).
  rewrite <- (VB k a (V o1 o2) NK (HV o1 o2 RK) 0 sp) by (unfold inb; lia).
  rewrite <- E, <- (flat_lin (interior L B0)).
  - f_equal. rewrite E0, E1, E2, D0, D1. unfold lin. ring.
  - unfold inside, inb. rewrite E0, E1, E2, E3, D0, D1. lia.
Qed.

(** ** Auxiliary arrays *)
Lemma aux_interior_ok {A} (L : layout) n (a : arr A) r1 r2 : 0 < n -> ng1 L = n -> ng2 L = n ->
  0 <= bsize (blk1 L) r1 -> 0 <= bsize (blk2 L) r2 ->
  d2 a = n1g L r1 -> d3 a = n2g L r2 ->
  (forall p s i j, el (aux_interior n a) p s i j = el a p s (n + i) (n + j))
  /\ d0 (aux_interior n a) = d0 a /\ d1 (aux_interior n a) = d1 a
  /\ d2 (aux_interior n a) = bsize (blk1 L) r1 /\ d3 (aux_interior n a) = bsize (blk2 L) r2.
Proof.
  intros P N1 N2 B1 B2 D2 D3. unfold aux_interior, slice23; cbn. rewrite D2, D3. unfold n1g, n2g. rewrite N1, N2.
  assert (IE : i_end n = - n) by (unfold i_end; destruct (Z.eqb_spec n 0); [lia|auto]).
  pose proof (slice_interior (bsize (blk1 L) r1) n P B1) as (X1&Y1).
  pose proof (slice_interior (bsize (blk2 L) r2) n P B2) as (X2&Y2).
  rewrite IE in *. rewrite X1, Y1, X2, Y2. auto.
Qed.

Lemma aux_fold {A} n m e1 e2 (l : list (arr A)) : forall acc K, 0 <= K ->
  dims4 acc K m e1 e2 ->
  (forall a, In a l -> dims4 (aux_interior n a) 1 m e1 e2) ->
  let B := fold_left (fun acc b => join0 acc (aux_interior n b)) l acc in
  dims4 B (K + Z.of_nat (List.length l)) m e1 e2
  /\ (forall x s i j, 0 <= x < K -> el B x s i j = el acc x s i j)
  /\ forall k a, nth_error l k = Some a -> forall s i j,
     el B (K + Z.of_nat k) s i j = el (aux_interior n a) 0 s i j.
Proof.
  induction l as [|a l IH]; intros acc K HK D H; cbn [fold_left].
  - cbn [List.length]. rewrite Z.add_0_r. split; auto. split; auto. intros [|k] a E; discriminate.
  - destruct D as (A0&A1&A2&A3). destruct (H a (or_introl eq_refl)) as (M0&M1&M2&M3).
    destruct (IH (join0 acc (aux_interior n a)) (K + 1)) as (DB&LO&HI); [lia| |intros; apply H; right; auto|].
    { repeat split; cbn [join0 d0 d1 d2 d3]; auto. rewrite A0, M0. reflexivity. }
    split; [|split].
    + replace (K + Z.of_nat (List.length (a :: l))) with (K + 1 + Z.of_nat (List.length l)) by (cbn [List.length]; lia). auto.
    + intros x s i j Hx. rewrite LO by lia. cbn [join0 el]. rewrite A0. destruct (Z.ltb_spec x K); auto; lia.
    + intros [|k] b E s i j; cbn [nth_error] in E.
      * injection E as <-. rewrite LO by lia. cbn [join0 el]. rewrite A0.
        destruct (Z.ltb_spec (K + Z.of_nat 0) K); [lia|]. f_equal; lia.
      * rewrite <- (HI k b E s i j). f_equal. lia.
Qed.

Lemma aux_array_ok (L : layout) n m r1 r2 (l : list (arr R)) : l <> [] -> 0 < n -> ng1 L = n -> ng2 L = n ->
  0 <= bsize (blk1 L) r1 -> 0 <= bsize (blk2 L) r2 ->
  (forall a, In a l -> dims4 a 1 m (n1g L r1) (n2g L r2)) ->
  exists B, aux_array n l = Ok B /\ dims4 B (Z.of_nat (List.length l)) m (bsize (blk1 L) r1) (bsize (blk2 L) r2)
  /\ forall k a, nth_error l k = Some a -> forall s i j, el B (Z.of_nat k) s i j = el a 0 s (n + i) (n + j).
Proof.
  intros NE P N1 N2 B1 B2 H. destruct l as [|a l]; [contradiction|]. cbn [aux_array].
  assert (I : forall b, In b (a :: l) -> dims4 (aux_interior n b) 1 m (bsize (blk1 L) r1) (bsize (blk2 L) r2)
     /\ forall p s i j, el (aux_interior n b) p s i j = el b p s (n + i) (n + j)).
  { intros b Hb. destruct (H b Hb) as (D0&D1&D2&D3).
    destruct (aux_interior_ok L n b r1 r2 P N1 N2 B1 B2 D2 D3) as (E&E0&E1&E2&E3).
    split; [|exact E]. repeat split; congruence. }
  destruct (I a (or_introl eq_refl)) as (Da&Ea).
  destruct (aux_fold n m (bsize (blk1 L) r1) (bsize (blk2 L) r2) l (aux_interior n a) 1) as (DB&LO&HI); [lia|auto|intros b Hb; apply (I b (or_intror Hb))|].
  eexists. split; [reflexivity|]. split.
  - replace (Z.of_nat (List.length (a :: l))) with (1 + Z.of_nat (List.length l)) by (cbn [List.length]; lia). exact DB.
  - intros [|k] b E s i j; cbn [nth_error] in E.
    + injection E as <-. rewrite LO by lia. apply Ea.
    + replace (Z.of_nat (S k)) with (1 + Z.of_nat k) by lia. rewrite (HI k b E). apply (I b). right. eapply nth_error_In; eauto.
Qed.

Lemma aux_ok L n arrays da : layout_ok L -> 0 < n -> ng1 L = n -> ng2 L = n -> arrays <> [] ->
  da = None \/ da = Some (Z.of_nat (List.length arrays)) ->
  (forall F, In F arrays -> shaped L 1 1 F) ->
  exists F, dump_aux_arrays L n arrays da = Ok (F, Some (Z.of_nat (List.length arrays)))
  /\ flen F = Z.of_nat (List.length arrays) * gN1 L * gN2 L
  /\ forall k A, nth_error arrays k = Some A -> forall g1 g2, inb (gN1 L) g1 -> inb (gN2 L) g2 ->
     component F (gN1 L) (Z.of_nat (List.length arrays)) (Z.of_nat k) g1 g2 = gval L A 0 0 g1 g2.
Proof.
  intros LO P N1 N2 NE DA SH. unfold dump_aux_arrays.
  set (len := Z.of_nat (List.length arrays)).
  assert (LP : 0 < len) by (destruct arrays; [contradiction|unfold len; cbn [List.length]; lia]).
  replace (match da with Some d => d | None => len end) with len by (destruct DA as [->| ->]; reflexivity).
  destruct (Z.leb_spec len 0); [lia|].
  pose proof LO as ((T1&_)&(T2&_)).
  assert (BS : forall r1 r2, rank_ok L r1 r2 -> 0 < bsize (blk1 L) r1 /\ 0 < bsize (blk2 L) r2).
  { intros r1 r2 (R1&R2). destruct T1 as (_&F1&_), T2 as (_&F2&_). split; apply bsize_pos; auto. }
  assert (X : forall r1 r2, rank_ok L r1 r2 -> exists B, aux_array n (map (fun F => F r1 r2) arrays) = Ok B
     /\ dims4 B len 1 (bsize (blk1 L) r1) (bsize (blk2 L) r2)
     /\ forall k A, nth_error arrays k = Some A -> forall s i j, el B (Z.of_nat k) s i j = el (A r1 r2) 0 s (n + i) (n + j)).
  { intros r1 r2 RK. destruct (BS r1 r2 RK).
    destruct (aux_array_ok L n 1 r1 r2 (map (fun F => F r1 r2) arrays)) as (B&Q&D&V); auto; try lia.
    - destruct arrays; [contradiction|discriminate].
    - intros a Ha. apply in_map_iff in Ha. destruct Ha as (F&<-&HF). apply (SH F HF r1 r2 RK).
    - exists B. split; auto. rewrite map_length in D. split; auto.
      intros k A E s i j. apply V. rewrite (map_nth_error _ _ _ E). reflexivity. }
  destruct (all_ranks_ok L (fun r1 r2 =>
      let? a := aux_array n (map (fun F => F r1 r2) arrays) in
      fill_buffer a (len * bsize (blk1 L) r1 * bsize (blk2 L) r2))) as (G&QG&VG).
  { intros r1 r2 RK. destruct (X r1 r2 RK) as (B&->&(D0&D1&D2&D3)&_). cbn [rbind]. unfold fill_buffer, size.
    rewrite D0, D1, D2, D3, Z.mul_1_r, Z.eqb_refl. eauto. }
  rewrite QG. cbn [rbind]. eexists. split; [reflexivity|]. split; [reflexivity|].
  intros k A E g1 g2 H1 H2. unfold component, vec_view; cbn [fdat].
  assert (KL : (k < List.length arrays)%nat) by (apply nth_error_Some; rewrite E; discriminate).
  destruct (owner_in _ _ _ T1 H1) as (O1&I1). destruct (owner_in _ _ _ T2 H2) as (O2&I2). unfold inb in *.
  rewrite (mod_unique_small len) by (unfold len; lia). rewrite (div_add_mul len) by (unfold len; lia).
  rewrite mod_unique_small by lia. rewrite div_add_mul by lia.
  unfold gval. rewrite N1, N2. set (o1 := owner (blk1 L) g1) in *. set (o2 := owner (blk2 L) g2) in *.
  assert (RK : rank_ok L o1 o2) by (split; auto).
  specialize (VG o1 o2 RK). destruct (X o1 o2 RK) as (B&QB&(D0&D1&D2&D3)&VB). rewrite QB in VG. cbn [rbind] in VG.
  unfold fill_buffer, size in VG. rewrite D0, D1, D2, D3, Z.mul_1_r, Z.eqb_refl in VG. injection VG as <-.
  rewrite <- (VB k A E). rewrite <- (flat_lin B).
  - f_equal. rewrite D0, D1, D2. unfold lin. ring.
  - unfold inside, inb. rewrite D0, D1, D2, D3. unfold len in *. lia.
Qed.

Lemma all_ranks_fail L F r1 r2 e : rank_ok L r1 r2 -> F r1 r2 = Err e -> forall G, all_ranks L F <> Ok G.
Proof.
  intros RK HE G H. assert (I : In (r1, r2) (ranks L)) by (apply in_ranks; exact RK).
  unfold all_ranks in H. revert H. generalize (Ok (fun r1 r2 => match F r1 r2 with Ok a => a | Err _ => dummy end)).
  induction (ranks L) as [|q l IH]; [contradiction|]. intros r H. cbn [fold_right] in H.
  destruct I as [->|I].
  - cbn [fst snd] in H. rewrite HE in H. discriminate.
  - destruct (F (fst q) (snd q)); [|discriminate]. eapply IH; eauto.
Qed.

Lemma has_rank L : layout_ok L -> rank_ok L 0 0.
Proof.
  intros ((A&_)&(B&_)). destruct A as (PA&_&SA), B as (PB&_&SB).
  split; [destruct (blk1 L)|destruct (blk2 L)]; cbn in *; lia.
Qed.

(** A call whose arrays do not fill the buffer kept from the first call. *)
Lemma aux_bad L n m arrays dof : layout_ok L -> 0 < n -> ng1 L = n -> ng2 L = n -> arrays <> [] ->
  (forall F, In F arrays -> shaped L 1 m F) ->
  Z.of_nat (List.length arrays) * m <> dof ->
  forall r, dump_aux_arrays L n arrays (Some dof) <> Ok r.
Proof.
  intros LO P N1 N2 NE SH ND r H. unfold dump_aux_arrays in H. destruct (dof <=? 0); [discriminate|].
  pose proof (has_rank L LO) as RK.
  assert (0 < bsize (blk1 L) 0 /\ 0 < bsize (blk2 L) 0) as (B1&B2).
  { destruct LO as ((T1&_)&(T2&_)), RK as (R1&R2). destruct T1 as (_&F1&_), T2 as (_&F2&_). split; apply bsize_pos; auto. }
  destruct (aux_array_ok L n m 0%nat 0%nat (map (fun F => F 0%nat 0%nat) arrays)) as (B&Q&(D0&D1&D2&D3)&_); auto; try lia.
  { destruct arrays; [contradiction|discriminate]. }
  { intros a Ha. apply in_map_iff in Ha. destruct Ha as (F&<-&HF). apply (SH F HF _ _ RK). }
  destruct (all_ranks L _) as [G|] eqn:QA; [|discriminate].
  refine (all_ranks_fail L _ 0%nat 0%nat ValueError RK _ G QA). rewrite Q. cbn [rbind]. unfold fill_buffer, size.
  rewrite D0, D1, D2, D3, map_length.
  match goal with |- (if ?x =? ?y then _ else _) = _ => destruct (Z.eqb_spec x y) as [EQ|] end; [|reflexivity].
  exfalso. apply ND. apply Z.mul_reg_r in EQ; [|lia]. apply Z.mul_reg_r in EQ; [exact EQ|lia].
Qed.
