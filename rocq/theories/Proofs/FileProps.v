(** Statements about dumps assembled from the lemmas. *)
From Coq Require Import ZArith Reals Lia Lra String List Bool Sorted.
From Verif Require Import Base.Prelude Base.ZSum Model.Af Model.Petsc Model.Config
  Model.Fvm Model.Em Model.Moments Model.FileIO Spec.Domain Spec.FvmRun Spec.Files Spec.MomentSpec
  Proofs.AfLemmas Proofs.PetscLemmas Proofs.FvmLemmas Proofs.FvmLemmas2 Proofs.MomentLemmas Proofs.PhysicsProps Proofs.FileLemmas Proofs.FileMore.
Import ListNotations.
Local Open Scope Z_scope.

Lemma layout_rank_pos L r1 r2 : layout_ok L -> rank_ok L r1 r2 -> 0 < n1g L r1 /\ 0 < n2g L r2.
Proof.
  intros (((_&F1&_)&G1)&((_&F2&_)&G2)) (R1&R2). pose proof (bsize_pos _ r1 F1 R1). pose proof (bsize_pos _ r2 F2 R2).
  unfold n1g, n2g. lia.
Qed.

(** The file of the non-relativistic moments. *)
Lemma nonrel_dump c names mu s : layout_ok (lay c) -> momentum_grid_ok c ->
  p_space_grid c = "cartesian"%string -> NoDup names -> attributes names <> [] ->
  (forall a, public names a -> exists w, forall x y z, moment_weight a x y z = Some (w x y z)) ->
  shaped (lay c) (N_p c) (N_species c) (sf s) ->
  let n := Z.of_nat (List.length (attributes names)) in
  exists F, dump_moments c names nonrel_moments mu s = Ok F
  /\ flen F = N_species c * n * gN1 (lay c) * gN2 (lay c)
  /\ forall k a w, nth_error (attributes names) k = Some a ->
     (forall x y z, moment_weight a x y z = Some (w x y z)) ->
     forall sp g1 g2, inb (N_species c) sp -> inb (gN1 (lay c)) g1 -> inb (gN2 (lay c)) g2 ->
     component F (gN1 (lay c)) (N_species c * n) (Z.of_nat k * N_species c + sp) g1 g2
     = integral (species_grid c sp) w (fun i1 i2 i3 => gval (lay c) (sf s) (row c i1 i2 i3) sp g1 g2).
Proof.
  intros LO OK CA ND NE WT SH n.
  destruct (attributes_spec names ND) as (_&_&IN).
  assert (MO : forall a w r1 r2, (forall x y z, moment_weight a x y z = Some (w x y z)) -> rank_ok (lay c) r1 r2 ->
     exists M, compute_moments c nonrel_moments mu a (sf s r1 r2) = Ok M
     /\ moment_is c (n1g (lay c) r1) (n2g (lay c) r2) M (fun sp k l => integral (species_grid c sp) w (fun i1 i2 i3 => el (sf s r1 r2) (row c i1 i2 i3) sp k l))).
  { intros a w r1 r2 W RK. destruct (layout_rank_pos _ _ _ LO RK) as (P1&P2).
    destruct (moment_value c (n1g (lay c) r1) (n2g (lay c) r2) OK P1 P2 mu a w (sf s r1 r2)) as (X&_); auto.
    destruct (SH r1 r2 RK) as (A&B&C&D). repeat split; auto. }
  destruct (dump_moments_spec c names nonrel_moments mu s LO) as (F&HF&LF&CF); auto.
  { apply OK. }
  { intros a r1 r2 Ha RK. apply IN in Ha. destruct (WT a Ha) as (w&W). destruct (MO a w r1 r2 W RK) as (M&HM&DM&_). eauto. }
  exists F. split; [exact HF|]. split; [exact LF|].
  intros k a w Hk W sp g1 g2 Hs H1 H2.
  set (V := fun r1 r2 => match compute_moments c nonrel_moments mu a (sf s r1 r2) with Ok M => M | Err _ => sf s r1 r2 end).
  rewrite (CF k a V Hk) by (auto; intros r1 r2 RK; unfold V; destruct (MO a w r1 r2 W RK) as (M&HM&_); rewrite HM; reflexivity).
  unfold gval.
  destruct (owner_in (gN1 (lay c)) (blk1 (lay c)) g1) as (R1&O1); [apply LO|auto|].
  destruct (owner_in (gN2 (lay c)) (blk2 (lay c)) g2) as (R2&O2); [apply LO|auto|].
  assert (RK : rank_ok (lay c) (owner (blk1 (lay c)) g1) (owner (blk2 (lay c)) g2)) by (split; auto).
  unfold V. destruct (MO a w _ _ W RK) as (M&HM&_&EM). rewrite HM. apply EM; auto; unfold inb, n1g, n2g in *.
  - destruct LO as ((_&G1)&_). lia.
  - destruct LO as (_&(_&G2)). lia.
Qed.

(** Which files load. *)
Lemma load_iff c F old : layout_ok (lay c) ->
  (exists r, load_distribution_function c F old = Ok r) <-> flen F = N_p c * N_species c * gN1 (lay c) * gN2 (lay c).
Proof.
  intros _. split.
  - intros (r&H). destruct (Z.eq_dec (flen F) (N_p c * N_species c * gN1 (lay c) * gN2 (lay c))); [auto|].
    rewrite load_wrong_size in H by auto. discriminate H.
  - intros H. unfold load_distribution_function.
    destruct (vec_load_ok (lay c) (N_species c * N_p1 c * N_p2 c * N_p3 c) F) as (G&HG).
    { rewrite H, np_dof. reflexivity. }
    rewrite HG. cbn [rbind]. eauto.
Qed.

Lemma load_values c F old r : layout_ok (lay c) -> load_distribution_function c F old = Ok r ->
  forall x sp g1 g2, inb (N_p c) x -> inb (N_species c) sp -> inb (gN1 (lay c)) g1 -> inb (gN2 (lay c)) g2 ->
  gval (lay c) (sf r) x sp g1 g2 = component F (gN1 (lay c)) (N_p c * N_species c) (x + N_p c * sp) g1 g2.
Proof.
  intros LO H x sp g1 g2 Hx Hs H1 H2. unfold load_distribution_function in H. rewrite np_dof in H.
  destruct (vec_load (lay c) (N_p c * N_species c) F) as [G|e] eqn:E; cbn [rbind] in H; [|discriminate H].
  injection H as <-. cbn [sf]. apply (load_gval (lay c) (N_p c) (N_species c) F G (sbuf old)); auto.
Qed.

(** A dump of an N1 x N2 grid loads into an N2 x N1 grid: the cells are taken in
    the order they were written. *)
Lemma transposed_load c c' s old : layout_ok (lay c) -> layout_ok (lay c') ->
  N_p c' = N_p c -> N_species c' = N_species c -> gN1 (lay c') = gN2 (lay c) -> gN2 (lay c') = gN1 (lay c) ->
  shaped (lay c) (N_p c) (N_species c) (sf s) ->
  exists r, load_distribution_function c' (dump_distribution_function c s) old = Ok r
  /\ forall x sp g1 g2, inb (N_p c) x -> inb (N_species c) sp -> inb (gN1 (lay c')) g1 -> inb (gN2 (lay c')) g2 ->
     let n := g1 + gN2 (lay c) * g2 in
     gval (lay c') (sf r) x sp g1 g2 = gval (lay c) (sf s) x sp (n mod gN1 (lay c)) (n / gN1 (lay c)).
Proof.
  intros LO LO' NP NS G1 G2 SH.
  destruct (proj2 (load_iff c' (dump_distribution_function c s) old LO')) as (r&H).
  { unfold dump_distribution_function, vec_view; cbn [flen]. rewrite NP, NS, G1, G2. ring. }
  exists r. split; [exact H|]. intros x sp g1 g2 Hx Hs H1 H2 n.
  rewrite (load_values c' _ old r LO' H) by (auto; congruence). rewrite NP, NS, G1.
  assert (0 < gN1 (lay c) /\ 0 < gN2 (lay c)) as (P1&P2) by (split; apply LO).
  unfold inb in *. rewrite G1 in H1. rewrite G2 in H2.
  assert (B : 0 <= n < gN1 (lay c) * gN2 (lay c)) by (unfold n; nia).
  rewrite <- (dump_cells c s x sp (n mod gN1 (lay c)) (n / gN1 (lay c))); auto.
  - unfold component. f_equal. f_equal. f_equal. pose proof (Z.div_mod n (gN1 (lay c)) ltac:(lia)). fold n. lia.
  - unfold inb. apply Z.mod_pos_bound. lia.
  - unfold inb. split; [apply Z.div_pos; lia|]. apply Z.div_lt_upper_bound; lia.
Qed.
