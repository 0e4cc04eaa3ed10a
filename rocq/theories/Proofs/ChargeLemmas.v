(** Charge and current densities computed by the solver. *)
From Coq Require Import ZArith Reals Lia Lra String List Bool.
From Verif Require Import Base.Prelude Base.ZSum Model.Af Model.Petsc Model.Config
  Model.Fvm Model.Em Model.Moments Model.Solver Spec.Domain Spec.Lattice Spec.FvmProblem Spec.FvmRun
  Spec.MomentSpec Spec.SolverSpec Proofs.AfLemmas Proofs.PetscLemmas Proofs.ConvLemmas Proofs.FvmLemmas Proofs.FvmLemmas2
  Proofs.EmLemmas Proofs.MomentLemmas Proofs.EmInit Proofs.SolverLemmas.
Import ListNotations.
Local Open Scope R_scope.

Section Charge.
  Context (P : params) (k1 k2 : scheme).
  Let c := pc P.
  Let L := lay c.
  Context (W : wf_cfg c k1 k2) (PL : periodic_layout L) (PM : plasma P).

  Lemma grid_ok : momentum_grid_ok c.
  Proof. unfold wf_cfg in W. unfold momentum_grid_ok. tauto. Qed.

  Lemma charge_moment_el name w F :
    (forall x y z, moment_weight name x y z = Some (w x y z)) -> shaped L (N_p c) (N_species c) F ->
    exists m, moment P name F = Ok m
    /\ shaped L 1 1 (dmap asum1 (times_charge P m))
    /\ forall r1 r2 k l, rank_ok L r1 r2 -> inb (n1g L r1) k -> inb (n2g L r2) l ->
       el (asum1 (times_charge P m r1 r2)) 0 0 k l = charge_moment P w (fun x s => el (F r1 r2) x s k l).
  Proof.
    intros Hw SH. pose proof PM as [TB GR CH _ _ _ _]. fold c in GR, CH.
    assert (PS : (0 < N_species c)%Z) by (unfold wf_cfg in W; tauto).
    assert (V : forall r1 r2, rank_ok L r1 r2 -> exists M,
       compute_moments c (table P) (initial_mu P) name (F r1 r2) = Ok M
       /\ moment_is c (n1g L r1) (n2g L r2) M (fun s k l => integral (species_grid c s) w
            (fun i1 i2 i3 => el (F r1 r2) (row c i1 i2 i3) s k l))).
    { intros r1 r2 RK. destruct (size_pos L PL r1 r2 RK) as (Z1&Z2). pose proof PL as (_&_&G1&G2&_).
      rewrite TB. apply (moment_value c (n1g L r1) (n2g L r2) grid_ok); auto;
        [unfold n1g; lia|unfold n2g; lia|exact (SH r1 r2 RK)]. }
    unfold moment. fold c L.
    destruct (all_ranks_ok L (fun r1 r2 => compute_moments c (table P) (initial_mu P) name (F r1 r2))) as (m&E&Vm).
    { intros r1 r2 RK. destruct (V r1 r2 RK) as (M&EM&_). eauto. }
    exists m. split; [exact E|].
    assert (Vm' : forall r1 r2, rank_ok L r1 r2 -> moment_is c (n1g L r1) (n2g L r2) (m r1 r2)
         (fun s k l => integral (species_grid c s) w (fun i1 i2 i3 => el (F r1 r2) (row c i1 i2 i3) s k l))).
    { intros r1 r2 RK. specialize (Vm r1 r2 RK). cbv beta in Vm. destruct (V r1 r2 RK) as (M&EM&IM). rewrite EM in Vm.
      apply Ok_inj in Vm. rewrite <- Vm. exact IM. }
    assert (DM : forall r1 r2, rank_ok L r1 r2 -> (1 <= n1g L r1)%Z /\ (1 <= n2g L r2)%Z).
    { intros r1 r2 RK. destruct (size_pos L PL r1 r2 RK) as (Z1&Z2). pose proof PL as (_&_&G1&G2&_).
      unfold n1g, n2g. lia. }
    split.
    - intros r1 r2 RK. destruct (Vm' r1 r2 RK) as ((D0&D1&D2&D3)&_). destruct (DM r1 r2 RK) as (B1&B2).
      unfold dmap, times_charge, dmap, asum1, bcast2, Fvm.dp_arr. cbn [d0 d1 d2 d3].
      rewrite D0, D2, D3. repeat split; lia.
    - intros r1 r2 k l RK Hk Hl. destruct (Vm' r1 r2 RK) as ((D0&D1&D2&D3)&Ve). destruct (DM r1 r2 RK) as (B1&B2).
      unfold times_charge, dmap, asum1; cbn [el]. unfold bcast2 at 1; cbn [d1 Fvm.dp_arr].
      rewrite D1, CH, Z.max_id. unfold charge_moment. fold c. apply zsum_ext. intros s Hs.
      unfold bcast2, bel; cbn [el d0 d1 d2 d3 Fvm.dp_arr]. rewrite D0, D1, D2, D3, CH.
      rewrite !bidx_1. rewrite !(bidx_in _ s) by exact Hs. rewrite (bidx_in _ k), (bidx_in _ l) by auto.
      rewrite Ve by auto. reflexivity.
  Qed.

  (** The charge density of arrays covered by a global state. *)
  Lemma charge_moment_ext w g g' : (forall x s, inb (N_p c) x -> inb (N_species c) s -> g x s = g' x s) ->
    charge_moment P w g = charge_moment P w g'.
  Proof.
    intros H. unfold charge_moment. fold c. apply zsum_ext. intros s Hs. f_equal. unfold integral. f_equal.
    cbn [mn1 mn2 mn3 species_grid].
    apply zsum_ext; intros i3 H3. apply zsum_ext; intros i2 H2. apply zsum_ext; intros i1 H1. f_equal.
    apply H; auto. apply pidx_bound; auto.
  Qed.
End Charge.
