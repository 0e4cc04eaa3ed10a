(** The pieces of op_fvm on a periodic domain, on the global grid. *)
From Coq Require Import ZArith Reals Lia Lra String List Bool.
From Verif Require Import Base.Prelude Base.ZSum Model.Af Model.Petsc Model.Config Model.Boundaries
  Model.Fvm Model.Em Model.Moments Model.Solver Spec.Domain Spec.Lattice Spec.FvmProblem Spec.FvmRun
  Spec.MomentSpec Proofs.AfLemmas Proofs.PetscLemmas Proofs.FluxLemmas Proofs.ConvLemmas Proofs.FvmLemmas Proofs.FvmLemmas2
  Proofs.MomentLemmas Proofs.EmInit Proofs.SolverLemmas.
Import ListNotations.
Local Open Scope R_scope.

Section Stage.
  Context (P : params) (k1 k2 : scheme).
  Let c := pc P.
  Let L := lay c.
  Context (W : wf_cfg c k1 k2) (PF : periodic_fvm c k1).

  (** Local arrays with ghost zones filled from the global state [U]. *)
  Definition covered (F : dist R) (U : gstate) : Prop :=
    forall r1 r2, rank_ok L r1 r2 -> covers c r1 r2 (F r1 r2) U.

  Lemma covered_shaped F U : covered F U -> shaped L (N_p c) (N_species c) F.
  Proof. intros H r1 r2 RK. apply (H r1 r2 RK). Qed.

  Lemma covered_gval F U x s g1 g2 : covered F U -> inb (N_p c) x -> inb (N_species c) s ->
    inb (gN1 L) g1 -> inb (gN2 L) g2 -> gval L F x s g1 g2 = U x s g1 g2.
  Proof.
    intros C Hx Hs H1 H2. pose proof PF as (_&_&(T1&T2&G1&G2&_)&_). fold L in T1, T2, G1, G2.
    unfold gval.
    destruct (owner_spec (blk1 L) g1) as [R1 B1]; [apply T1|destruct T1 as (_&_&->); exact H1|].
    destruct (owner_spec (blk2 L) g2) as [R2 B2]; [apply T2|destruct T2 as (_&_&->); exact H2|].
    destruct (C _ _ (conj R1 R2)) as (_&V). fold L in V. rewrite V by (unfold inb, n1g, n2g in *; auto; lia).
    f_equal.
    - match goal with |- (?a mod _)%Z = _ => replace a with g1 by lia end. apply Z.mod_small. exact H1.
    - match goal with |- (?a mod _)%Z = _ => replace a with g2 by lia end. apply Z.mod_small. exact H2.
  Qed.

  Lemma refresh_covered t s : shaped L (N_p c) (N_species c) (sf s) ->
    exists x, refresh_f P t s = Ok x /\ covered (sf x) (gval L (sf s)).
  Proof.
    intros SH. pose proof PF as (_&PB&PL&_). unfold refresh_f. fold c L.
    set (s1 := communicate_f c s).
    destruct (all_ranks_ok L (fun r1 r2 => apply_bcs_f c r1 r2 t (sf s1 r1 r2))) as (f0&Q0&V0).
    { intros; rewrite apply_bcs_periodic; eauto. }
    rewrite Q0. cbn [rbind]. eexists. split; [reflexivity|]. cbn [sf].
    intros r1 r2 RK. specialize (V0 r1 r2 RK). rewrite apply_bcs_periodic in V0 by auto.
    injection V0 as <-. eapply covers_communicate; eauto.
  Qed.

  Lemma half_update_spec t h A E f0 f U0 U : covered f0 U0 -> covered f U -> shows3 L A E ->
    exists g, half_update P t h A f0 f = Ok g /\ shaped L (N_p c) (N_species c) g
    /\ forall x s g1 g2, inb (N_p c) x -> inb (N_species c) s -> inb (gN1 L) g1 -> inb (gN2 L) g2 ->
       gval L g x s g1 g2 = U0 x s g1 g2 + h * rhs (prob c k1 k2 t E) U x s g1 g2.
  Proof.
    intros C0 CU SH. pose proof PF as (_&_&PL&_). pose proof PL as (T1&T2&G1&G2&_). fold L in T1, T2, G1, G2.
    unfold half_update. fold c L.
    destruct (all_ranks_ok L (fun r1 r2 => let '(a1, a2, a3) := A r1 r2 in
      let? d := df_dt_fvm c r1 r2 t a1 a2 a3 (f r1 r2) in
      Ok (amap2 (fun f d => f + d * h) (f0 r1 r2) d))) as (fh&Qh&Vh).
    { intros r1 r2 RK. destruct (df_dt_fvm_spec c k1 k2 r1 r2 t A E _ _ W PF RK (CU _ _ RK) SH) as (d&Qd&_).
      destruct (A r1 r2) as [[a1 a2] a3]. cbn [fst snd] in Qd. rewrite Qd. cbn [rbind]. eauto. }
    rewrite Qh. exists fh. split; [reflexivity|]. split.
    - intros r1 r2 RK. specialize (Vh r1 r2 RK).
      destruct (df_dt_fvm_spec c k1 k2 r1 r2 t A E _ _ W PF RK (CU _ _ RK) SH) as (d&Qd&_).
      destruct (A r1 r2) as [[a1 a2] a3]. cbn [fst snd] in Qd. rewrite Qd in Vh. cbn [rbind] in Vh.
      injection Vh as <-. destruct (C0 _ _ RK) as [Df _]. exact Df.
    - intros x s g1 g2 Hx Hs H1 H2. rewrite <- (covered_gval f0 U0 x s g1 g2 C0) by auto. unfold gval.
      destruct (owner_spec (blk1 L) g1) as [R1 B1]; [apply T1|destruct T1 as (_&_&->); exact H1|].
      destruct (owner_spec (blk2 L) g2) as [R2 B2]; [apply T2|destruct T2 as (_&_&->); exact H2|].
      set (r1 := owner (blk1 L) g1) in *. set (r2 := owner (blk2 L) g2) in *.
      assert (RK : rank_ok L r1 r2) by (split; auto).
      specialize (Vh r1 r2 RK).
      destruct (df_dt_fvm_spec c k1 k2 r1 r2 t A E _ _ W PF RK (CU _ _ RK) SH) as (d&Qd&_&Vd).
      destruct (A r1 r2) as [[a1 a2] a3]. cbn [fst snd] in Qd. rewrite Qd in Vh. cbn [rbind] in Vh.
      injection Vh as <-. cbn [el amap2]. fold L in Vd. unfold inb in *.
      rewrite Vd by (unfold inb; auto; lia).
      replace (off (blk1 L) r1 + (g1 - off (blk1 L) r1))%Z with g1 by lia.
      replace (off (blk2 L) r2 + (g2 - off (blk2 L) r2))%Z with g2 by lia. lra.
  Qed.

  Lemma rhs_same t E u v : gagree (prob c k1 k2 t E) (N_species c) u v ->
    gagree (prob c k1 k2 t E) (N_species c) (rhs (prob c k1 k2 t E) u) (rhs (prob c k1 k2 t E) v).
  Proof.
    intros G. pose proof PF as (_&_&(T1&T2&_)&_). apply rhs_ext; auto; [apply T1|apply T2].
  Qed.

  (** op_fvm once the fields seen by the two evaluations are known. *)
  Lemma op_fvm_stages dt s u : holds c (f_of s) u -> exists x0,
    refresh_f P (time_elapsed s) (fpart s) = Ok x0 /\ covered (sf x0) u
    /\ forall A0 e0 E0, fields_seen P (time_elapsed s) (cur_dt s) (sf x0) (fields s) = Ok (A0, e0) -> shows3 L A0 E0 ->
       let uh : gstate := fun x s' g1 g2 => u x s' g1 g2 + dt / 2 * rhs (prob c k1 k2 (time_elapsed s) E0) u x s' g1 g2 in
       exists xh, covered (sf xh) uh
       /\ forall Ah eh Eh, fields_seen P (time_elapsed s) (cur_dt s) (sf xh) e0 = Ok (Ah, eh) -> shows3 L Ah Eh ->
          exists s', op_fvm P dt s = Ok s' /\ fields s' = eh /\ time_elapsed s' = time_elapsed s /\ cur_dt s' = cur_dt s
          /\ holds c (f_of s') (midpoint (prob c k1 k2 (time_elapsed s) E0) (prob c k1 k2 (time_elapsed s) Eh) dt u).
  Proof.
    intros (SH&HU). set (t := time_elapsed s).
    assert (RE : forall F a b, covered F a -> (forall x s g1 g2, inb (N_p c) x -> inb (N_species c) s ->
        inb (gN1 L) g1 -> inb (gN2 L) g2 -> a x s g1 g2 = b x s g1 g2) -> covered F b).
    { intros F a b Ca Eab r1 r2 RK. destruct (Ca r1 r2 RK) as (D&V). split; auto. intros x s' i j Hx Hs Hi Hj.
      rewrite V by auto. pose proof PF as (_&_&(T1&T2&_)&_).
      apply Eab; auto; apply Z.mod_pos_bound; [apply T1|apply T2]. }
    destruct (refresh_covered t (fpart s) SH) as (x0&R0&C0). exists x0. split; [exact R0|].
    assert (C0' : covered (sf x0) u) by (eapply RE; [exact C0|exact HU]).
    split; [exact C0'|]. intros A0 e0 E0 F0 S0 uh.
    destruct (half_update_spec t (dt / 2) A0 E0 (sf x0) (sf x0) u u C0' C0' S0) as (fh&Uh&Sh&Gh).
    destruct (refresh_covered t (FState fh (sbuf x0)) Sh) as (xh&Rh&Ch). exists xh.
    assert (Ch' : covered (sf xh) uh) by (eapply RE; [exact Ch|exact Gh]).
    split; [exact Ch'|]. intros Ah eh Eh Fh SE.
    destruct (half_update_spec t dt Ah Eh (sf x0) (sf xh) u uh C0' Ch' SE) as (f1&U1&S1&G1).
    eexists. split.
    { unfold op_fvm. fold t. rewrite R0. cbn [rbind]. rewrite F0. cbn [rbind]. rewrite Uh. cbn [rbind].
      rewrite Rh. cbn [rbind]. rewrite Fh. cbn [rbind]. rewrite U1. cbn [rbind]. reflexivity. }
    split; [reflexivity|]. split; [reflexivity|]. split; [reflexivity|].
    split; [exact S1|exact G1].
  Qed.
End Stage.
