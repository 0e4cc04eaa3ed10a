(** Charge continuity and Gauss's law in electrodynamic runs. *)
From Coq Require Import ZArith Reals Lia Lra String List Bool.
From Verif Require Import Base.Prelude Base.ZSum Model.Af Model.Petsc Model.Config
  Model.Fvm Model.Em Model.Moments Model.Splitting Model.Timestep Model.Solver Spec.Domain Spec.Lattice Spec.FvmProblem Spec.FvmRun
  Spec.Yee Spec.EmRun Spec.MomentSpec Spec.Clock Spec.SolverSpec Spec.VlasovMaxwell Proofs.AfLemmas Proofs.PetscLemmas Proofs.ConvLemmas
  Proofs.FluxLemmas Proofs.FvmLemmas Proofs.FvmLemmas2 Proofs.FvmConserve
  Proofs.EmLemmas Proofs.EmStep Proofs.EmInit Proofs.EmProps Proofs.StageLemmas Proofs.ChargeLemmas Proofs.VlasovMaxwell.
Import ListNotations.
Local Open Scope R_scope.

(** ** Charge moments are linear *)
Section Linear.
  Context (P : params).
  Let c := pc P.

  Lemma integral_lin G w a b f g :
    integral G w (fun i1 i2 i3 => a * f i1 i2 i3 + b * g i1 i2 i3) = a * integral G w f + b * integral G w g.
  Proof.
    unfold integral.
    match goal with |- zsum ?n ?F * ?w = a * (zsum ?n ?A * ?w) + b * (zsum ?n ?B * ?w) =>
      assert (X : zsum n F = a * zsum n A + b * zsum n B) end.
    { rewrite <- !zsum_scal, <- zsum_plus. apply zsum_ext; intros i3 _. cbv beta.
      rewrite <- !zsum_scal, <- zsum_plus. apply zsum_ext; intros i2 _. cbv beta.
      rewrite <- !zsum_scal, <- zsum_plus. apply zsum_ext; intros i1 _. cbv beta. ring. }
    rewrite X. ring.
  Qed.
  Lemma charge_moment_lin w a b f g :
    charge_moment P w (fun x s => a * f x s + b * g x s) = a * charge_moment P w f + b * charge_moment P w g.
  Proof.
    unfold charge_moment. cbv zeta. rewrite <- !zsum_scal, <- zsum_plus. apply zsum_ext; intros s _. cbv beta.
    rewrite integral_lin. ring.
  Qed.
  Lemma charge_moment_add w f g :
    charge_moment P w (fun x s => f x s + g x s) = charge_moment P w f + charge_moment P w g.
  Proof.
    transitivity (charge_moment P w (fun x s => 1 * f x s + 1 * g x s)).
    - unfold charge_moment, integral. cbv zeta. apply zsum_ext; intros s _. do 2 f_equal.
      apply zsum_ext; intros; apply zsum_ext; intros; apply zsum_ext; intros. ring.
    - rewrite charge_moment_lin. ring.
  Qed.
  Lemma charge_moment_scal w a f : charge_moment P w (fun x s => a * f x s) = a * charge_moment P w f.
  Proof.
    transitivity (charge_moment P w (fun x s => a * f x s + 0 * f x s)).
    - unfold charge_moment, integral. cbv zeta. apply zsum_ext; intros s _. do 2 f_equal.
      apply zsum_ext; intros; apply zsum_ext; intros; apply zsum_ext; intros. ring.
    - rewrite charge_moment_lin. ring.
  Qed.

  Context (k1 k2 : scheme) (W : wf_cfg c k1 k2).

  (** Weighting with a momentum is weighting the values with it. *)
  Lemma charge_moment_v1 f :
    charge_moment P (fun _ _ _ => 1) (fun x s => mom1 c (1/2) x s * f x s) = charge_moment P (fun v _ _ => v) f.
  Proof using W.
    unfold charge_moment, integral. cbv zeta. fold c. apply zsum_ext; intros s Hs. do 2 f_equal.
    cbn [mn1 mn2 mn3 species_grid lo1 lo2 lo3 w1 w2 w3].
    apply zsum_ext; intros i3 H3; apply zsum_ext; intros i2 H2; apply zsum_ext; intros i1 H1.
    destruct (pidx_split (N_p1 c) (N_p2 c) i1 i2 i3 H1 H2) as (Q1&_&_). unfold mom1. rewrite Q1. unfold v_of. ring.
  Qed.
  Lemma charge_moment_v2 f :
    charge_moment P (fun _ _ _ => 1) (fun x s => mom2 c (1/2) x s * f x s) = charge_moment P (fun _ v _ => v) f.
  Proof using W.
    unfold charge_moment, integral. cbv zeta. fold c. apply zsum_ext; intros s Hs. do 2 f_equal.
    cbn [mn1 mn2 mn3 species_grid lo1 lo2 lo3 w1 w2 w3].
    apply zsum_ext; intros i3 H3; apply zsum_ext; intros i2 H2; apply zsum_ext; intros i1 H1.
    destruct (pidx_split (N_p1 c) (N_p2 c) i1 i2 i3 H1 H2) as (_&Q2&_). unfold mom2. rewrite Q2. unfold v_of. ring.
  Qed.

  (** What moves particles between momenta carries no charge. *)
  Lemma charge_moment_none f : (forall s, inb (N_species c) s -> zsum (N_p c) (fun x => f x s) = 0) ->
    charge_moment P (fun _ _ _ => 1) f = 0.
  Proof using W.
    intros H. unfold charge_moment, integral. cbv zeta. fold c.
    rewrite <- (zsum_zero (N_species c)). apply zsum_ext; intros s Hs.
    assert (PP := wf_pos _ _ _ W). destruct PP as (P1&P2&P3&_).
    specialize (H s Hs). unfold N_p in H. rewrite zsum3 in H by lia.
    cbn [mn1 mn2 mn3 species_grid].
    match goal with |- _ * (?A * _) = 0 => assert (X : A = 0) end.
    { etransitivity; [|exact H]. apply zsum_ext; intros i3 H3; apply zsum_ext; intros i2 H2; apply zsum_ext; intros i1 H1. ring. }
    rewrite X. ring.
  Qed.
End Linear.

(** ** Continuity *)
Lemma periodic_shift n u i : (0 < n)%Z -> forall z, periodic n u (z + i * n)%Z = periodic n u z.
Proof. intros H z. unfold periodic. rewrite Z.mod_add by lia. reflexivity. Qed.

Lemma upwind_mod k n v u i : (0 < n)%Z -> (forall z z', v z = v z') ->
  upwind k v (periodic n u) (i mod n) = upwind k v (periodic n u) i.
Proof.
  intros Hn Hv. assert (E : (i = i mod n + i / n * n)%Z) by (rewrite Z.mul_comm, Z.add_comm; apply Z.div_mod; lia).
  rewrite E at 2. rewrite <- upwind_shift. unfold upwind.
  rewrite (Hv (i mod n + i / n * n)%Z (i mod n)%Z).
  rewrite !(cell_faces_ext k (fun z => periodic n u (z + i / n * n)) (periodic n u)) by (intros; apply periodic_shift; auto).
  reflexivity.
Qed.

Section Gauss.
  Context (P : params) (k1 k2 : scheme).
  Let c := pc P.
  Let L := lay c.
  Let N1 := gN1 L. Let N2 := gN2 L.
  Context (W : wf_cfg c k1 k2) (PF : periodic_fvm c k1) (PM : plasma P) (BL : ballistic P) (SC : source_conserves c).

  Lemma continuity t C C' u i j : inb N1 i -> inb N2 j ->
    charge_moment P (fun _ _ _ => 1) (fun x s => rhs (vm_problem P k1 k2 t C') u x s i j)
    = - (fwd1 (dq1 c) (current1 P (vm_problem P k1 k2 t C) u) i j + fwd2 (dq2 c) (current2 P (vm_problem P k1 k2 t C) u) i j).
  Proof using W PF BL SC.
    intros Hi Hj. destruct (grid_pos c k1 PF) as (P1&P2). fold L N1 in P1. fold L N2 in P2.
    destruct BL as [BQ _ _]. fold c in BQ. pose proof (wf_pos _ _ _ W) as (Q1&Q2&Q3&_).
    set (p := vm_problem P k1 k2 t C). set (p' := vm_problem P k1 k2 t C').
    transitivity (charge_moment P (fun _ _ _ => 1) (fun x s => advect_q p' u x s i j)
      + charge_moment P (fun _ _ _ => 1) (fun x s => src p' i j (fun x' s' => u x' s' i j) x s + advect_p p' i j (fun x' s' => u x' s' i j) x s)).
    { rewrite <- charge_moment_add. apply charge_moment_ext. intros. unfold rhs. ring. }
    rewrite (charge_moment_none P k1 k2 W (fun x s => src p' i j (fun x' s' => u x' s' i j) x s + advect_p p' i j (fun x' s' => u x' s' i j) x s)).
    2:{ intros s Hs. rewrite zsum_plus.
        pose proof (advect_p_total p' i j (fun x' s' => u x' s' i j) s Q1 Q2 Q3) as AP. cbn [M1 M2 M3 p' vm_problem prob problem_of problem_at] in AP.
        fold c in AP. unfold N_p at 2. fold p' in AP. fold c. rewrite AP. rewrite Rplus_0_r.
        unfold p', vm_problem, prob, problem_of, problem_at; cbn [src]. fold c.
        destruct SC as [SO|SO]; [rewrite SO; apply zsum_zero|]. destruct (source_enabled c); [apply SO|apply zsum_zero]. }
    rewrite Rplus_0_r.
    assert (V1 : forall x s z z', vel1 p' x s z z' = mom1 c (1/2) x s)
      by (intros; unfold p', vm_problem, prob, problem_of, problem_at; cbn [vel1]; fold c; rewrite BQ; reflexivity).
    assert (V2 : forall x s z z', vel2 p' x s z z' = mom2 c (1/2) x s)
      by (intros; unfold p', vm_problem, prob, problem_of, problem_at; cbn [vel2]; fold c; rewrite BQ; reflexivity).
    assert (T1 : forall x s z, through1 p u x s (z mod N1)%Z j = through1 p' u x s z j).
    { intros x s z. unfold through1. change (vel1 p) with (vel1 p'). change (kq p) with k1. change (n1 p) with N1.
      change (kq p') with k1. change (n1 p') with N1. apply upwind_mod; auto. intros; rewrite !V1; reflexivity. }
    assert (T2 : forall x s z, through2 p u x s i (z mod N2)%Z = through2 p' u x s i z).
    { intros x s z. unfold through2. change (vel2 p) with (vel2 p'). change (kq p) with k1. change (n2 p) with N2.
      change (kq p') with k1. change (n2 p') with N2. apply upwind_mod; auto. intros; rewrite !V2; reflexivity. }
    assert (J1 : forall z, current1 P p u z j = charge_moment P (fun _ _ _ => 1) (fun x s => mom1 c (1/2) x s * through1 p' u x s z j)).
    { intros z. etransitivity; [|symmetry; exact (charge_moment_v1 P k1 k2 W (fun x s => through1 p' u x s z j))]. unfold current1. change (n1 p) with N1. change (n2 p) with N2.
      rewrite (Z.mod_small j) by exact Hj. apply charge_moment_ext. intros; apply T1. }
    assert (J2 : forall z, current2 P p u i z = charge_moment P (fun _ _ _ => 1) (fun x s => mom2 c (1/2) x s * through2 p' u x s i z)).
    { intros z. etransitivity; [|symmetry; exact (charge_moment_v2 P k1 k2 W (fun x s => through2 p' u x s i z))]. unfold current2. change (n1 p) with N1. change (n2 p) with N2.
      rewrite (Z.mod_small i) by exact Hi. apply charge_moment_ext. intros; apply T2. }
    unfold fwd1, fwd2. rewrite !J1, !J2.
    transitivity (charge_moment P (fun _ _ _ => 1) (fun x s =>
       (/ dq1 c * (mom1 c (1/2) x s * through1 p' u x s i j) + - / dq1 c * (mom1 c (1/2) x s * through1 p' u x s (i + 1) j))
       + (/ dq2 c * (mom2 c (1/2) x s * through2 p' u x s i j) + - / dq2 c * (mom2 c (1/2) x s * through2 p' u x s i (j + 1))))).
    { apply charge_moment_ext. intros x s Hx Hs. unfold advect_q, advect, flux. rewrite !V1, !V2.
      change (h1 p') with (dq1 c). change (h2 p') with (dq2 c).
      unfold through1, through2, Rdiv. ring. }
    rewrite charge_moment_add, !charge_moment_lin. unfold Rdiv. ring.
  Qed.

  Definition defect (S : vm_state) (i j : Z) : R :=
    eps (pf P) * div_E (fdq1 (pf P)) (fdq2 (pf P)) (vm_yee S) i j - charge_density P (vm_f S) i j.

  Lemma gauss_step t dt S i j : regular (pf P) -> inb N1 i -> inb N2 j ->
    defect (vm_step P k1 k2 t dt S) i j = defect S i j.
  Proof using W PF BL SC.
    intros RG Hi Hj. unfold defect, vm_step. cbn [vm_yee vm_f].
    set (p := vm_problem P k1 k2 t (vm_cc S)).
    set (uh := fun x s i j => vm_f S x s i j + dt / 2 * rhs p (vm_f S) x s i j).
    set (Y := yee_step _ _ _ _ _ _ _ _ _). set (C' := EB _ _).
    unfold Y at 1. unfold yee_step.
    match goal with |- context [div_E ?a ?b (faraday _ _ _ ?Z)] => change (div_E a b (faraday a b dt Z) i j) with (div_E a b Z i j) end.
    rewrite div_E_ampere by apply RG.
    assert (R : charge_density P (midpoint p (vm_problem P k1 k2 t C') dt (vm_f S)) i j
      = charge_density P (vm_f S) i j + dt * charge_moment P (fun _ _ _ => 1) (fun x s => rhs (vm_problem P k1 k2 t C') uh x s i j)).
    { unfold charge_density, midpoint. fold uh.
      rewrite <- charge_moment_scal, <- charge_moment_add. reflexivity. }
    rewrite R. rewrite (continuity t (vm_cc S) C' uh i j Hi Hj). fold p.
    destruct BL as [_ B1 B2]. rewrite B1, B2. fold c. ring.
  Qed.

  Lemma gauss_run h : regular (pf P) -> forall t S i j, inb N1 i -> inb N2 j ->
    defect (vm_run P k1 k2 t h S) i j = defect S i j.
  Proof using W PF BL SC.
    intros RG. induction h as [|(m&dt) h IH]; intros t S i j Hi Hj; cbn [vm_run]; [reflexivity|].
    rewrite IH by auto. apply gauss_step; auto.
  Qed.
End Gauss.
