(** Balance of any moment of f, and of the kinetic energy, in electrodynamic runs. *)
From Coq Require Import ZArith Reals Lia Lra String List Bool.
From Verif Require Import Base.Prelude Base.ZSum Model.Af Model.Petsc Model.Config Model.Fvm Model.Em
  Model.Moments Model.Timestep Model.Solver Spec.Domain Spec.Lattice Spec.FvmProblem Spec.FvmRun
  Spec.Yee Spec.EmRun Spec.Waves Spec.MomentSpec Spec.Clock Spec.SolverSpec Spec.VlasovMaxwell Spec.Slide Spec.Poisson Spec.Energy
  Proofs.AfLemmas Proofs.PetscLemmas Proofs.ConvLemmas Proofs.FluxLemmas Proofs.FvmLemmas Proofs.FvmLemmas2 Proofs.FvmConserve
  Proofs.MomentLemmas Proofs.ChargeLemmas Proofs.PoissonKernel Proofs.PoissonRun Proofs.PoissonMomentum Proofs.VmProps.
Import ListNotations.
Local Open Scope R_scope.

(** One line of momentum cells: summation by parts around the circle. *)
Lemma line_weight k n (K : Z -> R) h v u : (0 < n)%Z -> h <> 0 -> v n = v 0%Z ->
  zsum n (fun i => K i * advect k h v (periodic n u) i)
  = zsum n (fun i => flux k v (periodic n u) i * (K i - K ((i - 1) mod n)%Z)) / h.
Proof.
  intros N H V. set (F i := flux k v (periodic n u) i).
  assert (FN : F n = F 0%Z) by (apply flux_wrap; auto).
  set (G i := K ((i - 1) mod n)%Z * F i).
  assert (T : zsum n (fun i => G (i + 1)%Z - G i) = G n - G 0%Z) by (apply zsum_telescope; lia).
  assert (GN : G n = G 0%Z).
  { unfold G. rewrite FN. f_equal. f_equal. replace (n - 1)%Z with (0 - 1 + 1 * n)%Z by ring. apply Z_mod_plus_full. }
  rewrite GN, Rminus_diag_eq in T by reflexivity.
  assert (S : forall i, inb n i -> G (i + 1)%Z = K i * F (i + 1)%Z).
  { intros i Hi. unfold G. rewrite Z.add_simpl_r. rewrite Z.mod_small by exact Hi. reflexivity. }
  apply (Rmult_eq_reg_r h); auto. unfold Rdiv. rewrite Rmult_assoc, Rinv_l, Rmult_1_r by auto.
  rewrite <- zsum_scal_r.
  rewrite (zsum_ext n (fun i => F i * (K i - K ((i - 1) mod n)%Z)) (fun i => (K i * F i - G (i + 1)%Z) + (G (i + 1)%Z - G i))).
  2:{ intros i Hi. unfold G at 3. ring. }
  rewrite zsum_plus, T, Rplus_0_r. apply zsum_ext. intros i Hi. rewrite S by auto. unfold advect. fold (F i) (F (i + 1)%Z). field; auto.
Qed.

Section Moment.
  Context (P : params) (k1 k2 : scheme).
  Let c := pc P.
  Let L := lay c.
  Let N1 := gN1 L. Let N2 := gN2 L.
  Context (W : wf_cfg c k1 k2) (PF : periodic_fvm c k1) (VP : velocity_periodic c).
  Context (mass : Z -> R) (w : R -> R -> R -> R) (CK : collisions_conserve P mass w) (DP : momentum_steps c).
  Let vol s := (nth (Z.to_nat s) (dp1 c) 0 * nth (Z.to_nat s) (dp2 c) 0 * nth (Z.to_nat s) (dp3 c) 0).

  Lemma cell_gained t C u i j : let p := vm_problem P k1 k2 t C in
    cell_moment P mass w (fun x s => advect_p p i j (fun x' s' => u x' s' i j) x s)
    = zsum (N_species c) (fun s => mass s * gained c p w u s i j).
  Proof using W DP.
    intros p. destruct (mpos P k1 k2 W) as (Q1&Q2&Q3). fold c in Q1, Q2, Q3.
    unfold cell_moment. fold c. apply zsum_ext; intros s Hs. f_equal. destruct (DP s Hs) as (D1&D2&D3).
    set (a1 := nth (Z.to_nat s) (dp1 c) 0) in *. set (a2 := nth (Z.to_nat s) (dp2 c) 0) in *. set (a3 := nth (Z.to_nat s) (dp3 c) 0) in *.
    set (v x s' := u x s' i j). set (K := weight c w s).
    set (I := pidx p).
    set (V1 i2 i3 := periodic (N_p1 c) (fun a => acc1 p (I a i2 i3) s i j)). set (U1 i2 i3 := periodic (N_p1 c) (fun a => v (I a i2 i3) s)).
    set (V2 i1 i3 := periodic (N_p2 c) (fun a => acc2 p (I i1 a i3) s i j)). set (U2 i1 i3 := periodic (N_p2 c) (fun a => v (I i1 a i3) s)).
    set (V3 i1 i2 := periodic (N_p3 c) (fun a => acc3 p (I i1 i2 a) s i j)). set (U3 i1 i2 := periodic (N_p3 c) (fun a => v (I i1 i2 a) s)).
    assert (P0 : forall m f, (0 < m)%Z -> periodic m f m = periodic m f 0%Z).
    { intros m f Hm. unfold periodic. rewrite Z_mod_same_full, Z.mod_0_l by lia. reflexivity. }
    assert (S1 : forall i2 i3, zsum (N_p1 c) (fun i1 => K (I i1 i2 i3) * advect k2 a1 (V1 i2 i3) (U1 i2 i3) i1)
       = zsum (N_p1 c) (fun i1 => flux k2 (V1 i2 i3) (U1 i2 i3) i1 * (K (I i1 i2 i3) - K (I ((i1 - 1) mod N_p1 c)%Z i2 i3))) / a1).
    { intros i2 i3. apply (line_weight k2 (N_p1 c) (fun z => K (I z i2 i3))); auto. apply P0; auto. }
    assert (S2 : forall i1 i3, zsum (N_p2 c) (fun i2 => K (I i1 i2 i3) * advect k2 a2 (V2 i1 i3) (U2 i1 i3) i2)
       = zsum (N_p2 c) (fun i2 => flux k2 (V2 i1 i3) (U2 i1 i3) i2 * (K (I i1 i2 i3) - K (I i1 ((i2 - 1) mod N_p2 c)%Z i3))) / a2).
    { intros i1 i3. apply (line_weight k2 (N_p2 c) (fun z => K (I i1 z i3))); auto. apply P0; auto. }
    assert (S3 : forall i1 i2, zsum (N_p3 c) (fun i3 => K (I i1 i2 i3) * advect k2 a3 (V3 i1 i2) (U3 i1 i2) i3)
       = zsum (N_p3 c) (fun i3 => flux k2 (V3 i1 i2) (U3 i1 i2) i3 * (K (I i1 i2 i3) - K (I i1 i2 ((i3 - 1) mod N_p3 c)%Z))) / a3).
    { intros i1 i2. apply (line_weight k2 (N_p3 c) (fun z => K (I i1 i2 z))); auto. apply P0; auto. }
    set (A i1 i2 i3 := K (I i1 i2 i3) * advect k2 a1 (V1 i2 i3) (U1 i2 i3) i1) in *.
    set (B i1 i2 i3 := K (I i1 i2 i3) * advect k2 a2 (V2 i1 i3) (U2 i1 i3) i2) in *.
    set (D i1 i2 i3 := K (I i1 i2 i3) * advect k2 a3 (V3 i1 i2) (U3 i1 i2) i3) in *.
    assert (T : zsum (N_p c) (fun x => K x * advect_p p i j v x s)
       = zsum (N_p3 c) (fun i3 => zsum (N_p2 c) (fun i2 => zsum (N_p1 c) (fun i1 => A i1 i2 i3)))
         + zsum (N_p3 c) (fun i3 => zsum (N_p1 c) (fun i1 => zsum (N_p2 c) (fun i2 => B i1 i2 i3)))
         + zsum (N_p2 c) (fun i2 => zsum (N_p1 c) (fun i1 => zsum (N_p3 c) (fun i3 => D i1 i2 i3)))).
    { unfold N_p. rewrite zsum3 by lia.
      rewrite (zsum_ext (N_p3 c) _ (fun i3 => zsum (N_p2 c) (fun i2 => zsum (N_p1 c) (fun i1 => A i1 i2 i3))
         + zsum (N_p2 c) (fun i2 => zsum (N_p1 c) (fun i1 => B i1 i2 i3)) + zsum (N_p2 c) (fun i2 => zsum (N_p1 c) (fun i1 => D i1 i2 i3)))).
      2:{ intros i3 R3. rewrite <- !zsum_plus. apply zsum_ext; intros i2 R2. rewrite <- !zsum_plus. apply zsum_ext; intros i1 R1.
          destruct (pidx_split (N_p1 c) (N_p2 c) i1 i2 i3) as (E1&E2&E3); auto.
          unfold advect_p. change (M1 p) with (N_p1 c). change (M2 p) with (N_p2 c). change (M3 p) with (N_p3 c).
          rewrite E1, E2, E3. unfold A, B, D, V1, U1, V2, U2, V3, U3. fold I. change (kp p) with k2.
          change (hp1 p s) with a1. change (hp2 p s) with a2. change (hp3 p s) with a3.
          change (i1 + N_p1 c * (i2 + N_p2 c * i3))%Z with (I i1 i2 i3). ring. }
      rewrite !zsum_plus. f_equal; [f_equal|].
      - apply zsum_ext; intros i3 _. apply zsum_swap.
      - rewrite zsum_swap. apply zsum_ext; intros i2 _. apply zsum_swap. }
    change (zsum (N_p c) (fun x => K x * advect_p p i j v x s) * vol s = gained c p w u s i j).
    rewrite T.
    rewrite (zsum_ext (N_p3 c) (fun i3 => zsum (N_p2 c) (fun i2 => zsum (N_p1 c) (fun i1 => A i1 i2 i3)))
      (fun i3 => zsum (N_p2 c) (fun i2 => zsum (N_p1 c) (fun i1 => flux k2 (V1 i2 i3) (U1 i2 i3) i1 * (K (I i1 i2 i3) - K (I ((i1 - 1) mod N_p1 c)%Z i2 i3)))) * / a1)).
    2:{ intros i3 _. rewrite <- zsum_scal_r. apply zsum_ext; intros i2 _. apply S1. }
    rewrite (zsum_ext (N_p3 c) (fun i3 => zsum (N_p1 c) (fun i1 => zsum (N_p2 c) (fun i2 => B i1 i2 i3)))
      (fun i3 => zsum (N_p1 c) (fun i1 => zsum (N_p2 c) (fun i2 => flux k2 (V2 i1 i3) (U2 i1 i3) i2 * (K (I i1 i2 i3) - K (I i1 ((i2 - 1) mod N_p2 c)%Z i3)))) * / a2)).
    2:{ intros i3 _. rewrite <- zsum_scal_r. apply zsum_ext; intros i1 _. apply S2. }
    rewrite (zsum_ext (N_p2 c) (fun i2 => zsum (N_p1 c) (fun i1 => zsum (N_p3 c) (fun i3 => D i1 i2 i3)))
      (fun i2 => zsum (N_p1 c) (fun i1 => zsum (N_p3 c) (fun i3 => flux k2 (V3 i1 i2) (U3 i1 i2) i3 * (K (I i1 i2 i3) - K (I i1 i2 ((i3 - 1) mod N_p3 c)%Z)))) * / a3)).
    2:{ intros i2 _. rewrite <- zsum_scal_r. apply zsum_ext; intros i1 _. apply S3. }
    rewrite !zsum_scal_r. unfold gained. change (M1 p) with (N_p1 c). change (M2 p) with (N_p2 c). change (M3 p) with (N_p3 c).
    change (kp p) with k2. change (hp1 p s) with a1. change (hp2 p s) with a2. change (hp3 p s) with a3. cbv zeta. fold K I.
    change (vol s) with (a1 * a2 * a3). unfold V1, U1, V2, U2, V3, U3, v.
    match goal with |- (?x * _ + ?y * _ + ?z * _) * _ = ?x' * _ + ?y' * _ + ?z' * _ =>
      change x' with x; change y' with y; change z' with z; generalize x y z end.
    intros. field; auto.
  Qed.

  Lemma source_keeps t E u :
    total_moment P mass w (fun x s i j => src (prob c k1 k2 t E) i j (fun x' s' => u x' s' i j) x s) = 0.
  Proof using W CK.
    set (r x s i j := src (prob c k1 k2 t E) i j (fun x' s' => u x' s' i j) x s).
    change (total_moment P mass w r = 0).
    rewrite (total_cells P k1 k2 W). fold c L N1 N2. rewrite (zsum_ext N1 _ (fun _ => 0)); [apply zsum_zero|]. intros i _.
    rewrite (zsum_ext N2 _ (fun _ => 0)); [apply zsum_zero|]. intros j _.
    unfold cell_moment. fold c. destruct (source_enabled c) eqn:ON.
    - destruct CK as [X|X]; [fold c in X; congruence|].
      etransitivity; [|exact (X t (pos1 c (1/2) i) (pos2 c (1/2) j) (fun x' s' => u x' s' i j))]. fold c. apply zsum_ext; intros s _. f_equal.
      etransitivity; [|symmetry; exact (integral_flat P k1 k2 W s w (fun x => source c t (pos1 c (1/2) i) (pos2 c (1/2) j) (fun x' s' => u x' s' i j) x s))].
      fold c. f_equal. apply zsum_ext; intros x _. f_equal. unfold r, prob, problem_of, problem_at. cbn [src]. rewrite ON. reflexivity.
    - rewrite (zsum_ext (N_species c) _ (fun _ => 0)); [apply zsum_zero|]. intros s _.
      rewrite (zsum_ext (N_p c) _ (fun _ => 0)); [rewrite zsum_zero; ring|]. intros x _. unfold r.
      rewrite src_off by exact ON. ring.
  Qed.

  Lemma rate_gained t C u : let p := vm_problem P k1 k2 t C in
    total_moment P mass w (rhs p u) = total_gained P mass w p u.
  Proof using W PF VP CK DP.
    intros p. unfold rhs.
    rewrite (total_add P k1 k2 W mass w (fun x s i j => advect_q p u x s i j + src p i j (fun x' s' => u x' s' i j) x s)).
    rewrite (total_add P k1 k2 W mass w (fun x s i j => advect_q p u x s i j)).
    pose proof (total_space P k1 k2 W PF VP mass w t (components C, components C, components C) u) as Q.
    change (total_moment P mass w (advect_q p u) = 0) in Q.
    change (fun x s i j => advect_q p u x s i j) with (advect_q p u). rewrite Q.
    pose proof (source_keeps t (components C, components C, components C) u) as S.
    change (total_moment P mass w (fun x s i j => src p i j (fun x' s' => u x' s' i j) x s) = 0) in S. rewrite S, !Rplus_0_l.
    rewrite (total_cells P k1 k2 W). unfold total_gained. fold c L N1 N2.
    apply zsum_ext; intros i _. apply zsum_ext; intros j _. apply (cell_gained t C u i j).
  Qed.

  Lemma moment_step t dt S :
    total_moment P mass w (vm_f (vm_step P k1 k2 t dt S))
    = total_moment P mass w (vm_f S) + dt * total_gained P mass w (vm_forced P k1 k2 t dt S) (vm_half P k1 k2 t dt S).
  Proof using W PF VP CK DP.
    unfold vm_forced. rewrite <- (rate_gained t (vm_cc (vm_step P k1 k2 t dt S)) (vm_half P k1 k2 t dt S)).
    rewrite <- (total_linear P k1 k2 W mass w). reflexivity.
  Qed.
  Lemma moment_run h : forall t S,
    total_moment P mass w (vm_f (vm_run P k1 k2 t h S))
    = total_moment P mass w (vm_f S) + vm_gained P mass w k1 k2 t h S.
  Proof using W PF VP CK DP.
    induction h as [|(m&dt) h IH]; intros t S; cbn [vm_run vm_gained]; [ring|]. rewrite IH, moment_step. ring.
  Qed.
  Lemma total_moment_ext u u' : (forall x s i j, inb (N_p c) x -> inb (N_species c) s -> inb (gN1 L) i -> inb (gN2 L) j -> u x s i j = u' x s i j) ->
    total_moment P mass w u = total_moment P mass w u'.
  Proof using W.
    intros H. rewrite !(total_cells P k1 k2 W). fold c L N1 N2. apply zsum_ext; intros i Hi. apply zsum_ext; intros j Hj.
    unfold cell_moment. fold c. apply zsum_ext; intros s Hs. f_equal. f_equal. apply zsum_ext; intros x Hx. f_equal. apply H; auto.
  Qed.
  Lemma moment_solver h s S : plasma P -> maxwell P -> starts P s -> vm_holds P s S ->
    exists s', run_steps (solver_stepper P) h s = Ok (s', None)
    /\ total_moment P mass w (gval L (f_of s'))
       = total_moment P mass w (gval L (f_of s)) + vm_gained P mass w k1 k2 (time_elapsed s) h S.
  Proof using W PF VP CK DP.
    intros PM MX ST HS. destruct (vm_refines P k1 k2 W PF PM MX h s S ST HS) as (s'&R&((_&HF)&_)&_).
    exists s'. split; [exact R|]. destruct HS as ((_&H0)&_). fold c L in HF, H0.
    rewrite (total_moment_ext _ _ HF), (total_moment_ext _ _ H0). apply moment_run.
  Qed.
End Moment.
