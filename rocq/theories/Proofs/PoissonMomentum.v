(** Total momentum of electrostatic runs. *)
From Coq Require Import ZArith Reals Lia Lra String List Bool.
From Verif Require Import Base.Prelude Base.ZSum Base.Cplx Model.Af Model.Petsc Model.Config
  Model.Fvm Model.Em Model.Moments Model.Timestep Model.Solver Spec.Domain Spec.Lattice Spec.FvmProblem Spec.FvmRun
  Spec.Yee Spec.EmRun Spec.Waves Spec.MomentSpec Spec.Clock Spec.SolverSpec Spec.VlasovMaxwell Spec.Slide Spec.Poisson Proofs.AfLemmas Proofs.PetscLemmas Proofs.ConvLemmas
  Proofs.FluxLemmas Proofs.FvmLemmas Proofs.FvmLemmas2 Proofs.FvmConserve Proofs.MomentLemmas Proofs.ChargeLemmas
  Proofs.PoissonKernel Proofs.PoissonRun.
Import ListNotations.
Local Open Scope R_scope.

(** ** One line of momentum cells *)
Lemma flux_wrap k n v u : (0 < n)%Z -> v n = v 0%Z -> flux k v (periodic n u) n = flux k v (periodic n u) 0.
Proof.
  intros Hn Hv. change (flux k v (periodic n u) n) with (flux k v (periodic n u) (0 + n)%Z).
  rewrite <- (flux_shift k v). apply flux_ext.
  - simpl. rewrite Hv. reflexivity.
  - intros z _. replace (z + n)%Z with (z + 1 * n)%Z by lia. apply periodic_add_mul; lia.
Qed.

Lemma line_moment k n lo h v u : (0 < n)%Z -> h <> 0 -> v n = v 0%Z ->
  zsum n (fun i => (lo + (1/2 + IZR i) * h) * advect k h v (periodic n u) i)
  = zsum n (fun i => flux k v (periodic n u) i) - IZR n * flux k v (periodic n u) 0.
Proof.
  intros N H V. set (F i := flux k v (periodic n u) i).
  assert (T : zsum n (fun i => (lo + (1/2 + IZR (i + 1)) * h) * F (i + 1)%Z - (lo + (1/2 + IZR i) * h) * F i)
     = (lo + (1/2 + IZR n) * h) * F n - (lo + (1/2 + IZR 0) * h) * F 0%Z)
    by (apply (zsum_telescope n (fun i => (lo + (1/2 + IZR i) * h) * F i)); lia).
  assert (S : zsum n (fun i => F (i + 1)%Z) = zsum n F).
  { assert (Q : zsum n (fun i => F (i + 1)%Z - F i) = F n - F 0%Z) by (apply zsum_telescope; lia).
    rewrite zsum_minus in Q. unfold F in Q at 3 4. rewrite flux_wrap in Q by auto. lra. }
  assert (FN : F n = F 0%Z) by (apply flux_wrap; auto). rewrite FN in T.
  rewrite (zsum_ext n _ (fun i => / h * (h * F (i + 1)%Z
      - ((lo + (1/2 + IZR (i + 1)) * h) * F (i + 1)%Z - (lo + (1/2 + IZR i) * h) * F i)))).
  2:{ intros i _. unfold advect. fold (F (i + 1)%Z) (F i). rewrite plus_IZR. field. auto. }
  rewrite zsum_scal, zsum_minus, T, zsum_scal, S. fold (F 0%Z). change (zsum n (fun i => flux k v (periodic n u) i)) with (zsum n F).
  field. auto.
Qed.

(** First-order upwind fluxes add up to the density. *)
Lemma line_first n v u V : (0 < n)%Z -> (forall i, v i = V) ->
  zsum n (fun i => flux FirstOrder v (periodic n u) i) = V * zsum n u.
Proof.
  intros N HV.
  rewrite (zsum_ext n _ (fun i => V * (if Rlt_dec 0 V then u ((i - 1) mod n)%Z else u i))).
  2:{ intros i Hi. unfold flux, upwind. rewrite HV. cbn [cell_faces fst snd]. unfold periodic.
      rewrite (Z.mod_small i) by auto. reflexivity. }
  rewrite zsum_scal. f_equal. destruct (Rlt_dec 0 V); auto. apply (zsum_shift_sub n u 1); auto.
Qed.

Section Momentum.
  Context (P : params) (k1 k2 : scheme).
  Let c := pc P.
  Let L := lay c.
  Let N1 := gN1 L. Let N2 := gN2 L.
  Context (W : wf_cfg c k1 k2) (PF : periodic_fvm c k1) (PM : plasma P) (VP : velocity_periodic c).
  Context (mass : Z -> R) (CK : collisions_keep P mass).
  Let vol s := (nth (Z.to_nat s) (dp1 c) 0 * nth (Z.to_nat s) (dp2 c) 0 * nth (Z.to_nat s) (dp3 c) 0).
  Let wt (w : R -> R -> R -> R) s x := w (mom1 c (1/2) x s) (mom2 c (1/2) x s) (mom3 c (1/2) x s).
  Context (DP : forall s, inb (N_species c) s -> nth (Z.to_nat s) (dp1 c) 0 <> 0 /\ nth (Z.to_nat s) (dp2 c) 0 <> 0).

  Lemma mpos : (0 < N_p1 c)%Z /\ (0 < N_p2 c)%Z /\ (0 < N_p3 c)%Z.
  Proof using W. pose proof (wf_pos _ _ _ W) as (Q1&Q2&Q3&_). auto. Qed.

  Lemma integral_flat s w g :
    integral (species_grid c s) w (fun i1 i2 i3 => g (i1 + N_p1 c * (i2 + N_p2 c * i3))%Z)
    = zsum (N_p c) (fun x => wt w s x * g x) * vol s.
  Proof using W.
    destruct mpos as (Q1&Q2&Q3). unfold integral, N_p. cbn [mn1 mn2 mn3 w1 w2 w3 species_grid]. f_equal.
    rewrite zsum3 by lia. apply zsum_ext; intros i3 H3. apply zsum_ext; intros i2 H2. apply zsum_ext; intros i1 H1.
    destruct (pidx_split (N_p1 c) (N_p2 c) i1 i2 i3 H1 H2) as (A1&A2&A3).
    unfold wt, mom1, mom2, mom3, v_of, lo1, lo2, lo3. rewrite A1, A2, A3. reflexivity.
  Qed.

  (** At one cell. *)
  Definition cell_moment (w : R -> R -> R -> R) (g : Z -> Z -> R) : R :=
    zsum (N_species c) (fun s => mass s * (zsum (N_p c) (fun x => wt w s x * g x s) * vol s)).
  Lemma total_cells w u : total_moment P mass w u = zsum N1 (fun i => zsum N2 (fun j => cell_moment w (fun x s => u x s i j))).
  Proof using W.
    unfold total_moment. fold c L N1 N2. apply zsum_ext; intros i _. apply zsum_ext; intros j _. unfold cell_moment.
    apply zsum_ext; intros s _. f_equal. apply (integral_flat s w (fun x => u x s i j)).
  Qed.
  Lemma cell_linear w a b t : cell_moment w (fun x s => a x s + t * b x s) = cell_moment w a + t * cell_moment w b.
  Proof using.
    unfold cell_moment. rewrite <- zsum_scal, <- zsum_plus. apply zsum_ext; intros s _.
    rewrite (zsum_ext (N_p c) _ (fun x => wt w s x * a x s + t * (wt w s x * b x s))) by (intros; ring).
    rewrite zsum_plus, zsum_scal. ring.
  Qed.
  Lemma total_linear w u r t : total_moment P mass w (fun x s i j => u x s i j + t * r x s i j)
    = total_moment P mass w u + t * total_moment P mass w r.
  Proof using W.
    rewrite !total_cells, <- zsum_scal, <- zsum_plus. apply zsum_ext; intros i _.
    rewrite <- zsum_scal, <- zsum_plus. apply zsum_ext; intros j _. apply cell_linear.
  Qed.
  Lemma total_add w u r : total_moment P mass w (fun x s i j => u x s i j + r x s i j)
    = total_moment P mass w u + total_moment P mass w r.
  Proof using W.
    transitivity (total_moment P mass w (fun x s i j => u x s i j + 1 * r x s i j)).
    - unfold total_moment. apply zsum_ext; intros; apply zsum_ext; intros; apply zsum_ext; intros. f_equal.
      unfold integral. f_equal. apply zsum_ext; intros; apply zsum_ext; intros; apply zsum_ext; intros. ring.
    - rewrite total_linear. ring.
  Qed.

  (** Motion in space. *)
  Lemma total_space w t E u : total_moment P mass w (advect_q (prob c k1 k2 t E) u) = 0.
  Proof using W PF VP.
    rewrite total_cells. destruct (grid_pos c k1 PF) as (G1&G2). fold L in G1, G2.
    set (A x s i j := advect_q (prob c k1 k2 t E) u x s i j).
    assert (SW : forall (f : Z -> Z -> Z -> R) n, zsum N1 (fun i => zsum N2 (fun j => zsum n (fun x => f x i j)))
       = zsum n (fun x => zsum N1 (fun i => zsum N2 (fun j => f x i j)))).
    { intros f n. rewrite (zsum_ext N1 _ (fun i => zsum n (fun x => zsum N2 (fun j => f x i j)))) by (intros; apply zsum_swap).
      apply zsum_swap. }
    unfold cell_moment. change (zsum N1 (fun i => zsum N2 (fun j => zsum (N_species c) (fun s =>
       mass s * (zsum (N_p c) (fun x => wt w s x * A x s i j) * vol s)))) = 0).
    rewrite SW. rewrite (zsum_ext (N_species c) _ (fun _ => 0)); [apply zsum_zero|]. intros s _.
    rewrite (zsum_ext N1 _ (fun i => mass s * vol s * zsum N2 (fun j => zsum (N_p c) (fun x => wt w s x * A x s i j)))).
    2:{ intros i _. rewrite <- zsum_scal. apply zsum_ext; intros; ring. }
    rewrite zsum_scal, SW. apply Rmult_eq_0_compat_l.
    rewrite (zsum_ext (N_p c) _ (fun _ => 0)); [apply zsum_zero|]. intros x _.
    rewrite (zsum_ext N1 _ (fun i => wt w s x * zsum N2 (fun j => A x s i j))) by (intros; apply zsum_scal).
    rewrite zsum_scal. apply Rmult_eq_0_compat_l.
    destruct (vel_per c k1 k2 t E VP) as (V1&V2).
    apply (advect_q_total (prob c k1 k2 t E) u x s); auto.
  Qed.

  (** Collisions. *)
  Lemma total_source t E u : 
    let r : gstate := fun x s i j => src (prob c k1 k2 t E) i j (fun x' s' => u x' s' i j) x s in
    total_moment P mass (fun v _ _ => v) r = 0 /\ total_moment P mass (fun _ v _ => v) r = 0.
  Proof using W CK.
    intros r. assert (Q : forall w, (forall i j, cell_moment w (fun x s => r x s i j) = 0) -> total_moment P mass w r = 0).
    { intros w H. rewrite total_cells. rewrite (zsum_ext N1 _ (fun _ => 0)); [apply zsum_zero|]. intros i _.
      rewrite (zsum_ext N2 _ (fun _ => 0)); [apply zsum_zero|]. intros j _. apply H. }
    assert (Z0 : source_enabled c = false -> forall w i j, cell_moment w (fun x s => r x s i j) = 0).
    { intros OFF w i j. unfold cell_moment. rewrite (zsum_ext (N_species c) _ (fun _ => 0)); [apply zsum_zero|]. intros s _.
      rewrite (zsum_ext (N_p c) _ (fun _ => 0)); [rewrite zsum_zero; ring|]. intros x _. unfold r.
      rewrite src_off by exact OFF. ring. }
    destruct (source_enabled c) eqn:ON.
    - destruct CK as [X|X]; [fold c in X; congruence|].
      assert (R : forall w i j, cell_moment w (fun x s => r x s i j)
         = zsum (N_species c) (fun s => mass s * integral (species_grid c s) w (fun i1 i2 i3 =>
             source c t (pos1 c (1/2) i) (pos2 c (1/2) j) (fun x' s' => u x' s' i j) (i1 + N_p1 c * (i2 + N_p2 c * i3))%Z s))).
      { intros w i j. unfold cell_moment. apply zsum_ext; intros s _. f_equal. symmetry.
        rewrite (integral_flat s w (fun x => source c t (pos1 c (1/2) i) (pos2 c (1/2) j) (fun x' s' => u x' s' i j) x s)).
        f_equal. apply zsum_ext; intros x _. f_equal. unfold r, prob, problem_of, problem_at. cbn [src].
        rewrite ON. reflexivity. }
      split; apply Q; intros i j; rewrite R; apply (X t (pos1 c (1/2) i) (pos2 c (1/2) j) (fun x' s' => u x' s' i j)).
    - split; apply Q; intros; apply Z0; reflexivity.
  Qed.

  (** Acceleration. *)
  Section Force.
  Context (t : R) (C : lattice).
  Let p := vm_problem P k1 k2 t C.
  Lemma cell_force1 u i j :
    cell_moment (fun v _ _ => v) (fun x s => advect_p p i j (fun x' s' => u x' s' i j) x s)
    = zsum (N_species c) (fun s => mass s * pushed1 p u s i j)
      - zsum (N_species c) (fun s => mass s * (IZR (M1 p) * hp1 p s * crossing1 p u s i j)).
  Proof using W DP.
    destruct mpos as (Q1&Q2&Q3).
    rewrite <- zsum_minus. unfold cell_moment. apply zsum_ext; intros s Hs.
    destruct (DP s Hs) as (D1&_).
    set (lo := nth (Z.to_nat s) (p1_start c) 0). set (h := nth (Z.to_nat s) (dp1 c) 0) in *.
    set (w x s' := u x s' i j).
    set (A i2 i3 := advect k2 h (periodic (N_p1 c) (fun a => acc1 p (pidx p a i2 i3) s i j)) (periodic (N_p1 c) (fun a => w (pidx p a i2 i3) s))).
    set (B i1 i3 := advect k2 (hp2 p s) (periodic (N_p2 c) (fun a => acc2 p (pidx p i1 a i3) s i j)) (periodic (N_p2 c) (fun a => w (pidx p i1 a i3) s))).
    set (D i1 i2 := advect k2 (hp3 p s) (periodic (N_p3 c) (fun a => acc3 p (pidx p i1 i2 a) s i j)) (periodic (N_p3 c) (fun a => w (pidx p i1 i2 a) s))).
    set (F i2 i3 z := flux k2 (periodic (N_p1 c) (fun a => acc1 p (pidx p a i2 i3) s i j)) (periodic (N_p1 c) (fun a => w (pidx p a i2 i3) s)) z).
    assert (P0 : forall m v, (0 < m)%Z -> periodic m v m = periodic m v 0%Z).
    { intros m v Hm. unfold periodic. rewrite Z_mod_same_full, Z.mod_0_l by lia. reflexivity. }
    assert (SA : forall i2 i3, zsum (N_p1 c) (fun i1 => (lo + (1/2 + IZR i1) * h) * A i2 i3 i1)
       = zsum (N_p1 c) (F i2 i3) - IZR (N_p1 c) * F i2 i3 0%Z).
    { intros i2 i3. unfold A. rewrite line_moment by auto. reflexivity. }
    assert (SB : forall i1 i3, zsum (N_p2 c) (B i1 i3) = 0) by (intros; apply advect_sum_periodic; auto).
    assert (SD : forall i1 i2, zsum (N_p3 c) (D i1 i2) = 0) by (intros; apply advect_sum_periodic; auto).
    assert (T : zsum (N_p c) (fun x => wt (fun v _ _ => v) s x * advect_p p i j w x s)
       = zsum (N_p3 c) (fun i3 => zsum (N_p2 c) (fun i2 => zsum (N_p1 c) (F i2 i3)))
         - IZR (N_p1 c) * zsum (N_p3 c) (fun i3 => zsum (N_p2 c) (fun i2 => F i2 i3 0%Z))).
    { unfold N_p. rewrite zsum3 by lia.
      rewrite (zsum_ext (N_p3 c) _ (fun i3 => zsum (N_p2 c) (fun i2 => zsum (N_p1 c) (fun i1 =>
         (lo + (1/2 + IZR i1) * h) * A i2 i3 i1 + (lo + (1/2 + IZR i1) * h) * B i1 i3 i2 + (lo + (1/2 + IZR i1) * h) * D i1 i2 i3)))).
      2:{ intros i3 R3. apply zsum_ext; intros i2 R2. apply zsum_ext; intros i1 R1.
          destruct (pidx_split (N_p1 c) (N_p2 c) i1 i2 i3) as (E1&E2&E3); auto.
          unfold wt, mom1, advect_p. change (M1 p) with (N_p1 c). change (M2 p) with (N_p2 c). change (M3 p) with (N_p3 c).
          rewrite E1, E2, E3. unfold A, B, D, w. fold lo h. cbn [kp hp1]. change (kp p) with k2. change (hp1 p s) with h. ring. }
      rewrite (zsum_ext (N_p3 c) _ (fun i3 => (zsum (N_p2 c) (fun i2 => zsum (N_p1 c) (fun i1 => (lo + (1/2 + IZR i1) * h) * A i2 i3 i1))
          + zsum (N_p1 c) (fun i1 => (lo + (1/2 + IZR i1) * h) * zsum (N_p2 c) (B i1 i3)))
          + zsum (N_p2 c) (fun i2 => zsum (N_p1 c) (fun i1 => (lo + (1/2 + IZR i1) * h) * D i1 i2 i3)))).
      2:{ intros i3 _.
          rewrite (zsum_ext (N_p1 c) (fun i1 => _ * zsum (N_p2 c) (B i1 i3)) (fun i1 => zsum (N_p2 c) (fun i2 => (lo + (1/2 + IZR i1) * h) * B i1 i3 i2)))
            by (intros; symmetry; apply zsum_scal).
          rewrite (zsum_swap (N_p1 c) (N_p2 c)). rewrite <- !zsum_plus. apply zsum_ext; intros i2 _.
          rewrite <- !zsum_plus. reflexivity. }
      rewrite !zsum_plus.
      rewrite (zsum_ext (N_p3 c) (fun i3 => zsum (N_p1 c) (fun i1 => _ * zsum (N_p2 c) (B i1 i3))) (fun _ => 0)).
      2:{ intros i3 _. rewrite (zsum_ext (N_p1 c) _ (fun _ => 0)); [apply zsum_zero|]. intros. rewrite SB. ring. }
      rewrite zsum_zero.
      rewrite (zsum_swap (N_p3 c) (N_p2 c) (fun i3 i2 => zsum (N_p1 c) (fun i1 => (lo + (1/2 + IZR i1) * h) * D i1 i2 i3))).
      rewrite (zsum_ext (N_p2 c) (fun i2 => zsum (N_p3 c) (fun i3 => zsum (N_p1 c) (fun i1 => (lo + (1/2 + IZR i1) * h) * D i1 i2 i3))) (fun _ => 0)).
      2:{ intros i2 _. rewrite zsum_swap. rewrite (zsum_ext (N_p1 c) _ (fun _ => 0)); [apply zsum_zero|]. intros i1 _.
          rewrite zsum_scal. change (fun i3 => D i1 i2 i3) with (D i1 i2). rewrite SD. ring. }
      rewrite zsum_zero, !Rplus_0_r. rewrite <- !zsum_scal, <- zsum_minus. apply zsum_ext; intros i3 _.
      rewrite <- !zsum_scal, <- zsum_minus. apply zsum_ext; intros i2 _. rewrite SA. reflexivity. }
    change (mass s * (zsum (N_p c) (fun x => wt (fun v _ _ => v) s x * advect_p p i j w x s) * vol s)
      = mass s * (zsum (N_p3 c) (fun i3 => zsum (N_p2 c) (fun i2 => zsum (N_p1 c) (F i2 i3))) * vol s)
        - mass s * (IZR (N_p1 c) * h * (zsum (N_p3 c) (fun i3 => zsum (N_p2 c) (fun i2 => F i2 i3 0%Z)) * (nth (Z.to_nat s) (dp2 c) 0 * nth (Z.to_nat s) (dp3 c) 0)))).
    rewrite T. unfold vol. fold h. ring.
  Qed.

  Lemma cell_force2 u i j :
    cell_moment (fun _ v _ => v) (fun x s => advect_p p i j (fun x' s' => u x' s' i j) x s)
    = zsum (N_species c) (fun s => mass s * pushed2 p u s i j)
      - zsum (N_species c) (fun s => mass s * (IZR (M2 p) * hp2 p s * crossing2 p u s i j)).
  Proof using W DP.
    destruct mpos as (Q1&Q2&Q3).
    rewrite <- zsum_minus. unfold cell_moment. apply zsum_ext; intros s Hs.
    destruct (DP s Hs) as (_&D2).
    set (lo := nth (Z.to_nat s) (p2_start c) 0). set (h := nth (Z.to_nat s) (dp2 c) 0) in *.
    set (w x s' := u x s' i j).
    set (A i2 i3 := advect k2 (hp1 p s) (periodic (N_p1 c) (fun a => acc1 p (pidx p a i2 i3) s i j)) (periodic (N_p1 c) (fun a => w (pidx p a i2 i3) s))).
    set (B i1 i3 := advect k2 h (periodic (N_p2 c) (fun a => acc2 p (pidx p i1 a i3) s i j)) (periodic (N_p2 c) (fun a => w (pidx p i1 a i3) s))).
    set (D i1 i2 := advect k2 (hp3 p s) (periodic (N_p3 c) (fun a => acc3 p (pidx p i1 i2 a) s i j)) (periodic (N_p3 c) (fun a => w (pidx p i1 i2 a) s))).
    set (F i1 i3 z := flux k2 (periodic (N_p2 c) (fun a => acc2 p (pidx p i1 a i3) s i j)) (periodic (N_p2 c) (fun a => w (pidx p i1 a i3) s)) z).
    assert (P0 : forall m v, (0 < m)%Z -> periodic m v m = periodic m v 0%Z).
    { intros m v Hm. unfold periodic. rewrite Z_mod_same_full, Z.mod_0_l by lia. reflexivity. }
    assert (SB : forall i1 i3, zsum (N_p2 c) (fun i2 => (lo + (1/2 + IZR i2) * h) * B i1 i3 i2)
       = zsum (N_p2 c) (F i1 i3) - IZR (N_p2 c) * F i1 i3 0%Z).
    { intros i1 i3. unfold B. rewrite line_moment by auto. reflexivity. }
    assert (SA : forall i2 i3, zsum (N_p1 c) (A i2 i3) = 0) by (intros; apply advect_sum_periodic; auto).
    assert (SD : forall i1 i2, zsum (N_p3 c) (D i1 i2) = 0) by (intros; apply advect_sum_periodic; auto).
    assert (T : zsum (N_p c) (fun x => wt (fun _ v _ => v) s x * advect_p p i j w x s)
       = zsum (N_p3 c) (fun i3 => zsum (N_p1 c) (fun i1 => zsum (N_p2 c) (F i1 i3)))
         - IZR (N_p2 c) * zsum (N_p3 c) (fun i3 => zsum (N_p1 c) (fun i1 => F i1 i3 0%Z))).
    { unfold N_p. rewrite zsum3 by lia.
      rewrite (zsum_ext (N_p3 c) _ (fun i3 => zsum (N_p2 c) (fun i2 => zsum (N_p1 c) (fun i1 =>
         (lo + (1/2 + IZR i2) * h) * A i2 i3 i1 + (lo + (1/2 + IZR i2) * h) * B i1 i3 i2 + (lo + (1/2 + IZR i2) * h) * D i1 i2 i3)))).
      2:{ intros i3 R3. apply zsum_ext; intros i2 R2. apply zsum_ext; intros i1 R1.
          destruct (pidx_split (N_p1 c) (N_p2 c) i1 i2 i3) as (E1&E2&E3); auto.
          unfold wt, mom2, advect_p. change (M1 p) with (N_p1 c). change (M2 p) with (N_p2 c). change (M3 p) with (N_p3 c).
          rewrite E1, E2, E3. unfold A, B, D, w. fold lo h. change (kp p) with k2. change (hp2 p s) with h. ring. }
      rewrite (zsum_ext (N_p3 c) _ (fun i3 => (zsum (N_p2 c) (fun i2 => (lo + (1/2 + IZR i2) * h) * zsum (N_p1 c) (A i2 i3))
          + zsum (N_p1 c) (fun i1 => zsum (N_p2 c) (fun i2 => (lo + (1/2 + IZR i2) * h) * B i1 i3 i2)))
          + zsum (N_p2 c) (fun i2 => (lo + (1/2 + IZR i2) * h) * zsum (N_p1 c) (fun i1 => D i1 i2 i3)))).
      2:{ intros i3 _. rewrite (zsum_swap (N_p1 c) (N_p2 c)). rewrite <- !zsum_plus. apply zsum_ext; intros i2 _.
          rewrite <- !zsum_scal, <- !zsum_plus. reflexivity. }
      rewrite !zsum_plus.
      rewrite (zsum_ext (N_p3 c) (fun i3 => zsum (N_p2 c) (fun i2 => _ * zsum (N_p1 c) (A i2 i3))) (fun _ => 0)).
      2:{ intros i3 _. rewrite (zsum_ext (N_p2 c) _ (fun _ => 0)); [apply zsum_zero|]. intros. rewrite SA. ring. }
      rewrite zsum_zero.
      rewrite (zsum_swap (N_p3 c) (N_p2 c) (fun i3 i2 => (lo + (1/2 + IZR i2) * h) * zsum (N_p1 c) (fun i1 => D i1 i2 i3))).
      rewrite (zsum_ext (N_p2 c) (fun i2 => zsum (N_p3 c) (fun i3 => (lo + (1/2 + IZR i2) * h) * zsum (N_p1 c) (fun i1 => D i1 i2 i3))) (fun _ => 0)).
      2:{ intros i2 _. rewrite zsum_scal, zsum_swap. rewrite (zsum_ext (N_p1 c) _ (fun _ => 0)); [rewrite zsum_zero; ring|]. intros i1 _.
          apply SD. }
      rewrite zsum_zero, Rplus_0_l, Rplus_0_r. rewrite <- !zsum_scal, <- zsum_minus. apply zsum_ext; intros i3 _.
      rewrite <- !zsum_scal, <- zsum_minus. apply zsum_ext; intros i1 _. rewrite SB. reflexivity. }
    change (mass s * (zsum (N_p c) (fun x => wt (fun _ v _ => v) s x * advect_p p i j w x s) * vol s)
      = mass s * (zsum (N_p3 c) (fun i3 => zsum (N_p1 c) (fun i1 => zsum (N_p2 c) (F i1 i3))) * vol s)
        - mass s * (IZR (N_p2 c) * h * (zsum (N_p3 c) (fun i3 => zsum (N_p1 c) (fun i1 => F i1 i3 0%Z)) * (nth (Z.to_nat s) (dp1 c) 0 * nth (Z.to_nat s) (dp3 c) 0)))).
    rewrite T. unfold vol. fold h. ring.
  Qed.
  End Force.

  (** The rate of change in any fields. *)
  Definition total_pushed (pushed : problem -> gstate -> Z -> Z -> Z -> R) (p : problem) (u : gstate) : R :=
    zsum N1 (fun i => zsum N2 (fun j => zsum (N_species c) (fun s => mass s * pushed p u s i j))).
  Lemma rate_any t E u : let p := vm_problem P k1 k2 t E in
    momentum1 P mass (rhs p u) = total_pushed pushed1 p u - loss1 P mass p u
    /\ momentum2 P mass (rhs p u) = total_pushed pushed2 p u - loss2 P mass p u.
  Proof using W PF VP CK DP.
    intros p. destruct (total_source t (components E, components E, components E) u) as (S1&S2).
    assert (Q : forall w (F : Z -> Z -> R) loss, total_moment P mass w (fun x s i j => src p i j (fun x' s' => u x' s' i j) x s) = 0 ->
       (forall i j, cell_moment w (fun x s => advect_p p i j (fun x' s' => u x' s' i j) x s) = F i j - loss i j) ->
       total_moment P mass w (rhs p u) = zsum N1 (fun i => zsum N2 (fun j => F i j)) - zsum N1 (fun i => zsum N2 (fun j => loss i j))).
    { intros w F loss HS HF. unfold rhs.
      rewrite (total_add w (fun x s i j => advect_q p u x s i j + src p i j (fun x' s' => u x' s' i j) x s)
                 (fun x s i j => advect_p p i j (fun x' s' => u x' s' i j) x s)).
      rewrite (total_add w (advect_q p u) (fun x s i j => src p i j (fun x' s' => u x' s' i j) x s)).
      rewrite HS. unfold p at 1, vm_problem. rewrite (total_space w). rewrite total_cells.
      rewrite (zsum_ext N1 _ (fun i => zsum N2 (fun j => F i j) - zsum N2 (fun j => loss i j))).
      2:{ intros i _. rewrite <- zsum_minus. apply zsum_ext; intros j _. apply HF. }
      rewrite zsum_minus. ring. }
    split.
    - unfold momentum1, loss1, momentum_loss, total_pushed. fold c L N1 N2.
      apply (Q _ (fun i j => zsum (N_species c) (fun s => mass s * pushed1 p u s i j))
                 (fun i j => zsum (N_species c) (fun s => mass s * (IZR (M1 p) * hp1 p s * crossing1 p u s i j)))).
      + exact S1.
      + intros i j. apply cell_force1; auto.
    - unfold momentum2, loss2, momentum_loss, total_pushed. fold c L N1 N2.
      apply (Q _ (fun i j => zsum (N_species c) (fun s => mass s * pushed2 p u s i j))
                 (fun i j => zsum (N_species c) (fun s => mass s * (IZR (M2 p) * hp2 p s * crossing2 p u s i j)))).
      + exact S2.
      + intros i j. apply cell_force2; auto.
  Qed.

  (** First order, electric forces. *)
  Context (KF : k2 = FirstOrder) (CF : coulomb_force P mass).
  Section Electric.
  Context (t : R) (C : lattice) (UB : unmagnetised C).
  Let p := vm_problem P k1 k2 t C.
  Lemma acc_is x s i j : inb (N_species c) s -> let a := nth (Z.to_nat s) (charge P) 0 / mass s in
    acc1 p x s i j = a * Yee.E1 C i j /\ acc2 p x s i j = a * Yee.E2 C i j.
  Proof using PM CF UB.
    intros Hs a. destruct UB as (U1&U2&U3). destruct (CF s Hs) as (_&F).
    unfold p, vm_problem, prob, problem_of, problem_at. cbn [acc1 acc2 fst snd].
    assert (ON : p_is_fvm (pc P) = true) by (unfold p_is_fvm; rewrite (pl_p P PM), (pl_on P PM); reflexivity).
    rewrite ON. unfold accel, components. cbn [Z.eqb Pos.eqb]. rewrite U1, U2, U3, !F. split; reflexivity.
  Qed.


  Lemma push_is u i j :
    zsum (N_species c) (fun s => mass s * pushed1 p u s i j) = charge_density P u i j * Yee.E1 C i j
    /\ zsum (N_species c) (fun s => mass s * pushed2 p u s i j) = charge_density P u i j * Yee.E2 C i j.
  Proof using W PM CF UB KF.
    destruct mpos as (Q1&Q2&Q3). unfold charge_density, charge_moment. fold c.
    assert (FL : forall s, integral (species_grid c s) (fun _ _ _ => 1) (fun i1 i2 i3 => u (i1 + N_p1 c * (i2 + N_p2 c * i3))%Z s i j)
       = zsum (N_p3 c) (fun i3 => zsum (N_p2 c) (fun i2 => zsum (N_p1 c) (fun i1 => u (i1 + N_p1 c * (i2 + N_p2 c * i3))%Z s i j))) * vol s).
    { intros s. unfold integral. cbn [mn1 mn2 mn3 w1 w2 w3 species_grid]. fold c. f_equal.
      apply zsum_ext; intros; apply zsum_ext; intros; apply zsum_ext; intros. ring. }
    split; rewrite <- zsum_scal_r; apply zsum_ext; intros s Hs; destruct (CF s Hs) as (MS&_);
      set (a := nth (Z.to_nat s) (charge P) 0 / mass s); rewrite FL.
    - set (S := zsum (N_p3 c) (fun i3 => zsum (N_p2 c) (fun i2 => zsum (N_p1 c) (fun i1 => u (i1 + N_p1 c * (i2 + N_p2 c * i3))%Z s i j)))).
      assert (X : pushed1 p u s i j = a * Yee.E1 C i j * S * vol s).
      { unfold pushed1. change (M1 p) with (N_p1 c). change (M2 p) with (N_p2 c). change (M3 p) with (N_p3 c). change (kp p) with k2. rewrite KF.
        change (hp1 p s * hp2 p s * hp3 p s) with (vol s). f_equal. unfold S. rewrite <- zsum_scal. apply zsum_ext; intros i3 _.
        rewrite <- zsum_scal. apply zsum_ext; intros i2 _. 
        apply (line_first (N_p1 c) _ (fun i1 => u (i1 + N_p1 c * (i2 + N_p2 c * i3))%Z s i j)); auto.
        intros z. unfold periodic. apply (acc_is _ s i j Hs). }
      rewrite X. unfold a. field. exact MS.
    - set (S := zsum (N_p3 c) (fun i3 => zsum (N_p2 c) (fun i2 => zsum (N_p1 c) (fun i1 => u (i1 + N_p1 c * (i2 + N_p2 c * i3))%Z s i j)))).
      assert (X : pushed2 p u s i j = a * Yee.E2 C i j * S * vol s).
      { unfold pushed2. change (M1 p) with (N_p1 c). change (M2 p) with (N_p2 c). change (M3 p) with (N_p3 c). change (kp p) with k2. rewrite KF.
        change (hp1 p s * hp2 p s * hp3 p s) with (vol s). f_equal. unfold S. rewrite <- zsum_scal. apply zsum_ext; intros i3 _.
        rewrite (zsum_swap (N_p2 c) (N_p1 c)). rewrite <- zsum_scal. apply zsum_ext; intros i1 _.
        apply (line_first (N_p2 c) _ (fun i2 => u (i1 + N_p1 c * (i2 + N_p2 c * i3))%Z s i j)); auto.
        intros z. unfold periodic. apply (acc_is _ s i j Hs). }
      rewrite X. unfold a. field. exact MS.
  Qed.
  End Electric.

  (** The rate of change in a plasma's own field. *)
  Lemma rate bg t u : unmagnetised bg -> let p := vm_problem P k1 k2 t (es_fields P bg u) in
    momentum1 P mass (rhs p u) = - loss1 P mass p u /\ momentum2 P mass (rhs p u) = - loss2 P mass p u.
  Proof using W PF PM VP CF CK DP KF.
    intros UB p. set (E := es_fields P bg u) in *. assert (UE : unmagnetised E) by exact UB.
    destruct (rate_any t E u) as (R1&R2). fold p in R1, R2. rewrite R1, R2.
    assert (Z1 : total_pushed pushed1 p u = 0).
    { unfold total_pushed. rewrite (zsum_ext N1 _ (fun i => zsum N2 (fun j => charge_density P u i j * Yee.E1 E i j))).
      - apply no_self_force.
      - intros i _. apply zsum_ext; intros j _. apply (push_is t E UE u i j). }
    assert (Z2 : total_pushed pushed2 p u = 0).
    { unfold total_pushed. rewrite (zsum_ext N1 _ (fun i => zsum N2 (fun j => charge_density P u i j * Yee.E2 E i j))).
      - apply no_self_force.
      - intros i _. apply zsum_ext; intros j _. apply (push_is t E UE u i j). }
    rewrite Z1, Z2. split; ring.
  Qed.

  Lemma momentum_run bg h : unmagnetised bg -> forall t u,
    momentum1 P mass (vp_run P k1 k2 bg t h u) = momentum1 P mass u - vp_lost (loss1 P mass) P k1 k2 bg t h u
    /\ momentum2 P mass (vp_run P k1 k2 bg t h u) = momentum2 P mass u - vp_lost (loss2 P mass) P k1 k2 bg t h u.
  Proof using W PF PM VP CF CK DP KF.
    intros UB. induction h as [|(m&dt) h IH]; intros t u; cbn [vp_run vp_lost].
    - split; ring.
    - destruct (IH (t + dt) (vp_step P k1 k2 bg t dt u)) as (A&B). rewrite A, B.
      destruct (rate bg t (vp_half P k1 k2 bg t dt u) UB) as (R1&R2).
      set (uh := vp_half P k1 k2 bg t dt u) in *.
      set (q := vm_problem P k1 k2 t (es_fields P bg uh)) in *.
      assert (X : vp_step P k1 k2 bg t dt u = (fun x s i j => u x s i j + dt * rhs q uh x s i j)) by reflexivity.
      rewrite X. unfold momentum1, momentum2 in *. rewrite !total_linear, R1, R2. split; ring.
  Qed.
End Momentum.
