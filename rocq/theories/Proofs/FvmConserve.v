(** Conservation, uniform states, positivity and decomposition independence. *)
From Coq Require Import ZArith Reals Lra Lia Psatz String List Bool.
From Verif Require Import Base.Prelude Base.ZSum Model.Af Model.Grid Model.Petsc Model.Config
  Model.Reconstruct Model.Boundaries Model.Fvm
  Spec.Limiters Spec.Stencil Spec.Lattice Spec.Domain Spec.FvmProblem Spec.FvmRun
  Proofs.AfLemmas Proofs.ReconstructLemmas Proofs.ReconstructApi Proofs.PetscLemmas
  Proofs.FluxLemmas Proofs.ConvLemmas Proofs.FvmLemmas Proofs.FvmLemmas2.
Import ListNotations.
Local Open Scope R_scope.

(** Field arrays always show something. *)
Lemma shows_gval L A : Forall (fun b => (0 < b)%Z) (blk1 L) -> Forall (fun b => (0 < b)%Z) (blk2 L) ->
  shows L A (fun n g1 g2 => gval L A n 0 g1 g2).
Proof. intros F1 F2 r1 r2 i j n RK Hi Hj Hn. symmetry. apply gval_interior; auto. Qed.

Definition gfields_of (L : layout) (A : fieldseq) : fields3 :=
  (fun n g1 g2 => gval L (fun r1 r2 => fst (fst (A r1 r2))) n 0 g1 g2,
   fun n g1 g2 => gval L (fun r1 r2 => snd (fst (A r1 r2))) n 0 g1 g2,
   fun n g1 g2 => gval L (fun r1 r2 => snd (A r1 r2)) n 0 g1 g2).

Lemma shows3_of L A : Forall (fun b => (0 < b)%Z) (blk1 L) -> Forall (fun b => (0 < b)%Z) (blk2 L) ->
  shows3 L A (gfields_of L A).
Proof. intros. repeat split; apply shows_gval; auto. Qed.

(** A property of the global state kept by the textbook step is kept by runs. *)
Lemma run_invariant c k1 k2 (Q : gstate -> Prop) :
  wf_cfg c k1 k2 -> periodic_fvm c k1 ->
  (forall u v, (forall x s g1 g2, inb (N_p c) x -> inb (N_species c) s -> inb (gN1 (lay c)) g1 ->
      inb (gN2 (lay c)) g2 -> u x s g1 g2 = v x s g1 g2) -> Q u -> Q v) ->
  forall l,
  (forall k u E0 Eh, In k l -> Q u -> Q (midpoint (prob c k1 k2 (ct k) E0) (prob c k1 k2 (ct k) Eh) (cdt k) u)) ->
  forall s, shaped (lay c) (N_p c) (N_species c) (sf s) -> Q (gval (lay c) (sf s)) ->
  exists s', run_fvm c l s = Ok s' /\ shaped (lay c) (N_p c) (N_species c) (sf s')
    /\ Q (gval (lay c) (sf s')).
Proof.
  intros W PF EX l. induction l as [|k l IH]; intros ST s SH Qs.
  - exists s. auto.
  - cbn [run_fvm]. assert (PL := PF). destruct PL as (_&_&((_&F1&_)&(_&F2&_)&_)&_).
    destruct (timestep_fvm_spec c k1 k2 (ct k) (cdt k) (cE0 k) (cEh k)
       (gfields_of (lay c) (cE0 k)) (gfields_of (lay c) (cEh k)) s W PF SH) as (s1&Q1&S1&V1);
      try (apply shows3_of; auto).
    rewrite Q1. cbn [rbind]. apply IH; auto.
    + intros; apply ST; simpl; auto.
    + eapply EX; [|apply (ST k); [simpl; auto|exact Qs]]. intros; symmetry; apply V1; auto.
Qed.

(** ** Conservation on the global grid *)
Definition total (n1 n2 : Z) (u : Z -> Z -> R) : R := zsum n1 (fun g1 => zsum n2 (fun g2 => u g1 g2)).

Lemma total_plus n1 n2 u v : total n1 n2 (fun a b => u a b + v a b) = total n1 n2 u + total n1 n2 v.
Proof.
  unfold total. rewrite <- zsum_plus. apply zsum_ext; intros. apply zsum_plus.
Qed.
Lemma total_scal n1 n2 k u : total n1 n2 (fun a b => k * u a b) = k * total n1 n2 u.
Proof. unfold total. rewrite <- zsum_scal. apply zsum_ext; intros. apply zsum_scal. Qed.
Lemma total_ext n1 n2 u v : (forall a b, (0 <= a < n1)%Z -> (0 <= b < n2)%Z -> u a b = v a b) ->
  total n1 n2 u = total n1 n2 v.
Proof. intros H. unfold total. apply zsum_ext; intros; apply zsum_ext; intros; apply H; auto. Qed.
Lemma total_zero n1 n2 : total n1 n2 (fun _ _ => 0) = 0.
Proof. unfold total. rewrite (zsum_ext n1 _ (fun _ => 0)); [apply zsum_zero|]. intros; apply zsum_zero. Qed.

Lemma advect_q_total P u x s : (0 < n1 P)%Z -> (0 < n2 P)%Z ->
  (forall g2, vel1 P x s (n1 P) g2 = vel1 P x s 0%Z g2) ->
  (forall g1, vel2 P x s g1 (n2 P) = vel2 P x s g1 0%Z) ->
  total (n1 P) (n2 P) (advect_q P u x s) = 0.
Proof.
  intros N1 N2 V1 V2. unfold advect_q.
  rewrite (total_plus (n1 P) (n2 P)
   (fun g1 g2 => advect (kq P) (h1 P) (fun i => vel1 P x s i g2) (periodic (n1 P) (fun i => u x s i g2)) g1)).
  unfold total. rewrite zsum_swap.
  rewrite (zsum_ext (n2 P) _ (fun _ => 0)).
  2:{ intros g2 _. apply (advect_sum_periodic (kq P) (n1 P) (h1 P) (fun i => vel1 P x s i g2)); auto. }
  rewrite (zsum_ext (n1 P) _ (fun _ => 0)).
  2:{ intros g1 _. apply (advect_sum_periodic (kq P) (n2 P) (h2 P) (fun j => vel2 P x s g1 j)); auto. }
  rewrite !zsum_zero. lra.
Qed.

Lemma zsum3 n1 n2 n3 f : (0 <= n1)%Z -> (0 <= n2)%Z -> (0 <= n3)%Z ->
  zsum (n1 * n2 * n3) f
  = zsum n3 (fun i3 => zsum n2 (fun i2 => zsum n1 (fun i1 => f (i1 + n1 * (i2 + n2 * i3))%Z))).
Proof.
  intros H1 H2 H3. replace (n1 * n2 * n3)%Z with (n1 * (n2 * n3))%Z by lia.
  rewrite zsum_mul by nia.
  rewrite (zsum_mul n2 n3 (fun j => zsum n1 (fun i => f (i + n1 * j)%Z))) by lia. reflexivity.
Qed.

(** Forces move particles between momenta only. *)
Lemma advect_p_total P g1 g2 w s : (0 < M1 P)%Z -> (0 < M2 P)%Z -> (0 < M3 P)%Z ->
  zsum (M1 P * M2 P * M3 P) (fun x => advect_p P g1 g2 w x s) = 0.
Proof.
  intros H1 H2 H3. rewrite zsum3 by lia.
  set (A i2 i3 := advect (kp P) (hp1 P s)
    (periodic (M1 P) (fun i => acc1 P (pidx P i i2 i3) s g1 g2))
    (periodic (M1 P) (fun i => w (pidx P i i2 i3) s))).
  set (B i1 i3 := advect (kp P) (hp2 P s)
    (periodic (M2 P) (fun i => acc2 P (pidx P i1 i i3) s g1 g2))
    (periodic (M2 P) (fun i => w (pidx P i1 i i3) s))).
  set (C i1 i2 := advect (kp P) (hp3 P s)
    (periodic (M3 P) (fun i => acc3 P (pidx P i1 i2 i) s g1 g2))
    (periodic (M3 P) (fun i => w (pidx P i1 i2 i) s))).
  assert (PA : forall m v n, (0 < m)%Z -> periodic m v m = periodic m v (0 + n * m)%Z).
  { intros. unfold periodic. rewrite Z_mod_same_full, Z_mod_plus_full. rewrite Z.mod_0_l by lia. reflexivity. }
  assert (P0 : forall m v, (0 < m)%Z -> periodic m v m = periodic m v 0%Z).
  { intros. apply (PA m v 0%Z); auto. }
  assert (SA : forall i2 i3, zsum (M1 P) (A i2 i3) = 0) by (intros; apply advect_sum_periodic; auto).
  assert (SB : forall i1 i3, zsum (M2 P) (B i1 i3) = 0) by (intros; apply advect_sum_periodic; auto).
  assert (SC : forall i1 i2, zsum (M3 P) (C i1 i2) = 0) by (intros; apply advect_sum_periodic; auto).
  rewrite (zsum_ext (M3 P) _ (fun i3 => zsum (M2 P) (fun i2 => zsum (M1 P) (fun i1 => A i2 i3 i1 + B i1 i3 i2 + C i1 i2 i3)))).
  2:{ intros i3 R3. apply zsum_ext; intros i2 R2. apply zsum_ext; intros i1 R1.
      unfold advect_p. destruct (pidx_split (M1 P) (M2 P) i1 i2 i3) as (E1&E2&E3); auto.
      rewrite E1, E2, E3. reflexivity. }
  rewrite (zsum_ext (M3 P) _ (fun i3 => zsum (M2 P) (fun i2 => zsum (M1 P) (fun i1 => C i1 i2 i3)))).
  2:{ intros i3 _.
      rewrite (zsum_ext (M2 P) _ (fun i2 => (zsum (M1 P) (A i2 i3) + zsum (M1 P) (fun i1 => B i1 i3 i2))
                                        + zsum (M1 P) (fun i1 => C i1 i2 i3))).
      2:{ intros. rewrite !zsum_plus. reflexivity. }
      rewrite !zsum_plus. rewrite (zsum_ext (M2 P) (fun i => zsum (M1 P) (A i i3)) (fun _ => 0)) by auto.
      rewrite (zsum_swap (M2 P) (M1 P) (fun i2 i1 => B i1 i3 i2)).
      rewrite (zsum_ext (M1 P) (fun i1 => zsum (M2 P) (fun i2 => B i1 i3 i2)) (fun _ => 0)) by (intros; apply SB).
      rewrite !zsum_zero. lra. }
  rewrite zsum_swap. rewrite (zsum_ext (M2 P) _ (fun _ => 0)); [apply zsum_zero|].
  intros i2 _. rewrite (zsum_swap (M3 P) (M1 P) (fun i3 i1 => C i1 i2 i3)).
  rewrite (zsum_ext (M1 P) _ (fun _ => 0)); [apply zsum_zero|]. intros i1 _. apply SC.
Qed.

Lemma vel_per c k1 k2 t E : velocity_periodic c ->
  (forall x s g2, vel1 (prob c k1 k2 t E) x s (gN1 (lay c)) g2 = vel1 (prob c k1 k2 t E) x s 0%Z g2)
  /\ (forall x s g1, vel2 (prob c k1 k2 t E) x s g1 (gN2 (lay c)) = vel2 (prob c k1 k2 t E) x s g1 0%Z).
Proof.
  intros H. unfold prob, problem_of, problem_at; cbn [vel1 vel2].
  split; intros.
  - replace (pos1 c 0 (gN1 (lay c))) with (pos1 c 0 0 + IZR (gN1 (lay c)) * dq1 c) by (unfold pos1; lra).
    apply H.
  - replace (pos2 c 0 (gN2 (lay c))) with (pos2 c 0 0 + IZR (gN2 (lay c)) * dq2 c) by (unfold pos2; lra).
    apply H.
Qed.

Lemma advect_p_off c k1 k2 t E : p_is_fvm c = false ->
  forall g1 g2 w x s, advect_p (prob c k1 k2 t E) g1 g2 w x s = 0.
Proof.
  intros HF. intros. unfold advect_p, prob, problem_of, problem_at; cbn [acc1 acc2 acc3 M1 M2 M3 kp hp1 hp2 hp3].
  rewrite HF. unfold advect, flux, periodic. unfold Rdiv. ring.
Qed.

Lemma src_off c k1 k2 t E : source_enabled c = false ->
  forall g1 g2 w x s, src (prob c k1 k2 t E) g1 g2 w x s = 0.
Proof. intros H; intros. unfold prob, problem_of, problem_at; cbn [src]. rewrite H. reflexivity. Qed.

Section Run.
Variables (c : cfg) (k1 k2 : scheme).
Hypothesis W : wf_cfg c k1 k2.
Hypothesis PF : periodic_fvm c k1.
Let L := lay c.

Lemma grid_pos : (0 < gN1 L)%Z /\ (0 < gN2 L)%Z.
Proof using PF. destruct PF as (_&_&((N1&_)&(N2&_)&_)&_). auto. Qed.

Lemma conserve_each l s : velocity_periodic c -> source_enabled c = false -> p_is_fvm c = false ->
  shaped L (N_p c) (N_species c) (sf s) ->
  exists s', run_fvm c l s = Ok s' /\ shaped L (N_p c) (N_species c) (sf s')
  /\ forall x sp, inb (N_p c) x -> inb (N_species c) sp ->
     gtotal L (sf s') x sp = gtotal L (sf s) x sp.
Proof using W PF.
  intros VP SO PO SH. destruct grid_pos as [N1 N2].
  destruct (run_invariant c k1 k2 (fun u => forall x sp, inb (N_p c) x -> inb (N_species c) sp ->
     total (gN1 L) (gN2 L) (u x sp) = gtotal L (sf s) x sp) W PF) with (l := l) (s := s)
     as (s'&R&S'&Q); auto.
  - intros u v H Q x sp Hx Hs. rewrite <- Q by auto. apply total_ext. intros; symmetry; apply H; auto.
  - intros k u E0 Eh _ Q x sp Hx Hs. rewrite <- Q by auto. unfold midpoint.
    rewrite (total_plus (gN1 L) (gN2 L) (u x sp)), total_scal.
    set (uh := fun x s g1 g2 => u x s g1 g2 + cdt k / 2 * rhs (prob c k1 k2 (ct k) E0) u x s g1 g2).
    rewrite (total_ext _ _ (rhs (prob c k1 k2 (ct k) Eh) uh x sp) (advect_q (prob c k1 k2 (ct k) Eh) uh x sp)).
    2:{ intros. unfold rhs. rewrite src_off, advect_p_off by auto. lra. }
    destruct (vel_per c k1 k2 (ct k) Eh VP).
    rewrite (advect_q_total (prob c k1 k2 (ct k) Eh)) by auto. lra.
  - exists s'. split; auto.
Qed.

Lemma rhs_total_p t E u sp : velocity_periodic c -> source_conserves c ->
  zsum (N_p c) (fun x => total (gN1 L) (gN2 L) (rhs (prob c k1 k2 t E) u x sp)) = 0.
Proof using W PF.
  intros VP SC. destruct grid_pos as [N1 N2]. pose proof (wf_pos _ _ _ W) as (P1&P2&P3&PS).
  unfold rhs.
  rewrite (zsum_ext (N_p c) _ (fun x =>
     total (gN1 L) (gN2 L) (fun g1 g2 => src (prob c k1 k2 t E) g1 g2 (fun x' s' => u x' s' g1 g2) x sp
       + advect_p (prob c k1 k2 t E) g1 g2 (fun x' s' => u x' s' g1 g2) x sp))).
  2:{ intros x Hx. destruct (vel_per c k1 k2 t E VP) as [V1 V2].
      pose proof (advect_q_total (prob c k1 k2 t E) u x sp N1 N2 (V1 x sp) (V2 x sp)) as Z.
      cbn [n1 n2 prob problem_of problem_at] in Z. fold L in Z.
      etransitivity; [|apply Rplus_0_l]. rewrite <- Z. rewrite <- total_plus.
      apply total_ext. intros. lra. }
  unfold total.
  rewrite zsum_swap. rewrite (zsum_ext (gN1 L) _ (fun _ => 0)); [apply zsum_zero|]. intros g1 _.
  rewrite (zsum_swap (N_p c) (gN2 L) (fun x g2 => src (prob c k1 k2 t E) g1 g2 (fun x' s' => u x' s' g1 g2) x sp
       + advect_p (prob c k1 k2 t E) g1 g2 (fun x' s' => u x' s' g1 g2) x sp)).
  rewrite (zsum_ext (gN2 L) _ (fun _ => 0)); [apply zsum_zero|]. intros g2 _.
  rewrite zsum_plus.
  pose proof (advect_p_total (prob c k1 k2 t E) g1 g2 (fun x' s' => u x' s' g1 g2) sp P1 P2 P3) as AP.
  cbn [M1 M2 M3 prob problem_of problem_at] in AP. unfold N_p at 2. rewrite AP.
  rewrite Rplus_0_r. unfold prob, problem_of, problem_at; cbn [src].
  destruct SC as [SO|SC]; [rewrite SO; apply zsum_zero|]. destruct (source_enabled c); [apply SC|apply zsum_zero].
Qed.

Lemma conserve_species l s : velocity_periodic c -> source_conserves c ->
  shaped L (N_p c) (N_species c) (sf s) ->
  exists s', run_fvm c l s = Ok s' /\ shaped L (N_p c) (N_species c) (sf s')
  /\ forall sp, inb (N_species c) sp ->
     zsum (N_p c) (fun x => gtotal L (sf s') x sp) = zsum (N_p c) (fun x => gtotal L (sf s) x sp).
Proof using W PF.
  intros VP SC SH. destruct grid_pos as [N1 N2].
  destruct (run_invariant c k1 k2 (fun u => forall sp, inb (N_species c) sp ->
     zsum (N_p c) (fun x => total (gN1 L) (gN2 L) (u x sp)) = zsum (N_p c) (fun x => gtotal L (sf s) x sp)) W PF)
     with (l := l) (s := s) as (s'&R&S'&Q); auto.
  - intros u v H Q sp Hs. rewrite <- Q by auto. apply zsum_ext. intros.
    apply total_ext. intros; symmetry; apply H; auto.
  - intros k u E0 Eh _ Q sp Hs. rewrite <- Q by auto. unfold midpoint.
    set (uh := fun x s g1 g2 => u x s g1 g2 + cdt k / 2 * rhs (prob c k1 k2 (ct k) E0) u x s g1 g2).
    rewrite (zsum_ext (N_p c) _ (fun x => total (gN1 L) (gN2 L) (u x sp)
        + cdt k * total (gN1 L) (gN2 L) (rhs (prob c k1 k2 (ct k) Eh) uh x sp))).
    2:{ intros. rewrite (total_plus (gN1 L) (gN2 L) (u i sp)), total_scal. reflexivity. }
    rewrite zsum_plus, zsum_scal, rhs_total_p by auto. lra.
  - exists s'. split; auto.
Qed.

(** ** Uniform states *)
Lemma cell_faces_const k u i a : (forall z, u z = a) -> cell_faces k u i = (a, a).
Proof using.
  intros H. rewrite (cell_faces_ext k u (fun _ => a)) by auto.
  assert (Z : mc_slope a a a = 0) by (apply mc_slope_extremum; lra).
  destruct k; simpl; auto.
  - rewrite Z. f_equal; lra.
  - unfold cw_ppm, cw_face, cw_limit. rewrite Z. 
    repeat destruct (Rle_dec _ _); repeat destruct (Rlt_dec _ _); f_equal; lra.
Qed.

Lemma advect_const k h v u i a : (forall z, u z = a) -> v (i + 1)%Z = v i -> advect k h v u i = 0.
Proof using.
  intros H Hv. unfold advect, flux, upwind. rewrite !(cell_faces_const k u _ a) by auto.
  simpl. rewrite Hv. repeat destruct (Rlt_dec _ _); unfold Rdiv; ring.
Qed.

Lemma vel_uni t E : velocity_uniform c ->
  (forall x s g1 g2 g1' g2', vel1 (prob c k1 k2 t E) x s g1 g2 = vel1 (prob c k1 k2 t E) x s g1' g2')
  /\ (forall x s g1 g2 g1' g2', vel2 (prob c k1 k2 t E) x s g1 g2 = vel2 (prob c k1 k2 t E) x s g1' g2').
Proof using. intros H. unfold prob, problem_of, problem_at; cbn [vel1 vel2]. split; intros; f_equal; apply H. Qed.

Lemma uniform_kept l s (a : Z -> Z -> R) : velocity_uniform c -> source_enabled c = false -> p_is_fvm c = false ->
  holds c (sf s) (fun x sp _ _ => a x sp) ->
  exists s', run_fvm c l s = Ok s' /\ holds c (sf s') (fun x sp _ _ => a x sp).
Proof using W PF.
  intros VU SO PO [SH U]. destruct grid_pos as [N1 N2].
  destruct (run_invariant c k1 k2 (fun u => forall x sp g1 g2, inb (N_p c) x -> inb (N_species c) sp ->
     inb (gN1 L) g1 -> inb (gN2 L) g2 -> u x sp g1 g2 = a x sp) W PF) with (l := l) (s := s)
     as (s'&R&S'&Q); auto.
  - intros u v H Q x sp g1 g2 Hx Hs H1 H2. rewrite <- Q with (g1 := g1) (g2 := g2) by auto. symmetry; apply H; auto.
  - intros k u E0 Eh _ Q x sp g1 g2 Hx Hs H1 H2. unfold midpoint.
    assert (Z : forall E v, (forall g1 g2, inb (gN1 L) g1 -> inb (gN2 L) g2 -> v x sp g1 g2 = a x sp) ->
       forall g1 g2, inb (gN1 L) g1 -> inb (gN2 L) g2 -> rhs (prob c k1 k2 (ct k) E) v x sp g1 g2 = 0).
    { intros E v Hv a1 a2 A1 A2. unfold rhs. rewrite src_off, advect_p_off by auto. unfold advect_q.
      destruct (vel_uni (ct k) E VU) as [V1 V2].
      rewrite (advect_const _ _ _ _ _ (a x sp)), (advect_const _ _ _ _ _ (a x sp)); [lra| | | |].
      - intros z. unfold periodic. apply Hv; auto. apply Z.mod_pos_bound; auto.
      - apply V2.
      - intros z. unfold periodic. apply Hv; auto. apply Z.mod_pos_bound; auto.
      - apply V1. }
    rewrite Z; auto.
    + rewrite Q by auto. lra.
    + intros b1 b2 B1 B2. rewrite Z; auto. rewrite Q by auto. lra.
  - exists s'. split; auto. split; auto.
Qed.
End Run.

(** ** Decomposition independence *)
Lemma refinement c k1 k2 t dt A0 Ah E0 Eh s u :
  wf_cfg c k1 k2 -> periodic_fvm c k1 -> shows3 (lay c) A0 E0 -> shows3 (lay c) Ah Eh ->
  holds c (sf s) u ->
  exists s', timestep_fvm c t dt A0 Ah s = Ok s'
  /\ holds c (sf s') (midpoint (prob c k1 k2 t E0) (prob c k1 k2 t Eh) dt u).
Proof.
  intros W PF S0 Sh [SH U].
  destruct (timestep_fvm_spec c k1 k2 t dt A0 Ah E0 Eh s W PF SH S0 Sh) as (s'&R&S'&V).
  exists s'. split; auto. split; auto. intros x sp g1 g2 Hx Hs H1 H2. rewrite V by auto.
  destruct (grid_pos c k1 PF) as [N1 N2].
  unfold midpoint. rewrite U by auto. f_equal. f_equal.
  apply rhs_ext; auto.
  intros x' s1 b1 b2 X' S1 B1 B2. rewrite U by auto. f_equal. f_equal. apply rhs_ext; auto.
Qed.

Lemma midpoint_ext c k1 k2 t dt E0 Eh u v : wf_cfg c k1 k2 -> (0 < gN1 (lay c))%Z -> (0 < gN2 (lay c))%Z ->
  gagree (prob c k1 k2 t E0) (N_species c) u v ->
  gagree (prob c k1 k2 t E0) (N_species c)
    (midpoint (prob c k1 k2 t E0) (prob c k1 k2 t Eh) dt u)
    (midpoint (prob c k1 k2 t E0) (prob c k1 k2 t Eh) dt v).
Proof.
  intros W N1 N2 H x sp g1 g2 Hx Hs H1 H2. unfold midpoint.
  f_equal; [apply H; auto|]. f_equal. apply rhs_ext; auto.
  intros x' s1 b1 b2 X' S1 B1 B2. f_equal; [apply H; auto|]. f_equal. apply rhs_ext; auto.
Qed.

Lemma serial_parallel c L' k1 k2 t dt A0 Ah A0' Ah' E0 Eh s s' u :
  wf_cfg c k1 k2 -> periodic_fvm c k1 -> periodic_fvm (with_layout c L') k1 ->
  gN1 L' = gN1 (lay c) -> gN2 L' = gN2 (lay c) ->
  shows3 (lay c) A0 E0 -> shows3 (lay c) Ah Eh -> shows3 L' A0' E0 -> shows3 L' Ah' Eh ->
  holds c (sf s) u -> holds (with_layout c L') (sf s') u ->
  exists r r' v, timestep_fvm c t dt A0 Ah s = Ok r
    /\ timestep_fvm (with_layout c L') t dt A0' Ah' s' = Ok r'
    /\ holds c (sf r) v /\ holds (with_layout c L') (sf r') v.
Proof.
  intros W PF PF' G1 G2 S0 Sh S0' Sh' H H'.
  destruct (refinement c k1 k2 t dt A0 Ah E0 Eh s u W PF S0 Sh H) as (r&R&V).
  destruct (refinement (with_layout c L') k1 k2 t dt A0' Ah' E0 Eh s' u) as (r'&R'&V'); auto.
  exists r, r', (midpoint (prob c k1 k2 t E0) (prob c k1 k2 t Eh) dt u).
  split; auto. split; auto. split; auto.
  assert (EP : forall E, prob (with_layout c L') k1 k2 t E = prob c k1 k2 t E).
  { intros. unfold prob, problem_of, problem_at, with_layout; cbn [lay]. rewrite G1, G2. reflexivity. }
  rewrite !EP in V'. exact V'.
Qed.

Lemma ghosts_irrelevant c k1 k2 t dt A0 Ah s s2 :
  wf_cfg c k1 k2 -> periodic_fvm c k1 ->
  shaped (lay c) (N_p c) (N_species c) (sf s) -> shaped (lay c) (N_p c) (N_species c) (sf s2) ->
  (forall r1 r2 x sp i j, rank_ok (lay c) r1 r2 -> inb (N_p c) x -> inb (N_species c) sp ->
     inb (bsize (blk1 (lay c)) r1) i -> inb (bsize (blk2 (lay c)) r2) j ->
     el (sf s r1 r2) x sp (ng1 (lay c) + i)%Z (ng2 (lay c) + j)%Z
     = el (sf s2 r1 r2) x sp (ng1 (lay c) + i)%Z (ng2 (lay c) + j)%Z) ->
  exists r r', timestep_fvm c t dt A0 Ah s = Ok r /\ timestep_fvm c t dt A0 Ah s2 = Ok r'
  /\ forall r1 r2 x sp i j, rank_ok (lay c) r1 r2 -> inb (N_p c) x -> inb (N_species c) sp ->
     inb (bsize (blk1 (lay c)) r1) i -> inb (bsize (blk2 (lay c)) r2) j ->
     el (sf r r1 r2) x sp (ng1 (lay c) + i)%Z (ng2 (lay c) + j)%Z
     = el (sf r' r1 r2) x sp (ng1 (lay c) + i)%Z (ng2 (lay c) + j)%Z.
Proof.
  intros W PF SH SH2 AG. assert (PL := PF). destruct PL as (_&_&((N1&F1&Z1)&(N2&F2&Z2)&_)&_).
  pose proof (shows3_of (lay c) A0 F1 F2) as S0. pose proof (shows3_of (lay c) Ah F1 F2) as Sh.
  destruct (refinement c k1 k2 t dt A0 Ah _ _ s (gval (lay c) (sf s)) W PF S0 Sh) as (r&R&V);
    [split; auto|].
  destruct (refinement c k1 k2 t dt A0 Ah _ _ s2 (gval (lay c) (sf s)) W PF S0 Sh) as (r'&R'&V').
  { split; auto. intros x sp g1 g2 Hx Hs H1 H2. unfold gval.
    destruct (owner_spec (blk1 (lay c)) g1) as [O1 B1]; [apply F1|rewrite Z1; exact H1|].
    destruct (owner_spec (blk2 (lay c)) g2) as [O2 B2]; [apply F2|rewrite Z2; exact H2|].
    symmetry. apply AG; auto; [split; auto| |]; unfold inb; lia. }
  exists r, r'. split; auto. split; auto.
  intros r1 r2 x sp i j RK Hx Hs Hi Hj.
  rewrite <- !gval_interior by auto. destruct V as [_ V]. destruct V' as [_ V'].
  pose proof (off_nonneg (blk1 (lay c)) r1 F1). pose proof (off_nonneg (blk2 (lay c)) r2 F2).
  destruct RK as [R1 R2]. pose proof (off_end (blk1 (lay c)) r1 F1 R1). pose proof (off_end (blk2 (lay c)) r2 F2 R2).
  unfold inb in *. rewrite V, V' by (unfold inb; auto; lia). reflexivity.
Qed.

(** ** Positivity of the first-order scheme *)
Lemma upwind_first h v u i V : v i = V -> v (i + 1)%Z = V -> h <> 0 ->
  advect FirstOrder h v u i
  = - (Rabs V / h) * (u i - (if Rlt_dec 0 V then u (i - 1)%Z else u (i + 1)%Z)).
Proof.
  intros H1 H2 Hh. unfold advect, flux, upwind. rewrite H1, H2. simpl.
  replace (i + 1 - 1)%Z with i by lia.
  destruct (Rlt_dec 0 V).
  - rewrite Rabs_pos_eq by lra. field; auto.
  - rewrite Rabs_left1 by lra. field; auto.
Qed.

Lemma convex_step a b m M u un1 un2 u11 u12 u21 u22 :
  0 <= a -> 0 <= b -> a + b <= 1 ->
  m <= u <= M -> m <= un1 <= M -> m <= un2 <= M ->
  m <= u11 <= M -> m <= u12 <= M -> m <= u21 <= M -> m <= u22 <= M ->
  let w x y z := x + (1/2) * (- a * (x - y) - b * (x - z)) in
  m <= u + (- a * (w u un1 un2 - w un1 u11 u12) - b * (w u un1 un2 - w un2 u21 u22)) <= M.
Proof.
  intros Ha Hb Hc Hu H1 H2 H11 H12 H21 H22 w. unfold w.
  set (c := a + b) in *.
  assert (C0 : 0 <= 1 - c + c * c / 2) by nra.
  assert (E : u + (- a * (u + 1 / 2 * (- a * (u - un1) - b * (u - un2)) - (un1 + 1 / 2 * (- a * (un1 - u11) - b * (un1 - u12))))
       - b * (u + 1 / 2 * (- a * (u - un1) - b * (u - un2)) - (un2 + 1 / 2 * (- a * (un2 - u21) - b * (un2 - u22)))))
    = (1 - c + c * c / 2) * u + ((1 - c) * a) * un1 + ((1 - c) * b) * un2
      + (a * a / 2) * u11 + (a * b / 2) * u12 + (b * a / 2) * u21 + (b * b / 2) * u22).
  { unfold c. field. }
  rewrite E.
  assert (S : (1 - c + c * c / 2) + (1 - c) * a + (1 - c) * b + a * a / 2 + a * b / 2 + b * a / 2 + b * b / 2 = 1)
    by (unfold c; field).
  assert (K1 : 0 <= (1 - c) * a) by nra. assert (K2 : 0 <= (1 - c) * b) by nra.
  assert (K3 : 0 <= a * a / 2) by nra. assert (K4 : 0 <= a * b / 2) by nra.
  assert (K5 : 0 <= b * a / 2) by nra. assert (K6 : 0 <= b * b / 2) by nra.
  set (e0 := 1 - c + c * c / 2) in *. set (e1 := (1 - c) * a) in *. set (e2 := (1 - c) * b) in *.
  set (e3 := a * a / 2) in *. set (e4 := a * b / 2) in *. set (e5 := b * a / 2) in *. set (e6 := b * b / 2) in *.
  clearbody e0 e1 e2 e3 e4 e5 e6. clear E w Hc.
  assert (X : forall e y, 0 <= e -> m <= y <= M -> e * m <= e * y <= e * M).
  { intros e y He Hy. split; apply Rmult_le_compat_l; lra. }
  pose proof (X e0 u C0 Hu). pose proof (X e1 un1 K1 H1). pose proof (X e2 un2 K2 H2).
  pose proof (X e3 u11 K3 H11). pose proof (X e4 u12 K4 H12). pose proof (X e5 u21 K5 H21). pose proof (X e6 u22 K6 H22).
  assert (Sm : e0 * m + e1 * m + e2 * m + e3 * m + e4 * m + e5 * m + e6 * m = m)
    by (rewrite <- (Rmult_1_l m) at 8; rewrite <- S; ring).
  assert (SM : e0 * M + e1 * M + e2 * M + e3 * M + e4 * M + e5 * M + e6 * M = M)
    by (rewrite <- (Rmult_1_l M) at 8; rewrite <- S; ring).
  lra.
Qed.

Lemma max_principle c k2 l s (m M : Z -> Z -> R) :
  wf_cfg c FirstOrder k2 -> periodic_fvm c FirstOrder -> velocity_uniform c ->
  0 < dq1 c -> 0 < dq2 c ->
  source_enabled c = false -> p_is_fvm c = false ->
  (forall k, In k l -> cfl c (ct k) (cdt k)) ->
  shaped (lay c) (N_p c) (N_species c) (sf s) ->
  (forall x sp g1 g2, inb (N_p c) x -> inb (N_species c) sp -> inb (gN1 (lay c)) g1 -> inb (gN2 (lay c)) g2 ->
     m x sp <= gval (lay c) (sf s) x sp g1 g2 <= M x sp) ->
  exists s', run_fvm c l s = Ok s' /\ shaped (lay c) (N_p c) (N_species c) (sf s') /\
  (forall x sp g1 g2, inb (N_p c) x -> inb (N_species c) sp -> inb (gN1 (lay c)) g1 -> inb (gN2 (lay c)) g2 ->
     m x sp <= gval (lay c) (sf s') x sp g1 g2 <= M x sp).
Proof.
  intros W PF VU D1 D2 SO PO CFL SH B. destruct (grid_pos c _ PF) as [N1 N2].
  destruct (run_invariant c FirstOrder k2 (fun u => forall x sp g1 g2, inb (N_p c) x -> inb (N_species c) sp ->
     inb (gN1 (lay c)) g1 -> inb (gN2 (lay c)) g2 -> m x sp <= u x sp g1 g2 <= M x sp) W PF) with (l := l) (s := s)
     as (s'&R&S'&Q); auto.
  - intros u v H Q x sp g1 g2 Hx Hs H1 H2. rewrite <- H by auto. apply Q; auto.
  - intros k u E0 Eh Ik Q x sp g1 g2 Hx Hs H1 H2.
    destruct (CFL k Ik) as [Dt CF]. specialize (CF x sp (pos1 c 0 0) (pos2 c 0 0) Hx Hs).
    set (V1 := fst (velocity c (ct k) x sp (pos1 c 0 0) (pos2 c 0 0))) in *.
    set (V2 := snd (velocity c (ct k) x sp (pos1 c 0 0) (pos2 c 0 0))) in *.
    set (dt := cdt k) in *.
    set (e1 := if Rlt_dec 0 V1 then (-1)%Z else 1%Z). set (e2 := if Rlt_dec 0 V2 then (-1)%Z else 1%Z).
    assert (RH : forall E v a1 a2, rhs (prob c FirstOrder k2 (ct k) E) v x sp a1 a2
       = - (Rabs V1 / dq1 c) * (periodic (gN1 (lay c)) (fun i => v x sp i a2) a1
                               - periodic (gN1 (lay c)) (fun i => v x sp i a2) (a1 + e1)%Z)
         + - (Rabs V2 / dq2 c) * (periodic (gN2 (lay c)) (fun j => v x sp a1 j) a2
                               - periodic (gN2 (lay c)) (fun j => v x sp a1 j) (a2 + e2)%Z)).
    { intros E v a1 a2. unfold rhs. rewrite src_off, advect_p_off by auto. unfold advect_q.
      change (kq (prob c FirstOrder k2 (ct k) E)) with FirstOrder.
      assert (V1' : forall g1 g2, vel1 (prob c FirstOrder k2 (ct k) E) x sp g1 g2 = V1).
      { intros. unfold V1, velocity, prob, problem_of, problem_at; cbn [vel1]. f_equal. apply VU. }
      assert (V2' : forall g1 g2, vel2 (prob c FirstOrder k2 (ct k) E) x sp g1 g2 = V2).
      { intros. unfold V2, velocity, prob, problem_of, problem_at; cbn [vel2]. f_equal. apply VU. }
      rewrite (upwind_first _ (fun i => vel1 _ x sp i a2) _ a1 V1) by (auto; cbn [h1 prob problem_of problem_at]; lra).
      rewrite (upwind_first _ (fun j => vel2 _ x sp a1 j) _ a2 V2) by (auto; cbn [h2 prob problem_of problem_at]; lra).
      cbn [h1 h2 n1 n2 prob problem_of problem_at].
      unfold e1, e2. destruct (Rlt_dec 0 V1); destruct (Rlt_dec 0 V2); unfold Z.sub; change (- (1))%Z with (-1)%Z; ring. }
    unfold midpoint. rewrite RH.
    set (P1 z := (z mod gN1 (lay c))%Z). set (P2 z := (z mod gN2 (lay c))%Z).
    assert (I1 : forall z, inb (gN1 (lay c)) (P1 z)) by (intros; apply Z.mod_pos_bound; auto).
    assert (I2 : forall z, inb (gN2 (lay c)) (P2 z)) by (intros; apply Z.mod_pos_bound; auto).
    assert (S1 : P1 g1 = g1) by (apply Z.mod_small; exact H1).
    assert (S2 : P2 g2 = g2) by (apply Z.mod_small; exact H2).
    unfold periodic. fold (P1 g1) (P1 (g1 + e1)%Z) (P2 g2) (P2 (g2 + e2)%Z). rewrite S1, S2.
    rewrite !RH. unfold periodic.
    fold (P1 g1) (P1 (g1 + e1)%Z) (P2 g2) (P2 (g2 + e2)%Z) (P1 (P1 (g1 + e1))%Z) (P2 (P2 (g2 + e2))%Z)
      (P1 (P1 (g1 + e1) + e1)%Z) (P2 (P2 (g2 + e2) + e2)%Z).
    rewrite S1, S2.
    assert (T1 : P1 (P1 (g1 + e1)%Z) = P1 (g1 + e1)%Z) by (unfold P1; apply Z.mod_mod; lia).
    assert (T2 : P2 (P2 (g2 + e2)%Z) = P2 (g2 + e2)%Z) by (unfold P2; apply Z.mod_mod; lia).
    rewrite T1, T2.
    pose proof (convex_step (Rabs V1 * dt / dq1 c) (Rabs V2 * dt / dq2 c) (m x sp) (M x sp)
      (u x sp g1 g2) (u x sp (P1 (g1 + e1)%Z) g2) (u x sp g1 (P2 (g2 + e2)%Z))
      (u x sp (P1 (P1 (g1 + e1) + e1)%Z) g2) (u x sp (P1 (g1 + e1)%Z) (P2 (g2 + e2)%Z))
      (u x sp (P1 (g1 + e1)%Z) (P2 (g2 + e2)%Z)) (u x sp g1 (P2 (P2 (g2 + e2) + e2)%Z))) as CS.
    assert (0 <= Rabs V1 * dt / dq1 c).
    { unfold Rdiv. apply Rmult_le_pos; [apply Rmult_le_pos; [apply Rabs_pos|auto]|].
      left. apply Rinv_0_lt_compat; auto. }
    assert (0 <= Rabs V2 * dt / dq2 c).
    { unfold Rdiv. apply Rmult_le_pos; [apply Rmult_le_pos; [apply Rabs_pos|auto]|].
      left. apply Rinv_0_lt_compat; auto. }
    cbv zeta in CS.
    match type of CS with _ -> _ -> _ -> _ -> _ -> _ -> _ -> _ -> _ -> _ -> _ <= ?A <= _ =>
      match goal with |- _ <= ?B <= _ => replace B with A end end.
    + apply CS; auto; apply Q; auto.
    + unfold Rdiv. ring.
  - exists s'. auto.
Qed.
