(** Runs from related states stay related. *)
From Coq Require Import ZArith Reals Lra Lia Psatz String List Bool.
From Verif Require Import Base.Prelude Base.ZSum Model.Af Model.Grid Model.Petsc Model.Config
  Model.Fvm Spec.Limiters Spec.Lattice Spec.Domain Spec.Mirror Spec.FvmProblem Spec.Walls Spec.FvmRun Spec.Symmetry
  Proofs.AfLemmas Proofs.PetscLemmas Proofs.FluxLemmas Proofs.ConvLemmas Proofs.FvmLemmas Proofs.FvmLemmas2
  Proofs.FvmConserve Proofs.FvmMore Proofs.SchemeSym.
Import ListNotations.
Local Open Scope R_scope.

Definition same (c : cfg) (u v : gstate) : Prop :=
  forall x s g1 g2, inb (N_p c) x -> inb (N_species c) s -> inb (gN1 (lay c)) g1 -> inb (gN2 (lay c)) g2 ->
  u x s g1 g2 = v x s g1 g2.

Definition witness (L : layout) (k : call) : call * fields3 * fields3 :=
  (k, gfields_of L (cE0 k), gfields_of L (cEh k)).

Lemma witness_calls L l : map (fun x => fst (fst x)) (map (witness L) l) = l.
Proof. rewrite map_map. rewrite <- (map_id l) at 2. apply map_ext. reflexivity. Qed.

Lemma witness_shows L l : Forall (fun b => (0 < b)%Z) (blk1 L) -> Forall (fun b => (0 < b)%Z) (blk2 L) ->
  forall k E0 Eh, In (k, E0, Eh) (map (witness L) l) -> shows3 L (cE0 k) E0 /\ shows3 L (cEh k) Eh.
Proof.
  intros F1 F2 k E0 Eh H. apply in_map_iff in H. destruct H as (k'&Q&_). unfold witness in Q.
  injection Q as <- <- <-. split; apply shows3_of; auto.
Qed.

Section Pair.
Variables (c : cfg) (k1 k2 : scheme).
Hypothesis W : wf_cfg c k1 k2.
Hypothesis PF : periodic_fvm c k1.

Lemma run_exact l s u : holds c (sf s) u ->
  exists r, run_fvm c l s = Ok r /\ holds c (sf r) (run_global c k1 k2 (map (witness (lay c)) l) u).
Proof using W PF.
  intros H. assert (PL := PF). destruct PL as (_&_&((_&F1&_)&(_&F2&_)&_)&_).
  destruct (refinement_run c k1 k2 (map (witness (lay c)) l) W PF (witness_shows (lay c) l F1 F2) s u H) as (r&R&V).
  rewrite witness_calls in R. exists r. auto.
Qed.

(** A relation between global states kept by every step. *)
Lemma run_related (Q : gstate -> gstate -> Prop) l :
  (forall k E0 Eh u v, In k l -> Q u v ->
     Q (midpoint (prob c k1 k2 (ct k) E0) (prob c k1 k2 (ct k) Eh) (cdt k) u)
       (midpoint (prob c k1 k2 (ct k) E0) (prob c k1 k2 (ct k) Eh) (cdt k) v)) ->
  forall s s' u u', holds c (sf s) u -> holds c (sf s') u' -> Q u u' ->
  exists r r' v v', run_fvm c l s = Ok r /\ run_fvm c l s' = Ok r'
    /\ holds c (sf r) v /\ holds c (sf r') v' /\ Q v v'.
Proof using W PF.
  intros ST s s' u u' H H' QU.
  destruct (run_exact l s u H) as (r&R&V). destruct (run_exact l s' u' H') as (r'&R'&V').
  exists r, r', (run_global c k1 k2 (map (witness (lay c)) l) u), (run_global c k1 k2 (map (witness (lay c)) l) u').
  split; auto. split; auto. split; auto. split; auto.
  clear - ST QU. revert u u' QU. induction l as [|k l IH]; intros u u' QU; cbn [map run_global]; auto.
  unfold witness at 1 3. apply IH; [|apply ST; simpl; auto]. intros; apply ST; simpl; auto.
Qed.
End Pair.

Lemma holds_ext c F u v : holds c F u -> same c u v -> holds c F v.
Proof. intros [S H] E. split; auto. intros. rewrite H by auto. apply E; auto. Qed.

(** ** Scaling *)
Definition scaled (a : R) (u : gstate) : gstate := fun x s g1 g2 => a * u x s g1 g2.

Lemma periodic_scale n (f g : Z -> R) a : (0 < n)%Z -> (forall z, (0 <= z < n)%Z -> g z = a * f z) ->
  forall z, periodic n g z = a * periodic n f z.
Proof. intros N H z. unfold periodic. apply H. apply Z.mod_pos_bound; auto. Qed.

Lemma advect_p_scale P g1 g2 w w' a x s : (0 < M1 P)%Z -> (0 < M2 P)%Z -> (0 < M3 P)%Z ->
  inb (M1 P * M2 P * M3 P) x ->
  (forall x', inb (M1 P * M2 P * M3 P) x' -> w' x' s = a * w x' s) ->
  advect_p P g1 g2 w' x s = a * advect_p P g1 g2 w x s.
Proof.
  intros P1 P2 P3 Hx H. unfold advect_p.
  destruct (row_split (M1 P) (M2 P) (M3 P) x) as (Ex&B1&B2&B3); auto.
  rewrite !Rmult_plus_distr_l.
  f_equal; [f_equal|]; apply advect_scale; intros z; apply periodic_scale; auto;
  intros y Hy; apply H; unfold pidx; apply pidx_bound; auto.
Qed.

Section Scale.
Variables (c : cfg) (k1 k2 : scheme).
Hypothesis W : wf_cfg c k1 k2.
Hypothesis PF : periodic_fvm c k1.
Let N1 := gN1 (lay c).
Let N2 := gN2 (lay c).

Lemma npos : (0 < N1)%Z /\ (0 < N2)%Z.
Proof using PF. apply (grid_pos c k1 PF). Qed.

Lemma rhs_scale t E a u v : source_scales c -> same c v (scaled a u) ->
  same c (rhs (prob c k1 k2 t E) v) (scaled a (rhs (prob c k1 k2 t E) u)).
Proof using W PF.
  intros SS H x s g1 g2 Hx Hs H1 H2. destruct npos as [P1 P2]. pose proof (wf_pos _ _ _ W) as (Q1&Q2&Q3&_).
  unfold rhs, scaled. rewrite !Rmult_plus_distr_l. f_equal; [f_equal|].
  - unfold advect_q. rewrite Rmult_plus_distr_l. f_equal; apply advect_scale; intros z; apply periodic_scale; auto;
    intros; apply H; auto.
  - unfold prob, problem_of, problem_at; cbn [src]. destruct (source_enabled c) eqn:SE; [|ring].
    destruct SS as [SS|SS]; [congruence|]. rewrite <- SS. apply W; auto. intros; apply H; auto.
  - apply advect_p_scale; auto. intros; apply H; auto.
Qed.

Lemma scaling l a s s' u : source_scales c ->
  holds c (sf s) u -> holds c (sf s') (fun x sp g1 g2 => a * u x sp g1 g2) ->
  exists r r' v, run_fvm c l s = Ok r /\ run_fvm c l s' = Ok r' /\ holds c (sf r) v
    /\ holds c (sf r') (fun x sp g1 g2 => a * v x sp g1 g2).
Proof using W PF.
  intros SS H H'.
  destruct (run_related c k1 k2 W PF (fun u v => same c v (scaled a u)) l) with (s := s) (s' := s') (u := u)
    (u' := scaled a u) as (r&r'&v&v'&R&R'&V&V'&Q); auto.
  - intros k E0 Eh p q _ Q x sp g1 g2 Hx Hs H1 H2. unfold midpoint, scaled.
    rewrite Rmult_plus_distr_l. f_equal; [apply Q; auto|].
    rewrite (Rmult_comm a (_ * _)), Rmult_assoc. f_equal. rewrite (Rmult_comm _ a).
    apply (rhs_scale (ct k) Eh a); auto.
    intros y sy b1 b2 Hy Hsy B1 B2. unfold scaled. rewrite Rmult_plus_distr_l. f_equal; [apply Q; auto|].
    rewrite (Rmult_comm a (_ * _)), Rmult_assoc. f_equal. rewrite (Rmult_comm _ a).
    apply (rhs_scale (ct k) E0 a); auto.
  - repeat intro; reflexivity.
  - exists r, r', v. split; [auto|split; [auto|split; [auto|exact (holds_ext _ _ _ _ V' Q)]]].
Qed.

(** ** Adding constants *)
Lemma rhs_affine t E a (b : Z -> Z -> R) u v : velocity_uniform c -> source_enabled c = false -> p_is_fvm c = false ->
  same c v (fun x s g1 g2 => a * u x s g1 g2 + b x s) ->
  same c (rhs (prob c k1 k2 t E) v) (scaled a (rhs (prob c k1 k2 t E) u)).
Proof using W PF.
  intros VU SO PO H x s g1 g2 Hx Hs H1 H2. destruct npos as [P1 P2].
  unfold rhs, scaled. rewrite !src_off, !advect_p_off by auto. rewrite !Rplus_0_r.
  destruct (vel_uni c k1 k2 t E VU) as [V1 V2].
  unfold advect_q. rewrite Rmult_plus_distr_l. f_equal; apply (advect_affine _ _ _ _ _ a (b x s)); auto;
  intros z; unfold periodic; apply H; auto; apply Z.mod_pos_bound; auto.
Qed.

Lemma shifting l a (b : Z -> Z -> R) s s' u : velocity_uniform c -> source_enabled c = false -> p_is_fvm c = false ->
  holds c (sf s) u -> holds c (sf s') (fun x sp g1 g2 => a * u x sp g1 g2 + b x sp) ->
  exists r r' v, run_fvm c l s = Ok r /\ run_fvm c l s' = Ok r' /\ holds c (sf r) v
    /\ holds c (sf r') (fun x sp g1 g2 => a * v x sp g1 g2 + b x sp).
Proof using W PF.
  intros VU SO PO H H'.
  destruct (run_related c k1 k2 W PF (fun u v => same c v (fun x s g1 g2 => a * u x s g1 g2 + b x s)) l)
    with (s := s) (s' := s') (u := u) (u' := fun x sp g1 g2 => a * u x sp g1 g2 + b x sp)
    as (r&r'&v&v'&R&R'&V&V'&Q); auto.
  - intros k E0 Eh p q _ Q x sp g1 g2 Hx Hs H1 H2. unfold midpoint.
    set (qh := fun x s g1 g2 => q x s g1 g2 + cdt k / 2 * rhs (prob c k1 k2 (ct k) E0) q x s g1 g2).
    set (ph := fun x s g1 g2 => p x s g1 g2 + cdt k / 2 * rhs (prob c k1 k2 (ct k) E0) p x s g1 g2).
    assert (HH : same c qh (fun x s g1 g2 => a * ph x s g1 g2 + b x s)).
    { intros y sy b1 b2 Hy Hsy B1 B2. unfold qh, ph.
      rewrite (rhs_affine (ct k) E0 a b p q VU SO PO Q y sy b1 b2) by auto.
      rewrite (Q y sy b1 b2) by auto. unfold scaled. ring. }
    rewrite (rhs_affine (ct k) Eh a b ph qh VU SO PO HH x sp g1 g2) by auto.
    rewrite (Q x sp g1 g2) by auto. unfold scaled. ring.
  - repeat intro; reflexivity.
  - exists r, r', v. split; [auto|split; [auto|split; [auto|exact (holds_ext _ _ _ _ V' Q)]]].
Qed.

(** ** Reflections *)
Lemma flip_in b n g : inb n g -> inb n (flip b n g).
Proof. unfold flip, inb. destruct b; lia. Qed.

Lemma flip_periodic b n (f f' : Z -> R) : (0 < n)%Z -> (forall z, inb n z -> f' z = f (flip b n z)) ->
  forall z, periodic n f' z = periodic n f (if b then n - 1 - z else z)%Z.
Proof.
  intros N H z. unfold periodic. rewrite H by (apply Z.mod_pos_bound; auto). f_equal. unfold flip.
  destruct b; auto. apply Zmod_unique with (q := (- (z / n))%Z); [|].
  - pose proof (Z.mod_pos_bound z n N). lia.
  - rewrite (Z.div_mod z n) at 1 by lia. ring.
Qed.

Lemma advect_flip b k h n (v v' f f' : Z -> R) V V' i : (0 < n)%Z -> (forall z, v z = V) -> (forall z, v' z = V') ->
  V = turn b V' -> (forall z, inb n z -> f' z = f (flip b n z)) ->
  advect k h v' (periodic n f') i = advect k h v (periodic n f) (flip b n i).
Proof.
  intros N HV HV' T H. pose proof (flip_periodic b n f f' N H) as FP. destruct b; cbn [turn flip] in *.
  - apply advect_rev; auto. intros. rewrite HV, HV', T. ring.
  - subst V'. transitivity (advect k h v' (periodic n f) i).
    + apply advect_ext; auto.
    + apply advect_vel_ext. intros. rewrite HV, HV'. auto.
Qed.

Lemma rhs_reflect b1 b2 rho t E u v : velocity_uniform c -> source_enabled c = false -> p_is_fvm c = false ->
  pairs_velocities c b1 b2 rho -> same c v (reflection c b1 b2 rho u) ->
  same c (rhs (prob c k1 k2 t E) v) (reflection c b1 b2 rho (rhs (prob c k1 k2 t E) u)).
Proof using W PF.
  intros VU SO PO PV H x s g1 g2 Hx Hs H1 H2. destruct npos as [P1 P2].
  unfold rhs, reflection. rewrite !src_off, !advect_p_off by auto. rewrite !Rplus_0_r.
  destruct (PV t (pos1 c 0 0) (pos2 c 0 0) x s Hx Hs) as (Hr&V).
  unfold advect_q. cbn [n1 n2 h1 h2 kq vel1 vel2 prob problem_of problem_at]. fold N1 N2.
  f_equal.
  - apply advect_flip with (V := fst (velocity c t (rho x) s (pos1 c 0 0) (pos2 c 0 0)))
      (V' := fst (velocity c t x s (pos1 c 0 0) (pos2 c 0 0))); auto.
    + intros; unfold velocity; f_equal; apply VU.
    + intros; unfold velocity; f_equal; apply VU.
    + rewrite V; reflexivity.
    + intros z Hz. apply H; auto.
  - apply advect_flip with (V := snd (velocity c t (rho x) s (pos1 c 0 0) (pos2 c 0 0)))
      (V' := snd (velocity c t x s (pos1 c 0 0) (pos2 c 0 0))); auto.
    + intros; unfold velocity; f_equal; apply VU.
    + intros; unfold velocity; f_equal; apply VU.
    + rewrite V; reflexivity.
    + intros z Hz. apply H; auto.
Qed.

Lemma reflecting l b1 b2 rho s s' u : velocity_uniform c -> source_enabled c = false -> p_is_fvm c = false ->
  pairs_velocities c b1 b2 rho ->
  holds c (sf s) u -> holds c (sf s') (reflection c b1 b2 rho u) ->
  exists r r' v, run_fvm c l s = Ok r /\ run_fvm c l s' = Ok r' /\ holds c (sf r) v
    /\ holds c (sf r') (reflection c b1 b2 rho v).
Proof using W PF.
  intros VU SO PO PV H H'.
  destruct (run_related c k1 k2 W PF (fun u v => same c v (reflection c b1 b2 rho u)) l)
    with (s := s) (s' := s') (u := u) (u' := reflection c b1 b2 rho u) as (r&r'&v&v'&R&R'&V&V'&Q); auto.
  - intros k E0 Eh p q _ Q x sp g1 g2 Hx Hs H1 H2. unfold midpoint.
    set (qh := fun x s g1 g2 => q x s g1 g2 + cdt k / 2 * rhs (prob c k1 k2 (ct k) E0) q x s g1 g2).
    set (ph := fun x s g1 g2 => p x s g1 g2 + cdt k / 2 * rhs (prob c k1 k2 (ct k) E0) p x s g1 g2).
    assert (HH : same c qh (reflection c b1 b2 rho ph)).
    { intros y sy d1 d2 Hy Hsy B1 B2. unfold qh.
      rewrite (rhs_reflect b1 b2 rho (ct k) E0 p q VU SO PO PV Q y sy d1 d2) by auto.
      rewrite (Q y sy d1 d2) by auto. reflexivity. }
    rewrite (rhs_reflect b1 b2 rho (ct k) Eh ph qh VU SO PO PV HH x sp g1 g2) by auto.
    rewrite (Q x sp g1 g2) by auto. reflexivity.
  - repeat intro; reflexivity.
  - exists r, r', v. split; [auto|split; [auto|split; [auto|exact (holds_ext _ _ _ _ V' Q)]]].
Qed.

(** ** Locality *)
Definition agrees_at (K : Z -> Z -> Prop) (n : Z) (u v : gstate) : Z -> Z -> Prop := agree_near c K n u v.

Lemma line_agree (f f' : Z -> R) N g r : (0 < N)%Z -> inb N g ->
  (forall d, (Z.abs d <= r)%Z -> f ((g + d) mod N)%Z = f' ((g + d) mod N)%Z) ->
  forall z, (Z.abs (z - g) <= r)%Z -> periodic N f z = periodic N f' z.
Proof. intros HN Hg H z Hz. unfold periodic. replace z with (g + (z - g))%Z by ring. apply H; auto. Qed.

Lemma step_near K n u v g1 g2 m : (0 <= m)%Z -> agree_near c K (n + m) u v g1 g2 ->
  forall d1 d2, (Z.abs d1 + Z.abs d2 <= n)%Z ->
  agree_near c K m u v ((g1 + d1) mod N1)%Z ((g2 + d2) mod N2)%Z.
Proof.
  intros M H d1 d2 D x s e1 e2 Kx Hx Hs E. unfold N1, N2. rewrite !Zplus_mod_idemp_l.
  rewrite <- !Z.add_assoc. apply H; auto. lia.
Qed.

(** [K] is closed under what the source and the momentum advection look at. *)
Definition closed_set (K : Z -> Z -> Prop) : Prop :=
  (source_enabled c = true -> forall x s, K x s -> inb (N_p c) x -> inb (N_species c) s ->
     forall t q1 q2 w w', (forall x' s', K x' s' -> inb (N_p c) x' -> inb (N_species c) s' -> w x' s' = w' x' s') ->
     source c t q1 q2 w x s = source c t q1 q2 w' x s)
  /\ (p_is_fvm c = true -> forall x s x', K x s -> K x' s).

Lemma rhs_near K t E u v g1 g2 x s : closed_set K -> K x s -> inb (N_p c) x -> inb (N_species c) s ->
  inb N1 g1 -> inb N2 g2 -> agree_near c K (radius k1 + 1) u v g1 g2 ->
  rhs (prob c k1 k2 t E) u x s g1 g2 = rhs (prob c k1 k2 t E) v x s g1 g2.
Proof using W PF.
  intros [CS CP] Kx Hx Hs H1 H2 A. destruct npos as [P1 P2]. pose proof (wf_pos _ _ _ W) as (Q1&Q2&Q3&_).
  assert (S1 : (g1 mod N1 = g1)%Z) by (apply Z.mod_small; exact H1).
  assert (S2 : (g2 mod N2 = g2)%Z) by (apply Z.mod_small; exact H2).
  assert (R0 : (0 <= radius k1)%Z) by (destruct k1; cbn; lia).
  assert (A0 : forall x s, K x s -> inb (N_p c) x -> inb (N_species c) s -> u x s g1 g2 = v x s g1 g2).
  { intros y sy Ky Hy Hsy. specialize (A y sy 0%Z 0%Z Ky Hy Hsy). rewrite !Z.add_0_r in A. fold N1 N2 in A.
    rewrite S1, S2 in A. apply A. cbn. lia. }
  unfold rhs. f_equal; [f_equal|].
  - unfold advect_q. cbn [n1 n2 h1 h2 kq vel1 vel2 prob problem_of problem_at]. fold N1 N2.
    f_equal; apply advect_local; apply line_agree; auto; intros d D.
    + specialize (A x s d 0%Z Kx Hx Hs). rewrite (Z.add_0_r g2) in A. fold N1 N2 in A. rewrite S2 in A. apply A. cbn; lia.
    + specialize (A x s 0%Z d Kx Hx Hs). rewrite (Z.add_0_r g1) in A. fold N1 N2 in A. rewrite S1 in A. apply A. cbn; lia.
  - unfold prob, problem_of, problem_at; cbn [src]. destruct (source_enabled c) eqn:SE; [apply CS; auto|reflexivity].
  - destruct (p_is_fvm c) eqn:PI.
    + apply advect_p_ext; auto. intros y Hy. apply A0; auto. eapply CP; eauto.
    + rewrite !advect_p_off by auto. reflexivity.
Qed.

Lemma near K l s s' u u' g1 g2 : closed_set K -> inb N1 g1 -> inb N2 g2 ->
  holds c (sf s) u -> holds c (sf s') u' ->
  agree_near c K (2 * Z.of_nat (List.length l) * (radius k1 + 1)) u u' g1 g2 ->
  exists r r', run_fvm c l s = Ok r /\ run_fvm c l s' = Ok r'
  /\ forall x sp, K x sp -> inb (N_p c) x -> inb (N_species c) sp ->
     gval (lay c) (sf r) x sp g1 g2 = gval (lay c) (sf r') x sp g1 g2.
Proof using W PF.
  intros CK H1 H2 H H' A. destruct npos as [P1 P2].
  destruct (run_exact c k1 k2 W PF l s u H) as (r&R&V). destruct (run_exact c k1 k2 W PF l s' u' H') as (r'&R'&V').
  exists r, r'. split; auto. split; auto. intros x sp Kx Hx Hs.
  destruct V as [_ V]. destruct V' as [_ V']. rewrite V, V' by auto.
  assert (R0 : (0 <= radius k1)%Z) by (destruct k1; cbn; lia).
  assert (G : agree_near c K 0 (run_global c k1 k2 (map (witness (lay c)) l) u)
     (run_global c k1 k2 (map (witness (lay c)) l) u') g1 g2).
  2:{ specialize (G x sp 0%Z 0%Z Kx Hx Hs). rewrite !Z.add_0_r, !Z.mod_small in G by auto. apply G. cbn; lia. }
  clear - A P1 P2 CK R0 W PF. revert u u' A. induction l as [|k l IH]; intros u u' A.
  - exact A.
  - cbn [map run_global]. unfold witness at 1 3. apply IH. clear IH.
    set (n := (2 * Z.of_nat (List.length l) * (radius k1 + 1))%Z) in *.
    assert (A2 : agree_near c K (n + (radius k1 + 1 + (radius k1 + 1))) u u' g1 g2).
    { replace (n + _)%Z with (2 * Z.of_nat (List.length (k :: l)) * (radius k1 + 1))%Z; auto.
      unfold n. cbn [List.length]. rewrite Nat2Z.inj_succ. ring. }
    clear A. intros x sp d1 d2 Kx Hx Hs D. fold N1 N2.
    assert (I1 : forall z, inb N1 (z mod N1)) by (intros; apply Z.mod_pos_bound; auto).
    assert (I2 : forall z, inb N2 (z mod N2)) by (intros; apply Z.mod_pos_bound; auto).
    assert (A3 : agree_near c K (radius k1 + 1 + (radius k1 + 1)) u u' ((g1 + d1) mod N1)%Z ((g2 + d2) mod N2)%Z)
      by (eapply step_near; eauto; lia).
    clear A2. unfold midpoint. f_equal.
    + specialize (A3 x sp 0%Z 0%Z Kx Hx Hs). rewrite !Z.add_0_r in A3. fold N1 N2 in A3. rewrite !Zmod_mod in A3.
      apply A3. cbn; lia.
    + f_equal. apply rhs_near with (K := K); auto.
      intros y sy e1 e2 Ky Hy Hsy E. fold N1 N2.
      assert (A4 := step_near K (radius k1 + 1) u u' _ _ (radius k1 + 1) ltac:(lia) A3 e1 e2 E).
      f_equal.
      * specialize (A4 y sy 0%Z 0%Z Ky Hy Hsy). rewrite !Z.add_0_r in A4. fold N1 N2 in A4. rewrite !Zmod_mod in A4.
        apply A4. cbn; lia.
      * f_equal. apply rhs_near with (K := K); auto.
Qed.
End Scale.
