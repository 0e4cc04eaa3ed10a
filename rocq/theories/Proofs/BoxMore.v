(** Histories, decomposition independence, states at rest, first-order bounds and
    concrete velocity laws on boxes. *)
From Coq Require Import ZArith Reals Lra Lia Psatz String List Bool.
From Verif Require Import Base.Prelude Base.ZSum Model.Af Model.Grid Model.Petsc Model.Config
  Model.Reconstruct Model.Boundaries Model.Fvm
  Spec.Limiters Spec.Stencil Spec.Lattice Spec.Domain Spec.FvmProblem Spec.FvmRun Spec.Mirror Spec.Walls Spec.Box
  Proofs.AfLemmas Proofs.ReconstructLemmas Proofs.ReconstructApi Proofs.PetscLemmas
  Proofs.FluxLemmas Proofs.ConvLemmas Proofs.FvmLemmas Proofs.FvmLemmas2 Proofs.FvmConserve
  Proofs.BoundaryLemmas Proofs.BoundaryRun Proofs.FvmGeneral Proofs.BoxConserve.
Import ListNotations.
Local Open Scope R_scope.

Lemma midpoint_box_ext c bv k1 k2 t dt E0 Eh u v : wf_cfg c k1 k2 -> box_fvm c k1 ->
  gagree (prob c k1 k2 t E0) (N_species c) u v ->
  gagree (prob c k1 k2 t E0) (N_species c)
    (midpoint_box c bv t (prob c k1 k2 t E0) (prob c k1 k2 t Eh) dt u)
    (midpoint_box c bv t (prob c k1 k2 t E0) (prob c k1 k2 t Eh) dt v).
Proof.
  intros W BX H x sp g1 g2 Hx Hs H1 H2. unfold midpoint_box.
  f_equal; [apply H; auto|]. f_equal. apply rhs_box_ext; auto.
  intros x' s1 b1 b2 X' S1 B1 B2. f_equal; [apply H; auto|]. f_equal. apply rhs_box_ext; auto.
Qed.

Lemma refinement_box c bv k1 k2 t dt A0 Ah E0 Eh s u :
  wf_cfg c k1 k2 -> box_fvm c k1 -> prescribes c bv -> shows3 (lay c) A0 E0 -> shows3 (lay c) Ah Eh ->
  holds c (sf s) u ->
  exists s', timestep_fvm c t dt A0 Ah s = Ok s'
  /\ holds c (sf s') (midpoint_box c bv t (prob c k1 k2 t E0) (prob c k1 k2 t Eh) dt u).
Proof.
  intros W BX PV S0 Sh [SH U].
  destruct (timestep_fvm_box c bv k1 k2 t dt A0 Ah E0 Eh s W BX PV SH S0 Sh) as (s'&R&S'&V).
  exists s'. split; auto. split; auto. intros x sp g1 g2 Hx Hs H1 H2. rewrite V by auto.
  apply midpoint_box_ext; auto; intros a b d e A B D F; apply U; auto.
Qed.

Lemma refinement_run_box c bv k1 k2 l : wf_cfg c k1 k2 -> box_fvm c k1 -> prescribes c bv ->
  (forall k E0 Eh, In (k, E0, Eh) l -> shows3 (lay c) (cE0 k) E0 /\ shows3 (lay c) (cEh k) Eh) ->
  forall s u, holds c (sf s) u ->
  exists s', run_fvm c (map (fun x => fst (fst x)) l) s = Ok s' /\ holds c (sf s') (run_box c bv k1 k2 l u).
Proof.
  intros W BX PV. induction l as [|[[k E0] Eh] l IH]; intros SW s u H.
  - exists s. auto.
  - cbn [map run_fvm run_box fst].
    destruct (SW k E0 Eh (or_introl eq_refl)) as [S0 Sh].
    destruct (refinement_box c bv k1 k2 (ct k) (cdt k) (cE0 k) (cEh k) E0 Eh s u W BX PV S0 Sh H) as (s1&R&H1).
    rewrite R. cbn [rbind]. apply IH; auto. intros. apply SW. right; auto.
Qed.

(** The global history does not see the layout. *)
Lemma run_box_layout c L' bv k1 k2 l : gN1 L' = gN1 (lay c) -> gN2 L' = gN2 (lay c) ->
  forall u, run_box (with_layout c L') bv k1 k2 l u = run_box c bv k1 k2 l u.
Proof.
  intros G1 G2. induction l as [|[[k E0] Eh] l IH]; intros u; [reflexivity|].
  cbn [run_box]. rewrite IH. f_equal.
  unfold midpoint_box, rhs_box, advect_box, line1, line2, prob, problem_of, problem_at.
  cbn [lay with_layout]. rewrite G1, G2. reflexivity.
Qed.

Lemma Forall2_uncons {A B} (R : A -> B -> Prop) x y l l' : Forall2 R (x :: l) (y :: l') -> R x y /\ Forall2 R l l'.
Proof. intros H. inversion H; auto. Qed.

Lemma decompositions_agree_box c L' bv k1 k2 l l' E s s' u : wf_cfg c k1 k2 ->
  box_fvm c k1 -> box_fvm (with_layout c L') k1 -> prescribes c bv -> prescribes (with_layout c L') bv ->
  gN1 L' = gN1 (lay c) -> gN2 L' = gN2 (lay c) ->
  Forall2 (fun k e => shows3 (lay c) (cE0 k) (fst e) /\ shows3 (lay c) (cEh k) (snd e)) l E ->
  Forall2 (fun k e => shows3 L' (cE0 k) (fst e) /\ shows3 L' (cEh k) (snd e)) l' E ->
  Forall2 (fun k k' => ct k = ct k' /\ cdt k = cdt k') l l' ->
  holds c (sf s) u -> holds (with_layout c L') (sf s') u ->
  exists r r' v, run_fvm c l s = Ok r /\ run_fvm (with_layout c L') l' s' = Ok r'
    /\ holds c (sf r) v /\ holds (with_layout c L') (sf r') v.
Proof.
  intros W BX BX' PV PV' G1 G2 SH SH' T H H'.
  revert l' E s s' u SH SH' T H H'. induction l as [|k l IH]; intros l' E s s' u SH SH' T H H'.
  - inversion T; subst. exists s, s', u. auto.
  - destruct l' as [|y l']; [inversion T|]. destruct E as [|y0 E]; [inversion SH|].
    apply Forall2_uncons in T, SH, SH'. destruct T as [[T1 T2] T]. destruct SH as [[S0 Sh] SH]. destruct SH' as [[S0' Sh'] SH'].
    destruct (refinement_box c bv k1 k2 (ct k) (cdt k) (cE0 k) (cEh k) _ _ s u W BX PV S0 Sh H) as (s1&R&H1).
    destruct (refinement_box (with_layout c L') bv k1 k2 (ct y) (cdt y) (cE0 y) (cEh y) (fst y0) (snd y0) s' u)
      as (s1'&R'&H1'); auto.
    assert (EQ : midpoint_box (with_layout c L') bv (ct y) (prob (with_layout c L') k1 k2 (ct y) (fst y0))
                   (prob (with_layout c L') k1 k2 (ct y) (snd y0)) (cdt y) u
                 = midpoint_box c bv (ct k) (prob c k1 k2 (ct k) (fst y0)) (prob c k1 k2 (ct k) (snd y0)) (cdt k) u).
    { rewrite T1, T2. unfold midpoint_box, rhs_box, advect_box, line1, line2, prob, problem_of, problem_at.
      cbn [lay with_layout]. rewrite G1, G2. reflexivity. }
    rewrite EQ in H1'. cbn [run_fvm]. rewrite R, R'. cbn [rbind]. eapply IH; eauto.
Qed.

Lemma ghosts_irrelevant_box c bv k1 k2 l s s2 :
  wf_cfg c k1 k2 -> box_fvm c k1 -> prescribes c bv ->
  shaped (lay c) (N_p c) (N_species c) (sf s) -> shaped (lay c) (N_p c) (N_species c) (sf s2) ->
  (forall r1 r2 x sp i j, rank_ok (lay c) r1 r2 -> inb (N_p c) x -> inb (N_species c) sp ->
     inb (bsize (blk1 (lay c)) r1) i -> inb (bsize (blk2 (lay c)) r2) j ->
     el (sf s r1 r2) x sp (ng1 (lay c) + i)%Z (ng2 (lay c) + j)%Z
     = el (sf s2 r1 r2) x sp (ng1 (lay c) + i)%Z (ng2 (lay c) + j)%Z) ->
  exists r r', run_fvm c l s = Ok r /\ run_fvm c l s2 = Ok r'
  /\ forall r1 r2 x sp i j, rank_ok (lay c) r1 r2 -> inb (N_p c) x -> inb (N_species c) sp ->
     inb (bsize (blk1 (lay c)) r1) i -> inb (bsize (blk2 (lay c)) r2) j ->
     el (sf r r1 r2) x sp (ng1 (lay c) + i)%Z (ng2 (lay c) + j)%Z
     = el (sf r' r1 r2) x sp (ng1 (lay c) + i)%Z (ng2 (lay c) + j)%Z.
Proof.
  intros W BX PV SH SH2 AG. assert (PL := BX). destruct PL as (_&(N1&F1&Z1)&(N2&F2&Z2)&_).
  set (l3 := map (fun k => (k, gfields_of (lay c) (cE0 k), gfields_of (lay c) (cEh k))) l).
  assert (LE : map (fun x => fst (fst x)) l3 = l) by (unfold l3; rewrite map_map; cbn [fst]; apply map_id).
  assert (LS : forall k E0 Eh, In (k, E0, Eh) l3 -> shows3 (lay c) (cE0 k) E0 /\ shows3 (lay c) (cEh k) Eh).
  { intros k E0 Eh I. unfold l3 in I. apply in_map_iff in I. destruct I as (k'&Q&_).
    apply pair_equal_spec in Q. destruct Q as [Q <-]. apply pair_equal_spec in Q. destruct Q as [<- <-].
    split; apply shows3_of; auto. }
  destruct (refinement_run_box c bv k1 k2 l3 W BX PV LS s (gval (lay c) (sf s))) as (r&R&V); [split; auto|].
  destruct (refinement_run_box c bv k1 k2 l3 W BX PV LS s2 (gval (lay c) (sf s))) as (r'&R'&V').
  { split; auto. intros x sp g1 g2 Hx Hs H1 H2. unfold gval.
    destruct (owner_spec (blk1 (lay c)) g1) as [O1 B1]; [apply F1|rewrite Z1; exact H1|].
    destruct (owner_spec (blk2 (lay c)) g2) as [O2 B2]; [apply F2|rewrite Z2; exact H2|].
    symmetry. apply AG; auto; [split; auto| |]; unfold inb; lia. }
  rewrite LE in R, R'.
  exists r, r'. split; auto. split; auto.
  intros r1 r2 x sp i j RK Hx Hs Hi Hj.
  rewrite <- !gval_interior by auto. destruct V as [_ V]. destruct V' as [_ V'].
  pose proof (off_nonneg (blk1 (lay c)) r1 F1). pose proof (off_nonneg (blk2 (lay c)) r2 F2).
  destruct RK as [R1 R2]. pose proof (off_end (blk1 (lay c)) r1 F1 R1). pose proof (off_end (blk2 (lay c)) r2 F2 R2).
  unfold inb in *. rewrite V, V' by (unfold inb; auto; lia). reflexivity.
Qed.

(** ** States at rest *)
Lemma box_side c k1 : box_fvm c k1 -> forall e, in_q c e = "periodic"%string \/ wall (in_q c e).
Proof.
  intros (_&_&_&_&_&_&_&_&S1&S2&_) e.
  destruct S1 as [(_&A&B)|(_&A&B)]; destruct S2 as [(_&C&D)|(_&C&D)]; destruct e; auto.
Qed.
Lemma box_pairs c k1 : box_fvm c k1 ->
  (in_q c ELeft <> "periodic"%string -> wall (in_q c ELeft) /\ wall (in_q c ERight))
  /\ (in_q c EBottom <> "periodic"%string -> wall (in_q c EBottom) /\ wall (in_q c ETop)).
Proof.
  intros (_&_&_&_&_&_&_&_&S1&S2&_).
  split; intros H; [destruct S1 as [(_&A&B)|(_&A&B)]|destruct S2 as [(_&A&B)|(_&A&B)]]; auto; contradiction.
Qed.

Lemma beyond_rest c bv t e x s g1 g2 m1 m2 a : wall (in_q c e) -> inb (N_p c) x -> inb (N_species c) s ->
  at_rest c bv a -> beyond c bv t (fun x s _ _ => a x s) e x s g1 g2 m1 m2 = a x s.
Proof.
  intros Wl Hx Hs AR. unfold beyond. destruct (AR e x s Hx Hs Wl) as [A B].
  destruct Wl as [N|N]; rewrite N in *; unfold wall_value; cbn [String.eqb Ascii.eqb Bool.eqb].
  - exact A.
  - destruct (inflow_dec e (bc_velocity c t x s g1 g2)); [apply B; auto|exact A].
Qed.

Lemma rest_kept c bv k1 k2 l s (a : Z -> Z -> R) : wf_cfg c k1 k2 -> box_fvm c k1 -> prescribes c bv ->
  velocity_uniform c -> source_enabled c = false -> p_is_fvm c = false -> at_rest c bv a ->
  holds c (sf s) (fun x sp _ _ => a x sp) ->
  exists s', run_fvm c l s = Ok s' /\ holds c (sf s') (fun x sp _ _ => a x sp).
Proof.
  intros W BX PV VU SO PO AR [SH U].
  destruct (box_pairs c k1 BX) as [WP1 WP2].
  destruct (run_invariant_box c bv k1 k2 (fun u => forall x sp g1 g2, inb (N_p c) x -> inb (N_species c) sp ->
     inb (gN1 (lay c)) g1 -> inb (gN2 (lay c)) g2 -> u x sp g1 g2 = a x sp) W BX PV) with (l := l) (s := s)
     as (s'&R&S'&Q); auto.
  - intros u v H Q x sp g1 g2 Hx Hs H1 H2. rewrite <- Q with (g1 := g1) (g2 := g2) by auto. symmetry; apply H; auto.
  - intros k u E0 Eh _ Q.
    assert (Z : forall E v, (forall x sp g1 g2, inb (N_p c) x -> inb (N_species c) sp ->
       inb (gN1 (lay c)) g1 -> inb (gN2 (lay c)) g2 -> v x sp g1 g2 = a x sp) ->
       forall x sp g1 g2, inb (N_p c) x -> inb (N_species c) sp ->
       inb (gN1 (lay c)) g1 -> inb (gN2 (lay c)) g2 -> rhs_box c bv (ct k) (prob c k1 k2 (ct k) E) v x sp g1 g2 = 0).
    { intros E v Hv x sp g1 g2 Hx Hs H1 H2.
      rewrite (rhs_box_ext c bv (ct k) k1 k2 (ct k) E v (fun x s _ _ => a x s)); auto.
      unfold rhs_box. rewrite src_off, advect_p_off by auto. unfold advect_box.
      rewrite (advect_const _ _ _ _ _ (a x sp)), (advect_const _ _ _ _ _ (a x sp)); [lra| | | |].
      - intros z. unfold line2, continued. destruct (String.eqb_spec (in_q c EBottom) "periodic"); [reflexivity|].
        destruct (WP2 n) as [A B]. destruct (z <? 0)%Z; [apply beyond_rest; auto|].
        destruct (z <? gN2 (lay c))%Z; [reflexivity|apply beyond_rest; auto].
      - unfold prob, problem_of, problem_at; cbn [vel2]. f_equal. apply VU.
      - intros z. unfold line1, continued. destruct (String.eqb_spec (in_q c ELeft) "periodic"); [reflexivity|].
        destruct (WP1 n) as [A B]. destruct (z <? 0)%Z; [apply beyond_rest; auto|].
        destruct (z <? gN1 (lay c))%Z; [reflexivity|apply beyond_rest; auto].
      - unfold prob, problem_of, problem_at; cbn [vel1]. f_equal. apply VU. }
    intros x sp g1 g2 Hx Hs H1 H2. unfold midpoint_box. rewrite Z; auto.
    + rewrite Q by auto. lra.
    + intros y sq b1 b2 Hy Hq B1 B2. rewrite Z by auto. rewrite Q by auto. lra.
  - exists s'. split; auto. split; auto.
Qed.

(** ** Bounds for the first-order method *)
Lemma convex_box a b m M u n1 n2 n1h n2h :
  0 <= a -> 0 <= b -> a + b <= 1 -> m <= u <= M -> m <= n1 <= M -> m <= n2 <= M ->
  (a + b) / 2 * m <= n1h - (1 - (a + b) / 2) * n1 <= (a + b) / 2 * M ->
  (a + b) / 2 * m <= n2h - (1 - (a + b) / 2) * n2 <= (a + b) / 2 * M ->
  let w0 := u + (1/2) * (- a * (u - n1) - b * (u - n2)) in
  m <= u + (- a * (w0 - n1h) - b * (w0 - n2h)) <= M.
Proof.
  intros Ha Hb Hc Hu H1 H2 K1 K2 w0. unfold w0. set (c := a + b) in *.
  set (r1 := n1h - (1 - c / 2) * n1) in *. set (r2 := n2h - (1 - c / 2) * n2) in *.
  assert (E : u + (- a * (u + 1 / 2 * (- a * (u - n1) - b * (u - n2)) - n1h)
     - b * (u + 1 / 2 * (- a * (u - n1) - b * (u - n2)) - n2h))
    = (1 - c + c * c / 2) * u + ((1 - c) * a) * n1 + ((1 - c) * b) * n2 + a * r1 + b * r2).
  { unfold r1, r2, c. field. }
  rewrite E. clear E. clearbody r1 r2.
  assert (C0 : 0 <= 1 - c + c * c / 2) by nra.
  assert (E1 : 0 <= (1 - c) * a) by nra. assert (E2 : 0 <= (1 - c) * b) by nra.
  assert (X : forall e y lo hi, 0 <= e -> lo <= y <= hi -> e * lo <= e * y <= e * hi).
  { intros e y lo hi He Hy. split; apply Rmult_le_compat_l; lra. }
  pose proof (X _ u m M C0 Hu). pose proof (X _ n1 m M E1 H1). pose proof (X _ n2 m M E2 H2).
  pose proof (X a r1 _ _ Ha K1). pose proof (X b r2 _ _ Hb K2).
  assert (S : forall y, (1 - c + c * c / 2) * y + ((1 - c) * a) * y + ((1 - c) * b) * y + a * (c / 2 * y) + b * (c / 2 * y) = y)
    by (intros; unfold c; field).
  pose proof (S m). pose proof (S M). lra.
Qed.

Section Bounds.
Variables (c : cfg) (bv : inflow_values) (k2 : scheme) (t : R) (m M : Z -> Z -> R).
Hypothesis W : wf_cfg c FirstOrder k2.
Hypothesis BX : box_fvm c FirstOrder.
Hypothesis VU : velocity_uniform c.
Hypothesis SR : speed_reflects c.
Hypothesis BF : bounds_fit c bv m M.
Hypothesis D1 : 0 < dq1 c.
Hypothesis D2 : 0 < dq2 c.
Hypothesis SO : source_enabled c = false.
Hypothesis PO : p_is_fvm c = false.

Definition vv1 x s := fst (velocity c t x s (pos1 c 0 0) (pos2 c 0 0)).
Definition vv2 x s := snd (velocity c t x s (pos1 c 0 0) (pos2 c 0 0)).
Definition dir (v : R) : Z := if Rlt_dec 0 v then (-1)%Z else 1%Z.
Definition near1 (u : gstate) x s g1 g2 := line1 c bv t u x s g2 (g1 + dir (vv1 x s))%Z.
Definition near2 (u : gstate) x s g1 g2 := line2 c bv t u x s g1 (g2 + dir (vv2 x s))%Z.

Lemma rhs_first E u x s g1 g2 : inb (gN1 (lay c)) g1 -> inb (gN2 (lay c)) g2 ->
  inb (N_p c) x -> inb (N_species c) s ->
  rhs_box c bv t (prob c FirstOrder k2 t E) u x s g1 g2
  = - (Rabs (vv1 x s) / dq1 c) * (u x s g1 g2 - near1 u x s g1 g2)
    - (Rabs (vv2 x s) / dq2 c) * (u x s g1 g2 - near2 u x s g1 g2).
Proof using VU D1 D2 SO PO.
  intros H1 H2 Hx Hs. unfold rhs_box. rewrite src_off, advect_p_off by auto. unfold advect_box.
  change (kq (prob c FirstOrder k2 t E)) with FirstOrder.
  assert (V1' : forall g1 g2, vel1 (prob c FirstOrder k2 t E) x s g1 g2 = vv1 x s).
  { intros. unfold vv1, velocity, prob, problem_of, problem_at; cbn [vel1]. f_equal. apply VU. }
  assert (V2' : forall g1 g2, vel2 (prob c FirstOrder k2 t E) x s g1 g2 = vv2 x s).
  { intros. unfold vv2, velocity, prob, problem_of, problem_at; cbn [vel2]. f_equal. apply VU. }
  rewrite (upwind_first _ (fun i => vel1 _ x s i g2) _ g1 (vv1 x s)) by (auto; cbn [h1 prob problem_of problem_at]; lra).
  rewrite (upwind_first _ (fun j => vel2 _ x s g1 j) _ g2 (vv2 x s)) by (auto; cbn [h2 prob problem_of problem_at]; lra).
  cbn [h1 h2 n1 n2 prob problem_of problem_at].
  rewrite line1_in, line2_in by auto. unfold near1, near2, dir.
  destruct (Rlt_dec 0 (vv1 x s)); destruct (Rlt_dec 0 (vv2 x s)); unfold Z.sub; change (- (1))%Z with (-1)%Z; ring.
Qed.

(** A neighbour value is a value of the state at a momentum with the same speeds
    and bounds, or a prescribed value. *)
Definition twin (s x y : Z) : Prop :=
  inb (N_p c) y /\ m y s = m x s /\ M y s = M x s
  /\ Rabs (vv1 y s) = Rabs (vv1 x s) /\ Rabs (vv2 y s) = Rabs (vv2 x s).

Lemma twin_refl s x : inb (N_p c) x -> twin s x x.
Proof. repeat split; auto; apply H. Qed.
Lemma twin_reflected s x e : inb (N_p c) x -> inb (N_species c) s -> wall (in_q c e) -> twin s x (reflected c e x).
Proof using W SR BF.
  intros Hx Hs Wl. destruct (BF e x s Hx Hs Wl) as (A&B&_). destruct (SR e t x s (pos1 c 0 0) (pos2 c 0 0) Hx Hs Wl).
  split; [eapply reflected_bound; eauto|]. auto.
Qed.

Lemma beyond_near e x s g1 g2 m1 m2 : inb (N_p c) x -> inb (N_species c) s -> wall (in_q c e) ->
  (exists y, twin s x y /\ forall u, beyond c bv t u e x s g1 g2 m1 m2 = u y s m1 m2)
  \/ (exists b, m x s <= b <= M x s /\ forall u, beyond c bv t u e x s g1 g2 m1 m2 = b).
Proof using W SR BF.
  intros Hx Hs Wl. pose proof (twin_reflected s x e Hx Hs Wl) as T.
  destruct (BF e x s Hx Hs Wl) as (_&_&C).
  unfold beyond. destruct Wl as [N|N]; rewrite N in *; unfold wall_value; cbn [String.eqb Ascii.eqb Bool.eqb].
  - left. exists (reflected c e x). auto.
  - destruct (inflow_dec e (bc_velocity c t x s g1 g2)).
    + right. exists (bv e t x s g1 g2). split; [apply C; auto|auto].
    + left. exists (reflected c e x). auto.
Qed.

Lemma near1_cases x s g1 g2 : inb (N_p c) x -> inb (N_species c) s -> inb (gN1 (lay c)) g1 ->
  (exists y g, twin s x y /\ inb (gN1 (lay c)) g /\ forall u, near1 u x s g1 g2 = u y s g g2)
  \/ (exists b, m x s <= b <= M x s /\ forall u, near1 u x s g1 g2 = b).
Proof using W BX SR BF.
  intros Hx Hs H1. unfold near1, line1, continued. destruct (box_pos c FirstOrder BX) as [N1 N2].
  destruct (box_pairs c FirstOrder BX) as [WP _].
  set (z := (g1 + dir (vv1 x s))%Z).
  assert (Hz : (-1 <= z <= gN1 (lay c))%Z) by (unfold z, dir, inb in *; destruct (Rlt_dec 0 (vv1 x s)); lia).
  destruct (String.eqb_spec (in_q c ELeft) "periodic") as [Q|Q].
  - left. exists x, (z mod gN1 (lay c))%Z. split; [apply twin_refl; auto|]. split; auto. apply Z.mod_pos_bound; auto.
  - destruct (WP Q) as [A B]. destruct (Z.ltb_spec z 0); [|destruct (Z.ltb_spec z (gN1 (lay c)))].
    + destruct (beyond_near ELeft x s z g2 (-1 - z) g2 Hx Hs A) as [(y&T&U)|(b&T&U)].
      * left. exists y, (-1 - z)%Z. split; auto. split; auto. unfold inb; lia.
      * right. exists b. auto.
    + left. exists x, z. split; [apply twin_refl; auto|]. split; auto. unfold inb; lia.
    + destruct (beyond_near ERight x s z g2 (2 * gN1 (lay c) - 1 - z) g2 Hx Hs B) as [(y&T&U)|(b&T&U)].
      * left. exists y, (2 * gN1 (lay c) - 1 - z)%Z. split; auto. split; auto. unfold inb; lia.
      * right. exists b. auto.
Qed.
Lemma near2_cases x s g1 g2 : inb (N_p c) x -> inb (N_species c) s -> inb (gN2 (lay c)) g2 ->
  (exists y g, twin s x y /\ inb (gN2 (lay c)) g /\ forall u, near2 u x s g1 g2 = u y s g1 g)
  \/ (exists b, m x s <= b <= M x s /\ forall u, near2 u x s g1 g2 = b).
Proof using W BX SR BF.
  intros Hx Hs H1. unfold near2, line2, continued. destruct (box_pos c FirstOrder BX) as [N1 N2].
  destruct (box_pairs c FirstOrder BX) as [_ WP].
  set (z := (g2 + dir (vv2 x s))%Z).
  assert (Hz : (-1 <= z <= gN2 (lay c))%Z) by (unfold z, dir, inb in *; destruct (Rlt_dec 0 (vv2 x s)); lia).
  destruct (String.eqb_spec (in_q c EBottom) "periodic") as [Q|Q].
  - left. exists x, (z mod gN2 (lay c))%Z. split; [apply twin_refl; auto|]. split; auto. apply Z.mod_pos_bound; auto.
  - destruct (WP Q) as [A B]. destruct (Z.ltb_spec z 0); [|destruct (Z.ltb_spec z (gN2 (lay c)))].
    + destruct (beyond_near EBottom x s g1 z g1 (-1 - z) Hx Hs A) as [(y&T&U)|(b&T&U)].
      * left. exists y, (-1 - z)%Z. split; auto. split; auto. unfold inb; lia.
      * right. exists b. auto.
    + left. exists x, z. split; [apply twin_refl; auto|]. split; auto. unfold inb; lia.
    + destruct (beyond_near ETop x s g1 z g1 (2 * gN2 (lay c) - 1 - z) Hx Hs B) as [(y&T&U)|(b&T&U)].
      * left. exists y, (2 * gN2 (lay c) - 1 - z)%Z. split; auto. split; auto. unfold inb; lia.
      * right. exists b. auto.
Qed.

Definition within (u : gstate) : Prop := forall x s g1 g2, inb (N_p c) x -> inb (N_species c) s ->
  inb (gN1 (lay c)) g1 -> inb (gN2 (lay c)) g2 -> m x s <= u x s g1 g2 <= M x s.

Lemma near_within u x s g1 g2 : within u -> inb (N_p c) x -> inb (N_species c) s ->
  inb (gN1 (lay c)) g1 -> inb (gN2 (lay c)) g2 ->
  m x s <= near1 u x s g1 g2 <= M x s /\ m x s <= near2 u x s g1 g2 <= M x s.
Proof using W BX SR BF.
  intros Wi Hx Hs H1 H2. split.
  - destruct (near1_cases x s g1 g2 Hx Hs H1) as [(y&g&(T0&T1&T2&_)&Hg&U)|(b&T&U)]; rewrite U; auto.
    rewrite <- T1, <- T2. apply Wi; auto.
  - destruct (near2_cases x s g1 g2 Hx Hs H2) as [(y&g&(T0&T1&T2&_)&Hg&U)|(b&T&U)]; rewrite U; auto.
    rewrite <- T1, <- T2. apply Wi; auto.
Qed.

Lemma step_within dt E0 Eh u : cfl c t dt -> within u ->
  within (midpoint_box c bv t (prob c FirstOrder k2 t E0) (prob c FirstOrder k2 t Eh) dt u).
Proof using W BX VU SR BF D1 D2 SO PO.
  intros [Dt CF] Wi x s g1 g2 Hx Hs H1 H2. unfold midpoint_box.
  set (uh := fun x s g1 g2 => u x s g1 g2 + dt / 2 * rhs_box c bv t (prob c FirstOrder k2 t E0) u x s g1 g2).
  rewrite rhs_first by auto.
  assert (CO : forall x, inb (N_p c) x -> 0 <= Rabs (vv1 x s) * dt / dq1 c /\ 0 <= Rabs (vv2 x s) * dt / dq2 c
     /\ Rabs (vv1 x s) * dt / dq1 c + Rabs (vv2 x s) * dt / dq2 c <= 1).
  { intros y Hy. split; [|split; [|apply CF; auto]].
    - unfold Rdiv. apply Rmult_le_pos; [apply Rmult_le_pos; [apply Rabs_pos|auto]|]. left. apply Rinv_0_lt_compat; auto.
    - unfold Rdiv. apply Rmult_le_pos; [apply Rmult_le_pos; [apply Rabs_pos|auto]|]. left. apply Rinv_0_lt_compat; auto. }
  set (a := Rabs (vv1 x s) * dt / dq1 c). set (b := Rabs (vv2 x s) * dt / dq2 c).
  assert (UH : forall y h1 h2, twin s x y -> inb (gN1 (lay c)) h1 -> inb (gN2 (lay c)) h2 ->
     uh y s h1 h2 = u y s h1 h2 + (1/2) * (- a * (u y s h1 h2 - near1 u y s h1 h2) - b * (u y s h1 h2 - near2 u y s h1 h2))
     /\ (a + b) / 2 * m x s <= uh y s h1 h2 - (1 - (a + b) / 2) * u y s h1 h2 <= (a + b) / 2 * M x s).
  { intros y h1 h2 (Y0&Y1&Y2&Y3&Y4) B1 B2.
    assert (EQ : uh y s h1 h2 = u y s h1 h2 + (1/2) * (- a * (u y s h1 h2 - near1 u y s h1 h2) - b * (u y s h1 h2 - near2 u y s h1 h2))).
    { unfold uh. rewrite rhs_first by auto. rewrite Y3, Y4. unfold a, b, Rdiv. ring. }
    split; [exact EQ|]. rewrite EQ.
    destruct (near_within u y s h1 h2 Wi Y0 Hs B1 B2) as [NA NB]. rewrite Y1, Y2 in *.
    destruct (CO x Hx) as (A0&B0&_). fold a b in A0, B0.
    replace (u y s h1 h2 + 1 / 2 * (- a * (u y s h1 h2 - near1 u y s h1 h2) - b * (u y s h1 h2 - near2 u y s h1 h2))
       - (1 - (a + b) / 2) * u y s h1 h2) with (a / 2 * near1 u y s h1 h2 + b / 2 * near2 u y s h1 h2) by field.
    nra. }
  destruct (UH x g1 g2 (twin_refl s x Hx) H1 H2) as [U0 _].
  destruct (near_within u x s g1 g2 Wi Hx Hs H1 H2) as [NA NB].
  destruct (CO x Hx) as (A0&B0&AB). fold a b in A0, B0, AB.
  assert (N1h : (a + b) / 2 * m x s <= near1 uh x s g1 g2 - (1 - (a + b) / 2) * near1 u x s g1 g2 <= (a + b) / 2 * M x s).
  { destruct (near1_cases x s g1 g2 Hx Hs H1) as [(y&g&T&Hg&U)|(v&T&U)]; rewrite !U.
    - apply UH; auto.
    - replace (v - (1 - (a + b) / 2) * v) with ((a + b) / 2 * v) by field. split; apply Rmult_le_compat_l; lra. }
  assert (N2h : (a + b) / 2 * m x s <= near2 uh x s g1 g2 - (1 - (a + b) / 2) * near2 u x s g1 g2 <= (a + b) / 2 * M x s).
  { destruct (near2_cases x s g1 g2 Hx Hs H2) as [(y&g&T&Hg&U)|(v&T&U)]; rewrite !U.
    - apply UH; auto.
    - replace (v - (1 - (a + b) / 2) * v) with ((a + b) / 2 * v) by field. split; apply Rmult_le_compat_l; lra. }
  pose proof (convex_box a b (m x s) (M x s) (u x s g1 g2) (near1 u x s g1 g2) (near2 u x s g1 g2)
    (near1 uh x s g1 g2) (near2 uh x s g1 g2) A0 B0 AB (Wi x s g1 g2 Hx Hs H1 H2) NA NB N1h N2h) as CV.
  cbv zeta in CV. rewrite <- U0 in CV.
  replace (u x s g1 g2 + dt * (- (Rabs (vv1 x s) / dq1 c) * (uh x s g1 g2 - near1 uh x s g1 g2)
     - Rabs (vv2 x s) / dq2 c * (uh x s g1 g2 - near2 uh x s g1 g2)))
    with (u x s g1 g2 + (- a * (uh x s g1 g2 - near1 uh x s g1 g2) - b * (uh x s g1 g2 - near2 uh x s g1 g2)))
    by (unfold a, b, Rdiv; ring).
  exact CV.
Qed.
End Bounds.

Lemma max_principle_box c bv k2 l s (m M : Z -> Z -> R) :
  wf_cfg c FirstOrder k2 -> box_fvm c FirstOrder -> prescribes c bv -> velocity_uniform c -> speed_reflects c ->
  bounds_fit c bv m M -> 0 < dq1 c -> 0 < dq2 c ->
  source_enabled c = false -> p_is_fvm c = false ->
  (forall k, In k l -> cfl c (ct k) (cdt k)) ->
  shaped (lay c) (N_p c) (N_species c) (sf s) ->
  (forall x sp g1 g2, inb (N_p c) x -> inb (N_species c) sp -> inb (gN1 (lay c)) g1 -> inb (gN2 (lay c)) g2 ->
     m x sp <= gval (lay c) (sf s) x sp g1 g2 <= M x sp) ->
  exists s', run_fvm c l s = Ok s' /\ shaped (lay c) (N_p c) (N_species c) (sf s') /\
  (forall x sp g1 g2, inb (N_p c) x -> inb (N_species c) sp -> inb (gN1 (lay c)) g1 -> inb (gN2 (lay c)) g2 ->
     m x sp <= gval (lay c) (sf s') x sp g1 g2 <= M x sp).
Proof.
  intros W BX PV VU SR BF D1 D2 SO PO CFL SH B.
  destruct (run_invariant_box c bv FirstOrder k2 (within c m M) W BX PV) with (l := l) (s := s) as (s'&R&S'&Q); auto.
  - intros u v H Q x sp g1 g2 Hx Hs H1 H2. rewrite <- H by auto. apply Q; auto.
  - intros k u E0 Eh Ik Q. apply step_within; auto.
  - exists s'. auto.
Qed.

(** ** Velocity laws *)
Lemma symmetric_fits c k1 k2 : wf_cfg c k1 k2 -> box_fvm c k1 -> symmetric_grid c -> velocity_odd c -> velocity_fits c.
Proof.
  intros W BX (G&S1&S2) VO. pose proof (wf_pos _ _ _ W) as (P1&P2&P3&PS).
  intros t x s g Hx Hs. destruct (row_split (N_p1 c) (N_p2 c) (N_p3 c) x) as (E&B1&B2&B3); auto.
  unfold velocity, reflected. rewrite G. cbn [String.eqb Ascii.eqb Bool.eqb].
  destruct (pidx_split (N_p1 c) (N_p2 c) (N_p1 c - 1 - x mod N_p1 c) ((x / N_p1 c) mod N_p2 c) (x / N_p1 c / N_p2 c)) as (A1&A2&A3);
    [unfold inb in *; lia|auto|].
  destruct (pidx_split (N_p1 c) (N_p2 c) (x mod N_p1 c) (N_p2 c - 1 - (x / N_p1 c) mod N_p2 c) (x / N_p1 c / N_p2 c)) as (C1&C2&C3);
    [auto|unfold inb in *; lia|].
  repeat split.
  - intros Pe. destruct (VO s t (pos1 c 0 0) (pos2 c 0 g) (mom1 c (1/2) x s) (mom2 c (1/2) x s) (mom3 c (1/2) x s)) as (_&V&_&_).
    rewrite <- V by auto. do 2 f_equal. unfold pos1. ring.
  - intros Pe w _. destruct (VO s t (pos1 c 0 w) (pos2 c 0 g) (mom1 c (1/2) x s) (mom2 c (1/2) x s) (mom3 c (1/2) x s)) as (V&_).
    rewrite <- V by auto. unfold mom1, mom2, mom3, reverse_normal, prow. rewrite A1, A2, A3. do 2 f_equal.
    rewrite (S1 Pe s Hs). rewrite !minus_IZR. field.
  - intros Pe. destruct (VO s t (pos1 c (1/2) g) (pos2 c 0 0) (mom1 c (1/2) x s) (mom2 c (1/2) x s) (mom3 c (1/2) x s)) as (_&_&_&V).
    rewrite <- V by auto. do 2 f_equal. unfold pos2. ring.
  - intros Pe w _. destruct (VO s t (pos1 c (1/2) g) (pos2 c 0 w) (mom1 c (1/2) x s) (mom2 c (1/2) x s) (mom3 c (1/2) x s)) as (_&_&V&_).
    rewrite <- V by auto. unfold mom1, mom2, mom3, reverse_normal, prow. rewrite C1, C2, C3. do 2 f_equal.
    rewrite (S2 Pe s Hs). rewrite !minus_IZR. field.
Qed.

Lemma polar_fits c k1 k2 v : wf_cfg c k1 k2 -> box_fvm c k1 -> polar_circle c v -> velocity_fits c.
Proof.
  intros W BX (G&TH&VC). pose proof (wf_pos _ _ _ W) as (P1&P2&P3&PS).
  assert (EV : Z.even (N_p2 c) = true).
  { destruct BX as (_&_&_&_&_&_&_&_&_&_&[Q|[_ Q]]); [rewrite G in Q; discriminate|auto]. }
  apply Z.even_spec in EV. destruct EV as [h Hh].
  assert (HH : (N_p2 c / 2 = h)%Z) by (rewrite Hh, Z.mul_comm; apply Z.div_mul; lia).
  assert (N2 : IZR (N_p2 c) <> 0) by (apply not_0_IZR; lia).
  assert (N2h : IZR (N_p2 c) = 2 * IZR h) by (rewrite Hh, mult_IZR; reflexivity).
  intros t x s g Hx Hs. destruct (row_split (N_p1 c) (N_p2 c) (N_p3 c) x) as (E&B1&B2&B3); auto.
  destruct (TH s Hs) as [T0 T1].
  unfold velocity, reflected. rewrite G. cbn [String.eqb Ascii.eqb Bool.eqb].
  set (i2 := ((x / N_p1 c) mod N_p2 c)%Z) in *.
  destruct (pidx_split (N_p1 c) (N_p2 c) (x mod N_p1 c) ((h - 1 - i2) mod N_p2 c) (x / N_p1 c / N_p2 c)) as (A1&A2&A3);
    [auto|apply Z.mod_pos_bound; auto|].
  destruct (pidx_split (N_p1 c) (N_p2 c) (x mod N_p1 c) (N_p2 c - 1 - i2) (x / N_p1 c / N_p2 c)) as (C1&C2&C3);
    [auto|unfold inb in *; lia|].
  rewrite !VC. cbn [fst snd].
  split; [|split; [|split]].
  - intros Pe. reflexivity.
  - intros Pe w _. rewrite ?VC. cbn [fst]. unfold mom1, mom2, reflect_angle, prow. rewrite HH. fold i2. rewrite A1, A2, T0, T1.
    rewrite Ropp_mult_distr_r. f_equal.
    set (q := ((h - 1 - i2) / N_p2 c)%Z). set (d := 2 * PI / IZR (N_p2 c)).
    assert (M2 : ((h - 1 - i2) mod N_p2 c = h - 1 - i2 - N_p2 c * q)%Z) by (unfold q; pose proof (Z.div_mod (h - 1 - i2) (N_p2 c)); lia).
    assert (Q : q = 0%Z \/ q = (-1)%Z).
    { unfold q. unfold inb in *. assert ((-1 <= (h - 1 - i2) / N_p2 c)%Z) by (apply Z.div_le_lower_bound; lia).
      assert (((h - 1 - i2) / N_p2 c < 1)%Z) by (apply Z.div_lt_upper_bound; lia). lia. }
    rewrite M2. rewrite <- cos_neg.
    assert (EQ : forall z, - (- PI + (1/2 + IZR z) * d) = PI - (1/2 + IZR z) * d) by (intros; ring).
    replace (- (- PI + (1 / 2 + IZR (h - 1 - i2 - N_p2 c * q)) * d)) with (- PI + (1 / 2 + IZR i2) * d + PI + 2 * PI * IZR q).
    2:{ rewrite !minus_IZR, mult_IZR. unfold d. rewrite N2h. field. rewrite N2h in N2. intros Z; apply N2; rewrite Z; ring. }
    destruct Q as [-> | ->].
    + rewrite Rmult_0_r, Rplus_0_r. apply neg_cos.
    + replace (- PI + (1 / 2 + IZR i2) * d + PI + 2 * PI * -1) with (- PI + (1 / 2 + IZR i2) * d - PI) by ring.
      rewrite <- (cos_neg (_ - PI)). rewrite Ropp_minus_distr. rewrite Rtrigo_facts.cos_pi_minus. reflexivity.
  - intros Pe. reflexivity.
  - intros Pe w _. rewrite ?VC. cbn [snd]. unfold mom1, mom2, reflect_angle, prow. rewrite ?HH. fold i2. rewrite C1, C2, T0, T1.
    rewrite Ropp_mult_distr_r. f_equal. rewrite <- sin_neg. f_equal. rewrite !minus_IZR. field. auto.
Qed.
