(** Closed boxes keep the number of particles: mirrored lines have opposite wall
    fluxes, and reflection permutes the momenta. *)
From Coq Require Import ZArith Reals Lra Lia Psatz String List Bool.
From Verif Require Import Base.Prelude Base.ZSum Model.Af Model.Grid Model.Petsc Model.Config
  Model.Reconstruct Model.Boundaries Model.Fvm
  Spec.Limiters Spec.Stencil Spec.Lattice Spec.Domain Spec.FvmProblem Spec.FvmRun Spec.Mirror Spec.Walls Spec.Box
  Proofs.AfLemmas Proofs.ReconstructLemmas Proofs.ReconstructApi Proofs.PetscLemmas
  Proofs.FluxLemmas Proofs.ConvLemmas Proofs.FvmLemmas Proofs.FvmLemmas2 Proofs.FvmConserve
  Proofs.BoundaryLemmas Proofs.BoundaryRun Proofs.FvmGeneral.
Import ListNotations.
Local Open Scope R_scope.

(** ** Mirrored lines *)
Lemma cell_faces_mirror k w a i :
  cell_faces k (fun z => w (a - z)%Z) i = (snd (cell_faces k w (a - i)), fst (cell_faces k w (a - i))).
Proof.
  destruct (stencil_scheme k (fun z => w (a - z)%Z) i) as [-> | [[-> E]|[-> E]]]; [reflexivity| |]; rewrite E.
  - destruct (stencil_scheme MC w (a - i)) as [Q | [[_ F]|[Q _]]]; try discriminate. rewrite F. cbn [fst snd].
    replace (a - (i + -1))%Z with (a - i + 1)%Z by lia. replace (a - (i + 0))%Z with (a - i + 0)%Z by lia.
    replace (a - (i + 1))%Z with (a - i + -1)%Z by lia.
    destruct (minmod_mirror (w (a - i + 1)%Z) (w (a - i + 0)%Z) (w (a - i + -1)%Z)).
    f_equal; congruence.
  - destruct (stencil_scheme PPM w (a - i)) as [Q | [[Q _]|[_ F]]]; try discriminate. rewrite F. cbn [fst snd].
    replace (a - (i + -2))%Z with (a - i + 2)%Z by lia. replace (a - (i + 2))%Z with (a - i + -2)%Z by lia.
    replace (a - (i + -1))%Z with (a - i + 1)%Z by lia. replace (a - (i + 0))%Z with (a - i + 0)%Z by lia.
    replace (a - (i + 1))%Z with (a - i + -1)%Z by lia.
    destruct (ppm_mirror (w (a - i + 2)%Z) (w (a - i + 1)%Z) (w (a - i + 0)%Z) (w (a - i + -1)%Z) (w (a - i + -2)%Z)).
    f_equal; congruence.
Qed.

(** Mirrored data and opposite velocities give opposite fluxes. *)
Lemma flux_mirror k v v' u w a i :
  (forall z, (i - 1 - radius k <= z <= i + radius k)%Z -> u z = w (a - z)%Z) ->
  v' (a + 1 - i)%Z = - v i -> flux k v u i = - flux k v' w (a + 1 - i).
Proof.
  intros H V. rewrite (flux_ext k v v u (fun z => w (a - z)%Z) i) by auto.
  unfold flux, upwind. rewrite !cell_faces_mirror. cbn [fst snd]. rewrite V.
  replace (a + 1 - i - 1)%Z with (a - i)%Z by lia. replace (a - (i - 1))%Z with (a + 1 - i)%Z by lia.
  destruct (Rlt_dec 0 (v i)) as [p|p]; destruct (Rlt_dec 0 (- v i)) as [q|q]; try lra.
  assert (v i = 0) by lra. rewrite H0. ring.
Qed.

(** ** Reflection permutes the momenta *)
Lemma reflect_angle_inv c e x : pos_cfg c -> Z.even (N_p2 c) = true -> inb (N_p c) x ->
  reflect_angle e (N_p1 c) (N_p2 c) (reflect_angle e (N_p1 c) (N_p2 c) x) = x.
Proof.
  intros (P1&P2&P3&PS) EV Hx. destruct (row_split (N_p1 c) (N_p2 c) (N_p3 c) x) as (E&B1&B2&B3); auto.
  apply Z.even_spec in EV. destruct EV as [h Hh].
  assert (HH : (N_p2 c / 2 = h)%Z) by (rewrite Hh, Z.mul_comm; apply Z.div_mul; lia).
  unfold reflect_angle, prow. rewrite HH. set (i2 := ((x / N_p1 c) mod N_p2 c)%Z) in *.
  destruct e.
  1,2: destruct (pidx_split (N_p1 c) (N_p2 c) (x mod N_p1 c) ((h - 1 - i2) mod N_p2 c) (x / N_p1 c / N_p2 c)) as (A1&A2&A3);
    [auto|apply Z.mod_pos_bound; auto|]; rewrite A1, A2, A3; etransitivity; [|symmetry; exact E];
    do 3 f_equal; rewrite Zminus_mod_idemp_r; replace (h - 1 - (h - 1 - i2))%Z with i2 by lia; apply Z.mod_small; exact B2.
  1,2: destruct (pidx_split (N_p1 c) (N_p2 c) (x mod N_p1 c) (N_p2 c - 1 - i2) (x / N_p1 c / N_p2 c)) as (A1&A2&A3);
    [auto|unfold inb in *; lia|]; rewrite A1, A2, A3; etransitivity; [|symmetry; exact E]; lia.
Qed.

Definition reflectable (c : cfg) : Prop :=
  p_space_grid c = "cartesian"%string \/ (p_space_grid c = "polar2D"%string /\ Z.even (N_p2 c) = true).

Lemma reflected_inv c e x : pos_cfg c -> reflectable c -> inb (N_p c) x -> reflected c e (reflected c e x) = x.
Proof.
  intros P [G|[G EV]] Hx; unfold reflected; rewrite G; cbn.
  - apply reverse_normal_inv; auto.
  - apply reflect_angle_inv; auto.
Qed.

Lemma zsum_reflected c e F : pos_cfg c -> reflectable c ->
  zsum (N_p c) (fun x => F (reflected c e x)) = zsum (N_p c) F.
Proof.
  intros (P1&P2&P3&PS) G. unfold N_p. rewrite !zsum3 by lia.
  assert (PI : forall i1 i2 i3, inb (N_p1 c) i1 -> inb (N_p2 c) i2 ->
    let x := (i1 + N_p1 c * (i2 + N_p2 c * i3))%Z in
    (x mod N_p1 c = i1 /\ (x / N_p1 c) mod N_p2 c = i2 /\ x / N_p1 c / N_p2 c = i3)%Z) by (intros; apply pidx_split; auto).
  unfold reflected. destruct G as [G|[G EV]]; rewrite G; cbn [String.eqb Ascii.eqb Bool.eqb].
  - apply zsum_ext. intros i3 H3. destruct e; unfold reverse_normal, prow.
    1,2: apply zsum_ext; intros i2 H2;
      rewrite <- (zsum_rev (N_p1 c) (fun i1 => F (i1 + N_p1 c * (i2 + N_p2 c * i3))%Z)) by lia;
      apply zsum_ext; intros i1 H1; destruct (PI i1 i2 i3 H1 H2) as (A1&A2&A3); cbv zeta; rewrite A1, A2, A3; reflexivity.
    1,2: rewrite <- (zsum_rev (N_p2 c) (fun i2 => zsum (N_p1 c) (fun i1 => F (i1 + N_p1 c * (i2 + N_p2 c * i3))%Z))) by lia;
      apply zsum_ext; intros i2 H2; apply zsum_ext; intros i1 H1;
      destruct (PI i1 i2 i3 H1 H2) as (A1&A2&A3); cbv zeta; rewrite A1, A2, A3; reflexivity.
  - apply zsum_ext. intros i3 H3. destruct e; unfold reflect_angle, prow.
    1,2: set (h := (N_p2 c / 2)%Z);
      transitivity (zsum (N_p2 c) (fun i2 => zsum (N_p1 c) (fun i1 => F (i1 + N_p1 c * ((h - 1 - i2) mod N_p2 c + N_p2 c * i3))%Z)));
      [apply zsum_ext; intros i2 H2; apply zsum_ext; intros i1 H1;
       destruct (PI i1 i2 i3 H1 H2) as (A1&A2&A3); cbv zeta; rewrite A1, A2, A3; reflexivity|];
      rewrite <- (zsum_rev (N_p2 c) (fun i2 => zsum (N_p1 c) (fun i1 => F (i1 + N_p1 c * ((h - 1 - i2) mod N_p2 c + N_p2 c * i3))%Z))) by lia;
      rewrite <- (zsum_shift (N_p2 c) (fun i2 => zsum (N_p1 c) (fun i1 => F (i1 + N_p1 c * (i2 + N_p2 c * i3))%Z)) h) by lia;
      apply zsum_ext; intros i2 H2; apply zsum_ext; intros i1 H1; do 4 f_equal;
      replace (h - 1 - (N_p2 c - 1 - i2))%Z with (i2 + h + (-1) * N_p2 c)%Z by lia; rewrite Z_mod_plus_full; reflexivity.
    1,2: rewrite <- (zsum_rev (N_p2 c) (fun i2 => zsum (N_p1 c) (fun i1 => F (i1 + N_p1 c * (i2 + N_p2 c * i3))%Z))) by lia;
      apply zsum_ext; intros i2 H2; apply zsum_ext; intros i1 H1;
      destruct (PI i1 i2 i3 H1 H2) as (A1&A2&A3); cbv zeta; rewrite A1, A2, A3; reflexivity.
Qed.

(** A quantity that changes sign under reflection sums to zero. *)
Lemma zsum_odd c e F : pos_cfg c -> reflectable c ->
  (forall x, inb (N_p c) x -> F (reflected c e x) = - F x) -> zsum (N_p c) F = 0.
Proof.
  intros P G H. pose proof (zsum_reflected c e F P G) as E.
  rewrite (zsum_ext (N_p c) _ (fun x => - F x)) in E by (intros; apply H; auto).
  rewrite zsum_opp in E. lra.
Qed.

(** ** Fluxes through the sides of a closed box *)
Section Closed.
Variables (c : cfg) (bv : inflow_values) (k1 k2 : scheme).
Local Notation L := (lay c).
Hypothesis W : wf_cfg c k1 k2.
Hypothesis BX : box_fvm c k1.
Hypothesis CB : closed_box c.

Lemma box_reflectable : reflectable c.
Proof using BX. destruct BX as (_&_&_&_&_&_&_&_&_&_&G). exact G. Qed.
Lemma box_pos : (0 < gN1 L)%Z /\ (0 < gN2 L)%Z.
Proof using BX. destruct BX as (_&(A&_)&(B&_)&_). auto. Qed.

Lemma sides1 : (in_q c ELeft = "periodic"%string /\ in_q c ERight = "periodic"%string)
  \/ (in_q c ELeft = "mirror"%string /\ in_q c ERight = "mirror"%string).
Proof using BX CB.
  destruct BX as (_&_&_&_&_&_&_&_&S1&_&_). destruct S1 as [(_&A&B)|(_&[A|A]&[B|B])]; auto;
  exfalso; eapply CB; eauto.
Qed.
Lemma sides2 : (in_q c EBottom = "periodic"%string /\ in_q c ETop = "periodic"%string)
  \/ (in_q c EBottom = "mirror"%string /\ in_q c ETop = "mirror"%string).
Proof using BX CB.
  destruct BX as (_&_&_&_&_&_&_&_&_&S2&_). destruct S2 as [(_&A&B)|(_&[A|A]&[B|B])]; auto;
  exfalso; eapply CB; eauto.
Qed.

Lemma line1_mirror t u x s g2 : in_q c ELeft = "mirror"%string -> in_q c ERight = "mirror"%string ->
  inb (N_p c) x ->
  (forall z, (- gN1 L <= z < gN1 L)%Z ->
     line1 c bv t u x s g2 z = line1 c bv t u (reflected c ELeft x) s g2 (-1 - z))
  /\ (forall z, (0 <= z < 2 * gN1 L)%Z ->
     line1 c bv t u x s g2 z = line1 c bv t u (reflected c ELeft x) s g2 (2 * gN1 L - 1 - z)).
Proof using W BX.
  intros EL ER Hx. pose proof (wf_pos _ _ _ W) as PC. destruct box_pos as [N1 N2].
  pose proof (reflected_inv c ELeft x PC box_reflectable Hx) as RI.
  assert (RR : forall y, reflected c ERight y = reflected c ELeft y) by reflexivity.
  split; intros z Hz; unfold line1, continued, beyond, wall_value; rewrite EL, ER; cbn [String.eqb Ascii.eqb Bool.eqb];
    rewrite ?RR, ?RI.
  - destruct (z <? 0)%Z eqn:A; destruct (-1 - z <? 0)%Z eqn:B; try (apply Z.ltb_lt in A; apply Z.ltb_lt in B; lia);
      try (apply Z.ltb_ge in A; apply Z.ltb_ge in B; lia).
    + replace (-1 - z <? gN1 L)%Z with true by (symmetry; apply Z.ltb_lt; lia). reflexivity.
    + replace (z <? gN1 L)%Z with true by (symmetry; apply Z.ltb_lt; lia). f_equal. lia.
  - replace (z <? 0)%Z with false by (symmetry; apply Z.ltb_ge; lia).
    replace (2 * gN1 L - 1 - z <? 0)%Z with false by (symmetry; apply Z.ltb_ge; lia).
    destruct (z <? gN1 L)%Z eqn:A; destruct (2 * gN1 L - 1 - z <? gN1 L)%Z eqn:B;
      try (apply Z.ltb_lt in A; apply Z.ltb_lt in B; lia); try (apply Z.ltb_ge in A; apply Z.ltb_ge in B; lia).
    + f_equal. lia.
    + reflexivity.
Qed.

Lemma line2_mirror t u x s g1 : in_q c EBottom = "mirror"%string -> in_q c ETop = "mirror"%string ->
  inb (N_p c) x ->
  (forall z, (- gN2 L <= z < gN2 L)%Z ->
     line2 c bv t u x s g1 z = line2 c bv t u (reflected c EBottom x) s g1 (-1 - z))
  /\ (forall z, (0 <= z < 2 * gN2 L)%Z ->
     line2 c bv t u x s g1 z = line2 c bv t u (reflected c EBottom x) s g1 (2 * gN2 L - 1 - z)).
Proof using W BX.
  intros EL ER Hx. pose proof (wf_pos _ _ _ W) as PC. destruct box_pos as [N1 N2].
  pose proof (reflected_inv c EBottom x PC box_reflectable Hx) as RI.
  assert (RR : forall y, reflected c ETop y = reflected c EBottom y) by reflexivity.
  split; intros z Hz; unfold line2, continued, beyond, wall_value; rewrite EL, ER; cbn [String.eqb Ascii.eqb Bool.eqb];
    rewrite ?RR, ?RI.
  - destruct (z <? 0)%Z eqn:A; destruct (-1 - z <? 0)%Z eqn:B; try (apply Z.ltb_lt in A; apply Z.ltb_lt in B; lia);
      try (apply Z.ltb_ge in A; apply Z.ltb_ge in B; lia).
    + replace (-1 - z <? gN2 L)%Z with true by (symmetry; apply Z.ltb_lt; lia). reflexivity.
    + replace (z <? gN2 L)%Z with true by (symmetry; apply Z.ltb_lt; lia). f_equal. lia.
  - replace (z <? 0)%Z with false by (symmetry; apply Z.ltb_ge; lia).
    replace (2 * gN2 L - 1 - z <? 0)%Z with false by (symmetry; apply Z.ltb_ge; lia).
    destruct (z <? gN2 L)%Z eqn:A; destruct (2 * gN2 L - 1 - z <? gN2 L)%Z eqn:B;
      try (apply Z.ltb_lt in A; apply Z.ltb_lt in B; lia); try (apply Z.ltb_ge in A; apply Z.ltb_ge in B; lia).
    + f_equal. lia.
    + reflexivity.
Qed.

(** Sum over a line of the flux differences. *)
Lemma advect_line k n h v u : (0 <= n)%Z -> zsum n (advect k h v u) = - (flux k v u n - flux k v u 0) / h.
Proof.
  intros H. rewrite (zsum_ext n _ (fun i => (flux k v u (i + 1) - flux k v u i) * (- / h))).
  2:{ intros. unfold advect, Rdiv. ring. }
  rewrite zsum_scal_r, (zsum_telescope n (flux k v u)) by auto. unfold Rdiv. ring.
Qed.

Lemma line1_total t P u s g2 : h1 P = dq1 c ->
  (in_q c ELeft = "periodic"%string -> forall x, inb (N_p c) x -> vel1 P x s (gN1 L) g2 = vel1 P x s 0%Z g2) ->
  (in_q c ELeft <> "periodic"%string -> forall x w, inb (N_p c) x -> w = 0%Z \/ w = gN1 L ->
     vel1 P (reflected c ELeft x) s w g2 = - vel1 P x s w g2) ->
  kq P = k1 ->
  zsum (N_p c) (fun x => zsum (gN1 L) (advect (kq P) (h1 P) (fun i => vel1 P x s i g2) (line1 c bv t u x s g2))) = 0.
Proof using W BX CB.
  intros _ VP VM KQ. pose proof (wf_pos _ _ _ W) as PC. destruct box_pos as [N1 N2].
  destruct (axis_min c k1 BX) as [AM _]. destruct (box_radius c k1 BX) as [RD _].
  pose proof (radius_nonneg k1) as RN.
  assert (GE : ng1 L = N_ghost c) by (destruct BX as (_&_&_&E&_); exact E). rewrite GE in RD.
  destruct sides1 as [[EL ER]|[EL ER]].
  - rewrite (zsum_ext _ _ (fun _ => 0)); [apply zsum_zero|]. intros x Hx.
    apply advect_sum; [lia|]. unfold flux. rewrite (VP EL x Hx). f_equal.
    unfold upwind. rewrite (VP EL x Hx).
    assert (PE : line1 c bv t u x s g2 = periodic (gN1 L) (fun z => u x s z g2)).
    { unfold line1, continued, periodic. rewrite EL. reflexivity. }
    rewrite PE.
    rewrite <- (cell_faces_periodic_mod (kq P) (gN1 L) (fun z => u x s z g2) (gN1 L - 1)) by auto.
    rewrite <- (cell_faces_periodic_mod (kq P) (gN1 L) (fun z => u x s z g2) (0 - 1)) by auto.
    rewrite <- (cell_faces_periodic_mod (kq P) (gN1 L) (fun z => u x s z g2) (gN1 L)) by auto.
    rewrite <- (cell_faces_periodic_mod (kq P) (gN1 L) (fun z => u x s z g2) 0) by auto.
    rewrite Z_mod_same_full, Z.mod_0_l by lia.
    replace (gN1 L - 1)%Z with (0 - 1 + 1 * gN1 L)%Z by lia. rewrite Z_mod_plus_full. reflexivity.
  - rewrite (zsum_ext _ _ (fun x => - (flux (kq P) (fun i => vel1 P x s i g2) (line1 c bv t u x s g2) (gN1 L)
        - flux (kq P) (fun i => vel1 P x s i g2) (line1 c bv t u x s g2) 0) / h1 P)) by (intros; apply advect_line; lia).
    assert (NP : in_q c ELeft <> "periodic"%string) by (rewrite EL; discriminate).
    apply (zsum_odd c ELeft); auto; [apply box_reflectable|]. intros x Hx.
    pose proof (reflected_bound c k1 k2 ELeft x W Hx) as HR.
    destruct (line1_mirror t u x s g2 EL ER Hx) as [ML MR]. rewrite KQ.
    rewrite (flux_mirror k1 (fun i => vel1 P x s i g2) (fun i => vel1 P (reflected c ELeft x) s i g2)
       (line1 c bv t u x s g2) (line1 c bv t u (reflected c ELeft x) s g2) (-1) 0).
    2:{ intros z Hz. apply ML. lia. }
    2:{ cbn. apply VM; auto. }
    rewrite (flux_mirror k1 (fun i => vel1 P x s i g2) (fun i => vel1 P (reflected c ELeft x) s i g2)
       (line1 c bv t u x s g2) (line1 c bv t u (reflected c ELeft x) s g2) (2 * gN1 L - 1) (gN1 L)).
    2:{ intros z Hz. apply MR. lia. }
    2:{ replace (2 * gN1 L - 1 + 1 - gN1 L)%Z with (gN1 L) by lia. apply VM; auto. }
    replace (2 * gN1 L - 1 + 1 - gN1 L)%Z with (gN1 L) by lia. change (-1 + 1 - 0)%Z with 0%Z.
    unfold Rdiv. ring.
Qed.

Lemma line2_total t P u s g1 :
  (in_q c EBottom = "periodic"%string -> forall x, inb (N_p c) x -> vel2 P x s g1 (gN2 L) = vel2 P x s g1 0%Z) ->
  (in_q c EBottom <> "periodic"%string -> forall x w, inb (N_p c) x -> w = 0%Z \/ w = gN2 L ->
     vel2 P (reflected c EBottom x) s g1 w = - vel2 P x s g1 w) ->
  kq P = k1 ->
  zsum (N_p c) (fun x => zsum (gN2 L) (advect (kq P) (h2 P) (fun i => vel2 P x s g1 i) (line2 c bv t u x s g1))) = 0.
Proof using W BX CB.
  intros VP VM KQ. pose proof (wf_pos _ _ _ W) as PC. destruct box_pos as [N1 N2].
  destruct (axis_min c k1 BX) as [_ AM]. destruct (box_radius c k1 BX) as [_ RD].
  pose proof (radius_nonneg k1) as RN.
  assert (GE : ng2 L = N_ghost c) by (destruct BX as (_&_&_&_&E&_); exact E). rewrite GE in RD.
  destruct sides2 as [[EL ER]|[EL ER]].
  - rewrite (zsum_ext _ _ (fun _ => 0)); [apply zsum_zero|]. intros x Hx.
    apply advect_sum; [lia|]. unfold flux. rewrite (VP EL x Hx). f_equal.
    unfold upwind. rewrite (VP EL x Hx).
    assert (PE : line2 c bv t u x s g1 = periodic (gN2 L) (fun z => u x s g1 z)).
    { unfold line2, continued, periodic. rewrite EL. reflexivity. }
    rewrite PE.
    rewrite <- (cell_faces_periodic_mod (kq P) (gN2 L) (fun z => u x s g1 z) (gN2 L - 1)) by auto.
    rewrite <- (cell_faces_periodic_mod (kq P) (gN2 L) (fun z => u x s g1 z) (0 - 1)) by auto.
    rewrite <- (cell_faces_periodic_mod (kq P) (gN2 L) (fun z => u x s g1 z) (gN2 L)) by auto.
    rewrite <- (cell_faces_periodic_mod (kq P) (gN2 L) (fun z => u x s g1 z) 0) by auto.
    rewrite Z_mod_same_full, Z.mod_0_l by lia.
    replace (gN2 L - 1)%Z with (0 - 1 + 1 * gN2 L)%Z by lia. rewrite Z_mod_plus_full. reflexivity.
  - rewrite (zsum_ext _ _ (fun x => - (flux (kq P) (fun i => vel2 P x s g1 i) (line2 c bv t u x s g1) (gN2 L)
        - flux (kq P) (fun i => vel2 P x s g1 i) (line2 c bv t u x s g1) 0) / h2 P)) by (intros; apply advect_line; lia).
    assert (NP : in_q c EBottom <> "periodic"%string) by (rewrite EL; discriminate).
    apply (zsum_odd c EBottom); auto; [apply box_reflectable|]. intros x Hx.
    pose proof (reflected_bound c k1 k2 EBottom x W Hx) as HR.
    destruct (line2_mirror t u x s g1 EL ER Hx) as [ML MR]. rewrite KQ.
    rewrite (flux_mirror k1 (fun i => vel2 P x s g1 i) (fun i => vel2 P (reflected c EBottom x) s g1 i)
       (line2 c bv t u x s g1) (line2 c bv t u (reflected c EBottom x) s g1) (-1) 0).
    2:{ intros z Hz. apply ML. lia. }
    2:{ cbn. apply VM; auto. }
    rewrite (flux_mirror k1 (fun i => vel2 P x s g1 i) (fun i => vel2 P (reflected c EBottom x) s g1 i)
       (line2 c bv t u x s g1) (line2 c bv t u (reflected c EBottom x) s g1) (2 * gN2 L - 1) (gN2 L)).
    2:{ intros z Hz. apply MR. lia. }
    2:{ replace (2 * gN2 L - 1 + 1 - gN2 L)%Z with (gN2 L) by lia. apply VM; auto. }
    replace (2 * gN2 L - 1 + 1 - gN2 L)%Z with (gN2 L) by lia. change (-1 + 1 - 0)%Z with 0%Z.
    unfold Rdiv. ring.
Qed.

Lemma vel_fits t E : velocity_fits c -> forall s, inb (N_species c) s ->
  let P := prob c k1 k2 t E in
  ((in_q c ELeft = "periodic"%string -> forall x g2, inb (N_p c) x -> vel1 P x s (gN1 L) g2 = vel1 P x s 0%Z g2)
  /\ (in_q c ELeft <> "periodic"%string -> forall x w g2, inb (N_p c) x -> w = 0%Z \/ w = gN1 L ->
     vel1 P (reflected c ELeft x) s w g2 = - vel1 P x s w g2))
  /\ (in_q c EBottom = "periodic"%string -> forall x g1, inb (N_p c) x -> vel2 P x s g1 (gN2 L) = vel2 P x s g1 0%Z)
  /\ (in_q c EBottom <> "periodic"%string -> forall x w g1, inb (N_p c) x -> w = 0%Z \/ w = gN2 L ->
     vel2 P (reflected c EBottom x) s g1 w = - vel2 P x s g1 w).
Proof.
  intros VF s Hs P. repeat split; intros.
  - destruct (VF t x s g2) as (A&_); auto; apply A; auto.
  - destruct (VF t x s g2) as (_&A&_); auto; apply A; auto.
  - destruct (VF t x s g1) as (_&_&A&_); auto; apply A; auto.
  - destruct (VF t x s g1) as (_&_&_&A); auto; apply A; auto.
Qed.

Lemma advect_box_total t t' E u sp : velocity_fits c -> inb (N_species c) sp ->
  zsum (N_p c) (fun x => total (gN1 L) (gN2 L) (advect_box c bv t' (prob c k1 k2 t E) u x sp)) = 0.
Proof using W BX CB.
  intros VF Hs. destruct (vel_fits t E VF sp Hs) as ((A&B)&C&D).
  rewrite (zsum_ext _ _ (fun x =>
    zsum (gN2 L) (fun g2 => zsum (gN1 L) (advect k1 (dq1 c) (fun i => vel1 (prob c k1 k2 t E) x sp i g2) (line1 c bv t' u x sp g2)))
    + zsum (gN1 L) (fun g1 => zsum (gN2 L) (advect k1 (dq2 c) (fun i => vel2 (prob c k1 k2 t E) x sp g1 i) (line2 c bv t' u x sp g1))))).
  2:{ intros x Hx. unfold advect_box.
      rewrite (total_plus (gN1 L) (gN2 L) (fun g1 g2 => advect (kq (prob c k1 k2 t E)) (h1 (prob c k1 k2 t E)) (fun i => vel1 (prob c k1 k2 t E) x sp i g2) (line1 c bv t' u x sp g2) g1)).
      unfold total. f_equal. rewrite zsum_swap. reflexivity. }
  rewrite zsum_plus, zsum_swap.
  rewrite (zsum_ext (gN2 L) _ (fun _ => 0)).
  2:{ intros g2 _. apply (line1_total t' (prob c k1 k2 t E)); auto. }
  rewrite zsum_swap. rewrite (zsum_ext (gN1 L) _ (fun _ => 0)).
  2:{ intros g1 _. apply (line2_total t' (prob c k1 k2 t E)); auto. }
  rewrite !zsum_zero. lra.
Qed.

Lemma rhs_box_total t t' E u sp : velocity_fits c -> source_conserves c -> inb (N_species c) sp ->
  zsum (N_p c) (fun x => total (gN1 L) (gN2 L) (rhs_box c bv t' (prob c k1 k2 t E) u x sp)) = 0.
Proof using W BX CB.
  intros VF SC Hs. pose proof (wf_pos _ _ _ W) as (P1&P2&P3&PS).
  set (P := prob c k1 k2 t E).
  rewrite (zsum_ext (N_p c) _ (fun x => total (gN1 L) (gN2 L) (advect_box c bv t' P u x sp)
     + total (gN1 L) (gN2 L) (fun g1 g2 => src P g1 g2 (fun x' s' => u x' s' g1 g2) x sp
       + advect_p P g1 g2 (fun x' s' => u x' s' g1 g2) x sp))).
  2:{ intros x Hx. rewrite <- total_plus. apply total_ext. intros. unfold rhs_box. lra. }
  rewrite zsum_plus. unfold P. rewrite advect_box_total by auto. fold P. rewrite Rplus_0_l.
  unfold total.
  rewrite zsum_swap. rewrite (zsum_ext (gN1 L) _ (fun _ => 0)); [apply zsum_zero|]. intros g1 _.
  rewrite (zsum_swap (N_p c) (gN2 L) (fun x g2 => src P g1 g2 (fun x' s' => u x' s' g1 g2) x sp
       + advect_p P g1 g2 (fun x' s' => u x' s' g1 g2) x sp)).
  rewrite (zsum_ext (gN2 L) _ (fun _ => 0)); [apply zsum_zero|]. intros g2 _.
  rewrite zsum_plus.
  pose proof (advect_p_total P g1 g2 (fun x' s' => u x' s' g1 g2) sp P1 P2 P3) as AP.
  unfold P in AP at 1 2 3. cbn [M1 M2 M3 prob problem_of problem_at] in AP. unfold N_p at 2. rewrite AP.
  rewrite Rplus_0_r. unfold P, prob, problem_of, problem_at; cbn [src].
  destruct SC as [SO|SC]; [rewrite SO; apply zsum_zero|]. destruct (source_enabled c); [apply SC|apply zsum_zero].
Qed.
End Closed.

(** A property of the global state kept by the textbook step on the box is kept
    by runs. *)
Lemma run_invariant_box c bv k1 k2 (Q : gstate -> Prop) :
  wf_cfg c k1 k2 -> box_fvm c k1 -> prescribes c bv ->
  (forall u v, (forall x s g1 g2, inb (N_p c) x -> inb (N_species c) s -> inb (gN1 (lay c)) g1 ->
      inb (gN2 (lay c)) g2 -> u x s g1 g2 = v x s g1 g2) -> Q u -> Q v) ->
  forall l,
  (forall k u E0 Eh, In k l -> Q u ->
     Q (midpoint_box c bv (ct k) (prob c k1 k2 (ct k) E0) (prob c k1 k2 (ct k) Eh) (cdt k) u)) ->
  forall s, shaped (lay c) (N_p c) (N_species c) (sf s) -> Q (gval (lay c) (sf s)) ->
  exists s', run_fvm c l s = Ok s' /\ shaped (lay c) (N_p c) (N_species c) (sf s')
    /\ Q (gval (lay c) (sf s')).
Proof.
  intros W BX PV EX l. induction l as [|k l IH]; intros ST s SH Qs.
  - exists s. auto.
  - cbn [run_fvm]. assert (PL := BX). destruct PL as (_&(_&F1&_)&(_&F2&_)&_).
    destruct (timestep_fvm_box c bv k1 k2 (ct k) (cdt k) (cE0 k) (cEh k)
       (gfields_of (lay c) (cE0 k)) (gfields_of (lay c) (cEh k)) s W BX PV SH) as (s1&Q1&S1&V1);
      try (apply shows3_of; auto).
    rewrite Q1. cbn [rbind]. apply IH; auto.
    + intros; apply ST; simpl; auto.
    + eapply EX; [|apply (ST k); [simpl; auto|exact Qs]]. intros; symmetry; apply V1; auto.
Qed.

Lemma conserve_box c k1 k2 l s : wf_cfg c k1 k2 -> box_fvm c k1 -> closed_box c ->
  velocity_fits c -> source_conserves c -> shaped (lay c) (N_p c) (N_species c) (sf s) ->
  exists s', run_fvm c l s = Ok s' /\ shaped (lay c) (N_p c) (N_species c) (sf s')
  /\ forall sp, inb (N_species c) sp ->
     zsum (N_p c) (fun x => gtotal (lay c) (sf s') x sp) = zsum (N_p c) (fun x => gtotal (lay c) (sf s) x sp).
Proof.
  intros W BX CB VF SC SH. set (bv := (fun _ _ _ _ _ _ => 0) : inflow_values).
  assert (PV : prescribes c bv) by (intros e t r1 r2 f Hm; exfalso; eapply CB; eauto).
  destruct (run_invariant_box c bv k1 k2 (fun u => forall sp, inb (N_species c) sp ->
     zsum (N_p c) (fun x => total (gN1 (lay c)) (gN2 (lay c)) (u x sp)) = zsum (N_p c) (fun x => gtotal (lay c) (sf s) x sp)) W BX PV)
     with (l := l) (s := s) as (s'&R&S'&Q); auto.
  - intros u v H Q sp Hs. rewrite <- Q by auto. apply zsum_ext. intros.
    apply total_ext. intros; symmetry; apply H; auto.
  - intros k u E0 Eh _ Q sp Hs. rewrite <- Q by auto. unfold midpoint_box.
    set (uh := fun x s g1 g2 => u x s g1 g2 + cdt k / 2 * rhs_box c bv (ct k) (prob c k1 k2 (ct k) E0) u x s g1 g2).
    rewrite (zsum_ext (N_p c) _ (fun x => total (gN1 (lay c)) (gN2 (lay c)) (u x sp)
        + cdt k * total (gN1 (lay c)) (gN2 (lay c)) (rhs_box c bv (ct k) (prob c k1 k2 (ct k) Eh) uh x sp))).
    2:{ intros. rewrite (total_plus (gN1 (lay c)) (gN2 (lay c)) (u i sp)), total_scal. reflexivity. }
    rewrite zsum_plus, zsum_scal, rhs_box_total by auto. lra.
  - exists s'. split; auto.
Qed.
