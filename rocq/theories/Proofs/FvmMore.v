(** Further consequences of the refinement: histories, the textbook velocity
    placement, momentum fluxes, ghost exchange, momentum grid. *)
From Coq Require Import ZArith Reals Lra Lia Psatz String List Bool FunctionalExtensionality.
From Verif Require Import Base.Prelude Base.ZSum Model.Af Model.Grid Model.Petsc Model.Config
  Model.Reconstruct Model.Boundaries Model.Fvm
  Spec.Limiters Spec.Stencil Spec.Lattice Spec.Domain Spec.FvmProblem Spec.FvmRun Spec.Cells
  Proofs.AfLemmas Proofs.ReconstructLemmas Proofs.ReconstructApi Proofs.PetscLemmas
  Proofs.FluxLemmas Proofs.ConvLemmas Proofs.FvmLemmas Proofs.FvmLemmas2 Proofs.FvmConserve.
Import ListNotations.
Local Open Scope R_scope.

(** ** Histories *)
Lemma refinement_run c k1 k2 l : wf_cfg c k1 k2 -> periodic_fvm c k1 ->
  (forall k E0 Eh, In (k, E0, Eh) l -> shows3 (lay c) (cE0 k) E0 /\ shows3 (lay c) (cEh k) Eh) ->
  forall s u, holds c (sf s) u ->
  exists s', run_fvm c (map (fun x => fst (fst x)) l) s = Ok s' /\ holds c (sf s') (run_global c k1 k2 l u).
Proof.
  intros W PF. induction l as [|[[k E0] Eh] l IH]; intros SW s u H.
  - exists s. auto.
  - cbn [map run_fvm run_global fst].
    destruct (SW k E0 Eh (or_introl eq_refl)) as [S0 Sh].
    destruct (refinement c k1 k2 (ct k) (cdt k) (cE0 k) (cEh k) E0 Eh s u W PF S0 Sh H) as (s1&R&H1).
    rewrite R. cbn [rbind]. apply IH; auto. intros. apply SW. right; auto.
Qed.

(** ** Textbook placement *)
Lemma advect_vel_ext k h v v' u i : (forall z, v z = v' z) -> advect k h v u i = advect k h v' u i.
Proof. intros H. unfold advect, flux, upwind. rewrite !H. reflexivity. Qed.

Lemma textbook_rhs c k1 k2 t E1 E2 E3 u x s g1 g2 : velocity1_indep_q2 c ->
  rhs (textbook_problem c k1 k2 t E1 E2 E3) u x s g1 g2 = rhs (problem_of c k1 k2 t E1 E2 E3) u x s g1 g2.
Proof.
  intros VI. unfold rhs. f_equal. f_equal. unfold advect_q. f_equal.
  apply advect_vel_ext. intros z. apply VI.
Qed.

Lemma textbook_midpoint c k1 k2 t E F dt u x s g1 g2 : velocity1_indep_q2 c ->
  midpoint (textbook_problem c k1 k2 t (fst (fst E)) (snd (fst E)) (snd E))
           (textbook_problem c k1 k2 t (fst (fst F)) (snd (fst F)) (snd F)) dt u x s g1 g2
  = midpoint (prob c k1 k2 t E) (prob c k1 k2 t F) dt u x s g1 g2.
Proof.
  intros VI. unfold midpoint. rewrite textbook_rhs by auto. f_equal. f_equal.
  unfold prob. f_equal. extensionality a. extensionality b. extensionality d. extensionality e.
  rewrite textbook_rhs by auto. reflexivity.
Qed.

Lemma textbook_refinement c k1 k2 t dt A0 Ah E0 Eh s u :
  wf_cfg c k1 k2 -> periodic_fvm c k1 -> velocity1_indep_q2 c ->
  shows3 (lay c) A0 E0 -> shows3 (lay c) Ah Eh ->
  holds c (sf s) u ->
  exists s', timestep_fvm c t dt A0 Ah s = Ok s'
  /\ holds c (sf s')
       (midpoint (textbook_problem c k1 k2 t (fst (fst E0)) (snd (fst E0)) (snd E0))
                 (textbook_problem c k1 k2 t (fst (fst Eh)) (snd (fst Eh)) (snd Eh)) dt u).
Proof.
  intros W PF VI S0 Sh H. destruct (refinement c k1 k2 t dt A0 Ah E0 Eh s u W PF S0 Sh H) as (s'&R&[D V]).
  exists s'. split; auto. split; auto. intros. rewrite V by auto. symmetry. apply textbook_midpoint; auto.
Qed.

(** A shear flow C_q = (q2, 0) on a 2 x 1 grid. *)
Definition sh_lay : layout := Layout 2 1 [2%Z] [1%Z] 1 1 PPeriodic PPeriodic.
Definition sh_cfg : cfg :=
  Cfg sh_lay 1 1 1 1 1 0 2 0 2 1 2 [0] [0] [0] [1] [1] [1]
    "FVM" "FVM" "piecewise-constant" "minmod" "cartesian" false false
    (fun _ _ _ q2 _ _ _ => (q2, 0)) (fun _ _ _ q2 _ _ _ => (q2, 0))
    (fun _ _ _ _ _ _ _ _ _ _ _ _ _ => (0, 0, 0)) (fun _ _ _ _ _ _ _ _ _ _ _ _ _ => (0, 0, 0))
    (fun _ _ _ _ _ _ => 0) (fun _ => "periodic"%string) (fun _ _ _ _ f => f) 0 0
    (fun v _ _ _ _ => v) 0.
Definition sh_init (z : Z) : R := if Z.eqb z 0 then 1 else 0.
Definition sh_state : fstate :=
  FState (fun _ _ => Arr 1 1 4 3 (fun _ _ i _ => sh_init (i - 1)%Z)) (fun _ _ _ => 0).
Definition zf : fields3 := (fun _ _ _ => 0, fun _ _ _ => 0, fun _ _ _ => 0).
Definition zA : fieldseq := fun _ _ => (Arr 6 1 4 3 (fun _ _ _ _ => 0), Arr 6 1 4 3 (fun _ _ _ _ => 0), Arr 6 1 4 3 (fun _ _ _ _ => 0)).

Lemma sh_wf : wf_cfg sh_cfg FirstOrder MC.
Proof. unfold wf_cfg. cbn. repeat split; try lia; try discriminate; auto. Qed.
Lemma sh_per : periodic_fvm sh_cfg FirstOrder.
Proof. unfold periodic_fvm, periodic_layout, tiles; cbn. repeat split; try lia; repeat constructor. Qed.
Lemma sh_holds : holds sh_cfg (sf sh_state) (fun _ _ g1 _ => sh_init g1).
Proof.
  split.
  - intros r1 r2 [H1 H2]. cbn in *. destruct r1; [|lia]. destruct r2; [|lia]. cbn. auto.
  - intros x s g1 g2 Hx Hs H1 H2. change (lay sh_cfg) with sh_lay in *. cbn [gN1 gN2 sh_lay] in *. unfold inb in *.
    unfold gval. cbn [sf sh_state el ng1 sh_lay blk1].
    assert (owner [2%Z] g1 = 0%nat) as -> by (cbn [owner]; destruct (Z.ltb_spec g1 2); [auto|lia]).
    change (off [2%Z] 0) with 0%Z. f_equal. lia.
Qed.
Lemma sh_vel : velocity_periodic sh_cfg.
Proof. intros t q1 q2 p1 p2 p3. cbn. split; reflexivity. Qed.

Lemma advect_v0 k h u i : advect k h (fun _ => 0) u i = 0.
Proof. unfold advect, flux. unfold Rdiv. ring. Qed.
Lemma advect_up h v u i : (forall z, v z = 1) -> advect FirstOrder h v u i = - (u i - u (i - 1)%Z) / h.
Proof.
  intros V. unfold advect, flux, upwind. rewrite !V. cbn [cell_faces fst snd]. destruct (Rlt_dec 0 1); [|lra].
  replace (i + 1 - 1)%Z with i by lia. unfold Rdiv. ring.
Qed.

Lemma shear_witness : exists s', timestep_fvm sh_cfg 0 (1/2) zA zA sh_state = Ok s'
  /\ gval (lay sh_cfg) (sf s') 0 0 0 0 = 1
  /\ midpoint (textbook_problem sh_cfg FirstOrder MC 0 (fun _ _ _ => 0) (fun _ _ _ => 0) (fun _ _ _ => 0))
              (textbook_problem sh_cfg FirstOrder MC 0 (fun _ _ _ => 0) (fun _ _ _ => 0) (fun _ _ _ => 0))
              (1/2) (fun _ _ g1 _ => sh_init g1) 0%Z 0%Z 0%Z 0%Z = 3/4.
Proof.
  assert (S3 : shows3 (lay sh_cfg) zA zf) by (repeat split; repeat intro; reflexivity).
  destruct (refinement sh_cfg FirstOrder MC 0 (1/2) zA zA zf zf sh_state _ sh_wf sh_per S3 S3 sh_holds)
    as (s'&R&[D V]).
  exists s'. split; [exact R|]. split.
  - rewrite V by (unfold inb; cbn; lia). unfold midpoint.
    assert (RZ : forall v x s g1, rhs (prob sh_cfg FirstOrder MC 0 zf) v x s g1 0%Z = 0).
    { intros v x s g1. unfold rhs.
      assert (advect_q (prob sh_cfg FirstOrder MC 0 zf) v x s g1 0%Z = 0) as ->.
      { unfold advect_q.
        rewrite (advect_vel_ext _ _ _ (fun _ => 0)) by (intros; cbn; unfold pos2; cbn; ring).
        rewrite (advect_vel_ext (kq _) (h2 _) _ (fun _ => 0)) by (intros; reflexivity).
        rewrite !advect_v0. ring. }
      cbn [prob problem_of problem_at src source_enabled sh_cfg].
      unfold advect_p.
      rewrite !(advect_vel_ext _ _ (periodic _ _) (fun _ => 0)) by (intros; reflexivity).
      rewrite !advect_v0. cbn. ring. }
    rewrite RZ. cbn. ring.
  - set (P := textbook_problem _ _ _ _ _ _ _).
    assert (RT : forall (v : gstate) g1, rhs P v 0%Z 0%Z g1 0%Z = - (v 0%Z 0%Z (g1 mod 2)%Z 0%Z - v 0%Z 0%Z ((g1 - 1) mod 2)%Z 0%Z)).
    { intros v g1. unfold rhs.
      assert (advect_q P v 0%Z 0%Z g1 0%Z = - (v 0%Z 0%Z (g1 mod 2)%Z 0%Z - v 0%Z 0%Z ((g1 - 1) mod 2)%Z 0%Z)) as ->.
      { unfold advect_q. change (kq P) with FirstOrder. change (h1 P) with 1. change (n1 P) with 2%Z. change (n2 P) with 1%Z.
        rewrite advect_up by (intros; cbn; unfold pos2; cbn; field).
        rewrite (advect_vel_ext FirstOrder (h2 _) _ (fun _ => 0)) by (intros; reflexivity).
        rewrite advect_v0. unfold periodic. field. }
      change (src P g1 0%Z (fun x' s' => v x' s' g1 0%Z) 0%Z 0%Z) with 0.
      unfold advect_p.
      rewrite !(advect_vel_ext _ _ (periodic _ _) (fun _ => 0)) by (intros; reflexivity).
      rewrite !advect_v0. ring. }
    unfold midpoint. rewrite RT. change (0 mod 2)%Z with 0%Z. change ((0 - 1) mod 2)%Z with 1%Z.
    rewrite !RT. change (0 mod 2)%Z with 0%Z. change ((0 - 1) mod 2)%Z with 1%Z.
    change (1 mod 2)%Z with 1%Z. change ((1 - 1) mod 2)%Z with 0%Z.
    unfold sh_init; cbn [Z.eqb]. field.
Qed.

(** ** Momentum fluxes *)
Lemma momentum_flux_total c k1 k r1 r2 C1 C2 C3 f :
  wf_cfg c k1 k -> scheme_of_name (reconstruction_method_in_p c) = Some k ->
  (0 < n1g (lay c) r1)%Z -> (0 < n2g (lay c) r2)%Z ->
  q_shaped c r1 r2 C1 -> q_shaped c r1 r2 C2 -> q_shaped c r1 r2 C3 -> q_shaped c r1 r2 f ->
  exists d, df_dt_p c r1 r2 C1 C2 C3 f = Ok d /\
  forall s i j, inb (N_species c) s -> inb (n1g (lay c) r1) i -> inb (n2g (lay c) r2) j ->
  zsum (N_p c) (fun x => el d x s i j) = 0.
Proof.
  intros W Hm G1 G2 S1 S2 S3 Sf.
  assert (PC : pos_cfg c) by (eapply wf_pos; eauto).
  destruct W as (P1&P2&P3&PS&_&_&_&L1&L2&L3&_).
  set (P s i j := Problem 1 1 1 1 FirstOrder (fun _ _ _ _ => 0) (fun _ _ _ _ => 0) (fun _ _ _ _ _ => 0)
     (N_p1 c) (N_p2 c) (N_p3 c) (fun s => nth (Z.to_nat s) (dp1 c) 0) (fun s => nth (Z.to_nat s) (dp2 c) 0)
    (fun s => nth (Z.to_nat s) (dp3 c) 0) k
    (fun x _ _ _ => el C1 x s i j) (fun x _ _ _ => el C2 x s i j) (fun x _ _ _ => el C3 x s i j)).
  destruct (df_dt_p_spec c k r1 r2 PC Hm (conj G1 G2) C1 C2 C3 f (P 0%Z 0%Z 0%Z)) as (d&Q&D&_); auto.
  exists d. split; auto. intros s i j Hs Hi Hj.
  destruct (df_dt_p_spec c k r1 r2 PC Hm (conj G1 G2) C1 C2 C3 f (P s i j)) as (d'&Q'&_&V); auto.
  assert (d' = d) by congruence. subst d'.
  rewrite (zsum_ext (N_p c) _ (fun x => advect_p (P s i j) 0 0 (fun x _ => el f x s i j) x s)).
  - apply (advect_p_total (P s i j) 0 0 (fun x _ => el f x s i j) s); auto.
  - intros x Hx. apply V; auto.
Qed.

(** ** Ghost exchange *)
Lemma exchange c s : periodic_layout (lay c) -> shaped (lay c) (N_p c) (N_species c) (sf s) ->
  let L := lay c in let s' := communicate_f c s in
  forall r1 r2 x sp i j, rank_ok L r1 r2 -> inb (N_p c) x -> inb (N_species c) sp ->
  inb (n1g L r1) i -> inb (n2g L r2) j ->
  el (sf s' r1 r2) x sp i j
    = gval L (sf s) x sp ((off (blk1 L) r1 + i - ng1 L) mod gN1 L) ((off (blk2 L) r2 + j - ng2 L) mod gN2 L)
  /\ ((ng1 L <= i < ng1 L + bsize (blk1 L) r1)%Z -> (ng2 L <= j < ng2 L + bsize (blk2 L) r2)%Z ->
      el (sf s' r1 r2) x sp i j = el (sf s r1 r2) x sp i j)
  /\ el (sf (communicate_f c s') r1 r2) x sp i j = el (sf s' r1 r2) x sp i j.
Proof.
  intros PL SH L s' r1 r2 x sp i j RK Hx Hs Hi Hj.
  assert (CE : forall s, shaped L (N_p c) (N_species c) (sf s) -> forall r1 r2 i j, rank_ok L r1 r2 ->
     inb (n1g L r1) i -> inb (n2g L r2) j ->
     el (sf (communicate_f c s) r1 r2) x sp i j
     = gper L (sf s) x sp (off (blk1 L) r1 + i - ng1 L) (off (blk2 L) r2 + j - ng2 L)).
  { intros. apply communicate_el; auto. }
  assert (PL' := PL). destruct PL' as ((N1&F1&T1)&(N2&F2&T2)&G1&G2&_). fold L in N1, F1, T1, N2, F2, T2, G1, G2.
  assert (INT : forall r1 r2 i j, rank_ok L r1 r2 -> inb (bsize (blk1 L) r1) i -> inb (bsize (blk2 L) r2) j ->
     el (sf s' r1 r2) x sp (ng1 L + i)%Z (ng2 L + j)%Z = el (sf s r1 r2) x sp (ng1 L + i)%Z (ng2 L + j)%Z).
  { intros a1 a2 k m RA Hk Hm. unfold inb in *. unfold s'. rewrite CE; auto; try (unfold inb, n1g, n2g; lia).
    rewrite gper_small.
    - replace (off (blk1 L) a1 + (ng1 L + k) - ng1 L)%Z with (off (blk1 L) a1 + k)%Z by lia.
      replace (off (blk2 L) a2 + (ng2 L + m) - ng2 L)%Z with (off (blk2 L) a2 + m)%Z by lia.
      apply gval_interior; auto.
    - destruct RA as [R1 R2]. pose proof (off_nonneg (blk1 L) a1 F1). pose proof (off_end (blk1 L) a1 F1 R1). lia.
    - destruct RA as [R1 R2]. pose proof (off_nonneg (blk2 L) a2 F2). pose proof (off_end (blk2 L) a2 F2 R2). lia. }
  split; [|split].
  - unfold s'. rewrite CE; auto.
  - intros Ki Kj. specialize (INT r1 r2 (i - ng1 L)%Z (j - ng2 L)%Z RK). unfold inb in INT.
    replace (ng1 L + (i - ng1 L))%Z with i in INT by lia. replace (ng2 L + (j - ng2 L))%Z with j in INT by lia.
    apply INT; lia.
  - rewrite CE; auto; [|apply communicate_shaped].
    unfold s' at 2. rewrite CE by auto. unfold gper, gval.
    destruct (owner_spec (blk1 L) ((off (blk1 L) r1 + i - ng1 L) mod gN1 L)) as (O1&O1a); auto.
    { rewrite T1. apply Z.mod_pos_bound; lia. }
    destruct (owner_spec (blk2 L) ((off (blk2 L) r2 + j - ng2 L) mod gN2 L)) as (O2&O2a); auto.
    { rewrite T2. apply Z.mod_pos_bound; lia. }
    apply INT; auto.
    + split; auto.
    + unfold inb; lia.
    + unfold inb; lia.
Qed.

(** ** Momentum grid *)
Lemma momentum_cells (start stop : R) (N i : Z) : (0 <= i < N)%Z -> start < stop ->
  let h := (stop - start) / IZR N in
  let lo := start + (0 + IZR i) * h in
  let mid := start + (1/2 + IZR i) * h in
  0 < h /\ mid = lo + h / 2 /\ start <= lo /\ lo + h <= stop
  /\ (i = 0%Z -> lo = start) /\ ((i + 1)%Z = N -> lo + h = stop)
  /\ start + (0 + IZR (i + 1)) * h = lo + h.
Proof.
  intros Hi Hs h lo mid. assert (0 < IZR N) by (apply (IZR_lt 0); lia).
  assert (0 <= IZR i) by (apply (IZR_le 0); lia).
  assert (IZR i + 1 <= IZR N) by (rewrite <- plus_IZR; apply IZR_le; lia).
  assert (Hh : 0 < h) by (apply Rdiv_lt_0_compat; lra).
  assert (EN : IZR N * h = stop - start) by (unfold h; field; lra).
  unfold mid, lo. repeat split.
  - lra.
  - lra.
  - assert (0 <= IZR i * h) by (apply Rmult_le_pos; lra). lra.
  - assert ((IZR i + 1) * h <= IZR N * h) by (apply Rmult_le_compat_r; lra). lra.
  - intros ->. lra.
  - intros E. replace (start + (0 + IZR i) * h + h) with (start + (IZR i + 1) * h) by ring.
    rewrite <- (plus_IZR i 1), E. lra.
  - rewrite plus_IZR. ring.
Qed.

Lemma tile_line (start stop : R) (N : Z) (lo mid : Z -> R) : (0 < N)%Z -> start < stop ->
  let h := (stop - start) / IZR N in
  (forall i, (0 <= i < N)%Z -> lo i = start + (0 + IZR i) * h) ->
  (forall i, (0 <= i < N)%Z -> mid i = start + (1/2 + IZR i) * h) ->
  tile_interval start stop N lo mid.
Proof.
  intros HN HS h HL HM. assert (0 < IZR N) by (apply (IZR_lt 0); lia).
  destruct (momentum_cells start stop N 0 ltac:(lia) HS) as (P&_). fold h in P.
  exists h. split; [auto|]. split; [unfold h; field; lra|]. intros i Hi.
  destruct (momentum_cells start stop N i Hi HS) as (_&A1&A2&A3&A4&A5&A6). fold h in A1, A2, A3, A4, A5, A6.
  rewrite HL, HM by auto. repeat split; auto. intros. rewrite HL by lia. exact A6.
Qed.

Lemma momentum_grid c k1 k2 (e1 e2 e3 : list R) s : wf_cfg c k1 k2 -> inb (N_species c) s ->
  let at_ l := nth (Z.to_nat s) l 0 in
  at_ (p1_start c) < at_ e1 -> at_ (p2_start c) < at_ e2 -> at_ (p3_start c) < at_ e3 ->
  at_ (dp1 c) = (at_ e1 - at_ (p1_start c)) / IZR (N_p1 c) ->
  at_ (dp2 c) = (at_ e2 - at_ (p2_start c)) / IZR (N_p2 c) ->
  at_ (dp3 c) = (at_ e3 - at_ (p3_start c)) / IZR (N_p3 c) ->
  let row i1 i2 i3 := (i1 + N_p1 c * (i2 + N_p2 c * i3))%Z in
  (forall i2 i3, inb (N_p2 c) i2 -> inb (N_p3 c) i3 ->
     tile_interval (at_ (p1_start c)) (at_ e1) (N_p1 c)
       (fun i => bel (p1_left c) (row i i2 i3) s 0 0) (fun i => bel (p1_center c) (row i i2 i3) s 0 0))
  /\ (forall i1 i3, inb (N_p1 c) i1 -> inb (N_p3 c) i3 ->
     tile_interval (at_ (p2_start c)) (at_ e2) (N_p2 c)
       (fun i => bel (p2_bottom c) (row i1 i i3) s 0 0) (fun i => bel (p2_center c) (row i1 i i3) s 0 0))
  /\ (forall i1 i2, inb (N_p1 c) i1 -> inb (N_p2 c) i2 ->
     tile_interval (at_ (p3_start c)) (at_ e3) (N_p3 c)
       (fun i => bel (p3_back c) (row i1 i2 i) s 0 0) (fun i => bel (p3_center c) (row i1 i2 i) s 0 0)).
Proof.
  intros W Hs at_ L1 L2 L3 D1 D2 D3 row. assert (W' := W). destruct W' as (P1&P2&P3&_).
  assert (PB : forall i1 i2 i3, inb (N_p1 c) i1 -> inb (N_p2 c) i2 -> inb (N_p3 c) i3 ->
     inb (N_p c) (row i1 i2 i3)) by (intros; apply pidx_bound; assumption).
  split; [|split]; intros a b Ha Hb; apply tile_line; auto; intros i Hi.
  1: rewrite (proj1 (proj2 (proj2 (proj2 (p_centers c k1 k2 (row i a b) s 0 0 W (PB _ _ _ Hi Ha Hb) Hs))))).
  2: rewrite (proj1 (p_centers c k1 k2 (row i a b) s 0 0 W (PB _ _ _ Hi Ha Hb) Hs)).
  3: rewrite (proj1 (proj2 (proj2 (proj2 (proj2 (p_centers c k1 k2 (row a i b) s 0 0 W (PB _ _ _ Ha Hi Hb) Hs)))))).
  4: rewrite (proj1 (proj2 (p_centers c k1 k2 (row a i b) s 0 0 W (PB _ _ _ Ha Hi Hb) Hs))).
  5: rewrite (proj2 (proj2 (proj2 (proj2 (proj2 (p_centers c k1 k2 (row a b i) s 0 0 W (PB _ _ _ Ha Hb Hi) Hs)))))).
  6: rewrite (proj1 (proj2 (proj2 (p_centers c k1 k2 (row a b i) s 0 0 W (PB _ _ _ Ha Hb Hi) Hs)))).
  1,2: destruct (pidx_split (N_p1 c) (N_p2 c) i a b Hi Ha) as (Q1&Q2&Q3).
  3,4: destruct (pidx_split (N_p1 c) (N_p2 c) a i b Ha Hi) as (Q1&Q2&Q3).
  5,6: destruct (pidx_split (N_p1 c) (N_p2 c) a b i Ha Hb) as (Q1&Q2&Q3).
  all: unfold mom1, mom2, mom3; fold row in Q1, Q2, Q3.
  1,2: unfold row at 1; rewrite Q1. 3,4: unfold row at 1; rewrite Q2. 5,6: unfold row at 1; rewrite Q3.
  all: fold (at_ (dp1 c)) (at_ (dp2 c)) (at_ (dp3 c)) (at_ (p1_start c)) (at_ (p2_start c)) (at_ (p3_start c)).
  all: rewrite ?D1, ?D2, ?D3; reflexivity.
Qed.

(** ** Layout and coordinates, as stated in the property files *)
Lemma layouts_inverse (A : Type) c r1 r2 (a b : arr A) : pos_cfg c ->
  (0 < n1g (lay c) r1)%Z -> (0 < n2g (lay c) r2)%Z -> q_shaped c r1 r2 a -> p_shaped c r1 r2 b ->
  aeq (convert_to_q_expanded c r1 r2 (convert_to_p_expanded c r1 r2 a)) a
  /\ aeq (convert_to_p_expanded c r1 r2 (convert_to_q_expanded c r1 r2 b)) b
  /\ (forall i1 i2 i3 s i j, inb (N_p1 c) i1 -> inb (N_p2 c) i2 -> inb (N_p3 c) i3 ->
      inb (N_species c) s -> inb (n1g (lay c) r1) i -> inb (n2g (lay c) r2) j ->
      el (convert_to_p_expanded c r1 r2 a) i1 i2 i3 (s + N_species c * (i + n1g (lay c) r1 * j))
      = el a (i1 + N_p1 c * (i2 + N_p2 c * i3)) s i j).
Proof.
  intros PC G1 G2 Sa Sb. split; [apply conv_q_p; auto|]. split; [apply conv_p_q; auto|].
  intros. apply (conv_p_el c r1 r2 a i1 i2 i3 s i j); auto.
Qed.

Lemma coordinate_order c k1 k2 i1 i2 i3 s i j : wf_cfg c k1 k2 ->
  inb (N_p1 c) i1 -> inb (N_p2 c) i2 -> inb (N_p3 c) i3 -> inb (N_species c) s ->
  let x := (i1 + N_p1 c * (i2 + N_p2 c * i3))%Z in
  let at_ l := nth (Z.to_nat s) l 0 in
  bel (p1_center c) x s i j = at_ (p1_start c) + (1/2 + IZR i1) * at_ (dp1 c)
  /\ bel (p2_center c) x s i j = at_ (p2_start c) + (1/2 + IZR i2) * at_ (dp2 c)
  /\ bel (p3_center c) x s i j = at_ (p3_start c) + (1/2 + IZR i3) * at_ (dp3 c).
Proof.
  intros W H1 H2 H3 Hs x at_.
  assert (Hx : inb (N_p c) x) by (apply pidx_bound; assumption).
  destruct (p_centers c k1 k2 x s i j W Hx Hs) as (A&B&C&_). rewrite A, B, C.
  destruct (pidx_split (N_p1 c) (N_p2 c) i1 i2 i3 H1 H2) as (Q1&Q2&Q3). fold x in Q1, Q2, Q3.
  unfold mom1, mom2, mom3. rewrite Q1, Q2, Q3. auto.
Qed.

Lemma left_face_wrong c r1 r2 x s i j :
  inb (n1g (lay c) r1) i -> inb (n2g (lay c) r2) j -> dq2 c <> 0 ->
  bel (snd (q_left_center (qc c r1 r2))) x s i j
  <> pos2 c (1/2) (off (blk2 (lay c)) r2 + j - ng2 (lay c)).
Proof.
  intros Hi Hj D. destruct (q_coords c r1 r2 x s i j Hi Hj) as (_&_&_&_&_&E&_). rewrite E.
  unfold pos2. intros H. apply D. lra.
Qed.
