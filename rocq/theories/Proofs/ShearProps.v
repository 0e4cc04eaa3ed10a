(** What runs in a shearing box keep. *)
From Coq Require Import ZArith Reals Lra Lia Psatz String List Bool.
From Verif Require Import Base.Prelude Base.ZSum Model.Af Model.Grid Model.Petsc Model.Config
  Model.Boundaries Model.Fvm
  Spec.Limiters Spec.Stencil Spec.Lattice Spec.Domain Spec.FvmProblem Spec.FvmRun Spec.Mirror Spec.Walls Spec.Interp Spec.Shear
  Proofs.AfLemmas Proofs.PetscLemmas Proofs.FluxLemmas Proofs.ConvLemmas Proofs.FvmLemmas Proofs.FvmLemmas2
  Proofs.FvmConserve Proofs.BoundaryLemmas Proofs.BoundaryRun Proofs.FvmGeneral Proofs.BoxConserve Proofs.FvmLines
  Proofs.InterpLemmas Proofs.SemiLagLemmas Proofs.ShearLemmas Proofs.ShearRun.
Import ListNotations.
Local Open Scope R_scope.

(** The image of a row holds as much as the row. *)
Lemma slid_total w N row D : normalised w -> (0 < N)%Z ->
  zsum N (fun j => slid w N row (IZR j + D)) = zsum N row.
Proof.
  intros NW NP. unfold slid.
  rewrite (zsum_ext N _ (fun j => zsum 4 (fun b => w (frac_part D) (b - 1)%Z * row ((j + (Int_part D + (b - 1))) mod N)%Z))).
  2:{ intros j _. rewrite Rplus_comm, Int_part_shift, frac_part_shift.
      apply zsum_ext. intros b _. do 3 f_equal. lia. }
  rewrite zsum_swap.
  rewrite (zsum_ext 4 _ (fun b => w (frac_part D) (b - 1)%Z * zsum N row)).
  2:{ intros b _. rewrite zsum_scal. f_equal. apply zsum_shift; auto. }
  rewrite zsum_scal_r, NW. ring.
Qed.

Section Keep.
Variables (c : cfg) (w : weights) (ap : arr R -> arr R -> arr R -> arr R) (lr : bool) (k1 k2 : scheme).
Local Notation L := (lay c).
Local Notation N1 := (gN1 (lay c)).
Local Notation N2 := (gN2 (lay c)).
Local Notation g := (N_ghost c).
Hypothesis W : wf_cfg c k1 k2.
Hypothesis SF : shear_fvm c lr k1.

Lemma sh_pos : (0 < N1 /\ 0 < N2 /\ 0 < g /\ radius k1 < N1 /\ radius k1 < N2 /\ g <= N1 /\ g <= N2)%Z.
Proof using SF.
  destruct (sh_widths c lr k1 SF). destruct (sh_layout c lr k1 SF) as ((A&_)&(B&_)&_).
  pose proof (sh_radius c lr k1 SF). pose proof (sh_two c lr k1 SF). lia.
Qed.

Lemma lines_inside t U x s g1 g2 : inb N1 g1 -> shear_line1 c w lr t U x s g2 g1 = U x s g1 g2.
Proof using.
  clear. intros H. unfold inb in H. unfold shear_line1. destruct lr.
  - replace (g1 <? 0)%Z with false by (symmetry; apply Z.ltb_ge; lia).
    replace (g1 <? N1)%Z with true by (symmetry; apply Z.ltb_lt; lia). reflexivity.
  - rewrite Z.mod_small by lia. reflexivity.
Qed.
Lemma lines_inside2 t U x s g1 g2 : inb N2 g2 -> shear_line2 c w lr t U x s g1 g2 = U x s g1 g2.
Proof using.
  clear. intros H. unfold inb in H. unfold shear_line2. destruct lr.
  - rewrite Z.mod_small by lia. reflexivity.
  - replace (g2 <? 0)%Z with false by (symmetry; apply Z.ltb_ge; lia).
    replace (g2 <? N2)%Z with true by (symmetry; apply Z.ltb_lt; lia). reflexivity.
Qed.

Lemma lines_ext t u v : (forall x s g1 g2, inb (N_p c) x -> inb (N_species c) s ->
    inb N1 g1 -> inb N2 g2 -> u x s g1 g2 = v x s g1 g2) ->
  forall x s h z, inb (N_p c) x -> inb (N_species c) s ->
  (inb N2 h -> (- ng1 L <= z < N1 + ng1 L)%Z -> shear_line1 c w lr t u x s h z = shear_line1 c w lr t v x s h z)
  /\ (inb N1 h -> (- ng2 L <= z < N2 + ng2 L)%Z -> shear_line2 c w lr t u x s h z = shear_line2 c w lr t v x s h z).
Proof using SF.
  intros H x s h z Hx Hs. destruct sh_pos as (P1&P2&GP&_&_&G1&G2).
  pose proof (sh_ng1 c lr k1 SF) as NG1. pose proof (sh_ng2 c lr k1 SF) as NG2.
  split; intros Hh Hz; unfold shear_line1, shear_line2; destruct lr.
  - destruct (Z.ltb_spec z 0); [apply slid_ext; auto; intros; apply H; auto; unfold inb; lia|].
    destruct (Z.ltb_spec z N1); [apply H; auto; unfold inb; lia|].
    apply slid_ext; auto; intros; apply H; auto; unfold inb; lia.
  - apply H; auto. apply Z.mod_pos_bound; lia.
  - apply H; auto. apply Z.mod_pos_bound; lia.
  - destruct (Z.ltb_spec z 0); [apply slid_ext; auto; intros; apply H; auto; unfold inb; lia|].
    destruct (Z.ltb_spec z N2); [apply H; auto; unfold inb; lia|].
    apply slid_ext; auto; intros; apply H; auto; unfold inb; lia.
Qed.

Local Notation la := (shear_line1 c w lr).
Local Notation lb := (shear_line2 c w lr).

Lemma shear_tiles : tiles N1 (blk1 L) /\ tiles N2 (blk2 L).
Proof using SF. destruct (sh_layout c lr k1 SF) as (A&B&_). auto. Qed.
Lemma shear_ghosts : (0 < ng1 L /\ 0 < ng2 L /\ radius k1 < ng1 L /\ radius k1 < ng2 L)%Z.
Proof using SF.
  rewrite (sh_ng1 c lr k1 SF), (sh_ng2 c lr k1 SF).
  pose proof (sh_radius c lr k1 SF). pose proof (sh_two c lr k1 SF). lia.
Qed.

Lemma run_shear_lines l u : run_shear c w lr k1 k2 l u = run_lines c k1 k2 la lb l u.
Proof using. revert u. induction l as [|[[k E0] Eh] l IH]; intros u; [reflexivity|]. cbn [run_shear run_lines]. apply IH. Qed.

Hypothesis IT : interpolates_layers w ap.
Hypothesis US : uses c ap.

Lemma refinement_shear l :
  (forall k E0 Eh, In (k, E0, Eh) l ->
     in_time c lr (ct k) /\ shows3 (lay c) (cE0 k) E0 /\ shows3 (lay c) (cEh k) Eh) ->
  forall s u, holds c (sf s) u ->
  exists s', run_fvm c (map (fun x => fst (fst x)) l) s = Ok s' /\ holds c (sf s') (run_shear c w lr k1 k2 l u).
Proof using W SF IT US.
  intros HL s u HU. rewrite run_shear_lines.
  destruct shear_tiles as (T1&T2). destruct shear_ghosts as (A&B&C&D).
  apply (refinement_lines c k1 k2 la lb W (sh_fvm c lr k1 SF) T1 T2 (conj A B) (conj C D)).
  - intros. apply lines_inside; auto.
  - intros. apply lines_ext; auto.
  - intros k E0 Eh I. destruct (HL k E0 Eh I) as (TM&S0&Sh). split; auto.
    eapply shear_gives; eauto.
  - exact HU.
Qed.

(** ** Particles *)
(** What leaves through one sheared side enters through the other: sums of the
    fluxes over the side. *)
Definition even_exchange (t : R) : Prop := whole_cells c lr t \/ (k1 = FirstOrder /\ normalised w).

Lemma side_lr t u x s v : lr = true -> even_exchange t -> (forall i i' j j', v i j = v i' j') ->
  zsum N2 (fun g2 => flux k1 (fun i => v i g2) (la t u x s g2) N1)
  = zsum N2 (fun g2 => flux k1 (fun i => v i g2) (la t u x s g2) 0).
Proof using SF IT.
  intros LR EX V. destruct sh_pos as (P1&P2&GP&R1&R2&_&_). pose proof (il_nodal w ap IT) as NW.
  pose proof (radius_nonneg k1) as RN.
  destruct EX as [(m&M)|(FO&NM)].
  - rewrite <- (zsum_shift N2 (fun g2 => flux k1 (fun i => v i g2) (la t u x s g2) 0) m P2).
    apply zsum_ext. intros j Hj.
    etransitivity; [exact (eq_sym (flux_shift k1 (fun i => v i j) (la t u x s j) 0 N1))|].
    apply flux_ext; [apply V|]. intros z Hz. unfold shear_line1. rewrite LR. rewrite LR in M. rewrite M.
    rewrite <- !plus_IZR, <- !minus_IZR, !slid_node by auto.
    destruct (Z.ltb_spec z 0).
    + replace (z + N1 <? 0)%Z with false by (symmetry; apply Z.ltb_ge; lia).
      replace (z + N1 <? N1)%Z with true by (symmetry; apply Z.ltb_lt; lia).
      f_equal. rewrite Zminus_mod_idemp_l. replace (j + m - m)%Z with j by lia. rewrite Z.mod_small; auto.
    + replace (z + N1 <? 0)%Z with false by (symmetry; apply Z.ltb_ge; lia).
      replace (z + N1 <? N1)%Z with false by (symmetry; apply Z.ltb_ge; lia).
      replace (z <? N1)%Z with true by (symmetry; apply Z.ltb_lt; lia).
      f_equal. lia.
  - unfold flux, upwind. rewrite FO. cbn [cell_faces fst snd].
    rewrite (zsum_ext N2 _ (fun g2 => v 0%Z 0%Z * (if Rlt_dec 0 (v 0%Z 0%Z) then la t u x s g2 (N1 - 1)%Z else la t u x s g2 N1))).
    2:{ intros j _. rewrite (V N1 0%Z j 0%Z). reflexivity. }
    rewrite (zsum_ext N2 (fun g2 => v 0%Z g2 * _) (fun g2 => v 0%Z 0%Z * (if Rlt_dec 0 (v 0%Z 0%Z) then la t u x s g2 (0 - 1)%Z else la t u x s g2 0%Z))).
    2:{ intros j _. rewrite (V 0%Z 0%Z j 0%Z). reflexivity. }
    rewrite !zsum_scal. f_equal. destruct (Rlt_dec 0 (v 0%Z 0%Z)).
    + rewrite (zsum_ext N2 (fun g2 => la t u x s g2 (0 - 1)%Z) (fun g2 => slid w N2 (u x s (N1 - 1)%Z) (IZR g2 + - drift c true t))).
      2:{ intros j _. unfold shear_line1. rewrite LR. change (0 - 1)%Z with (-1)%Z. change (-1 <? 0)%Z with true. cbv iota.
          replace (-1 + N1)%Z with (N1 - 1)%Z by lia. reflexivity. }
      rewrite slid_total by auto. apply zsum_ext. intros j Hj. apply lines_inside. unfold inb; lia.
    + rewrite (zsum_ext N2 (fun g2 => la t u x s g2 N1) (fun g2 => slid w N2 (u x s 0%Z) (IZR g2 + drift c true t))).
      2:{ intros j _. unfold shear_line1. rewrite LR.
          replace (N1 <? 0)%Z with false by (symmetry; apply Z.ltb_ge; lia). rewrite Z.ltb_irrefl, Z.sub_diag. reflexivity. }
      rewrite slid_total by auto. apply zsum_ext. intros j Hj. symmetry. apply lines_inside. unfold inb; lia.
Qed.

Lemma side_bt t u x s v : lr = false -> even_exchange t -> (forall i i' j j', v i j = v i' j') ->
  zsum N1 (fun g1 => flux k1 (fun j => v g1 j) (lb t u x s g1) N2)
  = zsum N1 (fun g1 => flux k1 (fun j => v g1 j) (lb t u x s g1) 0).
Proof using SF IT.
  intros LR EX V. destruct sh_pos as (P1&P2&GP&R1&R2&_&_). pose proof (il_nodal w ap IT) as NW.
  pose proof (radius_nonneg k1) as RN.
  destruct EX as [(m&M)|(FO&NM)].
  - rewrite <- (zsum_shift N1 (fun g1 => flux k1 (fun j => v g1 j) (lb t u x s g1) 0) m P1).
    apply zsum_ext. intros j Hj.
    etransitivity; [exact (eq_sym (flux_shift k1 (fun i => v j i) (lb t u x s j) 0 N2))|].
    apply flux_ext; [apply V|]. intros z Hz. unfold shear_line2. rewrite LR. rewrite LR in M. rewrite M.
    rewrite <- !plus_IZR, <- !minus_IZR, !slid_node by auto.
    destruct (Z.ltb_spec z 0).
    + replace (z + N2 <? 0)%Z with false by (symmetry; apply Z.ltb_ge; lia).
      replace (z + N2 <? N2)%Z with true by (symmetry; apply Z.ltb_lt; lia).
      f_equal. rewrite Zminus_mod_idemp_l. replace (j + m - m)%Z with j by lia. rewrite Z.mod_small; auto.
    + replace (z + N2 <? 0)%Z with false by (symmetry; apply Z.ltb_ge; lia).
      replace (z + N2 <? N2)%Z with false by (symmetry; apply Z.ltb_ge; lia).
      replace (z <? N2)%Z with true by (symmetry; apply Z.ltb_lt; lia).
      f_equal. lia.
  - unfold flux, upwind. rewrite FO. cbn [cell_faces fst snd].
    rewrite (zsum_ext N1 _ (fun g1 => v 0%Z 0%Z * (if Rlt_dec 0 (v 0%Z 0%Z) then lb t u x s g1 (N2 - 1)%Z else lb t u x s g1 N2))).
    2:{ intros j _. rewrite (V j 0%Z N2 0%Z). reflexivity. }
    rewrite (zsum_ext N1 (fun g1 => v g1 0%Z * _) (fun g1 => v 0%Z 0%Z * (if Rlt_dec 0 (v 0%Z 0%Z) then lb t u x s g1 (0 - 1)%Z else lb t u x s g1 0%Z))).
    2:{ intros j _. rewrite (V j 0%Z 0%Z 0%Z). reflexivity. }
    rewrite !zsum_scal. f_equal. destruct (Rlt_dec 0 (v 0%Z 0%Z)).
    + rewrite (zsum_ext N1 (fun g1 => lb t u x s g1 (0 - 1)%Z) (fun g1 => slid w N1 (fun a => u x s a (N2 - 1)%Z) (IZR g1 + - drift c false t))).
      2:{ intros j _. unfold shear_line2. rewrite LR. change (0 - 1)%Z with (-1)%Z. change (-1 <? 0)%Z with true. cbv iota.
          replace (-1 + N2)%Z with (N2 - 1)%Z by lia. reflexivity. }
      rewrite slid_total by auto. apply zsum_ext. intros j Hj. apply lines_inside2. unfold inb; lia.
    + rewrite (zsum_ext N1 (fun g1 => lb t u x s g1 N2) (fun g1 => slid w N1 (fun a => u x s a 0%Z) (IZR g1 + drift c false t))).
      2:{ intros j _. unfold shear_line2. rewrite LR.
          replace (N2 <? 0)%Z with false by (symmetry; apply Z.ltb_ge; lia). rewrite Z.ltb_irrefl, Z.sub_diag. reflexivity. }
      rewrite slid_total by auto. apply zsum_ext. intros j Hj. symmetry. apply lines_inside2. unfold inb; lia.
Qed.

Lemma flux_period k v N u : v N = v 0%Z -> flux k v (fun z => u (z mod N)%Z) N = flux k v (fun z => u (z mod N)%Z) 0.
Proof using.
  intros V. etransitivity; [exact (eq_sym (flux_shift k v (fun z => u (z mod N)%Z) 0 N))|].
  apply flux_ext; [exact V|]. intros z _. f_equal. replace (z + N)%Z with (z + 1 * N)%Z by lia. apply Z_mod_plus_full.
Qed.

Lemma transport_total t t' E u x sp : even_exchange t -> velocity_sheared c lr -> inb (N_species c) sp ->
  let P := prob c k1 k2 t' E in
  total N1 N2 (fun g1 g2 => advect (kq P) (h1 P) (fun i => vel1 P x sp i g2) (la t u x sp g2) g1
    + advect (kq P) (h2 P) (fun j => vel2 P x sp g1 j) (lb t u x sp g1) g2) = 0.
Proof using SF IT.
  intros EX VS Hs P. destruct sh_pos as (P1&P2&_).
  rewrite (total_plus N1 N2 (fun g1 g2 => advect (kq P) (h1 P) (fun i => vel1 P x sp i g2) (la t u x sp g2) g1)).
  unfold total. rewrite zsum_swap.
  rewrite (zsum_ext N2 _ (fun g2 => (flux k1 (fun i => vel1 P x sp i g2) (la t u x sp g2) N1
     - flux k1 (fun i => vel1 P x sp i g2) (la t u x sp g2) 0) * (- / dq1 c))).
  2:{ intros g2 _. cbv beta. unfold P at 1 2; cbn [kq h1 prob problem_of problem_at].
      rewrite advect_line by lia. unfold Rdiv. ring. }
  rewrite (zsum_ext N1 _ (fun g1 => (flux k1 (fun j => vel2 P x sp g1 j) (lb t u x sp g1) N2
     - flux k1 (fun j => vel2 P x sp g1 j) (lb t u x sp g1) 0) * (- / dq2 c))).
  2:{ intros g1 _. cbv beta. unfold P at 1 2; cbn [kq h2 prob problem_of problem_at].
      rewrite advect_line by lia. unfold Rdiv. ring. }
  rewrite !zsum_scal_r, !zsum_minus.
  assert (S1 : zsum N2 (fun g2 => flux k1 (fun i => vel1 P x sp i g2) (la t u x sp g2) N1)
    = zsum N2 (fun g2 => flux k1 (fun i => vel1 P x sp i g2) (la t u x sp g2) 0)).
  { assert (LL : lr = true \/ lr = false) by (destruct lr; auto). destruct LL as [LR|LR].
    - apply side_lr; auto. intros i i' j j'. unfold P; cbn [vel1 prob problem_of problem_at].
      unfold velocity_sheared in VS. rewrite LR in VS. apply VS; exact 0.
    - apply zsum_ext. intros j _. unfold shear_line1. rewrite LR. apply (flux_period k1 (fun i => vel1 P x sp i j) N1 (fun z => u x sp z j)).
      unfold P; cbn [vel1 prob problem_of problem_at]. unfold velocity_sheared in VS. rewrite LR in VS.
      match goal with |- fst (C_q c ?s ?tt (pos1 c 0 N1) ?b ?d ?e ?f) = _ =>
        destruct (VS s tt (pos1 c 0 0) b 0 0 d e f) as (_&<-) end.
      do 2 f_equal. unfold pos1. ring. }
  assert (S2 : zsum N1 (fun g1 => flux k1 (fun j => vel2 P x sp g1 j) (lb t u x sp g1) N2)
    = zsum N1 (fun g1 => flux k1 (fun j => vel2 P x sp g1 j) (lb t u x sp g1) 0)).
  { assert (LL : lr = true \/ lr = false) by (destruct lr; auto). destruct LL as [LR|LR].
    - apply zsum_ext. intros j _. unfold shear_line2. rewrite LR. apply (flux_period k1 (fun i => vel2 P x sp j i) N2 (fun z => u x sp j z)).
      unfold P; cbn [vel2 prob problem_of problem_at]. unfold velocity_sheared in VS. rewrite LR in VS.
      match goal with |- snd (C_q c ?s ?tt ?b (pos2 c 0 N2) ?d ?e ?f) = _ =>
        destruct (VS s tt b (pos2 c 0 0) 0 0 d e f) as (_&<-) end.
      do 2 f_equal. unfold pos2. ring.
    - apply side_bt; auto. intros i i' j j'. unfold P; cbn [vel2 prob problem_of problem_at].
      unfold velocity_sheared in VS. rewrite LR in VS. apply VS; exact 0. }
  rewrite S1, S2. ring.
Qed.

Lemma rhs_shear_total t t' E u sp : even_exchange t -> velocity_sheared c lr -> source_conserves c -> inb (N_species c) sp ->
  zsum (N_p c) (fun x => total N1 N2 (rhs_lines la lb t (prob c k1 k2 t' E) u x sp)) = 0.
Proof using W SF IT.
  intros EX VS SC Hs. pose proof (wf_pos _ _ _ W) as (P1&P2&P3&PS).
  set (P := prob c k1 k2 t' E).
  rewrite (zsum_ext (N_p c) _ (fun x => 0
     + total N1 N2 (fun g1 g2 => src P g1 g2 (fun x' s' => u x' s' g1 g2) x sp
       + advect_p P g1 g2 (fun x' s' => u x' s' g1 g2) x sp))).
  2:{ intros x Hx. rewrite <- (transport_total t t' E u x sp EX VS Hs) at 1. fold P. rewrite <- total_plus.
      apply total_ext. intros. unfold rhs_lines. lra. }
  rewrite zsum_plus, zsum_zero, Rplus_0_l.
  unfold total.
  rewrite zsum_swap. rewrite (zsum_ext N1 _ (fun _ => 0)); [apply zsum_zero|]. intros g1 _.
  rewrite (zsum_swap (N_p c) N2 (fun x g2 => src P g1 g2 (fun x' s' => u x' s' g1 g2) x sp
       + advect_p P g1 g2 (fun x' s' => u x' s' g1 g2) x sp)).
  rewrite (zsum_ext N2 _ (fun _ => 0)); [apply zsum_zero|]. intros g2 _.
  rewrite zsum_plus.
  pose proof (advect_p_total P g1 g2 (fun x' s' => u x' s' g1 g2) sp P1 P2 P3) as AP.
  unfold P in AP at 1 2 3. cbn [M1 M2 M3 prob problem_of problem_at] in AP. unfold N_p at 2. rewrite AP.
  rewrite Rplus_0_r. unfold P, prob, problem_of, problem_at; cbn [src].
  destruct SC as [SO|SC]; [rewrite SO; apply zsum_zero|]. destruct (source_enabled c); [apply SC|apply zsum_zero].
Qed.

Lemma run_invariant_shear (Q : gstate -> Prop) :
  (forall u v, (forall x s g1 g2, inb (N_p c) x -> inb (N_species c) s -> inb N1 g1 ->
      inb N2 g2 -> u x s g1 g2 = v x s g1 g2) -> Q u -> Q v) ->
  forall l, (forall k, In k l -> in_time c lr (ct k)) ->
  (forall k u E0 Eh, In k l -> Q u ->
     Q (midpoint_lines la lb (ct k) (prob c k1 k2 (ct k) E0) (prob c k1 k2 (ct k) Eh) (cdt k) u)) ->
  forall s, shaped L (N_p c) (N_species c) (sf s) -> Q (gval L (sf s)) ->
  exists s', run_fvm c l s = Ok s' /\ shaped L (N_p c) (N_species c) (sf s') /\ Q (gval L (sf s')).
Proof using W SF IT US.
  intros QE l HL HQ. destruct shear_tiles as (T1&T2). destruct shear_ghosts as (A&B&C&D).
  apply (run_invariant_lines c k1 k2 la lb W (sh_fvm c lr k1 SF) T1 T2 (conj A B) (conj C D)); auto.
  - intros. apply lines_inside; auto.
  - intros. apply lines_ext; auto.
  - intros k I. eapply shear_gives; eauto.
Qed.

Lemma conserve_shear l s :
  (forall k, In k l -> in_time c lr (ct k) /\ even_exchange (ct k)) ->
  velocity_sheared c lr -> source_conserves c -> shaped L (N_p c) (N_species c) (sf s) ->
  exists s', run_fvm c l s = Ok s' /\ shaped L (N_p c) (N_species c) (sf s')
  /\ forall sp, inb (N_species c) sp ->
     zsum (N_p c) (fun x => gtotal L (sf s') x sp) = zsum (N_p c) (fun x => gtotal L (sf s) x sp).
Proof using W SF IT US.
  intros HL VS SC SH.
  destruct (run_invariant_shear (fun u => forall sp, inb (N_species c) sp ->
     zsum (N_p c) (fun x => total N1 N2 (u x sp)) = zsum (N_p c) (fun x => gtotal L (sf s) x sp)))
     with (l := l) (s := s) as (s'&R&S'&Q); auto.
  - intros u v H Q sp Hs. rewrite <- Q by auto. apply zsum_ext. intros.
    apply total_ext. intros; symmetry; apply H; auto.
  - intros k I. apply HL; auto.
  - intros k u E0 Eh I Q sp Hs. destruct (HL k I) as (_&EX). rewrite <- Q by auto. unfold midpoint_lines.
    set (uh := fun x s g1 g2 => u x s g1 g2 + cdt k / 2 * rhs_lines la lb (ct k) (prob c k1 k2 (ct k) E0) u x s g1 g2).
    rewrite (zsum_ext (N_p c) _ (fun x => total N1 N2 (u x sp)
        + cdt k * total N1 N2 (rhs_lines la lb (ct k) (prob c k1 k2 (ct k) Eh) uh x sp))).
    2:{ intros. rewrite (total_plus N1 N2 (u i sp)), total_scal. reflexivity. }
    rewrite zsum_plus, zsum_scal, rhs_shear_total by auto. lra.
  - exists s'. split; auto.
Qed.

(** ** Whole boxes: periodic sides *)
Lemma lines_whole t u x s : whole_boxes c lr t ->
  (forall h z, inb N2 h -> (- N1 <= z < 2 * N1)%Z -> la t u x s h z = u x s (z mod N1)%Z h)
  /\ (forall h z, inb N1 h -> (- N2 <= z < 2 * N2)%Z -> lb t u x s h z = u x s h (z mod N2)%Z).
Proof using SF IT.
  intros (m&M). pose proof (il_nodal w ap IT) as NW.
  destruct sh_pos as (P1&P2&_).
  split; intros h z Hh Hz; unfold inb in Hh; unfold shear_line1, shear_line2; destruct lr; try reflexivity; rewrite M.
  - destruct (Z.ltb_spec z 0).
    + rewrite mod_low by lia. rewrite <- minus_IZR, slid_node by auto. f_equal.
      replace (h - m * N2)%Z with (h + (- m) * N2)%Z by lia. rewrite Z_mod_plus_full. apply Z.mod_small; lia.
    + destruct (Z.ltb_spec z N1); [rewrite Z.mod_small by lia; reflexivity|].
      rewrite mod_high by lia. rewrite <- plus_IZR, slid_node by auto. f_equal.
      rewrite Z_mod_plus_full. apply Z.mod_small; lia.
  - destruct (Z.ltb_spec z 0).
    + rewrite mod_low by lia. rewrite <- minus_IZR, slid_node by auto. f_equal.
      replace (h - m * N1)%Z with (h + (- m) * N1)%Z by lia. rewrite Z_mod_plus_full. apply Z.mod_small; lia.
    + destruct (Z.ltb_spec z N2); [rewrite Z.mod_small by lia; reflexivity|].
      rewrite mod_high by lia. rewrite <- plus_IZR, slid_node by auto. f_equal.
      rewrite Z_mod_plus_full. apply Z.mod_small; lia.
Qed.

Lemma rhs_whole t t' E u x s g1 g2 : whole_boxes c lr t -> inb N1 g1 -> inb N2 g2 ->
  rhs_lines la lb t (prob c k1 k2 t' E) u x s g1 g2 = rhs (prob c k1 k2 t' E) u x s g1 g2.
Proof using SF IT.
  intros WB H1 H2. destruct (lines_whole t u x s WB) as (A&B).
  destruct sh_pos as (P1&P2&GP&R1&R2&_&_). pose proof (radius_nonneg k1) as RN.
  unfold rhs_lines, rhs, advect_q. unfold inb in H1, H2.
  f_equal. f_equal. f_equal; apply advect_ext; try reflexivity; intros z Hz;
    unfold prob, problem_of, problem_at in Hz; cbn [kq] in Hz; unfold periodic.
  - apply A; auto. lia.
  - apply B; auto. lia.
Qed.

Lemma refinement_whole l :
  (forall k E0 Eh, In (k, E0, Eh) l ->
     in_time c lr (ct k) /\ whole_boxes c lr (ct k) /\ shows3 (lay c) (cE0 k) E0 /\ shows3 (lay c) (cEh k) Eh) ->
  forall s u, holds c (sf s) u ->
  exists s', run_fvm c (map (fun x => fst (fst x)) l) s = Ok s' /\ holds c (sf s') (run_global c k1 k2 l u).
Proof using W SF IT US.
  intros HL s u HU. destruct (refinement_shear l) with (s := s) (u := u) as (s'&R&H); auto.
  { intros k E0 Eh I. destruct (HL k E0 Eh I) as (A&B&C&D). auto. }
  exists s'. split; [exact R|]. destruct H as (S'&V'). split; [exact S'|]. intros x sp g1 g2 Hx Hs H1 H2.
  rewrite V' by auto. clear - HL W SF IT Hx Hs H1 H2. rewrite run_shear_lines.
  assert (G : forall l, (forall k E0 Eh, In (k, E0, Eh) l -> whole_boxes c lr (ct k)) -> forall u v,
    (forall x s g1 g2, inb (N_p c) x -> inb (N_species c) s -> inb N1 g1 -> inb N2 g2 -> u x s g1 g2 = v x s g1 g2) ->
    forall x s g1 g2, inb (N_p c) x -> inb (N_species c) s -> inb N1 g1 -> inb N2 g2 ->
    run_lines c k1 k2 la lb l u x s g1 g2 = run_global c k1 k2 l v x s g1 g2).
  2:{ apply G; auto. intros k E0 Eh I. destruct (HL k E0 Eh I) as (_&B&_). exact B. }
  clear - W SF IT. intros l. induction l as [|[[k E0] Eh] l IH]; intros HL u v UV; [exact UV|].
  cbn [run_lines run_global]. apply IH; [intros; eapply HL; right; eauto|].
  assert (WB : whole_boxes c lr (ct k)) by (eapply HL; left; reflexivity).
  intros x s g1 g2 Hx Hs H1 H2. unfold midpoint_lines, midpoint. destruct sh_pos as (P1&P2&_).
  rewrite rhs_whole by auto. f_equal; [apply UV; auto|]. f_equal. apply rhs_ext; auto.
  intros x' s1 b1 b2 X' S1 B1 B2. change (inb N1 b1) in B1. change (inb N2 b2) in B2.
  rewrite rhs_whole by auto. f_equal; [apply UV; auto|]. f_equal. apply rhs_ext; auto.
Qed.
End Keep.

(** ** Process grids *)
Lemma run_shear_layout c L' w lr k1 k2 l : gN1 L' = gN1 (lay c) -> gN2 L' = gN2 (lay c) ->
  forall u, run_shear (with_layout c L') w lr k1 k2 l u = run_shear c w lr k1 k2 l u.
Proof.
  intros G1 G2. induction l as [|[[k E0] Eh] l IH]; intros u; [reflexivity|]. cbn [run_shear].
  assert (EP : forall t E, prob (with_layout c L') k1 k2 t E = prob c k1 k2 t E).
  { intros. unfold prob, problem_of, problem_at, with_layout; cbn [lay]. rewrite G1, G2. reflexivity. }
  rewrite !EP, IH. f_equal.
  unfold midpoint_shear, rhs_shear, shear_line1, shear_line2, drift.
  cbn [lay with_layout shear_q shear_omega q1_end q1_start q2_end q2_start dq1 dq2]. rewrite G1, G2. reflexivity.
Qed.

Lemma shear_parallel c L' w ap lr k1 k2 l l' s s' u :
  wf_cfg c k1 k2 -> shear_fvm c lr k1 -> shear_fvm (with_layout c L') lr k1 ->
  interpolates_layers w ap -> uses c ap ->
  gN1 L' = gN1 (lay c) -> gN2 L' = gN2 (lay c) ->
  (forall k E0 Eh, In (k, E0, Eh) l ->
     in_time c lr (ct k) /\ shows3 (lay c) (cE0 k) E0 /\ shows3 (lay c) (cEh k) Eh) ->
  Forall2 (fun a b => ct (fst (fst b)) = ct (fst (fst a)) /\ cdt (fst (fst b)) = cdt (fst (fst a))
    /\ snd (fst b) = snd (fst a) /\ snd b = snd a
    /\ shows3 L' (cE0 (fst (fst b))) (snd (fst a)) /\ shows3 L' (cEh (fst (fst b))) (snd a)) l l' ->
  holds c (sf s) u -> holds (with_layout c L') (sf s') u ->
  exists r r' v, run_fvm c (map (fun x => fst (fst x)) l) s = Ok r
    /\ run_fvm (with_layout c L') (map (fun x => fst (fst x)) l') s' = Ok r'
    /\ holds c (sf r) v /\ holds (with_layout c L') (sf r') v.
Proof.
  intros W SF SF' IT US G1 G2 HL SAME H H'.
  destruct (refinement_shear c w ap lr k1 k2 W SF IT US l HL s u H) as (r&R&V).
  destruct (refinement_shear (with_layout c L') w ap lr k1 k2) with (l := l') (s := s') (u := u) as (r'&R'&V'); auto.
  { intros k E0 Eh I. clear - HL SAME I G1 G2.
    induction SAME as [|[[a A0] Ah] [[b B0] Bh] l l' (T&_&Q0&Qh&S0&Sh) SAME IH]; [destruct I|]. destruct I as [I|I].
    - injection I as -> -> ->. cbn [fst snd] in *. subst.
      destruct (HL a A0 Ah) as (TM&_&_); [left; reflexivity|]. split; [|auto].
      unfold in_time, drift in *. cbn [lay with_layout shear_q shear_omega q1_end q1_start q2_end q2_start dq1 dq2 N_ghost loop_fuel].
      rewrite G1, G2, T. exact TM.
    - apply IH; auto. intros; apply HL; right; auto. }
  exists r, r', (run_shear c w lr k1 k2 l u). split; [exact R|]. split; [exact R'|]. split; [exact V|].
  replace (run_shear c w lr k1 k2 l u) with (run_shear (with_layout c L') w lr k1 k2 l' u); [exact V'|].
  rewrite run_shear_layout by auto. clear - SAME. revert u.
  induction SAME as [|[[a A0] Ah] [[b B0] Bh] l l' (T&D&Q0&Qh&S0&Sh) SAME IH]; intros u; [reflexivity|].
  cbn [fst snd] in *. subst. cbn [run_shear]. rewrite T, D. apply IH.
Qed.
