(** Consequences of the characterisation of semi-Lagrangian steps. *)
From Coq Require Import ZArith Reals Lra Lia String List Bool.
From Verif Require Import Base.Prelude Base.ZSum Model.Af Model.Grid Model.Petsc Model.Config
  Model.Boundaries Model.Fvm Model.Em Model.Integrators Model.Splitting Model.SemiLag Model.Timestep Model.Solver
  Spec.Lattice Spec.Domain Spec.FvmProblem Spec.FvmRun Spec.Clock Spec.Interp
  Proofs.AfLemmas Proofs.PetscLemmas Proofs.ConvLemmas Proofs.FvmLemmas Proofs.FvmLemmas2
  Proofs.InterpLemmas Proofs.TimestepLemmas Proofs.SolverLemmas Proofs.SemiLagLemmas.
Import ListNotations.
Local Open Scope R_scope.

Lemma follow_characteristics P k1 k2 w ap dt s u : wf_cfg (pc P) k1 k2 -> interpolates w ap -> uses (pc P) ap ->
  periodic_layout (lay (pc P)) -> (forall e, in_q (pc P) e = "periodic"%string) ->
  dq1 (pc P) <> 0 -> dq2 (pc P) <> 0 ->
  holds (pc P) (f_of s) u -> reach (pc P) (time_elapsed s) dt ->
  exists s', op_advect_q P dt s = Ok s'
  /\ holds (pc P) (f_of s') (characteristics (pc P) w (time_elapsed s) dt u)
  /\ fields s' = fields s /\ time_elapsed s' = time_elapsed s.
Proof.
  intros W IT US PL PE D1 D2 HU RE.
  destruct (advect_spec P k1 k2 w ap W IT US PL PE (conj D1 D2) dt s u HU RE) as (s'&E&H&(A&B&_)). eauto.
Qed.

Lemma streaming_run P k1 k2 w ap h s u : streaming P -> wf_cfg (pc P) k1 k2 -> interpolates w ap -> uses (pc P) ap ->
  holds (pc P) (f_of s) u -> reach_run (pc P) (time_elapsed s) h ->
  exists s', run_steps (solver_stepper P) h s = Ok (s', None)
  /\ holds (pc P) (f_of s') (transport P w (time_elapsed s) h u)
  /\ time_elapsed s' = time_elapsed s + elapsed h.
Proof.
  intros [A B C D E F] W IT US. exact (stream_run P k1 k2 w ap W IT US D C E F B A h s u).
Qed.

(** ** Other process grids *)
Lemma transport_layout P L' w h : gN1 L' = gN1 (lay (pc P)) -> gN2 L' = gN2 (lay (pc P)) ->
  forall t u, transport (on_layout P L') w t h u = transport P w t h u.
Proof.
  intros E1 E2. induction h as [|(m&dt) h IH]; intros t u; cbn [transport]; [reflexivity|].
  rewrite IH. f_equal.
  assert (EC : forall t, characteristics (pc (on_layout P L')) w t = characteristics (pc P) w t).
  { intros t'. unfold characteristics. cbn [pc on_layout with_layout lay]. rewrite E1, E2. reflexivity. }
  rewrite EC. reflexivity.
Qed.

Lemma streaming_layouts P L' k1 k2 w ap h s s' u :
  streaming P -> streaming (on_layout P L') -> wf_cfg (pc P) k1 k2 -> interpolates w ap -> uses (pc P) ap ->
  gN1 L' = gN1 (lay (pc P)) -> gN2 L' = gN2 (lay (pc P)) ->
  reach_run (pc P) (time_elapsed s) h -> reach_run (with_layout (pc P) L') (time_elapsed s) h ->
  time_elapsed s' = time_elapsed s ->
  holds (pc P) (f_of s) u -> holds (with_layout (pc P) L') (f_of s') u ->
  exists r r' v, run_steps (solver_stepper P) h s = Ok (r, None)
  /\ run_steps (solver_stepper (on_layout P L')) h s' = Ok (r', None)
  /\ holds (pc P) (f_of r) v /\ holds (with_layout (pc P) L') (f_of r') v.
Proof.
  intros S S' W IT US E1 E2 R R' T H H'.
  destruct (streaming_run P k1 k2 w ap h s u S W IT US H R) as (r&Er&Hr&_).
  rewrite <- T in R'.
  destruct (streaming_run (on_layout P L') k1 k2 w ap h s' u S' W IT US H' R') as (r'&Er'&Hr'&_).
  rewrite transport_layout, T in Hr' by auto. exists r, r', (transport P w (time_elapsed s) h u). auto.
Qed.

(** ** Whole cells *)
Lemma characteristics_node c w t dt u x s g1 g2 d1 d2 : nodal w ->
  moved1 c t dt x s g1 g2 = IZR d1 -> moved2 c t dt x s g1 g2 = IZR d2 ->
  characteristics c w t dt u x s g1 g2 = u x s ((g1 - d1) mod gN1 (lay c))%Z ((g2 - d2) mod gN2 (lay c))%Z.
Proof.
  intros N E1 E2. unfold characteristics. rewrite E1, E2, <- !minus_IZR, interp2_node by auto. reflexivity.
Qed.

Lemma served_Z n d : (Z.abs d <= n)%Z -> served n (IZR d).
Proof. intros H. right. rewrite frac_part_Z, <- abs_IZR. split; [reflexivity|]. apply IZR_le; auto. Qed.

Lemma collide_quiet P t dt u : quiet P -> collide P t dt u = u.
Proof. intros (A&B). unfold collide. rewrite A, B. reflexivity. Qed.

Lemma exact_shift_run P k1 k2 w ap d1 d2 dt h s u :
  streaming P -> quiet P -> wf_cfg (pc P) k1 k2 -> interpolates w ap -> uses (pc P) ap ->
  (forall t x sp g1 g2, inb (N_p (pc P)) x -> inb (N_species (pc P)) sp ->
     inb (gN1 (lay (pc P))) g1 -> inb (gN2 (lay (pc P))) g2 ->
     moved1 (pc P) t dt x sp g1 g2 = IZR (d1 x sp) /\ moved2 (pc P) t dt x sp g1 g2 = IZR (d2 x sp)
     /\ (Z.abs (d1 x sp) <= ng1 (lay (pc P)))%Z /\ (Z.abs (d2 x sp) <= ng2 (lay (pc P)))%Z) ->
  Forall (fun k => (fst k = Lie \/ fst k = Swss) /\ snd k = dt) h ->
  holds (pc P) (f_of s) u ->
  let n := Z.of_nat (List.length h) in
  exists s', run_steps (solver_stepper P) h s = Ok (s', None)
  /\ holds (pc P) (f_of s') (fun x sp g1 g2 =>
       u x sp ((g1 - n * d1 x sp) mod gN1 (lay (pc P)))%Z ((g2 - n * d2 x sp) mod gN2 (lay (pc P)))%Z).
Proof.
  intros SS Q W IT US MV FH HU n.
  assert (RR : forall t, reach (pc P) t dt).
  { intros t x sp g1 g2 Hx Hs H1 H2. destruct (MV t x sp g1 g2 Hx Hs H1 H2) as (->&->&B1&B2).
    split; apply served_Z; auto. }
  assert (RE : reach_run (pc P) (time_elapsed s) h).
  { generalize (time_elapsed s). clear HU n. induction FH as [|(m&d) h (Hm&Hd) FH IH]; intros t; cbn [reach_run]; auto.
    cbn [fst snd] in Hm, Hd. subst d. split; auto. destruct Hm as [-> | ->]; cbn; auto. }
  destruct (streaming_run P k1 k2 w ap h s u SS W IT US HU RE) as (s'&E&H&_).
  exists s'. split; [exact E|].
  destruct (st_layout P SS) as ((N1&_)&(N2&_)&_).
  assert (TR : forall h, Forall (fun k => (fst k = Lie \/ fst k = Swss) /\ snd k = dt) h -> forall t u x sp g1 g2,
     inb (N_p (pc P)) x -> inb (N_species (pc P)) sp -> inb (gN1 (lay (pc P))) g1 -> inb (gN2 (lay (pc P))) g2 ->
     transport P w t h u x sp g1 g2
     = u x sp ((g1 - Z.of_nat (List.length h) * d1 x sp) mod gN1 (lay (pc P)))%Z
              ((g2 - Z.of_nat (List.length h) * d2 x sp) mod gN2 (lay (pc P)))%Z).
  { clear - MV N1 N2 Q IT. intros h FH. induction FH as [|(m&d) h (Hm&Hd) FH IH]; intros t u x sp g1 g2 Hx Hs H1 H2.
    - cbn [transport List.length Z.of_nat]. rewrite !Z.mul_0_l, !Z.sub_0_r, !Z.mod_small by (unfold inb in *; lia). reflexivity.
    - cbn [fst snd] in Hm, Hd. subst d. cbn [transport]. rewrite IH by auto.
      assert (CE : forall y1 y2, inb (gN1 (lay (pc P))) y1 -> inb (gN2 (lay (pc P))) y2 -> compose m (characteristics (pc P) w t) (collide P t) dt u x sp y1 y2
                 = u x sp ((y1 - d1 x sp) mod gN1 (lay (pc P)))%Z ((y2 - d2 x sp) mod gN2 (lay (pc P)))%Z).
      { intros y1 y2 Y1 Y2. destruct (MV t x sp y1 y2 Hx Hs Y1 Y2) as (M1&M2&_).
        pose proof (characteristics_node (pc P) w t dt u x sp y1 y2 _ _ (it_nodal w ap IT) M1 M2) as C.
        destruct Hm as [-> | ->]; cbn [compose]; rewrite !collide_quiet by auto; rewrite C; lra. }
      rewrite CE by (apply Z.mod_pos_bound; auto). f_equal.
      + rewrite Zminus_mod_idemp_l. f_equal. change (List.length ((m, dt) :: h)) with (Datatypes.S (List.length h)). rewrite Nat2Z.inj_succ. lia.
      + rewrite Zminus_mod_idemp_l. f_equal. change (List.length ((m, dt) :: h)) with (Datatypes.S (List.length h)). rewrite Nat2Z.inj_succ. lia. }
  destruct H as (SH&HV). split; [exact SH|]. intros x sp g1 g2 Hx Hs H1 H2. rewrite HV, TR by auto. reflexivity.
Qed.

(** ** Number of particles *)
Lemma interp2_lin w X Y (u v : Z -> Z -> R) a b :
  interp2 w (fun i j => a * u i j + b * v i j) X Y = a * interp2 w u X Y + b * interp2 w v X Y.
Proof.
  unfold interp2. rewrite <- !zsum_scal, <- zsum_plus. apply zsum_ext; intros.
  rewrite <- !zsum_scal, <- zsum_plus. apply zsum_ext; intros. ring.
Qed.

Lemma zsum_interp2 w n m X Y (u : Z -> Z -> R) : normalised w -> (0 < n)%Z -> (0 < m)%Z ->
  (forall a b, u (a mod n)%Z b = u a b) -> (forall a b, u a (b mod m)%Z = u a b) ->
  zsum n (fun i => zsum m (fun j => interp2 w u (IZR i + X) (IZR j + Y)))
  = zsum n (fun i => zsum m (fun j => u i j)).
Proof.
  intros NW Hn Hm P1 P2.
  set (T := zsum n (fun i => zsum m (fun j => u i j))).
  assert (SH : forall a b, zsum n (fun i => zsum m (fun j => u (i + a) (j + b))%Z) = T).
  { intros a b. unfold T.
    rewrite (zsum_ext n _ (fun i => zsum m (fun j => u (i + a) j)%Z)).
    - apply (zsum_periodic n (fun i => zsum m (fun j => u i j)) a Hn). intros i. apply zsum_ext; intros; auto.
    - intros i _. apply (zsum_periodic m (fun j => u (i + a)%Z j) b Hm). auto. }
  set (f1 := frac_part X). set (f2 := frac_part Y).
  assert (E : zsum n (fun i => zsum m (fun j => interp2 w u (IZR i + X) (IZR j + Y)))
     = zsum 4 (fun a => zsum 4 (fun b => w f1 (a - 1)%Z * w f2 (b - 1)%Z
         * zsum n (fun i => zsum m (fun j => u (i + (Int_part X + (a - 1))) (j + (Int_part Y + (b - 1))))%Z)))).
  { rewrite (zsum_ext n _ (fun i => zsum 4 (fun a => zsum 4 (fun b => w f1 (a - 1)%Z * w f2 (b - 1)%Z
         * zsum m (fun j => u (i + (Int_part X + (a - 1))) (j + (Int_part Y + (b - 1))))%Z)))).
    - rewrite zsum_swap. apply zsum_ext; intros a _. rewrite zsum_swap. apply zsum_ext; intros b _.
      apply zsum_scal.
    - intros i _. rewrite (zsum_ext m _ (fun j => zsum 4 (fun a => zsum 4 (fun b => w f1 (a - 1)%Z * w f2 (b - 1)%Z
         * u (i + (Int_part X + (a - 1)))%Z (j + (Int_part Y + (b - 1)))%Z)))).
      + rewrite zsum_swap. apply zsum_ext; intros a _. rewrite zsum_swap. apply zsum_ext; intros b _. apply zsum_scal.
      + intros j _. unfold interp2. rewrite !(Rplus_comm (IZR _)), !Int_part_shift, !frac_part_shift.
        apply zsum_ext; intros a _. apply zsum_ext; intros b _. f_equal. f_equal; lia. }
  rewrite E. rewrite (zsum_ext 4 _ (fun a => w f1 (a - 1)%Z * T)).
  - rewrite zsum_scal_r, NW. ring.
  - intros a _. rewrite (zsum_ext 4 _ (fun b => w f2 (b - 1)%Z * (w f1 (a - 1)%Z * T))).
    + rewrite zsum_scal_r, NW. ring.
    + intros b _. rewrite SH. ring.
Qed.

Lemma characteristics_sum c w t dt u x s : normalised w -> streams c -> (0 < gN1 (lay c))%Z -> (0 < gN2 (lay c))%Z ->
  grid_sum c (characteristics c w t dt u) x s = grid_sum c u x s.
Proof.
  intros NW ST N1 N2. unfold grid_sum, characteristics.
  set (X := - moved1 c t dt x s 0 0). set (Y := - moved2 c t dt x s 0 0).
  assert (EV : forall g1 g2, velocity_a c t x s g1 g2 = velocity_a c t x s 0 0) by (intros; apply ST).
  rewrite (zsum_ext _ _ (fun g1 => zsum (gN2 (lay c)) (fun g2 =>
     interp2 w (fun a b => u x s (a mod gN1 (lay c)) (b mod gN2 (lay c)))%Z (IZR g1 + X) (IZR g2 + Y)))).
  - rewrite zsum_interp2; auto.
    + apply zsum_ext; intros g1 H1. apply zsum_ext; intros g2 H2. rewrite !Z.mod_small by lia. reflexivity.
    + intros. rewrite Z.mod_mod by lia. reflexivity.
    + intros. rewrite Z.mod_mod by lia. reflexivity.
  - intros g1 _. apply zsum_ext; intros g2 _. unfold X, Y, moved1, moved2. rewrite (EV g1 g2). f_equal; lra.
Qed.

Lemma grid_sum_lin c u v a b x s :
  grid_sum c (fun x s i j => a * u x s i j + b * v x s i j) x s = a * grid_sum c u x s + b * grid_sum c v x s.
Proof.
  unfold grid_sum. rewrite <- !zsum_scal, <- zsum_plus. apply zsum_ext; intros.
  rewrite <- !zsum_scal, <- zsum_plus. reflexivity.
Qed.
Lemma grid_sum_ext c u v x s : (forall i j, u x s i j = v x s i j) -> grid_sum c u x s = grid_sum c v x s.
Proof. intros E. unfold grid_sum. apply zsum_ext; intros. apply zsum_ext; intros. apply E. Qed.

(** A linear functional kept by both sub-steps is kept by every method. *)
Lemma compose_kept (Q : gstate -> R) m g1 g2 dt u :
  (forall a b u v, Q (fun x s i j => a * u x s i j + b * v x s i j) = a * Q u + b * Q v) ->
  (forall h u, Q (g1 h u) = Q u) -> (forall h u, Q (g2 h u) = Q u) ->
  Q (compose m g1 g2 dt u) = Q u.
Proof.
  intros LQ K1 K2. destruct m; unfold compose; cbv zeta; rewrite ?K1, ?K2, ?K1; auto.
  - rewrite LQ, ?K1, ?K2, ?K1, ?K2. lra.
  - pose (st := fun x s i j => 2/3 * g1 (1/2*dt) (g2 dt (g1 (1/2*dt) u)) x s i j
                             + 2/3 * g2 (1/2*dt) (g1 dt (g2 (1/2*dt) u)) x s i j).
    pose (me := fun x s i j => 1/2 * g1 dt (g2 dt u) x s i j + 1/2 * g2 dt (g1 dt u) x s i j).
    pose proof (LQ 1 (-(1/3)) st me) as E.
    pose proof (LQ (2/3) (2/3) (g1 (1/2*dt) (g2 dt (g1 (1/2*dt) u))) (g2 (1/2*dt) (g1 dt (g2 (1/2*dt) u)))) as Es.
    pose proof (LQ (1/2) (1/2) (g1 dt (g2 dt u)) (g2 dt (g1 dt u))) as Em.
    fold st in Es. fold me in Em. repeat (rewrite K1 in Es || rewrite K2 in Es). repeat (rewrite K1 in Em || rewrite K2 in Em).
    transitivity (Q (fun x s i j => 1 * st x s i j + -(1/3) * me x s i j)).
    + f_equal. do 4 (apply FunctionalExtensionality.functional_extensionality; intro).
      unfold st, me. lra.
    + rewrite E, Es, Em. lra.
Qed.

Lemma transport_kept (Q : gstate -> R) P w h :
  (forall a b u v, Q (fun x s i j => a * u x s i j + b * v x s i j) = a * Q u + b * Q v) ->
  (forall t dt u, Q (characteristics (pc P) w t dt u) = Q u) -> (forall t dt u, Q (collide P t dt u) = Q u) ->
  forall t u, Q (transport P w t h u) = Q u.
Proof.
  intros LQ K1 K2. induction h as [|(m&dt) h IH]; intros t u; cbn [transport]; [reflexivity|].
  rewrite IH. apply compose_kept; auto.
Qed.

Lemma gtotal_holds c F u x s : holds c F u -> inb (N_p c) x -> inb (N_species c) s ->
  gtotal (lay c) F x s = grid_sum c u x s.
Proof.
  intros (_&H) Hx Hs. unfold gtotal, grid_sum. apply zsum_ext; intros. apply zsum_ext; intros. apply H; auto.
Qed.

(** Without source the number of particles of each momentum is kept. *)
Lemma streaming_number P k1 k2 w ap h s : streaming P -> quiet P -> wf_cfg (pc P) k1 k2 -> interpolates w ap ->
  normalised w -> uses (pc P) ap -> streams (pc P) ->
  shaped (lay (pc P)) (N_p (pc P)) (N_species (pc P)) (f_of s) -> reach_run (pc P) (time_elapsed s) h ->
  exists s', run_steps (solver_stepper P) h s = Ok (s', None)
  /\ forall x sp, inb (N_p (pc P)) x -> inb (N_species (pc P)) sp ->
     gtotal (lay (pc P)) (f_of s') x sp = gtotal (lay (pc P)) (f_of s) x sp.
Proof.
  intros S Q W IT NW US ST SH RE.
  assert (HU : holds (pc P) (f_of s) (gval (lay (pc P)) (f_of s))) by (split; auto).
  destruct (streaming_run P k1 k2 w ap h s _ S W IT US HU RE) as (s'&E&H&_).
  exists s'. split; [exact E|]. intros x sp Hx Hs.
  destruct (st_layout P S) as ((N1&_)&(N2&_)&_).
  rewrite (gtotal_holds _ _ _ _ _ H Hx Hs), (gtotal_holds _ _ _ _ _ HU Hx Hs).
  apply (transport_kept (fun v => grid_sum (pc P) v x sp)).
  - intros. apply grid_sum_lin.
  - intros. apply characteristics_sum; auto.
  - intros. rewrite collide_quiet by auto. reflexivity.
Qed.

(** With a source that conserves particles, that of each species. *)
Lemma streaming_total P k1 k2 w ap h s : streaming P -> wf_cfg (pc P) k1 k2 -> interpolates w ap ->
  normalised w -> uses (pc P) ap -> streams (pc P) -> source_conserves (pc P) ->
  (instantaneous P = true -> forall t q1 q2 v sp,
     zsum (N_p (pc P)) (fun x => source_inst P t q1 q2 v x sp) = zsum (N_p (pc P)) (fun x => v x sp)) ->
  shaped (lay (pc P)) (N_p (pc P)) (N_species (pc P)) (f_of s) -> reach_run (pc P) (time_elapsed s) h ->
  exists s', run_steps (solver_stepper P) h s = Ok (s', None)
  /\ forall sp, inb (N_species (pc P)) sp ->
     zsum (N_p (pc P)) (fun x => gtotal (lay (pc P)) (f_of s') x sp)
     = zsum (N_p (pc P)) (fun x => gtotal (lay (pc P)) (f_of s) x sp).
Proof.
  intros S W IT NW US ST SC SI SH RE.
  assert (HU : holds (pc P) (f_of s) (gval (lay (pc P)) (f_of s))) by (split; auto).
  destruct (streaming_run P k1 k2 w ap h s _ S W IT US HU RE) as (s'&E&H&_).
  exists s'. split; [exact E|]. intros sp Hs.
  destruct (st_layout P S) as ((N1&_)&(N2&_)&_).
  rewrite (zsum_ext _ _ (fun x => grid_sum (pc P) (transport P w (time_elapsed s) h (gval (lay (pc P)) (f_of s))) x sp)).
  2:{ intros x Hx. apply (gtotal_holds _ _ _ _ _ H Hx Hs). }
  rewrite (zsum_ext _ (fun x => gtotal (lay (pc P)) (f_of s) x sp) (fun x => grid_sum (pc P) (gval (lay (pc P)) (f_of s)) x sp)).
  2:{ intros x Hx. apply (gtotal_holds _ _ _ _ _ HU Hx Hs). }
  apply (transport_kept (fun v => zsum (N_p (pc P)) (fun x => grid_sum (pc P) v x sp))).
  - intros. rewrite <- !zsum_scal, <- zsum_plus. apply zsum_ext; intros. apply grid_sum_lin.
  - intros. apply zsum_ext; intros. apply characteristics_sum; auto.
  - intros t dt u. unfold grid_sum. rewrite !(zsum_swap (N_p (pc P))). apply zsum_ext; intros g1 _.
    rewrite !(zsum_swap (N_p (pc P))). apply zsum_ext; intros g2 _. unfold collide. cbv zeta.
    destruct (instantaneous P); [apply (SI eq_refl _ _ _ (fun x s => u x s g1 g2))|].
    destruct (source_enabled (pc P)) eqn:SE; [|reflexivity].
    rewrite zsum_plus, zsum_scal. destruct SC as [SC|SC]; [congruence|]. rewrite SC. ring.
Qed.

(** ** Uniform states *)
Lemma characteristics_const c w t dt (a : Z -> Z -> R) x s g1 g2 : normalised w ->
  characteristics c w t dt (fun x s _ _ => a x s) x s g1 g2 = a x s.
Proof. intros N. unfold characteristics. apply interp2_const; auto. Qed.

Lemma streaming_uniform P k1 k2 w ap h s a : streaming P -> quiet P -> wf_cfg (pc P) k1 k2 -> interpolates w ap ->
  normalised w -> uses (pc P) ap ->
  holds (pc P) (f_of s) (fun x sp _ _ => a x sp) -> reach_run (pc P) (time_elapsed s) h ->
  exists s', run_steps (solver_stepper P) h s = Ok (s', None) /\ holds (pc P) (f_of s') (fun x sp _ _ => a x sp).
Proof.
  intros S Q W IT NW US HU RE.
  destruct (streaming_run P k1 k2 w ap h s _ S W IT US HU RE) as (s'&E&H&_).
  exists s'. split; [exact E|].
  assert (TR : forall h t, transport P w t h (fun x sp _ _ => a x sp) = (fun x sp _ _ => a x sp)).
  { clear - NW Q. induction h as [|(m&dt) h IH]; intros t; cbn [transport]; [reflexivity|].
    assert (CC : forall t dt, characteristics (pc P) w t dt (fun x sp _ _ => a x sp) = (fun x sp _ _ => a x sp)).
    { intros. do 4 (apply FunctionalExtensionality.functional_extensionality; intro). apply characteristics_const; auto. }
    assert (CE : compose m (characteristics (pc P) w t) (collide P t) dt (fun x sp _ _ => a x sp) = (fun x sp _ _ => a x sp)).
    { destruct m; cbn [compose]; rewrite ?collide_quiet, ?CC, ?collide_quiet, ?CC by auto; try reflexivity;
      do 4 (apply FunctionalExtensionality.functional_extensionality; intro);
      rewrite ?collide_quiet, ?CC, ?collide_quiet, ?CC by auto; lra. }
    rewrite CE. apply IH. }
  rewrite TR in H. exact H.
Qed.
