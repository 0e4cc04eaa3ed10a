(** The field-solver properties. *)
From Coq Require Import ZArith Reals Lia Lra String List Bool.
From Verif Require Import Base.Prelude Base.ZSum Model.Af Model.Grid Model.Petsc Model.Config
  Model.Boundaries Model.Fvm Model.Fft Model.Em Spec.Domain Spec.Yee Spec.EmRun
  Proofs.AfLemmas Proofs.PetscLemmas Proofs.EmLemmas Proofs.EmStep Proofs.EmGrids Proofs.EmInit
  Proofs.EmEnergy Proofs.EmVector.
Import ListNotations.
Local Open Scope R_scope.

(** ** div B and Gauss's law *)
Lemma divB_history c rho hist s0 s' : regular c ->
  fields_solver_init c rho = Ok s0 -> do_events c hist s0 = Ok s' ->
  forall i j, inb (gN1 (flay c)) i -> inb (gN2 (flay c)) j ->
  gval (flay c) (compute_divB c s') 0 0 i j = gval (flay c) (compute_divB c s0) 0 0 i j.
Proof.
  intros RG H0 H i j Hi Hj. pose proof (init_good c rho s0 RG H0) as G0.
  rewrite !divB_view; auto; [|eapply do_events_good; eauto].
  eapply do_events_divB; eauto.
Qed.

Lemma gauss_history c rho_init rho hist s0 s' : regular c -> hybrid c = false ->
  fields_solver_init c rho_init = Ok s0 -> do_events c hist s0 = Ok s' ->
  forall i j, inb (gN1 (flay c)) i -> inb (gN2 (flay c)) j ->
  eps c * gval (flay c) (fst (compute_divE c s')) 0 0 i j
    - charge_after (fdq1 c) (fdq2 c) rho (steps_of (flay c) hist) i j
  = eps c * gval (flay c) (fst (compute_divE c s0)) 0 0 i j - rho i j.
Proof.
  intros RG HY H0 H i j Hi Hj. pose proof (init_good c rho_init s0 RG H0) as G0.
  destruct (do_events_good c hist s0 s' RG G0 H) as (W'&_). destruct G0 as (W0&G0).
  rewrite !divE_view; auto. assert (G0' : good c s0) by (split; auto).
  eapply do_events_divE; eauto.
Qed.

(** ** Energy *)
Lemma gper_per_grid L (F : dist R) k : periodic_layout L -> per (gN1 L) (gN2 L) (gper L F k 0).
Proof. intros ((?&_)&(?&_)&_). split; intros; unfold gper; rewrite Z.mod_mod by lia; reflexivity. Qed.
Lemma lat_per c s : periodic_layout (flay c) -> per_lat (gN1 (flay c)) (gN2 (flay c)) (lat c s).
Proof. intros PL. repeat split; cbn [lat view E1 E2 E3 B1 B2 B3]; apply (gper_per_grid _ _ _ PL). Qed.

Lemma energy_same n1 n2 e m Y Y' Z Z' : same Y Y' -> same Z Z' ->
  energy n1 n2 e m Y Z = energy n1 n2 e m Y' Z'.
Proof.
  intros (_&_&_&A4&A5&A6) (B1&B2&B3&B4&B5&B6). unfold energy. apply total_ext. intros.
  rewrite A4, A5, A6, B1, B2, B3, B4, B5, B6. reflexivity.
Qed.

Definition noJ : grid := fun _ _ => 0.

Lemma ampere_ext h1 h2 e m dt J1 J2 J3 J1' J2' J3' Y :
  (forall i j, J1 i j = J1' i j) -> (forall i j, J2 i j = J2' i j) -> (forall i j, J3 i j = J3' i j) ->
  same (ampere h1 h2 e m dt J1 J2 J3 Y) (ampere h1 h2 e m dt J1' J2' J3' Y).
Proof. intros A B C. unfold same, ampere; cbn. repeat split; intros; rewrite ?A, ?B, ?C; reflexivity. Qed.

Lemma evolve_vacuum c J1 J2 J3 dt s s' : regular c -> hybrid c = false -> good c s ->
  no_current (flay c) J1 -> no_current (flay c) J2 -> no_current (flay c) J3 ->
  evolve_electrodynamic_fields c J1 J2 J3 dt s = Ok s' ->
  same (lat c s') (yee_step (fdq1 c) (fdq2 c) (eps c) (mu c) dt noJ noJ noJ (lat c s)).
Proof.
  intros RG HY (W&_) N1 N2 N3 H. destruct (evolve_ok c J1 J2 J3 dt s s' RG W H) as (YE&_&_&L1&_&_&_&X&_).
  eapply same_trans; [exact L1|]. unfold yee_step. apply faraday_same.
  eapply same_trans; [apply X; exact HY|]. apply ampere_ext; auto.
Qed.

Lemma evolve_total c J1 J2 J3 dt s : regular c -> hybrid c = false ->
  exists s', evolve_electrodynamic_fields c J1 J2 J3 dt s = Ok s'.
Proof.
  intros RG HY. rewrite evolve_split.
  destruct (fdtd_total c dt (dmap asum1 J1) (dmap asum1 J2) (dmap asum1 J3) (before_fdtd s) (proj2 (proj1 RG)) HY) as (s2&->).
  cbn [rbind]. eauto.
Qed.

Definition zeroJ : dist R := fun _ _ => Arr 1 1 1 1 (fun _ _ _ _ => 0).
Lemma zeroJ_none L : no_current L zeroJ.
Proof.
  intros i j. unfold grid_of, gper, gval, dmap, zeroJ, asum1; cbn [el d1]. rewrite zsum_1. reflexivity.
Qed.

(** Energy between a state and the vacuum step from it. *)
Definition step_energy (c : fcfg) (dt : R) (Y : lattice) : R :=
  energy (gN1 (flay c)) (gN2 (flay c)) (eps c) (mu c) Y
    (yee_step (fdq1 c) (fdq2 c) (eps c) (mu c) dt noJ noJ noJ Y).

Lemma step_energy_same c dt Y Z : same Y Z -> step_energy c dt Y = step_energy c dt Z.
Proof. intros H. unfold step_energy. apply energy_same; auto. apply faraday_same, ampere_same; auto. Qed.

Lemma step_energy_event c dt e s s' : regular c -> hybrid c = false -> good c s ->
  vacuum_event (flay c) dt e -> do_event c e s = Ok s' ->
  step_energy c dt (lat c s') = step_energy c dt (lat c s).
Proof.
  intros RG HY G V H. assert (G' := do_event_good c e s s' RG G H).
  assert (PL : periodic_layout (flay c)) by apply RG.
  destruct e as [J1 J2 J3 dt'| |]; cbn [do_event] in H.
  - destruct V as (->&N1&N2&N3).
    pose proof (evolve_vacuum c J1 J2 J3 dt s s' RG HY G N1 N2 N3 H) as X.
    destruct (evolve_total c zeroJ zeroJ zeroJ dt s' RG HY) as (s2&H2).
    pose proof (evolve_vacuum c _ _ _ dt s' s2 RG HY G' (zeroJ_none _) (zeroJ_none _) (zeroJ_none _) H2) as X2.
    unfold step_energy.
    rewrite (energy_same _ _ _ _ (lat c s') (lat c s') _ (lat c s2) (same_refl _) (same_sym _ _ X2)).
    rewrite (energy_same _ _ _ _ (lat c s) (lat c s) _ (lat c s') (same_refl _) (same_sym _ _ X)).
    destruct RG as (_&Hm&He&H1'&H2'). assert (PL' := PL). destruct PL' as ((P1&_)&(P2&_)&_).
    exact (energy_conserved _ _ P1 P2 (fdq1 c) (fdq2 c) (eps c) (mu c) dt noJ noJ noJ (lat c s) (lat c s') (lat c s2)
      H1' H2' He Hm (fun _ _ => eq_refl) (fun _ _ => eq_refl) (fun _ _ => eq_refl)
      (lat_per c s' PL) (lat_per c s2 PL) X X2).
  - apply Ok_inj in H. rewrite <- H. unfold lat. rewrite (proj1 (get_fields_keeps c s)). reflexivity.
  - apply Ok_inj in H. rewrite <- H. apply step_energy_same, divE_keeps; auto.
Qed.

Lemma step_energy_events c dt l : forall s s', regular c -> hybrid c = false -> good c s ->
  Forall (vacuum_event (flay c) dt) l -> do_events c l s = Ok s' ->
  step_energy c dt (lat c s') = step_energy c dt (lat c s).
Proof.
  induction l as [|e l IH]; intros s s' RG HY G V H; cbn [do_events] in H; [injection H as <-; auto|].
  destruct (do_event c e s) as [s1|x] eqn:E; cbn [rbind] in H; [|discriminate H].
  inversion V; subst. rewrite (IH s1 s' RG HY (do_event_good _ _ _ _ RG G E)); auto.
  eapply step_energy_event; eauto.
Qed.

Lemma energy_history c rho hist dt s0 s : regular c -> hybrid c = false ->
  fields_solver_init c rho = Ok s0 ->
  Forall (vacuum_event (flay c) dt) hist -> do_events c hist s0 = Ok s ->
  forall J1 J2 J3, no_current (flay c) J1 -> no_current (flay c) J2 -> no_current (flay c) J3 ->
  exists s1 s1',
    evolve_electrodynamic_fields c J1 J2 J3 dt s0 = Ok s1
    /\ evolve_electrodynamic_fields c J1 J2 J3 dt s = Ok s1'
    /\ energy (gN1 (flay c)) (gN2 (flay c)) (eps c) (mu c) (view (flay c) (yee_val s)) (view (flay c) (yee_val s1'))
       = energy (gN1 (flay c)) (gN2 (flay c)) (eps c) (mu c) (view (flay c) (yee_val s0)) (view (flay c) (yee_val s1)).
Proof.
  intros RG HY H0 V H J1 J2 J3 N1 N2 N3.
  pose proof (init_good c rho s0 RG H0) as G0. pose proof (do_events_good c hist s0 s RG G0 H) as G.
  destruct (evolve_total c J1 J2 J3 dt s0 RG HY) as (s1&E1).
  destruct (evolve_total c J1 J2 J3 dt s RG HY) as (s1'&E1').
  exists s1, s1'. split; [exact E1|]. split; [exact E1'|].
  pose proof (evolve_vacuum c J1 J2 J3 dt s0 s1 RG HY G0 N1 N2 N3 E1) as X.
  pose proof (evolve_vacuum c J1 J2 J3 dt s s1' RG HY G N1 N2 N3 E1') as X'.
  fold (lat c s) (lat c s0) (lat c s1) (lat c s1').
  rewrite (energy_same _ _ _ _ _ _ _ _ (same_refl (lat c s)) X').
  rewrite (energy_same _ _ _ _ _ _ _ _ (same_refl (lat c s0)) X).
  apply (step_energy_events c dt hist s0 s); auto.
Qed.

Lemma stable_history c rho hist dt s0 s : regular c -> hybrid c = false -> 0 < eps c -> 0 < mu c ->
  courant2 (fdq1 c) (fdq2 c) (eps c) (mu c) dt < 1 ->
  fields_solver_init c rho = Ok s0 ->
  Forall (vacuum_event (flay c) dt) hist -> do_events c hist s0 = Ok s ->
  forall J1 J2 J3, no_current (flay c) J1 -> no_current (flay c) J2 -> no_current (flay c) J3 ->
  exists s1 s1',
    evolve_electrodynamic_fields c J1 J2 J3 dt s0 = Ok s1
    /\ evolve_electrodynamic_fields c J1 J2 J3 dt s = Ok s1'
    /\ field_norm2 (gN1 (flay c)) (gN2 (flay c)) (eps c) (mu c) (view (flay c) (yee_val s1'))
       <= 2 / (1 - courant2 (fdq1 c) (fdq2 c) (eps c) (mu c) dt)
          * energy (gN1 (flay c)) (gN2 (flay c)) (eps c) (mu c) (view (flay c) (yee_val s0)) (view (flay c) (yee_val s1)).
Proof.
  intros RG HY Pe Pm CFL H0 V H J1 J2 J3 N1 N2 N3.
  destruct (energy_history c rho hist dt s0 s RG HY H0 V H J1 J2 J3 N1 N2 N3) as (s1&s1'&E1&E1'&EN).
  exists s1, s1'. split; [exact E1|]. split; [exact E1'|]. rewrite <- EN.
  pose proof (init_good c rho s0 RG H0) as G0. pose proof (do_events_good c hist s0 s RG G0 H) as G.
  pose proof (evolve_vacuum c J1 J2 J3 dt s s1' RG HY G N1 N2 N3 E1') as X'.
  assert (PL : periodic_layout (flay c)) by apply RG. assert (PL' := PL). destruct PL' as ((P1&_)&(P2&_)&_).
  destruct RG as (_&_&_&Hh1&Hh2).
  pose proof (energy_bound _ _ P1 P2 (fdq1 c) (fdq2 c) (eps c) (mu c) dt noJ noJ noJ (lat c s) (lat c s1')
     Hh1 Hh2 Pe Pm CFL (lat_per c s1' PL) X') as B.
  fold (lat c s) (lat c s1').
  set (nu := courant2 (fdq1 c) (fdq2 c) (eps c) (mu c) dt) in *.
  assert (P : 0 <= 2 / (1 - nu)) by (apply Rmult_le_pos; [lra|left; apply Rinv_0_lt_compat; lra]).
  apply (Rmult_le_compat_l _ _ _ P) in B.
  replace (2 / (1 - nu) * ((1 - nu) / 2 * field_norm2 (gN1 (flay c)) (gN2 (flay c)) (eps c) (mu c) (lat c s1')))
    with (field_norm2 (gN1 (flay c)) (gN2 (flay c)) (eps c) (mu c) (lat c s1')) in B by (field; lra).
  exact B.
Qed.

(** ** Vector potential *)
Lemma divB_initial_A3 c ab rho s : regular c -> from_A3 c ab ->
  (fields_initialize c = "user-defined"%string
   \/ fields_initialize c = "fft + user-defined magnetic fields"%string) ->
  initialize_fields c rho = Ok s ->
  forall i j, inb (gN1 (flay c)) i -> inb (gN2 (flay c)) j ->
  gval (flay c) (compute_divB c s) 0 0 i j = 0.
Proof.
  intros RG FA UB H. destruct (initialize_A3 c ab rho s RG FA UB H) as (W&M).
  apply (divB_A3 c (fun u v => fst (ab u v)) s RG); [apply shaped_yee; auto|exact M].
Qed.

Lemma divB_history_A3 c ab rho hist s0 s' : regular c -> from_A3 c ab ->
  periodic_potential c (fun q1 q2 => fst (ab q1 q2)) ->
  (fields_initialize c = "user-defined"%string
   \/ fields_initialize c = "fft + user-defined magnetic fields"%string) ->
  fields_solver_init c rho = Ok s0 -> do_events c hist s0 = Ok s' ->
  forall i j, inb (gN1 (flay c)) i -> inb (gN2 (flay c)) j ->
  gval (flay c) (compute_divB c s') 0 0 i j = 0.
Proof.
  intros RG FA PP UB H0 H i j Hi Hj.
  rewrite (divB_history c rho hist s0 s' RG H0 H i j Hi Hj).
  rewrite divB_view; auto; [|eapply init_good; eauto].
  unfold fields_solver_init in H0.
  destruct (initialize_fields c (dmap asum1 rho)) as [s1|e] eqn:E1; cbn [rbind] in H0; [|discriminate H0].
  destruct (initialize_A3 c ab _ s1 RG FA UB E1) as (W&M).
  apply Ok_inj in H0. rewrite <- H0.
  assert (X : same (lat c (snd (compute_divE c s1))) (lat c s1)).
  { change (snd (compute_divE c s1)) with (communicate_fields c true s1).
    unfold lat. rewrite yee_val_communicate. apply view_communicate; [apply RG|apply shaped_yee; auto]. }
  rewrite (div_B_same _ _ _ _ i j X).
  apply (lat_A3 c (fun u v => fst (ab u v)) (yee_val s1) RG PP M).
Qed.

(** ** Grid conversions *)
Lemma gtotal_total L (F : dist R) k : gtotal L F k 0 = total (gN1 L) (gN2 L) (gper L F k 0).
Proof.
  unfold gtotal, total. apply zsum_ext; intros i Hi. apply zsum_ext; intros j Hj.
  unfold gper. rewrite !Z.mod_small by lia. reflexivity.
Qed.

Section Averages.
Context (n1 n2 : Z) (P1 : (0 < n1)%Z) (P2 : (0 < n2)%Z).
Lemma avg1 d u : per n1 n2 u -> total n1 n2 (fun i j => (u i j + u (i + d)%Z j) / 2) = total n1 n2 u.
Proof.
  intros H. rewrite (total_ext _ _ _ (fun i j => 1/2 * (u i j + u (i + d)%Z j))) by (intros; field).
  rewrite (total_scal _ _ (1/2) (fun i j => u i j + u (i + d)%Z j)), (total_plus _ _ u (fun i j => u (i + d)%Z j)).
  rewrite total_shift1 by auto. field.
Qed.
Lemma avg2 d u : per n1 n2 u -> total n1 n2 (fun i j => (u i j + u i (j + d)%Z) / 2) = total n1 n2 u.
Proof.
  intros H. rewrite (total_ext _ _ _ (fun i j => 1/2 * (u i j + u i (j + d)%Z))) by (intros; field).
  rewrite (total_scal _ _ (1/2) (fun i j => u i j + u i (j + d)%Z)), (total_plus _ _ u (fun i j => u i (j + d)%Z)).
  rewrite total_shift2 by auto. field.
Qed.
Lemma avg4 d u : per n1 n2 u ->
  total n1 n2 (fun i j => (u i j + u i (j + d)%Z + u (i + d)%Z j + u (i + d)%Z (j + d)%Z) / 4) = total n1 n2 u.
Proof.
  intros H. rewrite (total_ext _ _ _ (fun i j => 1/4 * ((u i j + u i (j + d)%Z) + (u (i + d)%Z j + u (i + d)%Z (j + d)%Z)))) by (intros; field).
  rewrite (total_scal _ _ (1/4) (fun i j => (u i j + u i (j + d)%Z) + (u (i + d)%Z j + u (i + d)%Z (j + d)%Z))).
  rewrite (total_plus _ _ (fun i j => u i j + u i (j + d)%Z) (fun i j => u (i + d)%Z j + u (i + d)%Z (j + d)%Z)).
  rewrite (total_plus _ _ u (fun i j => u i (j + d)%Z)),
    (total_plus _ _ (fun i j => u (i + d)%Z j) (fun i j => u (i + d)%Z (j + d)%Z)).
  rewrite (total_shift1 _ _ P1 d u H), (total_shift2 _ _ P2 d u H).
  rewrite (total_shift1 _ _ P1 d (fun i j => u i (j + d)%Z)); [rewrite (total_shift2 _ _ P2 d u H); field|].
  destruct H as (A&B). split; intros; [apply A|].
  rewrite <- (B i (j + d)%Z), <- (B i (j mod n2 + d)%Z). f_equal. apply Zplus_mod_idemp_l.
Qed.
End Averages.

Lemma six k : inb 6 k -> (k = 0 \/ k = 1 \/ k = 2 \/ k = 3 \/ k = 4 \/ k = 5)%Z.
Proof. unfold inb. lia. Qed.

Ltac six_cases Hk := destruct (six _ Hk) as [K|[K|[K|[K|[K|K]]]]]; subst.

Lemma centre_total c s : regular c -> wf_em c s -> synced (flay c) (yee_val s) after_faraday ->
  forall k, inb 6 k ->
  gtotal (flay c) (cc_val (yee_grid_to_cell_centered_grid Both s)) k 0 = gtotal (flay c) (yee_val s) k 0.
Proof.
  intros RG W SY k Hk. assert (PL : periodic_layout (flay c)) by apply RG.
  assert (PL' := PL). destruct PL' as ((P1&_)&(P2&_)&_).
  unfold yee_grid_to_cell_centered_grid, cc_val; cbn [write cc mem]. rewrite Nat.eqb_refl.
  pose proof (yee_to_cc_lift (flay c) Both (yee_val s) (mem s (cc s)) after_faraday PL SY after_faraday_inner) as V.
  cbn [does_E does_B] in V. destruct V as (V1&V2&V3&V4&V5&V6).
  cbn [view EB centred E1 E2 E3 B1 B2 B3] in *.
  rewrite !gtotal_total.
  six_cases Hk.
  - rewrite (total_ext _ _ _ _ V1). apply avg1; auto. apply gper_per_grid; auto.
  - rewrite (total_ext _ _ _ _ V2). apply avg2; auto. apply gper_per_grid; auto.
  - apply total_ext; auto.
  - rewrite (total_ext _ _ _ _ V4). apply avg2; auto. apply gper_per_grid; auto.
  - rewrite (total_ext _ _ _ _ V5). apply avg1; auto. apply gper_per_grid; auto.
  - rewrite (total_ext _ _ _ _ V6). apply avg4; auto. apply gper_per_grid; auto.
Qed.

Lemma stagger_total c s : regular c -> wf_em c s -> synced (flay c) (cc_val s) everywhere ->
  forall k, inb 6 k ->
  gtotal (flay c) (yee_val (cell_centered_grid_to_yee_grid Both s)) k 0 = gtotal (flay c) (cc_val s) k 0.
Proof.
  intros RG W SY k Hk. assert (PL : periodic_layout (flay c)) by apply RG.
  assert (PL' := PL). destruct PL' as ((P1&_)&(P2&_)&_).
  unfold cell_centered_grid_to_yee_grid, yee_val; cbn [write yee mem]. rewrite Nat.eqb_refl.
  pose proof (cc_to_yee_lift (flay c) Both (cc_val s) (mem s (yee s)) PL SY) as V.
  cbn [does_E does_B] in V. destruct V as (V1&V2&V3&V4&V5&V6).
  cbn [view EB staggered E1 E2 E3 B1 B2 B3] in *.
  rewrite !gtotal_total.
  six_cases Hk.
  - rewrite (total_ext _ _ _ _ V1). apply (avg1 _ _ P1 (-1)); auto. apply gper_per_grid; auto.
  - rewrite (total_ext _ _ _ _ V2). apply (avg2 _ _ P2 (-1)); auto. apply gper_per_grid; auto.
  - apply total_ext; auto.
  - rewrite (total_ext _ _ _ _ V4). apply (avg2 _ _ P2 (-1)); auto. apply gper_per_grid; auto.
  - rewrite (total_ext _ _ _ _ V5). apply (avg1 _ _ P1 (-1)); auto. apply gper_per_grid; auto.
  - rewrite (total_ext _ _ _ _ V6). rewrite <- (avg4 _ _ P1 P2 (-1) _ (gper_per_grid _ _ 5 PL)).
    apply total_ext. intros. unfold Z.sub. change (- (1))%Z with (-1)%Z. lra.
Qed.

(** Uniform and affine fields, on any rank of any layout. *)
Lemma uniform_y2c w y a (u : Z -> R) : d1 y = 1%Z ->
  (forall k i j, inb 6 k -> inb (d2 y) i -> inb (d3 y) j -> el y k 0 i j = u k) ->
  (w = Both \/ forall k i j, inb 6 k -> inb (d2 y) i -> inb (d3 y) j -> el a k 0 i j = u k) ->
  forall k i j, inb 6 k -> inb (d2 y) i -> inb (d3 y) j -> el (yee_to_cc_rank w y a) k 0 i j = u k.
Proof.
  intros D1 H Ha k i j Hk Hi Hj.
  assert (M : forall n x, (0 < n)%Z -> inb n (x mod n)) by (intros; unfold inb; apply Z.mod_pos_bound; auto).
  unfold yee_to_cc_rank.
  assert (Hn : (0 < d2 y)%Z) by (unfold inb in Hi; lia). assert (Hm : (0 < d3 y)%Z) by (unfold inb in Hj; lia).
  destruct Ha as [->|Ha]; [|destruct w]; six_cases Hk; cbn [does_E does_B]; local_el;
    rewrite ?D1, ?mod1, ?H; auto; try (unfold inb; lia); try (apply Ha; auto; unfold inb; lia); field.
Qed.
Lemma uniform_c2y w y a (u : Z -> R) : d1 y = 1%Z ->
  (forall k i j, inb 6 k -> inb (d2 y) i -> inb (d3 y) j -> el y k 0 i j = u k) ->
  (w = Both \/ forall k i j, inb 6 k -> inb (d2 y) i -> inb (d3 y) j -> el a k 0 i j = u k) ->
  forall k i j, inb 6 k -> inb (d2 y) i -> inb (d3 y) j -> el (cc_to_yee_rank w y a) k 0 i j = u k.
Proof.
  intros D1 H Ha k i j Hk Hi Hj.
  assert (M : forall n x, (0 < n)%Z -> inb n (x mod n)) by (intros; unfold inb; apply Z.mod_pos_bound; auto).
  unfold cc_to_yee_rank.
  assert (Hn : (0 < d2 y)%Z) by (unfold inb in Hi; lia). assert (Hm : (0 < d3 y)%Z) by (unfold inb in Hj; lia).
  destruct Ha as [->|Ha]; [|destruct w]; six_cases Hk; cbn [does_E does_B]; local_el;
    rewrite ?D1, ?mod1, ?H; auto; try (unfold inb; lia); try (apply Ha; auto; unfold inb; lia); field.
Qed.

Lemma affine_y2c w y a u0 u1 u2 : d1 y = 1%Z ->
  (forall k i j, inb 6 k -> inb (d2 y) i -> inb (d3 y) j ->
     el y k 0 i j = affine u0 u1 u2 k (IZR i + fst (yee_position k)) (IZR j + snd (yee_position k))) ->
  (w = Both \/ forall k i j, inb 6 k -> inb (d2 y) i -> inb (d3 y) j ->
     el a k 0 i j = affine u0 u1 u2 k (IZR i + 1/2) (IZR j + 1/2)) ->
  forall k i j, inb 6 k -> inb (d2 y - 1) i -> inb (d3 y - 1) j ->
  el (yee_to_cc_rank w y a) k 0 i j = affine u0 u1 u2 k (IZR i + 1/2) (IZR j + 1/2).
Proof.
  intros D1 H Ha k i j Hk Hi Hj. unfold inb in Hi, Hj.
  destruct (yee_to_cc_el w y a D1) as (_&X). specialize (X i j ltac:(lia) ltac:(lia)).
  assert (P : forall k, inb 6 k -> el y k 0 i j = affine u0 u1 u2 k (IZR i + fst (yee_position k)) (IZR j + snd (yee_position k))
     /\ el y k 0 (i + 1) j = affine u0 u1 u2 k (IZR i + 1 + fst (yee_position k)) (IZR j + snd (yee_position k))
     /\ el y k 0 i (j + 1) = affine u0 u1 u2 k (IZR i + fst (yee_position k)) (IZR j + 1 + snd (yee_position k))
     /\ el y k 0 (i + 1) (j + 1) = affine u0 u1 u2 k (IZR i + 1 + fst (yee_position k)) (IZR j + 1 + snd (yee_position k))).
  { intros k' Hk'. rewrite !H by (auto; unfold inb; lia). rewrite !plus_IZR. auto. }
  destruct (P k Hk) as (Q0&Q1&Q2&Q3). clear P H.
  destruct Ha as [->|Ha]; [|assert (A := Ha k i j Hk ltac:(unfold inb; lia) ltac:(unfold inb; lia)); clear Ha; destruct w];
  six_cases Hk; cbn [does_E does_B] in X; destruct X as ((X0&X1&X2)&X3&X4&X5);
    unfold yee_position in *; cbn in Q0, Q1, Q2, Q3;
    first [rewrite X0|rewrite X1|rewrite X2|rewrite X3|rewrite X4|rewrite X5]; try exact A;
    rewrite ?Q0, ?Q1, ?Q2, ?Q3; unfold affine; lra.
Qed.

Lemma affine_c2y w y a u0 u1 u2 : d1 y = 1%Z ->
  (forall k i j, inb 6 k -> inb (d2 y) i -> inb (d3 y) j ->
     el y k 0 i j = affine u0 u1 u2 k (IZR i + 1/2) (IZR j + 1/2)) ->
  (w = Both \/ forall k i j, inb 6 k -> inb (d2 y) i -> inb (d3 y) j ->
     el a k 0 i j = affine u0 u1 u2 k (IZR i + fst (yee_position k)) (IZR j + snd (yee_position k))) ->
  forall k i j, inb 6 k -> (1 <= i < d2 y)%Z -> (1 <= j < d3 y)%Z ->
  el (cc_to_yee_rank w y a) k 0 i j
  = affine u0 u1 u2 k (IZR i + fst (yee_position k)) (IZR j + snd (yee_position k)).
Proof.
  intros D1 H Ha k i j Hk Hi Hj.
  destruct (cc_to_yee_el w y a D1) as (_&X). specialize (X i j ltac:(lia) ltac:(lia)).
  assert (P : forall k, inb 6 k -> el y k 0 i j = affine u0 u1 u2 k (IZR i + 1/2) (IZR j + 1/2)
     /\ el y k 0 (i - 1) j = affine u0 u1 u2 k (IZR i - 1 + 1/2) (IZR j + 1/2)
     /\ el y k 0 i (j - 1) = affine u0 u1 u2 k (IZR i + 1/2) (IZR j - 1 + 1/2)
     /\ el y k 0 (i - 1) (j - 1) = affine u0 u1 u2 k (IZR i - 1 + 1/2) (IZR j - 1 + 1/2)).
  { intros k' Hk'. rewrite !H by (auto; unfold inb; lia). rewrite !minus_IZR. auto. }
  destruct (P k Hk) as (Q0&Q1&Q2&Q3). clear P H.
  destruct Ha as [->|Ha]; [|assert (A := Ha k i j Hk ltac:(unfold inb; lia) ltac:(unfold inb; lia)); clear Ha; destruct w];
  six_cases Hk; cbn [does_E does_B] in X; destruct X as ((X0&X1&X2)&X3&X4&X5);
    first [rewrite X0|rewrite X1|rewrite X2|rewrite X3|rewrite X4|rewrite X5]; try exact A;
    rewrite ?Q0, ?Q1, ?Q2, ?Q3; unfold affine, yee_position; cbn; lra.
Qed.

(** ** The fields handed to the force *)
Lemma fields_seen c rho hist s0 s s' J1 J2 J3 dt b b' : regular c -> fields_solver c = "fdtd"%string ->
  fields_solver_init c rho = Ok s0 -> do_events c hist s0 = Ok s ->
  evolve_electrodynamic_fields c J1 J2 J3 dt s = Ok s' ->
  same (view (flay c) (fst (get_fields c (set_at_n b' s'))))
       (EB (mid (view (flay c) (fst (get_fields c (set_at_n b s)))) (centred (view (flay c) (yee_val s'))))
           (centred (view (flay c) (yee_val s')))).
Proof.
  intros RG FS H0 H HE. pose proof (init_good c rho s0 RG H0) as G0.
  pose proof (do_events_good c hist s0 s RG G0 H) as (W&AL&_).
  assert (GF : forall x b, aliased x -> fst (get_fields c (set_at_n b x)) = cc_val x).
  { intros x b0 (A&B). unfold get_fields; cbn [fst]. rewrite FS. cbn. destruct b0; unfold cc_val; congruence. }
  destruct (evolve_ok c J1 J2 J3 dt s s' RG W HE) as (YE&_&_&_&_&_&_&_&_&_&X).
  destruct (X AL) as (AL'&V). rewrite !GF by assumption. exact V.
Qed.

(** Uniform initial fields. *)
Lemma uniform_init c rho ev bv : regular c ->
  fields_initialize c = "user-defined"%string ->
  init_E c = Some (fun _ _ => ev) -> init_B c = Some (fun _ _ => bv) -> init_A3_B3 c = None ->
  let v k := if (k =? 0)%Z then fst (fst ev) else if (k =? 1)%Z then snd (fst ev) else if (k =? 2)%Z then snd ev
             else if (k =? 3)%Z then fst (fst bv) else if (k =? 4)%Z then snd (fst bv) else snd bv in
  exists s, fields_solver_init c rho = Ok s
    /\ (forall k i j, inb 6 k -> gper (flay c) (yee_val s) k 0 i j = v k)
    /\ (forall k i j, inb 6 k -> gper (flay c) (cc_val s) k 0 i j = v k).
Proof.
  intros RG FI IE IB IA v. assert (PL : periodic_layout (flay c)) by apply RG.
  assert (PE : forall e, fin_q c e = "periodic"%string) by apply RG.
  assert (T1 : forall s, exists F, set_joined c 0 3 (initial_E_rank c) s = Ok (write (yee s) F s)
      /\ forall r1 r2 i j k, (0 <= k < 6)%Z -> el (F r1 r2) k 0 i j = if (k <? 3)%Z then v k else el (yee_val s r1 r2) k 0 i j).
  { intros s. unfold set_joined, initial_E_rank. rewrite IE. cbn [rbind].
    match goal with |- exists F, rbind (all_ranks _ (fun r1 r2 => Ok (@?G r1 r2))) _ = _ /\ _ =>
      destruct (all_ranks_total (flay c) G) as (F&HF&HG) end.
    exists F. rewrite HF. split; [reflexivity|]. intros r1 r2 i j k Hk. rewrite HG.
    destruct (set_joined_rows 0 3 (sample (fun x y => fst (fst ev)) (q_left_center (fq c r1 r2)))
       (sample (fun x y => snd (fst ev)) (q_center_bot (fq c r1 r2))) (sample (fun x y => snd ev) (q_center (fq c r1 r2)))
       (yee_val s r1 r2) 0 i j eq_refl eq_refl eq_refl) as (A&B&C).
    assert (K : (k = 0 \/ k = 0 + 1 \/ k = 0 + 2 \/ 3 <= k)%Z) by lia.
    destruct K as [K|[K|[K|K]]]; [subst k; rewrite A; reflexivity|subst k; rewrite B; reflexivity|subst k; rewrite C; reflexivity|].
    unfold set_rows at 1; cbn [el]. replace ((0 <=? k) && (k <? 3))%Z%bool with false by lia.
    replace (k <? 3)%Z with false by lia. reflexivity. }
  assert (T2 : forall s, exists F, set_joined c 3 6 (initial_B_rank c) s = Ok (write (yee s) F s)
      /\ (forall r1 r2 i j k, (0 <= k < 6)%Z -> el (F r1 r2) k 0 i j = if (k <? 3)%Z then el (yee_val s r1 r2) k 0 i j else v k)).
  { intros s. unfold set_joined, initial_B_rank. rewrite IB, IA. cbn [rbind].
    match goal with |- exists F, rbind (all_ranks _ (fun r1 r2 => Ok (@?G r1 r2))) _ = _ /\ _ =>
      destruct (all_ranks_total (flay c) G) as (F&HF&HG) end.
    exists F. rewrite HF. split; [reflexivity|]. intros r1 r2 i j k Hk. rewrite HG.
    destruct (set_joined_rows 3 6 (sample (fun x y => fst (fst bv)) (q_center_bot (fq c r1 r2)))
       (sample (fun x y => snd (fst bv)) (q_left_center (fq c r1 r2))) (sample (fun x y => snd bv) (q_left_bot (fq c r1 r2)))
       (yee_val s r1 r2) 0 i j eq_refl eq_refl eq_refl) as (A&B&C).
    assert (K : (k = 3 \/ k = 3 + 1 \/ k = 3 + 2 \/ k < 3)%Z) by lia.
    destruct K as [K|[K|[K|K]]]; [subst k; rewrite A; reflexivity|subst k; rewrite B; reflexivity|subst k; rewrite C; reflexivity|].
    unfold set_rows at 1; cbn [el]. replace ((3 <=? k) && (k <? 6))%Z%bool with false by lia.
    replace (k <? 3)%Z with true by lia. reflexivity. }
  destruct (T1 (fresh c)) as (F1&HF1&VF1).
  assert (W1 := wf_set_joined c 0 3 _ _ _ (wf_fresh c) HF1).
  revert HF1 W1. set (s1 := write (yee (fresh c)) F1 (fresh c)). intros HF1 W1.
  destruct (T2 s1) as (F2&HF2&VF2).
  assert (W2 := wf_set_joined c 3 6 _ _ _ W1 HF2).
  revert HF2 W2. set (s2 := write (yee s1) F2 s1). intros HF2 W2. clear T1 T2.
  assert (U : forall r1 r2 i j k, inb 6 k -> el (yee_val s2 r1 r2) k 0 i j = v k).
  { intros r1 r2 i j k Hk. unfold s2. rewrite yee_val_write. rewrite VF2 by exact Hk.
    destruct (k <? 3)%Z eqn:EK; [|reflexivity].
    unfold s1. rewrite yee_val_write. rewrite VF1 by exact Hk. rewrite EK. reflexivity. }
  set (s3 := yee_grid_to_cell_centered_grid Both s2).
  assert (W3 : wf_em c s3) by (apply wf_y2c; auto).
  assert (Y3 : yee_val s3 = yee_val s2) by (apply (y2c_yee_val c); auto).
  assert (C3 : forall k i j, inb 6 k -> gper (flay c) (cc_val s3) k 0 i j = v k).
  { intros k i j Hk. revert i j. apply (grid_ind (flay c) PL (cc_val s3) k (fun _ _ => v k)); [reflexivity|].
    intros r1 r2 i j RK Hi Hj.
    unfold s3, yee_grid_to_cell_centered_grid, cc_val; cbn [write cc mem]. rewrite Nat.eqb_refl.
    destruct (shaped_yee c s2 W2 r1 r2 RK) as (D0&D1&D2&D3).
    assert (PL' := PL). destruct PL' as (_&_&G1&G2&_).
    apply uniform_y2c; auto; [rewrite D2|rewrite D3]; unfold inb, n1g, n2g; lia. }
  set (s4 := Em (mem s3) (next s3) (cc s3) (yee s3) (cc s3) (cc s3) (at_n s3) (fbuf s3) (ftime s3)).
  exists (communicate_fields c true s4).
  assert (I : initialize_fields c (dmap asum1 rho) = Ok s4).
  { unfold initialize_fields. rewrite FI. cbn [String.eqb Ascii.eqb eqb].
    unfold initialize_electric_fields. rewrite HF1. cbn [rbind].
    unfold initialize_magnetic_fields. rewrite HF2. cbn [rbind]. reflexivity. }
  split; [unfold fields_solver_init; rewrite I; reflexivity|].
  split; intros k i j Hk.
  - rewrite yee_val_communicate. change (yee_val s4) with (yee_val s3). rewrite Y3.
    rewrite communicate_gper; auto; [|apply shaped_yee; auto|unfold inb; lia].
    apply U; auto.
  - rewrite <- (C3 k i j Hk). reflexivity.
Qed.
