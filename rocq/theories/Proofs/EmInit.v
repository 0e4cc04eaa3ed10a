(** The state the field solver's constructor leaves, histories, and the solver's
    own divergence checks. *)
From Coq Require Import ZArith Reals Lia Lra String List Bool.
From Verif Require Import Base.Prelude Base.ZSum Model.Af Model.Grid Model.Petsc Model.Config
  Model.Boundaries Model.Fvm Model.Fft Model.Em Spec.Domain Spec.Yee Spec.EmRun
  Proofs.AfLemmas Proofs.PetscLemmas Proofs.EmLemmas Proofs.EmStep Proofs.EmGrids.
Import ListNotations.
Local Open Scope R_scope.

Lemma Ok_inj {A} (x y : A) : Ok x = Ok y -> x = y. Proof. congruence. Qed.

Lemma wf_fresh c : wf_em c (fresh c).
Proof.
  unfold wf_em, fresh; cbn [cc yee cc_n cc_nh next mem].
  split; [lia|split; [lia|]]. intros l _ r1 r2 _. repeat split.
Qed.

Lemma wf_set_joined c lo hi f s s' : wf_em c s -> set_joined c lo hi f s = Ok s' -> wf_em c s'.
Proof.
  intros W H. unfold set_joined in H.
  destruct (all_ranks (flay c) _) as [F|e] eqn:EF; cbn [rbind] in H; [|discriminate H].
  pose proof (all_ranks_Ok _ _ _ EF) as HF. cbv beta in HF.
  injection H as <-. apply wf_write; auto. intros r1 r2 RK. specialize (HF r1 r2 RK).
  destruct (f r1 r2) as [((a&b)&d)|e]; cbn [rbind] in HF; [|discriminate HF].
  injection HF as <-. destruct (shaped_yee c s W r1 r2 RK) as (A&B&C&D). repeat split; auto.
Qed.

Lemma wf_electrostatic c rho s s' : (forall e, fin_q c e = "periodic"%string) -> wf_em c s ->
  electrostatic_update c rho s = Ok s' -> wf_em c s'.
Proof.
  intros PE W H. unfold electrostatic_update, fft_poisson in H.
  destruct (negb (comm_size c =? 1)%nat); cbn [rbind] in H; [discriminate H|].
  rewrite apply_bcs_fields_periodic in H by exact PE.
  match type of H with Ok (communicate_fields _ _ (write _ ?F _)) = _ =>
    assert (SH : shaped (flay c) 6 1 F); [|revert H SH; generalize F; intros G H SH] end.
  { apply shaped_dmap2; [|apply shaped_cc; auto].
    intros g a. destruct (fft_poisson_E _ _ _ _ _) as (x&y). repeat split. }
  apply Ok_inj in H. rewrite <- H. apply wf_comm, wf_write; auto.
Qed.

Lemma wf_c2y c w s : wf_em c s -> wf_em c (cell_centered_grid_to_yee_grid w s).
Proof. intros W. apply wf_write; auto. apply shaped_c2y, shaped_yee; auto. Qed.
Lemma wf_y2c c w s : wf_em c s -> wf_em c (yee_grid_to_cell_centered_grid w s).
Proof. intros W. apply wf_write; auto. apply shaped_y2c, shaped_cc; auto. Qed.

Lemma initialize_ok c rho s : (forall e, fin_q c e = "periodic"%string) ->
  initialize_fields c rho = Ok s -> wf_em c s /\ aliased s.
Proof.
  intros PE H. unfold initialize_fields in H.
  match type of H with rbind ?x _ = _ => destruct x as [s1|e] eqn:E1; cbn [rbind] in H; [|discriminate H] end.
  assert (W1 : wf_em c s1).
  { destruct (String.eqb (fields_initialize c) "fft"); [|destruct (String.eqb (fields_initialize c) "user-defined");
      [|destruct (String.eqb (fields_initialize c) "fft + user-defined magnetic fields")]].
    - destruct (electrostatic_update c rho (fresh c)) as [s2|e] eqn:E2; cbn [rbind] in E1; [|discriminate E1].
      injection E1 as <-. apply wf_c2y. eapply wf_electrostatic; eauto. apply wf_fresh.
    - destruct (initialize_electric_fields c (fresh c)) as [s2|e] eqn:E2; cbn [rbind] in E1; [|discriminate E1].
      destruct (initialize_magnetic_fields c s2) as [s3|e] eqn:E3; cbn [rbind] in E1; [|discriminate E1].
      injection E1 as <-. apply wf_y2c. eapply wf_set_joined; [|exact E3].
      eapply wf_set_joined; [|exact E2]. apply wf_fresh.
    - destruct (electrostatic_update c rho (fresh c)) as [s2|e] eqn:E2; cbn [rbind] in E1; [|discriminate E1].
      assert (W2 : wf_em c s2) by (eapply wf_electrostatic; eauto; apply wf_fresh).
      revert E1. set (s3 := cell_centered_grid_to_yee_grid OnlyE s2). intros E1.
      destruct (initialize_magnetic_fields c s3) as [s4|e] eqn:E3; cbn [rbind] in E1; [|discriminate E1].
      injection E1 as <-. apply wf_y2c. eapply wf_set_joined; [|exact E3]. apply wf_c2y; auto.
    - discriminate E1. }
  injection H as <-. split; [|split; reflexivity].
  destruct W1 as ((A1&A2&A3&A4)&(B1&B2&B3)&C).
  unfold wf_em; cbn [cc yee cc_n cc_nh next mem]. repeat split; auto; apply C; auto.
Qed.

Lemma init_ok c rho s : regular c -> fields_solver_init c rho = Ok s ->
  wf_em c s /\ aliased s /\ synced (flay c) (yee_val s) everywhere.
Proof.
  intros RG H. unfold fields_solver_init in H.
  destruct (initialize_fields c (dmap asum1 rho)) as [s1|e] eqn:E1; cbn [rbind] in H; [|discriminate H].
  destruct (initialize_ok c _ s1 (proj2 (proj1 RG)) E1) as (W&A).
  assert (Hs : s = communicate_fields c true s1) by (injection H as <-; reflexivity).
  rewrite Hs. split; [apply wf_comm; auto|]. split; [exact A|].
  rewrite yee_val_communicate. apply communicate_synced; [apply RG|apply shaped_yee; auto].
Qed.

(** ** Histories *)
Definition good (c : fcfg) (s : em) : Prop :=
  wf_em c s /\ aliased s /\ synced (flay c) (yee_val s) after_faraday.

Lemma synced_weaken L F (P Q : Z -> Z -> Z -> Prop) : (forall k i j, Q k i j -> P k i j) -> synced L F P -> synced L F Q.
Proof. intros H (A&B). split; auto. Qed.

Lemma init_good c rho s : regular c -> fields_solver_init c rho = Ok s -> good c s.
Proof.
  intros RG H. destruct (init_ok c rho s RG H) as (A&B&C). split; [auto|split; [auto|]].
  eapply synced_weaken; [|exact C]. intros; exact I.
Qed.

Lemma get_fields_keeps c s : yee_val (snd (get_fields c s)) = yee_val s
  /\ (good c s -> good c (snd (get_fields c s))).
Proof. unfold get_fields; cbn [snd]. destruct (String.eqb (method_in_p c) "FVM"); auto. Qed.

Lemma divE_keeps c s : regular c -> good c s ->
  good c (snd (compute_divE c s)) /\ same (lat c (snd (compute_divE c s))) (lat c s).
Proof.
  intros RG (W&A&S). change (snd (compute_divE c s)) with (communicate_fields c true s).
  split.
  - split; [apply wf_comm; auto|split; [exact A|]]. rewrite yee_val_communicate.
    eapply synced_weaken; [|apply communicate_synced; [apply RG|apply shaped_yee; auto]]. intros; exact I.
  - unfold lat. rewrite yee_val_communicate. apply view_communicate; [apply RG|apply shaped_yee; auto].
Qed.

Lemma do_event_good c e s s' : regular c -> good c s -> do_event c e s = Ok s' -> good c s'.
Proof.
  intros RG G H. destruct e as [J1 J2 J3 dt| |]; cbn [do_event] in H.
  - destruct G as (W&A&_). destruct (evolve_ok c J1 J2 J3 dt s s' RG W H) as (YE&W'&S'&_&_&_&_&_&_&_&AL).
    split; [auto|split; [apply AL; auto|auto]].
  - injection H as <-. apply get_fields_keeps; auto.
  - injection H as <-. apply divE_keeps; auto.
Qed.

Lemma do_events_good c l : forall s s', regular c -> good c s -> do_events c l s = Ok s' -> good c s'.
Proof.
  induction l as [|e l IH]; intros s s' RG G H; cbn [do_events] in H; [injection H as <-; auto|].
  destruct (do_event c e s) as [s1|x] eqn:E; cbn [rbind] in H; [|discriminate H].
  exact (IH s1 s' RG (do_event_good _ _ _ _ RG G E) H).
Qed.

(** ** The divergence checks *)
Lemma divB_el c s i j r1 r2 : regular c -> synced (flay c) (yee_val s) after_faraday ->
  rank_ok (flay c) r1 r2 ->
  (ng1 (flay c) <= i < ng1 (flay c) + bsize (blk1 (flay c)) r1)%Z ->
  (ng2 (flay c) <= j < ng2 (flay c) + bsize (blk2 (flay c)) r2)%Z ->
  el (compute_divB c s r1 r2) 0 0 i j
  = div_B (fdq1 c) (fdq2 c) (lat c s) (off (blk1 (flay c)) r1 + i - ng1 (flay c))%Z
      (off (blk2 (flay c)) r2 + j - ng2 (flay c))%Z.
Proof.
  intros RG SY RK Hi Hj. assert (PL : periodic_layout (flay c)) by apply RG.
  destruct RG as (_&_&_&H1&H2). assert (PL' := PL). destruct PL' as (_&_&G1&G2&_).
  destruct (proj1 SY r1 r2 RK) as (D0&D1&D2&D3).
  unfold compute_divB, dmap. local_el. rewrite D1, D2, D3, ?mod1.
  rewrite !pred_mod by (unfold n1g, n2g; lia). rewrite !zero_mod by (unfold n1g, n2g; lia).
  unfold div_B, bwd1, bwd2, lat. cbn [view B1 B2].
  rewrite !(proj2 SY) by (auto; try (unfold inb, n1g, n2g; lia); unfold after_faraday; lia).
  repeat match goal with |- context [gper _ _ _ 0 (?a + (?i - 1) - ?g)%Z ?y] =>
    replace (a + (i - 1) - g)%Z with (a + i - g - 1)%Z by lia end.
  repeat match goal with |- context [gper _ _ _ 0 ?y (?a + (?i - 1) - ?g)%Z] =>
    replace (a + (i - 1) - g)%Z with (a + i - g - 1)%Z by lia end.
  reflexivity.
Qed.

(** From rank elements to cells of the domain. *)
Lemma gval_of_el L (F : dist R) k (u : grid) : periodic_layout L ->
  (forall r1 r2 i j, rank_ok L r1 r2 ->
     (ng1 L <= i < ng1 L + bsize (blk1 L) r1)%Z -> (ng2 L <= j < ng2 L + bsize (blk2 L) r2)%Z ->
     el (F r1 r2) k 0 i j = u (off (blk1 L) r1 + i - ng1 L)%Z (off (blk2 L) r2 + j - ng2 L)%Z) ->
  forall x y, inb (gN1 L) x -> inb (gN2 L) y -> gval L F k 0 x y = u x y.
Proof.
  intros (T1&T2&_) H x y Hx Hy.
  destruct (owner_rank L x y T1 T2) as (RK&O1&O2).
  rewrite (Z.mod_small x), (Z.mod_small y) in * by (unfold inb in *; lia).
  unfold gval. rewrite H; auto; try lia. f_equal; lia.
Qed.

Lemma divB_view c s : regular c -> good c s -> forall i j, inb (gN1 (flay c)) i -> inb (gN2 (flay c)) j ->
  gval (flay c) (compute_divB c s) 0 0 i j = div_B (fdq1 c) (fdq2 c) (lat c s) i j.
Proof.
  intros RG (_&_&S). apply gval_of_el; [apply RG|]. intros. apply divB_el; auto.
Qed.

Lemma divE_view c s : regular c -> wf_em c s -> forall i j, inb (gN1 (flay c)) i -> inb (gN2 (flay c)) j ->
  gval (flay c) (fst (compute_divE c s)) 0 0 i j = div_E (fdq1 c) (fdq2 c) (lat c s) i j.
Proof.
  intros RG W. assert (PL : periodic_layout (flay c)) by apply RG.
  apply gval_of_el; auto. intros r1 r2 i j RK Hi Hj.
  assert (SY : synced (flay c) (yee_val (communicate_fields c true s)) everywhere)
    by (rewrite yee_val_communicate; apply communicate_synced; auto; apply shaped_yee; auto).
  assert (VV : same (view (flay c) (yee_val (communicate_fields c true s))) (lat c s))
    by (rewrite yee_val_communicate; apply view_communicate; auto; apply shaped_yee; auto).
  unfold compute_divE; cbn [fst].
  revert SY VV. generalize (yee_val (communicate_fields c true s)). intros F SY VV.
  destruct (proj1 SY r1 r2 RK) as (D0&D1&D2&D3).
  assert (PL' := PL). destruct PL' as (_&_&G1&G2&_).
  unfold dmap. local_el. rewrite D1, D2, D3, ?mod1.
  rewrite !succ_mod by (unfold n1g, n2g; lia). rewrite !zero_mod by (unfold n1g, n2g; lia).
  rewrite !(proj2 SY) by (auto; try (unfold inb, n1g, n2g; lia); exact I).
  destruct VV as (V1&V2&_). cbn [view E1 E2] in *. rewrite !V1, !V2.
  unfold div_E, fwd1, fwd2.
  replace (off (blk1 (flay c)) r1 + (i + 1) - ng1 (flay c))%Z with (off (blk1 (flay c)) r1 + i - ng1 (flay c) + 1)%Z by lia.
  replace (off (blk2 (flay c)) r2 + (j + 1) - ng2 (flay c))%Z with (off (blk2 (flay c)) r2 + j - ng2 (flay c) + 1)%Z by lia.
  reflexivity.
Qed.

(** ** Laws of the lattice scheme *)
Lemma div_B_same h1 h2 Y Z i j : same Y Z -> div_B h1 h2 Y i j = div_B h1 h2 Z i j.
Proof. intros (_&_&_&A&B&_). unfold div_B, bwd1, bwd2. rewrite !A, !B. reflexivity. Qed.
Lemma div_E_same h1 h2 Y Z i j : same Y Z -> div_E h1 h2 Y i j = div_E h1 h2 Z i j.
Proof. intros (A&B&_). unfold div_E, fwd1, fwd2. rewrite !A, !B. reflexivity. Qed.

Lemma div_B_faraday h1 h2 dt Y i j : h1 <> 0 -> h2 <> 0 ->
  div_B h1 h2 (faraday h1 h2 dt Y) i j = div_B h1 h2 Y i j.
Proof. intros. unfold div_B, faraday, bwd1, bwd2; cbn. field; auto. Qed.

Lemma div_E_ampere h1 h2 e m dt J1 J2 J3 Y i j : h1 <> 0 -> h2 <> 0 -> e <> 0 -> m <> 0 ->
  e * div_E h1 h2 (ampere h1 h2 e m dt J1 J2 J3 Y) i j
  = e * div_E h1 h2 Y i j - dt * (fwd1 h1 J1 i j + fwd2 h2 J2 i j).
Proof. intros. unfold div_E, ampere, fwd1, fwd2; cbn. field; auto. Qed.

Lemma do_events_divB c l : forall s s', regular c -> good c s -> do_events c l s = Ok s' ->
  forall i j, div_B (fdq1 c) (fdq2 c) (lat c s') i j = div_B (fdq1 c) (fdq2 c) (lat c s) i j.
Proof.
  induction l as [|e l IH]; intros s s' RG G H i j; cbn [do_events] in H; [injection H as <-; auto|].
  destruct (do_event c e s) as [s1|x] eqn:E; cbn [rbind] in H; [|discriminate H].
  rewrite (IH s1 s' RG (do_event_good _ _ _ _ RG G E) H).
  destruct e as [J1 J2 J3 dt| |]; cbn [do_event] in E.
  - destruct G as (W&A&_). destruct (evolve_ok c J1 J2 J3 dt s s1 RG W E) as (YE&_&_&L1&X1&X2&X3&_).
    rewrite (div_B_same _ _ _ _ i j L1). rewrite div_B_faraday by apply RG.
    unfold div_B, bwd1, bwd2. rewrite !X1, !X2. reflexivity.
  - apply Ok_inj in E; rewrite <- E. unfold lat. rewrite (proj1 (get_fields_keeps c s)). reflexivity.
  - apply Ok_inj in E; rewrite <- E. apply div_B_same, divE_keeps; auto.
Qed.

Lemma do_events_divE c l : forall rho s s', regular c -> hybrid c = false -> good c s -> do_events c l s = Ok s' ->
  forall i j, eps c * div_E (fdq1 c) (fdq2 c) (lat c s') i j - charge_after (fdq1 c) (fdq2 c) rho (steps_of (flay c) l) i j
    = eps c * div_E (fdq1 c) (fdq2 c) (lat c s) i j - rho i j.
Proof.
  induction l as [|e l IH]; intros rho s s' RG HY G H i j; cbn [do_events] in H; [injection H as <-; auto|].
  destruct (do_event c e s) as [s1|x] eqn:E; cbn [rbind] in H; [|discriminate H].
  pose proof (do_event_good _ _ _ _ RG G E) as G1.
  destruct e as [J1 J2 J3 dt| |]; cbn [do_event] in E; cbn [steps_of charge_after].
  - rewrite (IH _ s1 s' RG HY G1 H).
    destruct G as (W&A&_). destruct (evolve_ok c J1 J2 J3 dt s s1 RG W E) as (YE&_&_&L1&_&_&_&X&_).
    rewrite (div_E_same _ _ _ _ i j L1).
    change (div_E (fdq1 c) (fdq2 c) (faraday (fdq1 c) (fdq2 c) dt YE) i j) with (div_E (fdq1 c) (fdq2 c) YE i j).
    rewrite (div_E_same _ _ _ _ i j (X HY)). rewrite div_E_ampere by apply RG. ring.
  - rewrite (IH rho s1 s' RG HY G1 H). apply Ok_inj in E; rewrite <- E. unfold lat.
    rewrite (proj1 (get_fields_keeps c s)). reflexivity.
  - rewrite (IH rho s1 s' RG HY G1 H). apply Ok_inj in E; rewrite <- E.
    rewrite (div_E_same _ _ _ _ i j (proj2 (divE_keeps c s RG G))). reflexivity.
Qed.
