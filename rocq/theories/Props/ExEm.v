(** Example field-solver configurations: a 4 x 3 grid on 2 x 2 ranks of unequal
    size, and a 4 x 4 grid on one rank. *)
From Coq Require Import ZArith Reals Lra Lia String List Bool.
From Verif Require Import Base.Prelude Base.ZSum Model.Af Model.Petsc Model.Config Model.Fvm Model.Em
  Spec.Domain Spec.Yee Spec.EmRun Proofs.EmLemmas Proofs.EmStep Proofs.EmGrids Proofs.EmInit
  Proofs.EmVector Proofs.EmProps Props.ExFvm.
Import ListNotations.
Local Open Scope R_scope.

Definition wave (x y : R) : R := sin (2 * PI * x / 4) * sin (2 * PI * y / (3/2)).

(** User-defined E, and B from A3 = sin(2 pi x / 4) sin(2 pi y / (3/2)). *)
Definition ex_em : fcfg :=
  FCfg ex_lay 3 0 0 1 (1/2) 2 1 (fun _ => "periodic"%string) (fun _ _ _ _ _ a => a)
    "fdtd" "user-defined" "FVM" false
    (Some (fun x y => (x, x * y, y))) None None None (Some (fun x y => (wave x y, 1))).

Lemma ex_em_regular : regular ex_em.
Proof.
  unfold regular, periodic_fields, periodic_layout, tiles; cbn.
  repeat split; try lia; try lra; repeat constructor; try lia.
Qed.

Lemma ex_em_from : from_A3 ex_em (fun x y => (wave x y, 1)).
Proof. repeat split. Qed.

Lemma ex_em_periodic : periodic_potential ex_em (fun q1 q2 => fst (wave q1 q2, 1)).
Proof.
  intros q1 q2. cbn [fst]. unfold wave; cbn [ex_em flay ex_lay gN1 gN2 fdq1 fdq2]. split.
  - replace (2 * PI * (q1 + 4 * 1) / 4) with (2 * PI * q1 / 4 + 2 * INR 1 * PI) by (cbn; field).
    rewrite sin_period. reflexivity.
  - replace (2 * PI * (q2 + 3 * (1/2)) / (3/2)) with (2 * PI * q2 / (3/2) + 2 * INR 1 * PI) by (cbn; field).
    rewrite sin_period. reflexivity.
Qed.

Lemma ex_em_init rho : exists s1 s, initialize_fields ex_em (dmap asum1 rho) = Ok s1 /\ fields_solver_init ex_em rho = Ok s.
Proof. apply init_total; [reflexivity|left; discriminate|right; split; [reflexivity|right; discriminate]]. Qed.

(** A current that varies over cells. *)
Definition ex_J (a : R) : dist R :=
  fun r1 r2 => Arr 1 2 (n1g ex_lay r1) (n2g ex_lay r2)
    (fun _ s i j => a * IZR (s + (off (blk1 ex_lay) r1 + i) * (off (blk2 ex_lay) r2 + j))).

Definition ex_hist : list event :=
  [GetFields; Evolve (ex_J 1) (ex_J 2) (ex_J 3) (1/10); CheckDivE; Evolve (ex_J (-1)) zeroJ (ex_J 5) (1/20)].

Lemma events_total c l s : regular c -> hybrid c = false -> exists s', do_events c l s = Ok s'.
Proof.
  intros RG HY. revert s. induction l as [|e l IH]; intros s; cbn [do_events]; [eauto|].
  assert (X : exists s1, do_event c e s = Ok s1).
  { destruct e; cbn [do_event]; eauto. apply evolve_total; auto. }
  destruct X as (s1&->). cbn [rbind]. apply IH.
Qed.

Lemma ex_em_run l rho : exists s0 s', fields_solver_init ex_em rho = Ok s0 /\ do_events ex_em l s0 = Ok s'.
Proof.
  destruct (ex_em_init rho) as (_&s0&_&H0). destruct (events_total ex_em l s0 ex_em_regular eq_refl) as (s'&H').
  exists s0, s'. auto.
Qed.

(** A 4 x 4 grid on one rank with initialize_A. *)
Definition a4 (i : Z) : R := if (i =? 1)%Z then 1 else if (i =? 3)%Z then -1 else 0.
Definition A4 (x y : R) : R * R * R := (0, 0, sin (2 * PI * x) * sin (2 * PI * y)).
Definition lay4 : layout := Layout 4 4 [4]%Z [4]%Z 2 2 PPeriodic PPeriodic.
Definition em_A : fcfg :=
  FCfg lay4 2 (-(1/8)) (-(1/8)) (1/4) (1/4) 1 1 (fun _ => "periodic"%string) (fun _ _ _ _ _ a => a)
    "fdtd" "user-defined" "FVM" false (Some (fun _ _ => (0, 0, 0))) None None (Some A4) None.

Lemma em_A_regular : regular em_A.
Proof.
  unfold regular, periodic_fields, periodic_layout, tiles; cbn.
  repeat split; try lia; try lra; repeat constructor; try lia.
Qed.
Lemma em_A_init rho : exists s1 s, initialize_fields em_A (dmap asum1 rho) = Ok s1 /\ fields_solver_init em_A rho = Ok s.
Proof. apply init_total; [reflexivity|left; discriminate|right; split; [reflexivity|left; discriminate]]. Qed.

(** Zero initial fields. *)
Definition em_0 : fcfg :=
  FCfg ex_lay 3 0 0 1 1 1 1 (fun _ => "periodic"%string) (fun _ _ _ _ _ a => a)
    "fdtd" "user-defined" "FVM" false (Some (fun _ _ => (0, 0, 0))) None (Some (fun _ _ => (0, 0, 0))) None None.
Lemma em_0_regular : regular em_0.
Proof.
  unfold regular, periodic_fields, periodic_layout, tiles; cbn.
  repeat split; try lia; try lra; repeat constructor; try lia.
Qed.
Definition unit_J : dist R := fun r1 r2 => Arr 1 1 (n1g ex_lay r1) (n2g ex_lay r2) (fun _ _ _ _ => 1).

Lemma A4_at i : at_centre em_A (fun u v => snd (A4 u v)) i = fun j => sin (IZR i * (PI/2)) * sin (IZR j * (PI/2)).
Proof.
  unfold at_centre, A4. cbn [snd em_A fq1_start fq2_start fdq1 fdq2].
  apply FunctionalExtensionality.functional_extensionality. intros j.
  f_equal; f_equal; field.
Qed.

Lemma divB_A_witness : exists c A rho s, regular c /\ init_B c = None /\ init_A c = Some A
  /\ periodic_potential c (fun q1 q2 => snd (A q1 q2))
  /\ initialize_fields c rho = Ok s
  /\ gval (flay c) (compute_divB c s) 0 0 1 0 = 32.
Proof.
  destruct (em_A_init zeroJ) as (s1&_&H&_).
  exists em_A, A4, (dmap asum1 zeroJ), s1. split; [apply em_A_regular|]. split; [reflexivity|]. split; [reflexivity|].
  split; [|split; [exact H|]].
  - intros q1 q2. unfold A4; cbn [snd em_A flay lay4 gN1 gN2 fdq1 fdq2]. split.
    + replace (2 * PI * (q1 + 4 * (1/4))) with (2 * PI * q1 + 2 * INR 1 * PI) by (cbn; field).
      rewrite sin_period. reflexivity.
    + replace (2 * PI * (q2 + 4 * (1/4))) with (2 * PI * q2 + 2 * INR 1 * PI) by (cbn; field).
      rewrite sin_period. reflexivity.
  - rewrite (divB_A em_A A4 _ s1 em_A_regular eq_refl eq_refl eq_refl H 1 0); [|unfold inb; cbn; lia|unfold inb; cbn; lia].
    cbv zeta. unfold bwd1, bwd2, fwd1, fwd2. rewrite !A4_at.
    change (1 - 1)%Z with 0%Z. change (0 - 1)%Z with (-1)%Z. change (1 + 1)%Z with 2%Z. change (0 + 1)%Z with 1%Z.
    change (fdq1 em_A) with (1/4). change (fdq2 em_A) with (1/4).
    replace (IZR 0 * (PI/2)) with 0 by lra. replace (IZR 1 * (PI/2)) with (PI/2) by lra.
    replace (IZR 2 * (PI/2)) with PI by lra. replace (IZR (-1) * (PI/2)) with (- (PI/2)) by lra.
    rewrite sin_neg, sin_0, sin_PI2, sin_PI. lra.
Qed.

Lemma gvn c s : get_fields c s = (fst (get_fields c s), snd (get_fields c s)).
Proof. reflexivity. Qed.

(** One step of the finite-volume method asks for the fields three times before
    and three times after the Maxwell step. *)
Definition fvm_step (J1 J2 J3 : dist R) (dt : R) : list event :=
  [GetFields; GetFields; GetFields; Evolve J1 J2 J3 dt; GetFields; GetFields; GetFields].

Lemma unit_J_sum i j : gper ex_lay (dmap asum1 unit_J) 0 0 i j = 1.
Proof. unfold gper, gval, dmap, unit_J, asum1; cbn [el d1]. rewrite zsum_1. reflexivity. Qed.
Lemma zero_J_sum L i j : gper L (dmap asum1 zeroJ) 0 0 i j = 0.
Proof. apply (zeroJ_none L). Qed.

Lemma staggering_witness : exists c rho J1 J2 J3 dt s0 s,
  regular c /\ fields_solver c = "fdtd"%string /\ hybrid c = false /\ method_in_p c = "FVM"%string
  /\ fields_solver_init c rho = Ok s0 /\ do_events c (fvm_step J1 J2 J3 dt) s0 = Ok s /\ at_n s = true
  /\ forall i j,
     E1 (centred (view (flay c) (yee_val s))) i j = -1
     /\ E1 (view (flay c) (fst (get_fields c s))) i j = -1/2.
Proof.
  destruct (uniform_init em_0 zeroJ (0,0,0) (0,0,0) em_0_regular eq_refl eq_refl eq_refl eq_refl) as (s0&H0&Y0&C0).
  cbv zeta in Y0, C0.
  assert (A0 : at_n s0 = true).
  { unfold fields_solver_init, initialize_fields in H0.
    change (String.eqb (fields_initialize em_0) "fft") with false in H0.
    change (String.eqb (fields_initialize em_0) "user-defined") with true in H0. cbv iota in H0.
    destruct (initialize_electric_fields em_0 (fresh em_0)) as [s1|e] eqn:E1; cbn [rbind] in H0; [|discriminate H0].
    destruct (initialize_magnetic_fields em_0 s1) as [s2|e] eqn:E2; cbn [rbind] in H0; [|discriminate H0].
    apply Ok_inj in H0. rewrite <- H0.
    unfold initialize_electric_fields, initialize_magnetic_fields, set_joined in E1, E2.
    destruct (all_ranks _ _) in E1; cbn [rbind] in E1; [|discriminate E1].
    destruct (all_ranks _ _) in E2; cbn [rbind] in E2; [|discriminate E2].
    apply Ok_inj in E2, E1. rewrite <- E2, <- E1. reflexivity. }
  assert (GF : forall s, snd (get_fields em_0 s) = set_at_n (negb (at_n s)) s) by reflexivity.
  destruct (events_total em_0 (fvm_step unit_J zeroJ zeroJ 1) s0 em_0_regular eq_refl) as (s&H).
  assert (HH := H). unfold fvm_step in H. cbn [do_events do_event rbind] in H.
  rewrite !GF in H. cbn [at_n set_at_n] in H. rewrite A0 in H. cbn [negb] in H.
  set (sa := set_at_n false _) in H.
  destruct (evolve_electrodynamic_fields em_0 unit_J zeroJ zeroJ 1 sa) as [sb|e] eqn:EV; cbn [rbind] in H; [|discriminate H].
  rewrite ?GF in H. cbn [at_n set_at_n] in H. apply Ok_inj in H.
  assert (HA : do_events em_0 [GetFields; GetFields; GetFields] s0 = Ok sa).
  { cbn [do_events do_event rbind]. rewrite !GF. cbn [at_n set_at_n]. rewrite A0. reflexivity. }
  pose proof (do_events_good _ _ _ _ em_0_regular (init_good _ _ _ em_0_regular H0) HA) as GA.
  destruct (evolve_ok em_0 unit_J zeroJ zeroJ 1 sa sb em_0_regular (proj1 GA) EV) as (YE&_&_&LB&_&_&_&LE&AB&_&_).
  specialize (LE eq_refl).
  change (at_n sa) with false in AB. rewrite !AB in H. cbn [negb] in H.
  assert (YB : forall i j, gper ex_lay (yee_val sb) 0 0 i j = -1).
  { intros i j. destruct LB as (LB&_). destruct LE as (LE&_). unfold lat in LB, LE.
    cbn [view faraday ampere E1] in LB, LE. change (flay em_0) with ex_lay in LB, LE.
    rewrite LB, LE. unfold fwd2, grid_of. cbn [em_0 fdq2 eps mu].
    change (yee_val sa) with (yee_val s0). change ex_lay with (flay em_0) at 1.
    change (gper ex_lay (yee_val s0)) with (gper (flay em_0) (yee_val s0)).
    rewrite !unit_J_sum. cbn [B3 view].
    rewrite !Y0 by (unfold inb; lia). cbn. lra. }
  exists em_0, zeroJ, unit_J, zeroJ, zeroJ, 1, s0, s.
  split; [apply em_0_regular|]. do 3 (split; [reflexivity|]). split; [exact H0|]. split; [exact HH|].
  split; [rewrite <- H; reflexivity|]. intros i j.
  pose proof (fields_seen em_0 zeroJ [GetFields; GetFields; GetFields] s0 sa sb unit_J zeroJ zeroJ 1 true true em_0_regular eq_refl
     H0 HA EV) as (F1&_).
  assert (CB : E1 (centred (view ex_lay (yee_val sb))) i j = -1).
  { cbn [centred E1 view]. rewrite !YB. lra. }
  rewrite <- H. split.
  - exact CB.
  - transitivity (E1 (view (flay em_0) (fst (get_fields em_0 (set_at_n true sb)))) i j); [reflexivity|].
    rewrite F1. cbn [EB mid E1]. change (flay em_0) with ex_lay. rewrite CB.
    transitivity ((0 + -1) / 2); [|lra]. f_equal. f_equal.
    assert (AL := proj1 (proj2 GA)). destruct AL as (AL&_).
    unfold get_fields; cbn [fst]. change (String.eqb (fields_solver em_0) "fdtd") with true. cbn [negb at_n set_at_n].
    cbn [view E1].
    transitivity (gper (flay em_0) (cc_val s0) 0 0 i j); [|rewrite C0 by (unfold inb; lia); reflexivity].
    unfold cc_val. change (mem (set_at_n true sa) (cc_n (set_at_n true sa))) with (mem s0 (cc_n s0)).
    change (cc_n sa) with (cc_n s0) in AL. change (cc sa) with (cc s0) in AL. rewrite <- AL. reflexivity.
Qed.
