(** The statements about integrators and splitting, assembled. *)
From Coq Require Import Reals List Lra Lia.
From Verif Require Import Base.Prelude Model.Integrators Model.Splitting Spec.RungeKutta Spec.SplitOrder
  Proofs.IntegratorLemmas Proofs.SplitLemmas.
Import ListNotations.
Local Open Scope R_scope.

Lemma methods_and_orders :
  (forall I (dx_dt : vec I -> vec I) x dt i, extensional dx_dt ->
     RK2 dx_dt x dt i = rk_step midpoint_tableau (fun _ => dx_dt) 0 x dt i
     /\ RK4 dx_dt x dt i = rk_step classical_tableau (fun _ => dx_dt) 0 x dt i
     /\ RK5 dx_dt x dt i = rk_step fehlberg_tableau (fun _ => dx_dt) 0 x dt i)
  /\ order_conditions 2 midpoint_tableau
  /\ order_conditions 4 classical_tableau
  /\ order_conditions 5 fehlberg_tableau.
Proof.
  split; [|split; [exact midpoint_order|split; [exact classical_order|exact fehlberg_order]]].
  intros I f x dt i E. split; [apply RK2_is; auto|split; [apply RK4_is; auto|apply RK5_is; auto]].
Qed.

Lemma nonlinear_taylor :
  exists c5, forall I (L : vec I -> vec I) x dt i, linear L ->
    RK2 L x dt i = taylor 3 L dt x i
    /\ RK4 L x dt i = taylor 5 L dt x i
    /\ RK5 L x dt i = taylor 6 L dt x i + c5 * dt ^ 6 * iter 6 L x i.
Proof.
  exists (1 / 2080). intros I L x dt i HL. pose proof (proj1 HL) as E.
  rewrite (RK2_is L x dt E i), (RK4_is L x dt E i), (RK5_is L x dt E i).
  split; [apply midpoint_taylor; auto|split; [apply classical_taylor; auto|apply fehlberg_taylor; auto]].
Qed.

Lemma constant_slope : forall I (v x : vec I) dt i,
  RK2 (fun _ => v) x dt i = x i + dt * v i
  /\ RK4 (fun _ => v) x dt i = x i + dt * v i
  /\ RK5 (fun _ => v) x dt i = x i + dt * v i.
Proof. intros. unfold RK2, RK4, RK5. repeat split; field. Qed.

Lemma splitting_orders : forall I (N : vec I -> R) (A B : vec I -> vec I)
    (flow_A flow_B flow_AB : R -> vec I -> vec I),
  seminorm N -> linear A -> linear B -> bounded_by N A -> bounded_by N B ->
  let solve n := solves_to N n A flow_A /\ solves_to N n B flow_B
                 /\ solves_to N n (plus_op A B) flow_AB in
  let accurate n (m : operator (vec I)) :=
    exists F, (forall dt x, m dt x = Ok (F dt x)) /\ agree_to N n F flow_AB in
  (solve 2%nat -> accurate 2%nat (lie (plain flow_A) (plain flow_B)))
  /\ (solve 3%nat -> accurate 3%nat (strang (plain flow_A) (plain flow_B)))
  /\ (solve 3%nat -> accurate 3%nat (swss (f_only I) (plain flow_A) (plain flow_B)))
  /\ (solve 4%nat -> accurate 4%nat (jia (f_only I) (plain flow_A) (plain flow_B))).
Proof.
  intros I N A B fA fB fAB HN HA HB BA BB solve accurate.
  split; [|split; [|split]]; intros (H1&H2&H3).
  - exact (lie_order N HN A B HA HB BA BB fA fB fAB H1 H2 H3).
  - exact (strang_order N HN A B HA HB BA BB fA fB fAB H1 H2 H3).
  - exact (swss_order N HN A B HA HB BA BB fA fB fAB H1 H2 H3).
  - exact (jia_order N HN A B HA HB BA BB fA fB fAB H1 H2 H3).
Qed.

Lemma linear_methods :
  (forall I (f : R -> vec I -> vec I) x dt t, (forall s, extensional (f s)) ->
     (forall i, fst (lin_RK2 f x dt t) i = rk_step midpoint_tableau f t x dt i)
     /\ (forall i, fst (lin_RK4 f x dt t) i = rk_step classical_tableau f t x dt i)
     /\ (forall i, fst (lin_RK5 f x dt t) i = rk_step butcher_tableau f t x dt i)
     /\ snd (lin_RK2 f x dt t) = t + dt /\ snd (lin_RK4 f x dt t) = t + dt
     /\ snd (lin_RK5 f x dt t) = t + dt)
  /\ (forall I J (fx : R -> vec I -> vec J -> vec I) (fy : R -> vec I -> vec J -> vec J) x y dt t,
     (forall s, extensional2 (fx s)) -> (forall s, extensional2 (fy s)) ->
     let agrees T (r : vec I * vec J * R) :=
       (forall k, both (fst (fst r)) (snd (fst r)) k = rk_step T (coupled fx fy) t (both x y) dt k)
       /\ snd r = t + dt in
     agrees midpoint_tableau (lin_RK2_coupled fx x fy y dt t)
     /\ agrees classical_tableau (lin_RK4_coupled fx x fy y dt t)
     /\ agrees butcher_tableau (lin_RK5_coupled fx x fy y dt t))
  /\ order_conditions 2 midpoint_tableau
  /\ order_conditions 4 classical_tableau
  /\ order_conditions 5 butcher_tableau.
Proof.
  split; [|split; [|split; [exact midpoint_order|split; [exact classical_order|exact butcher_order]]]].
  - intros I f x dt t E.
    destruct (lin_RK2_is f x dt t E), (lin_RK4_is f x dt t E), (lin_RK5_is f x dt t E).
    repeat split; assumption.
  - intros I J fx fy x y dt t EX EY agrees.
    pose proof (coupled_ext fx fy EX EY) as E.
    destruct (lin_RK2_is (coupled fx fy) (both x y) dt t E) as [A2 B2].
    destruct (lin_RK4_is (coupled fx fy) (both x y) dt t E) as [A4 B4].
    destruct (lin_RK5_is (coupled fx fy) (both x y) dt t E) as [A5 B5].
    split; [|split]; unfold agrees.
    + pose proof (coupled2_plain fx x fy y dt t) as H.
      destruct (lin_RK2_coupled fx x fy y dt t) as [[x1 y1] t1]. destruct H as [H1 H2]. cbn [fst snd].
      split; [intros k; rewrite H1; apply A2|rewrite H2; exact B2].
    + pose proof (coupled4_plain fx x fy y dt t) as H.
      destruct (lin_RK4_coupled fx x fy y dt t) as [[x1 y1] t1]. destruct H as [H1 H2]. cbn [fst snd].
      split; [intros k; rewrite H1; apply A4|rewrite H2; exact B4].
    + pose proof (coupled5_plain fx x fy y dt t) as H.
      destruct (lin_RK5_coupled fx x fy y dt t) as [[x1 y1] t1]. destruct H as [H1 H2]. cbn [fst snd].
      split; [intros k; rewrite H1; apply A5|rewrite H2; exact B5].
Qed.

Lemma linear_taylor :
  exists c5, forall I (L : vec I -> vec I) x dt t i, linear L ->
    fst (lin_RK2 (fun _ => L) x dt t) i = taylor 3 L dt x i
    /\ fst (lin_RK4 (fun _ => L) x dt t) i = taylor 5 L dt x i
    /\ fst (lin_RK5 (fun _ => L) x dt t) i = taylor 6 L dt x i + c5 * dt ^ 6 * iter 6 L x i.
Proof.
  exists (1 / 640). intros I L x dt t i HL. pose proof (proj1 HL) as E.
  rewrite (proj1 (lin_RK2_is (fun _ => L) x dt t (fun _ => E)) i),
          (proj1 (lin_RK4_is (fun _ => L) x dt t (fun _ => E)) i),
          (proj1 (lin_RK5_is (fun _ => L) x dt t (fun _ => E)) i).
  split; [apply midpoint_taylor; auto|split; [apply classical_taylor; auto|apply butcher_taylor; auto]].
Qed.

Lemma linear_time_dependent : forall I (cs : I -> list R) x dt t i,
  let slope := fun s (_ : vec I) i => poly (cs i) s in
  let exact := x i + (poly_int (cs i) (t + dt) - poly_int (cs i) t) in
  ((forall i, (length (cs i) <= 2)%nat) -> fst (lin_RK2 slope x dt t) i = exact)
  /\ ((forall i, (length (cs i) <= 4)%nat) -> fst (lin_RK4 slope x dt t) i = exact)
  /\ ((forall i, (length (cs i) <= 5)%nat) -> fst (lin_RK5 slope x dt t) i = exact).
Proof.
  intros I cs x dt t i slope exact.
  assert (E : forall s, extensional (slope s)) by (intros s u v _ j; reflexivity).
  split; [|split]; intros H.
  - rewrite (proj1 (lin_RK2_is slope x dt t E) i). apply midpoint_poly; auto.
  - rewrite (proj1 (lin_RK4_is slope x dt t E) i). apply classical_poly; auto.
  - rewrite (proj1 (lin_RK5_is slope x dt t E) i). apply butcher_poly; auto.
Qed.

(** ** A concrete non-commuting pair *)
Definition hA (x : vec nat) : vec nat := fun i => match i with O => x 1%nat | _ => 0 end.
Definition hB (x : vec nat) : vec nat := fun i => match i with 1%nat => x 2%nat | _ => 0 end.
Definition hN (x : vec nat) : R := Rabs (x 0%nat) + Rabs (x 1%nat) + Rabs (x 2%nat).
Definition hflowA (h : R) (x : vec nat) : vec nat := fun i => x i + h * hA x i.
Definition hflowB (h : R) (x : vec nat) : vec nat := fun i => x i + h * hB x i.
Definition hflow (h : R) (x : vec nat) : vec nat := fun i =>
  x i + h * (hA x i + hB x i) + h ^ 2 / 2 * match i with O => x 2%nat | _ => 0 end.

Lemma hN_ok : seminorm hN.
Proof.
  split; [|split]; unfold hN.
  - intros x y H. rewrite !H. reflexivity.
  - intros x y. pose proof (Rabs_triang (x 0%nat) (y 0%nat)). pose proof (Rabs_triang (x 1%nat) (y 1%nat)).
    pose proof (Rabs_triang (x 2%nat) (y 2%nat)). lra.
  - intros c x. rewrite !Rabs_mult. ring.
Qed.

Lemma hagree n F G : (forall h x i, F h x i = G h x i) -> agree_to hN n F G.
Proof. intros. apply agree_ext; auto. exact hN_ok. Qed.

Lemma heisenberg_ok n : (2 <= n <= 4)%nat ->
  seminorm hN /\ linear hA /\ linear hB /\ bounded_by hN hA /\ bounded_by hN hB
  /\ solves_to hN n hA hflowA /\ solves_to hN n hB hflowB /\ solves_to hN n (plus_op hA hB) hflow.
Proof.
  intros Hn. split; [exact hN_ok|].
  split; [split; [intros x y H [|i]; cbn; auto|intros a x b y [|i]; cbn; ring]|].
  split; [split; [intros x y H [|[|i]]; cbn; auto|intros a x b y [|[|i]]; cbn; ring]|].
  split; [exists 1; intros x; unfold hN; cbn; rewrite Rabs_R0;
          pose proof (Rabs_pos (x 0%nat)); pose proof (Rabs_pos (x 1%nat));
          pose proof (Rabs_pos (x 2%nat)); lra|].
  split; [exists 1; intros x; unfold hN; cbn; rewrite Rabs_R0;
          pose proof (Rabs_pos (x 0%nat)); pose proof (Rabs_pos (x 1%nat));
          pose proof (Rabs_pos (x 2%nat)); lra|].
  assert (C : n = 2%nat \/ n = 3%nat \/ n = 4%nat) by lia.
  split; [|split].
  - apply hagree. intros h x i. destruct C as [->|[->| ->]]; unfold hflowA; cbn; destruct i; cbn; field.
  - apply hagree. intros h x i.
    destruct C as [->|[->| ->]]; unfold hflowB; cbn; destruct i as [|[|i]]; cbn; field.
  - destruct C as [->|C].
    + exists (1 / 2). intros h x Hh. unfold hN, hflow; cbn.
      match goal with |- context [Rabs ?a + Rabs ?b + Rabs ?c <= _] =>
        replace a with (h * h / 2 * x 2%nat) by (unfold plus_op; cbn; field);
        replace b with 0 by (unfold plus_op; cbn; field);
        replace c with 0 by (unfold plus_op; cbn; field) end.
      rewrite Rabs_R0. unfold Rdiv. rewrite !Rabs_mult, (Rabs_right (/ 2)) by lra.
      pose proof (Rabs_pos (x 0%nat)) as P0. pose proof (Rabs_pos (x 1%nat)) as P1.
      pose proof (Rabs_pos h) as Ph.
      assert (0 <= Rabs h * Rabs h * (Rabs (x 0%nat) + Rabs (x 1%nat))) by nra. lra.
    + apply hagree. intros h x i. destruct C as [->| ->]; unfold hflow, plus_op; cbn;
        destruct i as [|[|i]]; cbn; field.
Qed.

Lemma lie_not_second : ~ agree_to hN 3 (fun h x => hflowB h (hflowA h x)) hflow.
Proof.
  intros H. destruct (agree_pos hN hN_ok _ _ _ H) as [K [HK HB]].
  set (x := fun i : nat => match i with 2%nat => 1 | _ => 0 end).
  set (h := / (4 * (K + 1))).
  assert (Hh : 0 < h) by (apply Rinv_0_lt_compat; lra).
  assert (Hh1 : h <= 1).
  { unfold h. rewrite <- Rinv_1. apply Rinv_le_contravar; lra. }
  specialize (HB h x). rewrite (Rabs_right h) in HB by lra. specialize (HB Hh1).
  unfold hN, hflowB, hflowA, hflow in HB. cbn in HB.
  repeat match type of HB with context [Rabs ?a] =>
    lazymatch a with
    | 0 => rewrite Rabs_R0 in HB
    | 1 => rewrite Rabs_R1 in HB
    | _ => let E := fresh in
           first [ assert (E : a = 0) by ring; rewrite E in HB; clear E
                 | assert (E : a = - (h * h / 2)) by field; rewrite E in HB; clear E;
                   rewrite Rabs_Ropp in HB; rewrite (Rabs_right (h * h / 2)) in HB by nra ]
    end end.
  assert (K * h < 1 / 2).
  { assert (E : (K + 1) * h = / 4) by (unfold h; field; lra). lra. }
  assert (0 < h * h) by nra. nra.
Qed.
