(** Semi-Lagrangian runs of free particles: momenta and species do not mix. *)
From Coq Require Import ZArith Reals Lra Lia String List Bool.
From Verif Require Import Base.Prelude Base.ZSum Model.Af Model.Petsc Model.Config Model.Timestep
  Model.Solver Spec.Domain Spec.Lattice Spec.FvmProblem Spec.FvmRun Spec.Symmetry Spec.Interp Spec.SlSym
  Proofs.InterpLemmas Proofs.SemiLagProps.
Import ListNotations.
Local Open Scope R_scope.

Section Alike.
Variables (P : params) (w : weights) (x s : Z).
Context (Q : quiet P) (N1 : (0 < gN1 (lay (pc P)))%Z) (N2 : (0 < gN2 (lay (pc P)))%Z).
Definition alike (u v : gstate) : Prop := forall g1 g2, inb (gN1 (lay (pc P))) g1 -> inb (gN2 (lay (pc P))) g2 -> u x s g1 g2 = v x s g1 g2.
Lemma char_alike t dt u v : alike u v -> alike (characteristics (pc P) w t dt u) (characteristics (pc P) w t dt v).
Proof.
  intros A g1 g2 _ _. unfold characteristics, interp2. apply zsum_ext; intros a _. apply zsum_ext; intros b _. f_equal.
  apply A; apply Z.mod_pos_bound; assumption.
Qed.
Lemma transport_alike h t u v : alike u v -> alike (transport P w t h u) (transport P w t h v).
Proof.
  revert t u v. induction h as [|(m&dt) h IH]; intros t u v A; cbn [transport]; [exact A|]. apply IH.
  assert (C : forall d v, collide P t d v = v) by (intros; apply collide_quiet, Q).
  assert (X := char_alike t). destruct m; unfold compose; rewrite !C.
  - apply X, A.
  - apply X, X, A.
  - intros g1 g2 H1 H2. cbv beta. rewrite (X dt u v A g1 g2 H1 H2). reflexivity.
  - intros g1 g2 H1 H2. cbv beta. rewrite (X dt u v A g1 g2 H1 H2), (X (1/2 * dt) _ _ (X (1/2 * dt) u v A) g1 g2 H1 H2). reflexivity.
Qed.
End Alike.

Lemma sl_alike P k1 k2 w ap h s s' x sp : streaming P -> quiet P -> wf_cfg (pc P) k1 k2 -> interpolates w ap -> uses (pc P) ap ->
  reach_run (pc P) (time_elapsed s) h -> time_elapsed s' = time_elapsed s ->
  shaped (lay (pc P)) (N_p (pc P)) (N_species (pc P)) (f_of s) -> shaped (lay (pc P)) (N_p (pc P)) (N_species (pc P)) (f_of s') ->
  inb (N_p (pc P)) x -> inb (N_species (pc P)) sp ->
  (forall g1 g2, inb (gN1 (lay (pc P))) g1 -> inb (gN2 (lay (pc P))) g2 ->
     gval (lay (pc P)) (f_of s) x sp g1 g2 = gval (lay (pc P)) (f_of s') x sp g1 g2) ->
  exists r r', run_steps (solver_stepper P) h s = Ok (r, None) /\ run_steps (solver_stepper P) h s' = Ok (r', None)
  /\ forall g1 g2, inb (gN1 (lay (pc P))) g1 -> inb (gN2 (lay (pc P))) g2 ->
     gval (lay (pc P)) (f_of r) x sp g1 g2 = gval (lay (pc P)) (f_of r') x sp g1 g2.
Proof.
  intros ST Q W IT US RE T SH SH' Hx Hs A. destruct (st_layout P ST) as ((N1&_)&(N2&_)&_).
  assert (H : holds (pc P) (f_of s) (gval (lay (pc P)) (f_of s))) by (split; [exact SH|reflexivity]).
  assert (H' : holds (pc P) (f_of s') (gval (lay (pc P)) (f_of s'))) by (split; [exact SH'|reflexivity]).
  destruct (streaming_run P k1 k2 w ap h s _ ST W IT US H RE) as (r&R1&(_&V1)&_).
  rewrite <- T in RE. destruct (streaming_run P k1 k2 w ap h s' _ ST W IT US H' RE) as (r'&R2&(_&V2)&_).
  exists r, r'. split; [exact R1|]. split; [exact R2|]. intros g1 g2 H1 H2. rewrite V1, V2 by assumption. rewrite T.
  apply (transport_alike P w x sp Q N1 N2 h); assumption.
Qed.

(** ** Domain of dependence *)
Section Near.
Variables (P : params) (k1 k2 : scheme) (w : weights) (g1 g2 : Z).
Let c := pc P.
Context (W : wf_cfg c k1 k2) (ST : streaming P) (N1 : (0 < gN1 (lay c))%Z) (N2 : (0 < gN2 (lay c))%Z).
Let r := (ng1 (lay c) + ng2 (lay c) + 4)%Z.
Context (R0 : (0 <= r)%Z).
Notation near n u v := (agree_near c (fun _ _ => True) n u v g1 g2).
Lemma near_le n m u v : (n <= m)%Z -> near m u v -> near n u v.
Proof. intros L A x s d1 d2 K Hx Hs D. apply A; auto. lia. Qed.
Lemma served_le n d : served n d -> Rabs d <= IZR n.
Proof. intros [H|(_&H)]; [|exact H]. rewrite minus_IZR in H. lra. Qed.
Lemma foot_near n h d a : Rabs d <= IZR n -> (0 <= a < 4)%Z -> (Z.abs (Int_part (IZR h - d) + (a - 1) - h) <= n + 2)%Z.
Proof.
  intros D A. assert (D1 := Rle_abs d). assert (D2 := Rle_abs (- d)). rewrite Rabs_Ropp in D2. destruct (base_Int_part (IZR h - d)) as (L&U). set (q := Int_part (IZR h - d)) in *.
  assert (q <= h + n)%Z by (apply le_IZR; rewrite plus_IZR; lra).
  assert (h - n - 1 < q + 1)%Z; [|lia]. apply lt_IZR. rewrite plus_IZR, !minus_IZR. lra.
Qed.
Lemma char_near n t dt u v : (0 <= n)%Z -> reach c t dt -> near (n + r) u v -> near n (characteristics c w t dt u) (characteristics c w t dt v).
Proof.
  intros Hn RE A x s d1 d2 _ Hx Hs D. unfold characteristics.
  set (h1 := ((g1 + d1) mod _)%Z). set (h2 := ((g2 + d2) mod _)%Z).
  destruct (RE x s h1 h2 Hx Hs) as (S1&S2); [apply Z.mod_pos_bound; assumption|apply Z.mod_pos_bound; assumption|].
  apply served_le in S1, S2. unfold interp2. apply zsum_ext; intros a Ha. apply zsum_ext; intros b Hb. f_equal.
  set (q1 := (Int_part _ + (a - 1))%Z). set (q2 := (Int_part (IZR h2 - _) + (b - 1))%Z).
  pose proof (foot_near _ h1 _ a S1 Ha) as B1. pose proof (foot_near _ h2 _ b S2 Hb) as B2. fold q1 in B1. fold q2 in B2.
  assert (E1 : (q1 mod gN1 (lay c) = (g1 + (d1 + (q1 - h1))) mod gN1 (lay c))%Z).
  { replace (g1 + (d1 + (q1 - h1)))%Z with (g1 + d1 + (q1 - h1))%Z by ring. rewrite <- Zplus_mod_idemp_l. fold h1. f_equal. ring. }
  assert (E2 : (q2 mod gN2 (lay c) = (g2 + (d2 + (q2 - h2))) mod gN2 (lay c))%Z).
  { replace (g2 + (d2 + (q2 - h2)))%Z with (g2 + d2 + (q2 - h2))%Z by ring. rewrite <- Zplus_mod_idemp_l. fold h2. f_equal. ring. }
  rewrite E1, E2. apply A; auto. unfold r. lia.
Qed.
Lemma collide_near n t dt u v : near n u v -> near n (collide P t dt u) (collide P t dt v).
Proof.
  intros A x s d1 d2 K Hx Hs D. unfold collide. cbv zeta. fold c.
  set (h1 := ((g1 + d1) mod _)%Z). set (h2 := ((g2 + d2) mod _)%Z).
  assert (E : forall y r, inb (N_p c) y -> inb (N_species c) r -> u y r h1 h2 = v y r h1 h2) by (intros; apply A; auto).
  destruct W as (_&_&_&_&_&_&_&_&_&_&_&_&SE).
  destruct (instantaneous P) eqn:I; [apply (st_inst P ST I); auto|].
  destruct (source_enabled c); [|apply E; auto]. rewrite (E x s Hx Hs). f_equal. f_equal. apply SE; auto.
  intros y q Hy Hq. rewrite (E y q Hy Hq). f_equal. f_equal. apply SE; auto.
Qed.
Lemma compose_near n m t dt u v : (0 <= n)%Z -> reach_step c t m dt -> near (n + (r + r)) u v ->
  near n (compose m (characteristics c w t) (collide P t) dt u) (compose m (characteristics c w t) (collide P t) dt v).
Proof.
  intros Hn RE A. assert (A1 : near (n + r) u v) by (apply (near_le _ (n + (r + r))); [lia|exact A]).
  rewrite Z.add_assoc in A.
  assert (ON : reach c t dt -> forall u v, near (n + r) u v -> near n (characteristics c w t dt u) (characteristics c w t dt v)) by (intros; apply char_near; auto).
  assert (HA : reach c t (1/2 * dt) -> forall u v k, (0 <= k)%Z -> near (k + r) u v -> near k (characteristics c w t (1/2 * dt) u) (characteristics c w t (1/2 * dt) v)) by (intros; apply char_near; auto).
  assert (SW : reach c t dt -> near n (compose Swss (characteristics c w t) (collide P t) dt u) (compose Swss (characteristics c w t) (collide P t) dt v)).
  { intros R1 x s d1 d2 K Hx Hs D. unfold compose.
    rewrite (ON R1 _ _ (collide_near _ t dt _ _ A1) x s d1 d2 K Hx Hs D), (collide_near _ t dt _ _ (ON R1 _ _ A1) x s d1 d2 K Hx Hs D). reflexivity. }
  assert (SG : reach c t (1/2 * dt) -> near n (compose Strang (characteristics c w t) (collide P t) dt u) (compose Strang (characteristics c w t) (collide P t) dt v)).
  { intros R1. unfold compose. apply HA; [exact R1|exact Hn|]. apply collide_near. apply HA; [exact R1|lia|exact A]. }
  destruct m; cbn [reach_step] in RE; [| | |destruct RE as (R1&R2)].
  - unfold compose. apply collide_near, ON; auto.
  - apply SG, RE.
  - apply SW, RE.
  - assert (SH : near n (compose Strang (collide P t) (characteristics c w t) dt u) (compose Strang (collide P t) (characteristics c w t) dt v)).
    { unfold compose. apply collide_near, ON; [exact R1|]. apply collide_near, A1. }
    intros x s d1 d2 K Hx Hs D. pose proof (SW R1 x s d1 d2 K Hx Hs D) as e1. pose proof (SG R2 x s d1 d2 K Hx Hs D) as e2. pose proof (SH x s d1 d2 K Hx Hs D) as e3.
    unfold compose in *. rewrite e1, e2, e3. reflexivity.
Qed.
Lemma transport_near h : forall t u v, reach_run c t h -> near (2 * Z.of_nat (List.length h) * r) u v -> near 0 (transport P w t h u) (transport P w t h v).
Proof.
  induction h as [|(m&dt) h IH]; intros t u v RE A; cbn [transport]; [exact A|]. destruct RE as (RS&RE). apply IH; [exact RE|].
  apply compose_near; [lia|exact RS|]. replace (2 * Z.of_nat (List.length h) * r + (r + r))%Z with (2 * Z.of_nat (List.length ((m, dt) :: h)) * r)%Z; [exact A|].
  cbn [List.length]. rewrite Nat2Z.inj_succ. ring.
Qed.
End Near.

Lemma sl_near P k1 k2 w ap h s s' u u' g1 g2 : streaming P -> wf_cfg (pc P) k1 k2 -> interpolates w ap -> uses (pc P) ap ->
  reach_run (pc P) (time_elapsed s) h -> time_elapsed s' = time_elapsed s ->
  inb (gN1 (lay (pc P))) g1 -> inb (gN2 (lay (pc P))) g2 -> holds (pc P) (f_of s) u -> holds (pc P) (f_of s') u' ->
  agree_near (pc P) (fun _ _ => True) (2 * Z.of_nat (List.length h) * (ng1 (lay (pc P)) + ng2 (lay (pc P)) + 4)) u u' g1 g2 ->
  exists r r', run_steps (solver_stepper P) h s = Ok (r, None) /\ run_steps (solver_stepper P) h s' = Ok (r', None)
  /\ forall x sp, inb (N_p (pc P)) x -> inb (N_species (pc P)) sp ->
     gval (lay (pc P)) (f_of r) x sp g1 g2 = gval (lay (pc P)) (f_of r') x sp g1 g2.
Proof.
  intros ST W IT US RE T H1 H2 H H' A. pose proof (st_layout P ST) as PL.
  assert (N1 : (0 < gN1 (lay (pc P)))%Z) by (unfold inb in H1; lia). assert (N2 : (0 < gN2 (lay (pc P)))%Z) by (unfold inb in H2; lia).
  assert (R0 : (0 <= ng1 (lay (pc P)) + ng2 (lay (pc P)) + 4)%Z) by (unfold periodic_layout in PL; lia).
  destruct (streaming_run P k1 k2 w ap h s _ ST W IT US H RE) as (r&R1&(_&V1)&_).
  pose proof RE as RE'. rewrite <- T in RE'. destruct (streaming_run P k1 k2 w ap h s' _ ST W IT US H' RE') as (r'&R2&(_&V2)&_).
  exists r, r'. split; [exact R1|]. split; [exact R2|]. intros x sp Hx Hs. rewrite V1, V2 by assumption. rewrite T.
  pose proof (transport_near P k1 k2 w g1 g2 W ST N1 N2 R0 h (time_elapsed s) u u' RE A x sp 0%Z 0%Z I Hx Hs) as E.
  rewrite !Z.add_0_r in E. unfold inb in H1, H2. rewrite !Z.mod_small in E by lia. apply E. cbn. lia.
Qed.

(** ** Species *)
Section Species.
Variables (P : params) (w : weights) (s : Z).
Let c := pc P.
Context (OS : sl_own_species P) (N1 : (0 < gN1 (lay c))%Z) (N2 : (0 < gN2 (lay c))%Z) (Hs : inb (N_species c) s).
Definition same_species (u v : gstate) : Prop := forall x g1 g2, inb (N_p c) x -> inb (gN1 (lay c)) g1 -> inb (gN2 (lay c)) g2 -> u x s g1 g2 = v x s g1 g2.
Lemma char_species t dt u v : same_species u v -> same_species (characteristics c w t dt u) (characteristics c w t dt v).
Proof.
  intros A x g1 g2 Hx _ _. unfold characteristics, interp2. apply zsum_ext; intros a _. apply zsum_ext; intros b _. f_equal.
  apply A; auto; apply Z.mod_pos_bound; assumption.
Qed.
Lemma collide_species t dt u v : same_species u v -> same_species (collide P t dt u) (collide P t dt v).
Proof.
  intros A x g1 g2 Hx H1 H2. unfold collide. cbv zeta. fold c.
  assert (E : forall y, inb (N_p c) y -> u y s g1 g2 = v y s g1 g2) by (intros; apply A; auto).
  destruct OS as (O1&O2). destruct (instantaneous P) eqn:I; [apply O2; auto|].
  destruct (source_enabled c); [|apply E; auto]. rewrite (E x Hx). f_equal. f_equal. apply O1; auto.
  intros y Hy. rewrite (E y Hy). f_equal. f_equal. apply O1; auto.
Qed.
Lemma transport_species h t u v : same_species u v -> same_species (transport P w t h u) (transport P w t h v).
Proof.
  revert t u v. induction h as [|(m&dt) h IH]; intros t u v A; cbn [transport]; [exact A|]. apply IH. fold c.
  assert (X := char_species t). assert (Y := collide_species t).
  assert (L1 : same_species (collide P t dt (characteristics c w t dt u)) (collide P t dt (characteristics c w t dt v))) by auto.
  assert (L2 : same_species (characteristics c w t dt (collide P t dt u)) (characteristics c w t dt (collide P t dt v))) by auto.
  destruct m.
  - exact L1.
  - unfold compose. auto.
  - intros x g1 g2 Hx H1 H2. unfold compose. rewrite (L1 x g1 g2 Hx H1 H2), (L2 x g1 g2 Hx H1 H2). reflexivity.
  - assert (S1 : same_species (compose Strang (characteristics c w t) (collide P t) dt u) (compose Strang (characteristics c w t) (collide P t) dt v)) by (unfold compose; auto).
    assert (S2 : same_species (compose Strang (collide P t) (characteristics c w t) dt u) (compose Strang (collide P t) (characteristics c w t) dt v)) by (unfold compose; auto).
    intros x g1 g2 Hx H1 H2. pose proof (S1 x g1 g2 Hx H1 H2) as e1. pose proof (S2 x g1 g2 Hx H1 H2) as e2. unfold compose in *.
    rewrite e1, e2, (L1 x g1 g2 Hx H1 H2), (L2 x g1 g2 Hx H1 H2). reflexivity.
Qed.
End Species.

Lemma sl_species P k1 k2 w ap h s s' u u' sp : streaming P -> wf_cfg (pc P) k1 k2 -> interpolates w ap -> uses (pc P) ap ->
  sl_own_species P -> reach_run (pc P) (time_elapsed s) h -> time_elapsed s' = time_elapsed s ->
  holds (pc P) (f_of s) u -> holds (pc P) (f_of s') u' -> inb (N_species (pc P)) sp ->
  (forall x g1 g2, inb (N_p (pc P)) x -> inb (gN1 (lay (pc P))) g1 -> inb (gN2 (lay (pc P))) g2 -> u x sp g1 g2 = u' x sp g1 g2) ->
  exists r r', run_steps (solver_stepper P) h s = Ok (r, None) /\ run_steps (solver_stepper P) h s' = Ok (r', None)
  /\ forall x g1 g2, inb (N_p (pc P)) x -> inb (gN1 (lay (pc P))) g1 -> inb (gN2 (lay (pc P))) g2 ->
     gval (lay (pc P)) (f_of r) x sp g1 g2 = gval (lay (pc P)) (f_of r') x sp g1 g2.
Proof.
  intros ST W IT US OS RE T H H' Hs A. destruct (st_layout P ST) as ((N1&_)&(N2&_)&_).
  destruct (streaming_run P k1 k2 w ap h s _ ST W IT US H RE) as (r&R1&(_&V1)&_).
  rewrite <- T in RE. destruct (streaming_run P k1 k2 w ap h s' _ ST W IT US H' RE) as (r'&R2&(_&V2)&_).
  exists r, r'. split; [exact R1|]. split; [exact R2|]. intros x g1 g2 Hx H1 H2. rewrite V1, V2 by assumption. rewrite T.
  apply (transport_species P w sp OS N1 N2 Hs h); assumption.
Qed.
