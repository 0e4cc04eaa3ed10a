(** Coupled runs commute with reflections. *)
From Coq Require Import ZArith Reals Lia Lra String List Bool.
From Verif Require Import Base.Prelude Base.ZSum Model.Af Model.Petsc Model.Config
  Model.Fvm Model.Em Model.Moments Model.Splitting Model.SemiLag Model.Timestep Model.Solver Spec.Domain Spec.Lattice Spec.FvmProblem Spec.FvmRun
  Spec.Yee Spec.EmRun Spec.MomentSpec Spec.Clock Spec.SolverSpec Spec.VlasovMaxwell Spec.Hybrid Spec.Symmetry Spec.Slide Spec.Reflect
  Proofs.AfLemmas Proofs.PetscLemmas Proofs.ConvLemmas Proofs.FluxLemmas
  Proofs.FvmLemmas Proofs.FvmLemmas2 Proofs.FvmConserve Proofs.FvmMore Proofs.SchemeSym
  Proofs.EmLemmas Proofs.EmStep Proofs.EmGrids Proofs.MomentLemmas Proofs.EmInit Proofs.EmProps
  Proofs.SolverLemmas Proofs.StageLemmas Proofs.ChargeLemmas Proofs.VlasovMaxwell Proofs.VmProps Proofs.HybridRun Proofs.Slide
  Proofs.ReflectFields.
Import ListNotations.
Local Open Scope R_scope.

Lemma turn_turn b v : turn b (turn b v) = v.
Proof. destruct b; cbn; ring. Qed.
Lemma flip_mod b n z : (0 < n)%Z -> flip b n (z mod n)%Z = (flip b n z mod n)%Z.
Proof.
  intros N. unfold flip. destruct b; auto. apply Zmod_unique with (q := (- (z / n))%Z).
  - pose proof (Z.mod_pos_bound z n N). lia.
  - rewrite (Z.div_mod z n) at 1 by lia. ring.
Qed.
Lemma flip_face_mod b n z : (0 < n)%Z -> (flip_face b n (z mod n) mod n = flip_face b n z mod n)%Z.
Proof.
  intros N. unfold flip_face. destruct b; [|apply Zmod_mod].
  rewrite Zminus_mod_idemp_r. reflexivity.
Qed.
Lemma flip_inb b n g : inb n g -> inb n (flip b n g).
Proof. unfold flip, inb. destruct b; lia. Qed.

(** Lines. *)
Lemma flip_periodic b n (f f' : Z -> R) : (0 < n)%Z -> (forall z, inb n z -> f' z = f (flip b n z)) ->
  forall z, periodic n f' z = periodic n f (if b then n - 1 - z else z)%Z.
Proof.
  intros N H z. unfold periodic. rewrite H by (apply Z.mod_pos_bound; auto). f_equal. unfold flip.
  destruct b; auto. apply Zmod_unique with (q := (- (z / n))%Z); [|].
  - pose proof (Z.mod_pos_bound z n N). lia.
  - rewrite (Z.div_mod z n) at 1 by lia. ring.
Qed.

Lemma advect_flip b k h n (v v' f f' : Z -> R) V V' i : (0 < n)%Z -> (forall z, v z = V) -> (forall z, v' z = V') ->
  V = turn b V' -> (forall z, inb n z -> f' z = f (flip b n z)) ->
  advect k h v' (periodic n f') i = advect k h v (periodic n f) (flip b n i).
Proof.
  intros N HV HV' T H. pose proof (flip_periodic b n f f' N H) as FP. destruct b; cbn [turn flip] in *.
  - apply advect_rev; auto. intros. rewrite HV, HV', T. ring.
  - subst V'. transitivity (advect k h v' (periodic n f) i).
    + apply advect_ext; auto.
    + apply advect_vel_ext. intros. rewrite HV, HV'. auto.
Qed.

Lemma advect_flips b k h n (v v' f f' : Z -> R) i : (0 < n)%Z -> (b = true -> forall z, inb n z -> v z = v 0%Z) ->
  (forall z, inb n z -> v' z = turn b (v (flip b n z))) -> (forall z, inb n z -> f' z = f (flip b n z)) ->
  advect k h (periodic n v') (periodic n f') i = advect k h (periodic n v) (periodic n f) (flip b n i).
Proof.
  intros N HV HV' H. destruct b.
  - apply (advect_flip true k h n _ _ f f' (v 0%Z) (turn true (v 0%Z))); auto.
    + intros z. unfold periodic. apply HV; auto. apply Z.mod_pos_bound; auto.
    + intros z. unfold periodic. rewrite HV' by (apply Z.mod_pos_bound; auto). f_equal. apply HV; auto.
      apply flip_inb, Z.mod_pos_bound; auto.
    + rewrite turn_turn. reflexivity.
  - cbn [flip turn] in *. transitivity (advect k h (periodic n v) (periodic n f') i).
    + apply advect_vel_ext. intros z. unfold periodic. apply HV', Z.mod_pos_bound; auto.
    + apply advect_ext; auto. intros z _. unfold periodic. apply H, Z.mod_pos_bound; auto.
Qed.

Lemma upwind_flips b k n (v v' f f' : Z -> R) V i : (0 < n)%Z -> (forall z, v z = V) -> (forall z, v' z = turn b V) ->
  (b = true -> V <> 0) -> (forall z, inb n z -> f' z = f (flip b n z)) ->
  upwind k v' (periodic n f') i = upwind k v (periodic n f) (flip_face b n i).
Proof.
  intros N HV HV' NZ H. pose proof (flip_periodic b n f f' N H) as FP. destruct b; cbn [flip_face turn] in *.
  - unfold upwind. rewrite HV, HV'. specialize (NZ eq_refl).
    rewrite (faces_rev k (periodic n f) (periodic n f') (n - 1) (i - 1) FP).
    rewrite (faces_rev k (periodic n f) (periodic n f') (n - 1) i FP). cbn [fst snd].
    replace (n - 1 - (i - 1))%Z with (n - i)%Z by ring. replace (n - 1 - i)%Z with (n - i - 1)%Z by ring.
    destruct (Rlt_dec 0 (- V)), (Rlt_dec 0 V); auto; lra.
  - apply upwind_ext; [rewrite HV, HV'; auto|]. auto.
Qed.

Section Mirror.
  Context (P : params) (k1 k2 : scheme) (b1 b2 : bool).
  Let c := pc P.
  Let L := lay c.
  Let opp := opposite c b1 b2.
  Context (W : wf_cfg c k1 k2) (PF : periodic_fvm c k1) (BL : ballistic P) (SE : same_everywhere c) (ML : mirror_law c b1 b2).

  Let mir := reflection c b1 b2 opp.
  Let my := mirror_yee (gN1 L) (gN2 L) b1 b2.
  Let mc := mirror_centre (gN1 L) (gN2 L) b1 b2.
  Definition Cells (u v : gstate) : Prop := forall x s i j, inb (N_p c) x -> inb (N_species c) s ->
     inb (gN1 L) i -> inb (gN2 L) j -> u x s i j = v x s i j.

  Lemma pos3 : (0 < N_p1 c)%Z /\ (0 < N_p2 c)%Z /\ (0 < N_p3 c)%Z.
  Proof using W. pose proof (wf_pos _ _ _ W) as (Q1&Q2&Q3&_). auto. Qed.

  Lemma opp_at i1 i2 i3 : inb (N_p1 c) i1 -> inb (N_p2 c) i2 ->
    opp (i1 + N_p1 c * (i2 + N_p2 c * i3)) = (flip b1 (N_p1 c) i1 + N_p1 c * (flip b2 (N_p2 c) i2 + N_p2 c * i3))%Z.
  Proof using. intros H1 H2. destruct (pidx_split (N_p1 c) (N_p2 c) i1 i2 i3 H1 H2) as (A1&A2&A3). unfold opp, opposite. rewrite A1, A2, A3. reflexivity. Qed.

  Lemma opp_spec x : inb (N_p c) x -> inb (N_p c) (opp x)
    /\ (opp x mod N_p1 c = flip b1 (N_p1 c) (x mod N_p1 c))%Z
    /\ ((opp x / N_p1 c) mod N_p2 c = flip b2 (N_p2 c) ((x / N_p1 c) mod N_p2 c))%Z
    /\ (opp x / N_p1 c / N_p2 c = x / N_p1 c / N_p2 c)%Z.
  Proof using W.
    intros Hx. destruct pos3 as (Q1&Q2&Q3). destruct (row_split (N_p1 c) (N_p2 c) (N_p3 c) x Q1 Q2 Hx) as (_&A&B&D).
    split; [apply pidx_bound; auto; apply flip_inb; auto|].
    apply pidx_split; apply flip_inb; auto.
  Qed.

  Lemma mom_opp x s : inb (N_p c) x -> inb (N_species c) s ->
    mom1 c (1/2) (opp x) s = turn b1 (mom1 c (1/2) x s) /\ mom2 c (1/2) (opp x) s = turn b2 (mom2 c (1/2) x s)
    /\ (forall o, mom3 c o (opp x) s = mom3 c o x s)
    /\ (b1 = false -> forall o, mom1 c o (opp x) s = mom1 c o x s) /\ (b2 = false -> forall o, mom2 c o (opp x) s = mom2 c o x s).
  Proof using W ML.
    intros Hx Hs. destruct (opp_spec x Hx) as (_&A&B&D). unfold mom1, mom2, mom3. rewrite A, B, D.
    destruct ML as [G1 G2 _ _ _ _]. repeat split.
    - unfold flip, turn. destruct b1; auto. specialize (G1 eq_refl s Hs). rewrite !minus_IZR. lra.
    - unfold flip, turn. destruct b2; auto. specialize (G2 eq_refl s Hs). rewrite !minus_IZR. lra.
    - intros E o. unfold flip. rewrite E. reflexivity.
    - intros E o. unfold flip. rewrite E. reflexivity.
  Qed.

  (** ** Forces *)
  Section One.
  Context (t : R) (C C' : lattice) (HC : same C' (mc C)).
  Let p := vm_problem P k1 k2 t C.
  Let p' := vm_problem P k1 k2 t C'.

  Lemma comp_opp g1 g2 : let d1 := flip b1 (gN1 L) g1 in let d2 := flip b2 (gN2 L) g2 in
    components C' 0%Z g1 g2 = turn b1 (components C 0%Z d1 d2) /\ components C' 1%Z g1 g2 = turn b2 (components C 1%Z d1 d2)
    /\ components C' 2%Z g1 g2 = components C 2%Z d1 d2 /\ components C' 3%Z g1 g2 = turn b2 (components C 3%Z d1 d2)
    /\ components C' 4%Z g1 g2 = turn b1 (components C 4%Z d1 d2) /\ components C' 5%Z g1 g2 = turn (xorb b1 b2) (components C 5%Z d1 d2).
  Proof using HC. destruct HC as (A1&A2&A3&A4&A5&A6). unfold components; cbn [Z.eqb Pos.eqb]. rewrite A1, A2, A3, A4, A5, A6. cbn. auto 6. Qed.

  Lemma force_opp s g1 g2 p1 p2 p3 : let d1 := flip b1 (gN1 L) g1 in let d2 := flip b2 (gN2 L) g2 in
    let F := components C in let F' := components C' in
    let a := C_p c s t (pos1 c (1/2) d1) (pos2 c (1/2) d2) p1 p2 p3 (F 0%Z d1 d2) (F 1%Z d1 d2) (F 2%Z d1 d2) (F 3%Z d1 d2) (F 4%Z d1 d2) (F 5%Z d1 d2) in
    C_p c s t (pos1 c (1/2) g1) (pos2 c (1/2) g2) (turn b1 p1) (turn b2 p2) p3
      (F' 0%Z g1 g2) (F' 1%Z g1 g2) (F' 2%Z g1 g2) (F' 3%Z g1 g2) (F' 4%Z g1 g2) (F' 5%Z g1 g2)
    = (turn b1 (fst (fst a)), turn b2 (snd (fst a)), snd a).
  Proof using HC SE ML.
    intros d1 d2 F F' a. destruct (comp_opp g1 g2) as (A1&A2&A3&A4&A5&A6). unfold F'. rewrite A1, A2, A3, A4, A5, A6.
    fold d1 d2 F. destruct SE as (_&SP). rewrite (SP s t _ _ (pos1 c (1/2) d1) (pos2 c (1/2) d2)).
    pose proof (ml_force _ _ _ ML s t (pos1 c (1/2) d1) (pos2 c (1/2) d2) p1 p2 p3 (F 0%Z d1 d2) (F 1%Z d1 d2) (F 2%Z d1 d2) (F 3%Z d1 d2) (F 4%Z d1 d2) (F 5%Z d1 d2)) as Q.
    fold a in Q. destruct a as ((a1&a2)&a3). exact Q.
  Qed.

  Lemma acc_opp x s g1 g2 : inb (N_p c) x -> inb (N_species c) s ->
    let d1 := flip b1 (gN1 L) g1 in let d2 := flip b2 (gN2 L) g2 in
    acc1 p' x s g1 g2 = turn b1 (acc1 p (opp x) s d1 d2) /\ acc2 p' x s g1 g2 = turn b2 (acc2 p (opp x) s d1 d2)
    /\ acc3 p' x s g1 g2 = acc3 p (opp x) s d1 d2.
  Proof using W HC SE ML.
    intros Hx Hs d1 d2. destruct (mom_opp x s Hx Hs) as (M1&M2&M3&N1&N2).
    unfold p, p', vm_problem, prob, problem_of, problem_at; cbn [acc1 acc2 acc3 fst snd].
    destruct (p_is_fvm (pc P)); [|destruct b1, b2; cbn [turn]; repeat split; ring].
    fold c. unfold accel.
    assert (T1 : turn b1 (mom1 c (1/2) (opp x) s) = mom1 c (1/2) x s) by (rewrite M1, turn_turn; auto).
    assert (T2 : turn b2 (mom2 c (1/2) (opp x) s) = mom2 c (1/2) x s) by (rewrite M2, turn_turn; auto).
    split; [|split].
    - destruct (Bool.bool_dec b1 true) as [E|E].
      + rewrite (ml_own1 _ _ _ ML E s t (pos1 c (1/2) g1) (pos2 c (1/2) g2) (mom1 c 0 x s) (turn b1 (mom1 c 0 (opp x) s))).
        rewrite <- T2, <- (M3 (1/2)). rewrite force_opp. reflexivity.
      + apply Bool.not_true_is_false in E. rewrite <- (N1 E 0), <- T2, <- (M3 (1/2)).
        replace (mom1 c 0 (opp x) s) with (turn b1 (mom1 c 0 (opp x) s)) at 1 by (rewrite E; reflexivity).
        rewrite force_opp. reflexivity.
    - destruct (Bool.bool_dec b2 true) as [E|E].
      + rewrite (ml_own2 _ _ _ ML E s t (pos1 c (1/2) g1) (pos2 c (1/2) g2) _ (mom2 c 0 x s) (turn b2 (mom2 c 0 (opp x) s))).
        rewrite <- T1, <- (M3 (1/2)). rewrite force_opp. reflexivity.
      + apply Bool.not_true_is_false in E. rewrite <- (N2 E 0), <- T1, <- (M3 (1/2)).
        replace (mom2 c 0 (opp x) s) with (turn b2 (mom2 c 0 (opp x) s)) at 1 by (rewrite E; reflexivity).
        rewrite force_opp. reflexivity.
    - rewrite <- T1, <- T2, <- (M3 0). rewrite force_opp. reflexivity.
  Qed.

  Lemma acc_own1 i i' i2 i3 s g1 g2 : b1 = true -> inb (N_p1 c) i -> inb (N_p1 c) i' -> inb (N_p2 c) i2 ->
    acc1 p (i + N_p1 c * (i2 + N_p2 c * i3))%Z s g1 g2 = acc1 p (i' + N_p1 c * (i2 + N_p2 c * i3))%Z s g1 g2.
  Proof using ML.
    intros E H H' H2. unfold p, vm_problem, prob, problem_of, problem_at; cbn [acc1 fst snd].
    destruct (p_is_fvm (pc P)); auto. fold c. unfold accel.
    destruct (pidx_split (N_p1 c) (N_p2 c) i i2 i3 H H2) as (A1&A2&A3).
    destruct (pidx_split (N_p1 c) (N_p2 c) i' i2 i3 H' H2) as (A1'&A2'&A3').
    unfold mom2, mom3. rewrite A2, A3, A2', A3'. apply (ml_own1 _ _ _ ML E).
  Qed.
  Lemma acc_own2 i1 i i' i3 s g1 g2 : b2 = true -> inb (N_p1 c) i1 -> inb (N_p2 c) i -> inb (N_p2 c) i' ->
    acc2 p (i1 + N_p1 c * (i + N_p2 c * i3))%Z s g1 g2 = acc2 p (i1 + N_p1 c * (i' + N_p2 c * i3))%Z s g1 g2.
  Proof using ML.
    intros E H H' H2. unfold p, vm_problem, prob, problem_of, problem_at; cbn [acc2 fst snd].
    destruct (p_is_fvm (pc P)); auto. fold c. unfold accel.
    destruct (pidx_split (N_p1 c) (N_p2 c) i1 i i3 H H') as (A1&A2&A3).
    destruct (pidx_split (N_p1 c) (N_p2 c) i1 i' i3 H H2) as (A1'&A2'&A3').
    unfold mom1, mom3. rewrite A1, A3, A1', A3'. apply (ml_own2 _ _ _ ML E).
  Qed.

  Lemma advect_p_opp g1 g2 (w w' : Z -> Z -> R) x s : inb (N_p c) x -> inb (N_species c) s ->
    (forall y, inb (N_p c) y -> w' y s = w (opp y) s) ->
    advect_p p' g1 g2 w' x s = advect_p p (flip b1 (gN1 L) g1) (flip b2 (gN2 L) g2) w (opp x) s.
  Proof using W HC SE ML.
    intros Hx Hs HW. destruct pos3 as (Q1&Q2&Q3). destruct (row_split (N_p1 c) (N_p2 c) (N_p3 c) x Q1 Q2 Hx) as (_&A&B&D).
    destruct (opp_spec x Hx) as (_&O1&O2&O3).
    set (d1 := flip b1 (gN1 L) g1). set (d2 := flip b2 (gN2 L) g2).
    unfold advect_p, pidx. change (M1 p) with (N_p1 c). change (M2 p) with (N_p2 c). change (M3 p) with (N_p3 c).
    change (M1 p') with (N_p1 c). change (M2 p') with (N_p2 c). change (M3 p') with (N_p3 c).
    change (kp p') with (kp p). change (hp1 p') with (hp1 p). change (hp2 p') with (hp2 p). change (hp3 p') with (hp3 p).
    cbv zeta. rewrite O1, O2, O3.
    set (i1 := (x mod N_p1 c)%Z) in *. set (i2 := ((x / N_p1 c) mod N_p2 c)%Z) in *. set (i3 := (x / N_p1 c / N_p2 c)%Z) in *.
    assert (PB : forall a b d, inb (N_p1 c) a -> inb (N_p2 c) b -> inb (N_p3 c) d -> inb (N_p c) (a + N_p1 c * (b + N_p2 c * d)))
      by (intros; apply pidx_bound; auto).
    f_equal; [f_equal|].
    - apply advect_flips; auto.
      + intros E z Hz. apply acc_own1; auto; [unfold inb; lia|apply flip_inb; auto].
      + intros z Hz. destruct (acc_opp (z + N_p1 c * (i2 + N_p2 c * i3))%Z s g1 g2) as (R1&_&_); auto.
        rewrite R1, opp_at by auto. reflexivity.
      + intros z Hz. rewrite HW, opp_at by auto. reflexivity.
    - apply advect_flips; auto.
      + intros E z Hz. apply acc_own2; auto; [apply flip_inb; auto|unfold inb; lia].
      + intros z Hz. destruct (acc_opp (i1 + N_p1 c * (z + N_p2 c * i3))%Z s g1 g2) as (_&R2&_); auto.
        rewrite R2, opp_at by auto. reflexivity.
      + intros z Hz. rewrite HW, opp_at by auto. reflexivity.
    - apply (advect_flips false); auto.
      + discriminate.
      + intros z Hz. destruct (acc_opp (i1 + N_p1 c * (i2 + N_p2 c * z))%Z s g1 g2) as (_&_&R3); auto.
        rewrite R3, opp_at by auto. reflexivity.
      + intros z Hz. rewrite HW, opp_at by auto. reflexivity.
  Qed.

  Lemma vel_is x s q1 q2 : velocity c t x s q1 q2 = (mom1 c (1/2) x s, mom2 c (1/2) x s).
  Proof using BL. unfold velocity. apply (bl_q _ BL). Qed.
  Lemma vel1_is (F : lattice) x s i j : vel1 (vm_problem P k1 k2 t F) x s i j = mom1 c (1/2) x s.
  Proof using BL. unfold vm_problem, prob, problem_of, problem_at; cbn [vel1]. rewrite (bl_q _ BL). reflexivity. Qed.
  Lemma vel2_is (F : lattice) x s i j : vel2 (vm_problem P k1 k2 t F) x s i j = mom2 c (1/2) x s.
  Proof using BL. unfold vm_problem, prob, problem_of, problem_at; cbn [vel2]. rewrite (bl_q _ BL). reflexivity. Qed.

  Lemma rhs_opp u u' : Cells u' (mir u) -> Cells (rhs p' u') (mir (rhs p u)).
  Proof using W PF BL SE ML HC.
    intros H x s g1 g2 Hx Hs H1 H2. destruct (grid_pos c k1 PF) as (P1&P2). fold L in P1, P2.
    destruct (opp_spec x Hx) as (Ho&_). destruct (mom_opp x s Hx Hs) as (MM1&MM2&_).
    unfold mir, reflection, rhs. fold L. set (d1 := flip b1 (gN1 L) g1). set (d2 := flip b2 (gN2 L) g2).
    f_equal; [f_equal|].
    - unfold advect_q. change (n1 p') with (gN1 L). change (n1 p) with (gN1 L). change (n2 p') with (gN2 L). change (n2 p) with (gN2 L).
      change (kq p') with (kq p). change (h1 p') with (h1 p). change (h2 p') with (h2 p). f_equal.
      + apply advect_flip with (V := mom1 c (1/2) (opp x) s) (V' := mom1 c (1/2) x s); auto.
        * intros z. apply vel1_is. * intros z. apply vel1_is. * intros z Hz. rewrite H by auto. reflexivity.
      + apply advect_flip with (V := mom2 c (1/2) (opp x) s) (V' := mom2 c (1/2) x s); auto.
        * intros z. apply vel2_is. * intros z. apply vel2_is. * intros z Hz. rewrite H by auto. reflexivity.
    - unfold p, p', vm_problem, prob, problem_of, problem_at; cbn [src]. fold c.
      destruct (source_enabled c) eqn:SO; auto. destruct SE as (SS&_).
      destruct (ml_source _ _ _ ML) as [X|X]; [congruence|].
      rewrite (SS t (pos1 c (1/2) g1) (pos2 c (1/2) g2) (pos1 c (1/2) d1) (pos2 c (1/2) d2)).
      transitivity (source c t (pos1 c (1/2) d1) (pos2 c (1/2) d2) (fun y s' => u (opp y) s' d1 d2) x s).
      + apply W; auto. intros y s' Hy Hs'. rewrite H by auto. reflexivity.
      + apply X with (w := fun y s' => u y s' d1 d2); auto.
    - apply advect_p_opp; auto. intros y Hy. rewrite H by auto. reflexivity.
  Qed.

  (** ** What crosses the faces *)
  Lemma wrap_upwind k n (v f : Z -> R) V i : (0 < n)%Z -> (forall z, v z = V) ->
    upwind k v (periodic n f) (i mod n)%Z = upwind k v (periodic n f) i.
  Proof using.
    intros N HV. symmetry. replace (i mod n)%Z with ((i - 0) mod n)%Z by (f_equal; lia).
    apply (upwind_move k n v v f f V 0 i); auto.
    intros z Hz. rewrite Z.sub_0_r, Z.mod_small; auto.
  Qed.

  Lemma through1_opp u u' x s i j : Cells u' (mir u) -> inb (N_p c) x -> inb (N_species c) s ->
    (b1 = true -> mom1 c (1/2) x s <> 0) ->
    through1 p' u' x s (i mod gN1 L)%Z (j mod gN2 L)%Z
    = through1 p u (opp x) s (flip_face b1 (gN1 L) i mod gN1 L)%Z (flip b2 (gN2 L) j mod gN2 L)%Z.
  Proof using W PF BL ML.
    intros H Hx Hs NZ. destruct (grid_pos c k1 PF) as (P1&P2). fold L in P1, P2. destruct (mom_opp x s Hx Hs) as (MM1&_).
    unfold through1. change (n1 p') with (gN1 L). change (n1 p) with (gN1 L). change (kq p') with (kq p).
    rewrite (wrap_upwind _ (gN1 L) _ _ (mom1 c (1/2) x s)) by (auto; intros; apply vel1_is).
    rewrite (wrap_upwind _ (gN1 L) _ _ (mom1 c (1/2) (opp x) s)) by (auto; intros; apply vel1_is).
    apply upwind_flips with (V := mom1 c (1/2) (opp x) s); auto.
    - intros z. apply vel1_is.
    - intros z. rewrite MM1, turn_turn. apply vel1_is.
    - intros E. rewrite MM1, E. cbn [turn]. specialize (NZ E). lra.
    - intros z Hz. rewrite H by (auto; apply Z.mod_pos_bound; auto). unfold mir, reflection. fold L. rewrite (flip_mod b2) by auto. reflexivity.
  Qed.
  Lemma through2_opp u u' x s i j : Cells u' (mir u) -> inb (N_p c) x -> inb (N_species c) s ->
    (b2 = true -> mom2 c (1/2) x s <> 0) ->
    through2 p' u' x s (i mod gN1 L)%Z (j mod gN2 L)%Z
    = through2 p u (opp x) s (flip b1 (gN1 L) i mod gN1 L)%Z (flip_face b2 (gN2 L) j mod gN2 L)%Z.
  Proof using W PF BL ML.
    intros H Hx Hs NZ. destruct (grid_pos c k1 PF) as (P1&P2). fold L in P1, P2. destruct (mom_opp x s Hx Hs) as (_&MM2&_).
    unfold through2. change (n2 p') with (gN2 L). change (n2 p) with (gN2 L). change (kq p') with (kq p).
    rewrite (wrap_upwind _ (gN2 L) _ _ (mom2 c (1/2) x s)) by (auto; intros; apply vel2_is).
    rewrite (wrap_upwind _ (gN2 L) _ _ (mom2 c (1/2) (opp x) s)) by (auto; intros; apply vel2_is).
    apply upwind_flips with (V := mom2 c (1/2) (opp x) s); auto.
    - intros z. apply vel2_is.
    - intros z. rewrite MM2, turn_turn. apply vel2_is.
    - intros E. rewrite MM2, E. cbn [turn]. specialize (NZ E). lra.
    - intros z Hz. rewrite H by (auto; apply Z.mod_pos_bound; auto). unfold mir, reflection. fold L. rewrite (flip_mod b1) by auto. reflexivity.
  Qed.
  Lemma cell_opp u u' x s i j : Cells u' (mir u) -> inb (N_p c) x -> inb (N_species c) s ->
    u' x s (i mod gN1 L)%Z (j mod gN2 L)%Z = u (opp x) s (flip b1 (gN1 L) i mod gN1 L)%Z (flip b2 (gN2 L) j mod gN2 L)%Z.
  Proof using PF.
    intros H Hx Hs. destruct (grid_pos c k1 PF) as (P1&P2). fold L in P1, P2.
    rewrite H by (auto; apply Z.mod_pos_bound; auto). unfold mir, reflection. fold L. rewrite !flip_mod by auto. reflexivity.
  Qed.
  End One.

  (** ** Moments *)
  Lemma sum_flip b n F : (0 <= n)%Z -> zsum n (fun i => F (flip b n i)) = zsum n F.
  Proof using. intros N. unfold flip. destruct b; auto. apply zsum_rev; auto. Qed.

  Lemma integral_opp s w w' (g g' : Z -> R) : inb (N_species c) s ->
    (forall x, inb (N_p c) x ->
       w' (mom1 c (1/2) x s) (mom2 c (1/2) x s) (mom3 c (1/2) x s) * g' x
       = w (mom1 c (1/2) (opp x) s) (mom2 c (1/2) (opp x) s) (mom3 c (1/2) (opp x) s) * g (opp x)) ->
    integral (species_grid c s) w' (fun i1 i2 i3 => g' (i1 + N_p1 c * (i2 + N_p2 c * i3))%Z)
    = integral (species_grid c s) w (fun i1 i2 i3 => g (i1 + N_p1 c * (i2 + N_p2 c * i3))%Z).
  Proof using W.
    intros Hs H. destruct pos3 as (Q1&Q2&Q3). unfold integral. f_equal. cbn [mn1 mn2 mn3 species_grid].
    set (G := species_grid c s).
    set (F := fun (g0 : Z -> R) (v : R -> R -> R -> R) i1 i2 i3 => v (v_of (lo1 G) (w1 G) i1) (v_of (lo2 G) (w2 G) i2) (v_of (lo3 G) (w3 G) i3)
      * g0 (i1 + N_p1 c * (i2 + N_p2 c * i3))%Z).
    assert (V : forall i1 i2 i3 (g0 : Z -> R) v, inb (N_p1 c) i1 -> inb (N_p2 c) i2 ->
      let x := (i1 + N_p1 c * (i2 + N_p2 c * i3))%Z in
      F g0 v i1 i2 i3 = v (mom1 c (1/2) x s) (mom2 c (1/2) x s) (mom3 c (1/2) x s) * g0 x).
    { intros i1 i2 i3 g0 v H1 H2 x. destruct (pidx_split (N_p1 c) (N_p2 c) i1 i2 i3 H1 H2) as (A1&A2&A3). fold x in A1, A2, A3.
      unfold F, mom1, mom2, mom3, v_of. rewrite A1, A2, A3. reflexivity. }
    apply zsum_ext; intros i3 H3.
    change (zsum (N_p2 c) (fun i2 => zsum (N_p1 c) (fun i1 => F g' w' i1 i2 i3))
      = zsum (N_p2 c) (fun i2 => zsum (N_p1 c) (fun i1 => F g w i1 i2 i3))).
    rewrite <- (sum_flip b2 (N_p2 c) (fun i2 => zsum (N_p1 c) (fun i1 => F g w i1 i2 i3))) by lia.
    apply zsum_ext; intros i2 H2.
    rewrite <- (sum_flip b1 (N_p1 c) (fun i1 => F g w i1 (flip b2 (N_p2 c) i2) i3)) by lia.
    apply zsum_ext; intros i1 H1.
    rewrite V by auto. rewrite V by (apply flip_inb; auto). cbv zeta.
    rewrite <- opp_at by auto. apply H. apply pidx_bound; auto.
  Qed.

  Lemma charge_opp w w' (g g' : Z -> Z -> R) :
    (forall x s, inb (N_p c) x -> inb (N_species c) s ->
       w' (mom1 c (1/2) x s) (mom2 c (1/2) x s) (mom3 c (1/2) x s) * g' x s
       = w (mom1 c (1/2) (opp x) s) (mom2 c (1/2) (opp x) s) (mom3 c (1/2) (opp x) s) * g (opp x) s) ->
    charge_moment P w' g' = charge_moment P w g.
  Proof using W.
    intros H. unfold charge_moment. fold c. apply zsum_ext. intros s Hs. f_equal.
    apply (integral_opp s w w' (fun x => g x s) (fun x => g' x s)); auto.
  Qed.
  Lemma integral_turn b G w g : integral G (fun x y z => turn b (w x y z)) g = turn b (integral G w g).
  Proof using.
    destruct b; cbn [turn]; auto. unfold integral. rewrite Ropp_mult_distr_l. f_equal.
    rewrite <- zsum_opp. apply zsum_ext; intros. rewrite <- zsum_opp. apply zsum_ext; intros.
    rewrite <- zsum_opp. apply zsum_ext; intros. ring.
  Qed.
  Lemma charge_turn b w g : charge_moment P (fun x y z => turn b (w x y z)) g = turn b (charge_moment P w g).
  Proof using.
    unfold charge_moment. destruct b; cbn [turn]; auto.
    rewrite <- zsum_opp.
    apply zsum_ext; intros s Hs. pose proof (integral_turn true (species_grid (pc P) s) w) as Q. cbn [turn] in Q. rewrite Q. ring.
  Qed.

  Section Currents.
  Context (t : R) (C C' : lattice) (u u' : gstate) (MU : Cells u' (mir u)).
  Let p := vm_problem P k1 k2 t C.
  Let p' := vm_problem P k1 k2 t C'.

  Lemma current1_opp i j : current1 P p' u' i j = turn b1 (current1 P p u (flip_face b1 (gN1 L) i) (flip b2 (gN2 L) j)).
  Proof using W PF BL ML MU.
    unfold current1. rewrite <- charge_turn. apply charge_opp. intros x s Hx Hs.
    change (n1 p') with (gN1 L). change (n1 p) with (gN1 L). change (n2 p') with (gN2 L). change (n2 p) with (gN2 L).
    destruct (mom_opp x s Hx Hs) as (MM1&_). rewrite MM1, turn_turn.
    destruct (Req_dec (mom1 c (1/2) x s) 0) as [E|E]; [rewrite E; ring|]. f_equal. apply through1_opp; auto.
  Qed.
  Lemma current2_opp i j : current2 P p' u' i j = turn b2 (current2 P p u (flip b1 (gN1 L) i) (flip_face b2 (gN2 L) j)).
  Proof using W PF BL ML MU.
    unfold current2. rewrite <- charge_turn. apply charge_opp. intros x s Hx Hs.
    change (n1 p') with (gN1 L). change (n1 p) with (gN1 L). change (n2 p') with (gN2 L). change (n2 p) with (gN2 L).
    destruct (mom_opp x s Hx Hs) as (_&MM2&_). rewrite MM2, turn_turn.
    destruct (Req_dec (mom2 c (1/2) x s) 0) as [E|E]; [rewrite E; ring|]. f_equal. apply through2_opp; auto.
  Qed.
  Lemma current3_opp i j : current3 P p' u' i j = current3 P p u (flip b1 (gN1 L) i) (flip b2 (gN2 L) j).
  Proof using W PF ML MU.
    unfold current3. apply charge_opp. intros x s Hx Hs.
    change (n1 p') with (gN1 L). change (n1 p) with (gN1 L). change (n2 p') with (gN2 L). change (n2 p) with (gN2 L).
    destruct (mom_opp x s Hx Hs) as (_&_&MM3&_). rewrite MM3. f_equal. apply cell_opp; auto.
  Qed.

  (** The ions of the hybrid model. *)
  Lemma ions_opp f1 f2 (g g' : gstate) : N_species c = 1%Z ->
    (forall x i j, inb (N_p c) x -> g' x 0%Z (i mod gN1 L)%Z (j mod gN2 L)%Z = g (opp x) 0%Z (f1 i mod gN1 L)%Z (f2 j mod gN2 L)%Z) ->
    fluid_image b1 b2 f1 f2 (ions P g) (ions P g').
  Proof using W ML.
    intros ON H. assert (H0 : inb (N_species c) 0) by (unfold inb; lia).
    assert (Q : forall w w', (forall x, inb (N_p c) x ->
         w' (mom1 c (1/2) x 0%Z) (mom2 c (1/2) x 0%Z) (mom3 c (1/2) x 0%Z) = w (mom1 c (1/2) (opp x) 0%Z) (mom2 c (1/2) (opp x) 0%Z) (mom3 c (1/2) (opp x) 0%Z)) ->
       forall i j, ion P w' (fun x => g' x 0%Z (i mod gN1 L)%Z (j mod gN2 L)%Z)
                 = ion P w (fun x => g x 0%Z (f1 i mod gN1 L)%Z (f2 j mod gN2 L)%Z)).
    { intros w w' E i j. unfold ion. fold c.
      apply (integral_opp 0%Z w w' (fun x => g x 0%Z (f1 i mod gN1 L)%Z (f2 j mod gN2 L)%Z) (fun x => g' x 0%Z (i mod gN1 L)%Z (j mod gN2 L)%Z)); auto.
      intros x Hx. rewrite E, H by auto. reflexivity. }
    assert (T : forall b w h, ion P (fun x y z => turn b (w x y z)) h = turn b (ion P w h)) by (intros; unfold ion; apply integral_turn).
    assert (TD : forall b a d, turn b a / d = turn b (a / d)) by (intros [] a d; cbn; unfold Rdiv; ring).
    unfold fluid_image, ions; cbn [num vel_1 vel_2 vel_3]; fold c L.
    repeat split; intros i j; rewrite ?(Q (fun _ _ _ => 1) (fun _ _ _ => 1)) by auto; try reflexivity.
    - rewrite (Q (fun v w z => turn b1 v) (fun v _ _ => v)); [rewrite (T b1 (fun v _ _ => v)); apply TD|].
      intros x Hx. destruct (mom_opp x 0%Z Hx H0) as (M&_). rewrite M, turn_turn. reflexivity.
    - rewrite (Q (fun v w z => turn b2 w) (fun _ v _ => v)); [rewrite (T b2 (fun _ v _ => v)); apply TD|].
      intros x Hx. destruct (mom_opp x 0%Z Hx H0) as (_&M&_). rewrite M, turn_turn. reflexivity.
    - rewrite (Q (fun _ _ v => v) (fun _ _ v => v)); [reflexivity|].
      intros x Hx. destruct (mom_opp x 0%Z Hx H0) as (_&_&M&_). rewrite M. reflexivity.
  Qed.
  End Currents.

  (** ** Steps *)
  Definition tame (hyb : bool) : Prop := hyb = true -> N_species c = 1%Z /\ T_e P = 0 /\ no_rest_cells c b1 b2.

  Lemma update_opp hyb t dt C C' u u' Y Y' : tame hyb -> Cells u' (mir u) -> same Y' (my Y) ->
    same (update P hyb (vm_problem P k1 k2 t C') dt u' Y') (my (update P hyb (vm_problem P k1 k2 t C) dt u Y)).
  Proof using W PF BL ML.
    intros ON MU MY. destruct hyb; unfold update.
    - destruct (ON eq_refl) as (O1&O2&(R1&R2)). assert (H0 : inb (N_species c) 0) by (unfold inb; lia).
      unfold hyb_fields. eapply same_trans; [|apply mirror_faraday]. apply faraday_same. rewrite O2.
      apply mirror_ohm; auto.
      + apply ions_opp; auto. intros x i j Hx. apply through1_opp; auto.
      + apply ions_opp; auto. intros x i j Hx. apply through2_opp; auto.
      + apply ions_opp; auto. intros x i j Hx. apply cell_opp; auto.
    - unfold yee_step. eapply same_trans; [|apply mirror_faraday]. apply faraday_same.
      eapply same_trans; [apply ampere_same; exact MY|]. apply mirror_ampere; intros i j.
      + apply current1_opp; auto. + apply current2_opp; auto. + apply current3_opp; auto.
  Qed.

  Lemma step_opp hyb t dt S S' : tame hyb -> mirror_state P b1 b2 S S' ->
    mirror_state P b1 b2 (step P k1 k2 hyb t dt S) (step P k1 k2 hyb t dt S').
  Proof using W PF BL SE ML.
    intros ON (MU&MY&MC).
    set (p := vm_problem P k1 k2 t (vm_cc S)). set (p' := vm_problem P k1 k2 t (vm_cc S')).
    set (uh := fun x s i j => vm_f S x s i j + dt / 2 * rhs p (vm_f S) x s i j).
    set (uh' := fun x s i j => vm_f S' x s i j + dt / 2 * rhs p' (vm_f S') x s i j).
    assert (MH : Cells uh' (mir uh)).
    { intros x s i j Hx Hs Hi Hj. unfold uh', p'. rewrite (rhs_opp t _ _ MC (vm_f S) (vm_f S') MU x s i j Hx Hs Hi Hj).
      rewrite MU by auto. reflexivity. }
    set (Y := vm_yee (step P k1 k2 hyb t dt S)) in *. set (Y' := vm_yee (step P k1 k2 hyb t dt S')).
    assert (MY1 : same Y' (my Y)) by (apply update_opp; auto).
    assert (MC1 : same (vm_cc (step P k1 k2 hyb t dt S')) (mc (vm_cc (step P k1 k2 hyb t dt S)))).
    { change (vm_cc (step P k1 k2 hyb t dt S')) with (EB (mid (vm_cc S') (centred Y')) (centred Y')).
      change (vm_cc (step P k1 k2 hyb t dt S)) with (EB (mid (vm_cc S) (centred Y)) (centred Y)).
      apply mirror_EB_mid; auto. }
    split; [|split; [exact MY1|exact MC1]].
    intros x s i j Hx Hs Hi Hj.
    change (vm_f (step P k1 k2 hyb t dt S') x s i j)
      with (vm_f S' x s i j + dt * rhs (vm_problem P k1 k2 t (vm_cc (step P k1 k2 hyb t dt S'))) uh' x s i j).
    rewrite (rhs_opp t _ _ MC1 uh uh' MH x s i j Hx Hs Hi Hj). rewrite MU by auto. reflexivity.
  Qed.

  Lemma run_opp hyb h : tame hyb -> forall t S S', mirror_state P b1 b2 S S' ->
    mirror_state P b1 b2 (run P k1 k2 hyb t h S) (run P k1 k2 hyb t h S').
  Proof using W PF BL SE ML.
    intros ON. induction h as [|(m&dt) h IH]; intros t S S' M; cbn [run]; auto. apply IH, step_opp; auto.
  Qed.
End Mirror.

Lemma mirror_state_ext P k1 k2 b1 b2 S S' T T' : wf_cfg (pc P) k1 k2 ->
  (forall x sp i j, inb (N_p (pc P)) x -> inb (N_species (pc P)) sp -> inb (gN1 (lay (pc P))) i -> inb (gN2 (lay (pc P))) j ->
     vm_f T x sp i j = vm_f S x sp i j) -> same (vm_yee T) (vm_yee S) -> same (vm_cc T) (vm_cc S) ->
  (forall x sp i j, inb (N_p (pc P)) x -> inb (N_species (pc P)) sp -> inb (gN1 (lay (pc P))) i -> inb (gN2 (lay (pc P))) j ->
     vm_f T' x sp i j = vm_f S' x sp i j) -> same (vm_yee T') (vm_yee S') -> same (vm_cc T') (vm_cc S') ->
  mirror_state P b1 b2 S S' -> mirror_state P b1 b2 T T'.
Proof.
  intros W A B C A' B' C' (X&Y&Z). split; [|split].
  - intros x sp i j Hx Hs Hi Hj. rewrite A', X by auto. unfold reflection. symmetry.
    apply A; auto; try apply flip_inb; auto. apply (opp_spec P k1 k2 b1 b2 W x Hx).
  - eapply same_trans; [exact B'|]. eapply same_trans; [exact Y|]. apply mirror_same, same_sym; exact B.
  - eapply same_trans; [exact C'|]. eapply same_trans; [exact Z|]. apply mirror_c_same, same_sym; exact C.
Qed.

(** The functions for the initial fields do not matter later. *)
Lemma step_with P c' k1 k2 hyb t dt S : step (with_fields_from P c') k1 k2 hyb t dt S = step P k1 k2 hyb t dt S.
Proof.
  assert (O : forall e T l b d Y, ohm (pf (with_fields_from P c')) e T l b d Y = ohm (pf P) e T l b d Y) by reflexivity.
  assert (I : forall g, ions (with_fields_from P c') g = ions P g) by reflexivity.
  assert (J1 : forall p g, current1 (with_fields_from P c') p g = current1 P p g) by reflexivity.
  assert (J2 : forall p g, current2 (with_fields_from P c') p g = current2 P p g) by reflexivity.
  assert (J3 : forall p g, current3 (with_fields_from P c') p g = current3 P p g) by reflexivity.
  assert (V : forall C, vm_problem (with_fields_from P c') k1 k2 t C = vm_problem P k1 k2 t C) by reflexivity.
  assert (U : forall p uh Y, update (with_fields_from P c') hyb p dt uh Y = update P hyb p dt uh Y).
  { intros p uh Y. unfold update, hyb_fields. rewrite O, !I, J1, J2, J3. reflexivity. }
  unfold step. rewrite !V, U. reflexivity.
Qed.
Lemma run_with P c' k1 k2 hyb h : forall t S, run (with_fields_from P c') k1 k2 hyb t h S = run P k1 k2 hyb t h S.
Proof. induction h as [|(m&dt) h IH]; intros; [reflexivity|]. cbn [run]. rewrite step_with. apply IH. Qed.

Lemma mirror_images P c' k1 k2 b1 b2 h s s2 : let P' := with_fields_from P c' in
  wf_cfg (pc P) k1 k2 -> periodic_fvm (pc P) k1 -> plasma P ->
  maxwell P \/ (hybrid_fvm P /\ T_e P = 0 /\ no_rest_cells (pc P) b1 b2) ->
  ballistic P -> same_everywhere (pc P) -> mirror_law (pc P) b1 b2 ->
  starts P s -> starts P' s2 -> time_elapsed s2 = time_elapsed s -> mirror_state P b1 b2 (contents P s) (contents P s2) ->
  exists r r2, run_steps (solver_stepper P) h s = Ok (r, None) /\ run_steps (solver_stepper P') h s2 = Ok (r2, None)
  /\ mirror_state P b1 b2 (contents P r) (contents P r2).
Proof.
  intros P' W PF PM EM BL SE ML ST ST2 T MV.
  assert (EM0 : maxwell P \/ hybrid_fvm P) by (destruct EM as [X|(X&_)]; auto).
  destruct (any_refines P k1 k2 h s W PF PM EM0 ST) as (r&R&H&ON).
  assert (PM' : plasma P') by (destruct PM; constructor; auto).
  assert (EM' : maxwell P' \/ hybrid_fvm P').
  { destruct EM0 as [[a b d e]|[a b d e g k]]; [left|right]; constructor; auto. }
  destruct (any_refines P' k1 k2 h s2 W PF PM' EM' ST2) as (r2&R2&H2&_).
  exists r, r2. split; [exact R|]. split; [exact R2|].
  destruct (contents_holds P r _ H) as (A&B&C).
  destruct (contents_holds P' r2 _ H2) as (A'&B'&C').
  refine (mirror_state_ext P k1 k2 b1 b2 _ _ _ _ W A B C A' B' C' _).
  change (hybrid (pf P')) with (hybrid (pf P)). rewrite T. unfold P'. rewrite run_with. fold P'.
  change (contents P' s2) with (contents P s2).
  assert (TM : tame P b1 b2 (hybrid (pf P))).
  { intros E. destruct EM as [X|(X&Y&Z)]; [rewrite (mx_hybrid _ X) in E; discriminate|]. auto. }
  exact (run_opp P k1 k2 b1 b2 W PF BL SE ML (hybrid (pf P)) h TM (time_elapsed s) (contents P s) (contents P s2) MV).
Qed.

Lemma mirror_maxwell P c' k1 k2 b1 b2 h s s2 : let P' := with_fields_from P c' in
  wf_cfg (pc P) k1 k2 -> periodic_fvm (pc P) k1 -> plasma P -> maxwell P ->
  ballistic P -> same_everywhere (pc P) -> mirror_law (pc P) b1 b2 ->
  starts P s -> starts P' s2 -> time_elapsed s2 = time_elapsed s -> mirror_state P b1 b2 (contents P s) (contents P s2) ->
  exists r r2, run_steps (solver_stepper P) h s = Ok (r, None) /\ run_steps (solver_stepper P') h s2 = Ok (r2, None)
  /\ mirror_state P b1 b2 (contents P r) (contents P r2).
Proof. intros. apply (mirror_images P c' k1 k2 b1 b2 h s s2); auto. Qed.

Lemma mirror_hybrid P c' k1 k2 b1 b2 h s s2 : let P' := with_fields_from P c' in
  wf_cfg (pc P) k1 k2 -> periodic_fvm (pc P) k1 -> plasma P -> hybrid_fvm P -> T_e P = 0 -> no_rest_cells (pc P) b1 b2 ->
  ballistic P -> same_everywhere (pc P) -> mirror_law (pc P) b1 b2 ->
  starts P s -> starts P' s2 -> time_elapsed s2 = time_elapsed s -> mirror_state P b1 b2 (contents P s) (contents P s2) ->
  exists r r2, run_steps (solver_stepper P) h s = Ok (r, None) /\ run_steps (solver_stepper P') h s2 = Ok (r2, None)
  /\ mirror_state P b1 b2 (contents P r) (contents P r2).
Proof. intros. apply (mirror_images P c' k1 k2 b1 b2 h s s2); auto. Qed.

Lemma mirror_plane P k1 k2 b1 b2 h s :
  wf_cfg (pc P) k1 k2 -> periodic_fvm (pc P) k1 -> plasma P -> maxwell P ->
  ballistic P -> same_everywhere (pc P) -> mirror_law (pc P) b1 b2 ->
  starts P s -> mirror_state P b1 b2 (contents P s) (contents P s) ->
  exists r, run_steps (solver_stepper P) h s = Ok (r, None) /\ mirror_state P b1 b2 (contents P r) (contents P r).
Proof.
  intros W PF PM MX BL SE ML ST MV.
  destruct (any_refines P k1 k2 h s W PF PM (or_introl MX) ST) as (r&R&H&ON).
  exists r. split; [exact R|]. destruct (contents_holds P r _ H) as (A&B&C).
  refine (mirror_state_ext P k1 k2 b1 b2 _ _ _ _ W A B C A B C _).
  assert (TM : tame P b1 b2 (hybrid (pf P))) by (intros E; rewrite (mx_hybrid _ MX) in E; discriminate).
  exact (run_opp P k1 k2 b1 b2 W PF BL SE ML (hybrid (pf P)) h TM (time_elapsed s) (contents P s) (contents P s) MV).
Qed.
