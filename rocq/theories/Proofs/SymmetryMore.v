(** Translations, and stability of the first-order scheme. *)
From Coq Require Import ZArith Reals Lra Lia Psatz String List Bool.
From Verif Require Import Base.Prelude Base.ZSum Model.Af Model.Grid Model.Petsc Model.Config
  Model.Fvm Spec.Limiters Spec.Lattice Spec.Domain Spec.Mirror Spec.FvmProblem Spec.Walls Spec.FvmRun Spec.Symmetry
  Proofs.AfLemmas Proofs.PetscLemmas Proofs.FluxLemmas Proofs.ConvLemmas Proofs.FvmLemmas Proofs.FvmLemmas2
  Proofs.FvmConserve Proofs.FvmMore Proofs.SchemeSym Proofs.SymmetryRun.
Import ListNotations.
Local Open Scope R_scope.

(** ** Translations *)
Lemma move_line k h n (v v' f f' : Z -> R) V d g : (0 < n)%Z -> (forall z, v z = V) -> (forall z, v' z = V) ->
  (forall z, inb n z -> f' z = f ((z - d) mod n)%Z) ->
  advect k h v' (periodic n f') g = advect k h v (periodic n f) ((g - d) mod n).
Proof.
  intros N HV HV' H.
  replace ((g - d) mod n)%Z with (g + (- d - n * ((g - d) / n)))%Z by (rewrite (Zmod_eq_full (g - d) n) by lia; ring).
  apply advect_shift; [|intros; rewrite HV, HV'; auto].
  intros z. unfold periodic. rewrite H by (apply Z.mod_pos_bound; auto). f_equal.
  rewrite Zminus_mod_idemp_l.
  replace (z + (- d - n * ((g - d) / n)))%Z with (z - d + (- ((g - d) / n)) * n)%Z by ring.
  rewrite Z_mod_plus_full. reflexivity.
Qed.

Section Move.
Variables (c : cfg) (k1 k2 : scheme) (d1 d2 : Z).
Hypothesis W : wf_cfg c k1 k2.
Hypothesis PF : periodic_fvm c k1.
Hypothesis VU : velocity_uniform c.
Hypothesis SE : same_everywhere c.

Lemma rhs_moved t E E' u v : moved_fields c d1 d2 E E' -> same c v (moved c d1 d2 u) ->
  same c (rhs (prob c k1 k2 t E') v) (moved c d1 d2 (rhs (prob c k1 k2 t E) u)).
Proof using W PF VU SE.
  intros ME H x s g1 g2 Hx Hs H1 H2. destruct (grid_pos c k1 PF) as [P1 P2].
  pose proof (wf_pos _ _ _ W) as (Q1&Q2&Q3&_). destruct SE as [SS SF].
  unfold moved, rhs.
  set (m1 := ((g1 - d1) mod gN1 (lay c))%Z). set (m2 := ((g2 - d2) mod gN2 (lay c))%Z).
  f_equal; [f_equal|].
  - unfold advect_q. cbn [n1 n2 h1 h2 kq vel1 vel2 prob problem_of problem_at].
    f_equal.
    + apply move_line with (V := fst (velocity c t x s (pos1 c 0 0) (pos2 c 0 0))); auto;
        try (intros; unfold velocity; f_equal; apply VU). intros z Hz. apply H; auto.
    + apply move_line with (V := snd (velocity c t x s (pos1 c 0 0) (pos2 c 0 0))); auto;
        try (intros; unfold velocity; f_equal; apply VU). intros z Hz. apply H; auto.
  - unfold prob, problem_of, problem_at; cbn [src]. destruct (source_enabled c); auto.
    rewrite (SS t (pos1 c (1/2) g1) (pos2 c (1/2) g2) (pos1 c (1/2) m1) (pos2 c (1/2) m2)).
    apply W; auto. intros; apply H; auto.
  - transitivity (advect_p (prob c k1 k2 t E') g1 g2 (fun x' s' => u x' s' m1 m2) x s).
    + apply advect_p_ext; auto. intros y Hy. apply H; auto.
    + pose proof (ME (fun E => fst (fst E)) ltac:(simpl; auto)) as Ea.
      pose proof (ME (fun E => snd (fst E)) ltac:(simpl; auto)) as Eb.
      pose proof (ME (fun E => snd E) ltac:(simpl; auto)) as Ec. cbv beta in Ea, Eb, Ec.
      assert (A1 : forall y, acc1 (prob c k1 k2 t E') y s g1 g2 = acc1 (prob c k1 k2 t E) y s m1 m2).
      { intros y. unfold prob, problem_of, problem_at; cbn [acc1]. destruct (p_is_fvm c); auto. unfold accel.
        rewrite !Ea. fold m1 m2. do 2 f_equal. apply SF. }
      assert (A2 : forall y, acc2 (prob c k1 k2 t E') y s g1 g2 = acc2 (prob c k1 k2 t E) y s m1 m2).
      { intros y. unfold prob, problem_of, problem_at; cbn [acc2]. destruct (p_is_fvm c); auto. unfold accel.
        rewrite !Eb. fold m1 m2. do 2 f_equal. apply SF. }
      assert (A3 : forall y, acc3 (prob c k1 k2 t E') y s g1 g2 = acc3 (prob c k1 k2 t E) y s m1 m2).
      { intros y. unfold prob, problem_of, problem_at; cbn [acc3]. destruct (p_is_fvm c); auto. unfold accel.
        rewrite !Ec. fold m1 m2. f_equal. apply SF. }
      unfold advect_p.
      f_equal; [f_equal|]; apply advect_vel_ext; intros z; unfold periodic; auto.
Qed.

Lemma moving l l' s s' u : Forall2 (moved_call c d1 d2) l l' ->
  holds c (sf s) u -> holds c (sf s') (moved c d1 d2 u) ->
  exists r r' v, run_fvm c l s = Ok r /\ run_fvm c l' s' = Ok r' /\ holds c (sf r) v
    /\ holds c (sf r') (moved c d1 d2 v).
Proof using W PF VU SE.
  intros FA. revert s s' u. induction FA as [|k k' l l' MC FA IH]; intros s s' u H H'.
  - exists s, s', u. auto.
  - destruct MC as (T&DT&E0&Eh&E0'&Eh'&S0&Sh&S0'&Sh'&M0&Mh).
    destruct (refinement c k1 k2 (ct k) (cdt k) (cE0 k) (cEh k) E0 Eh s u W PF S0 Sh H) as (r&R&V).
    destruct (refinement c k1 k2 (ct k') (cdt k') (cE0 k') (cEh k') E0' Eh' s' _ W PF S0' Sh' H') as (r'&R'&V').
    cbn [run_fvm]. rewrite R, R'. cbn [rbind]. apply IH with (1 := V).
    apply (holds_ext _ _ _ _ V'). rewrite T, DT.
    assert (HH : same c (fun x s g1 g2 => moved c d1 d2 u x s g1 g2
         + cdt k / 2 * rhs (prob c k1 k2 (ct k) E0') (moved c d1 d2 u) x s g1 g2)
       (moved c d1 d2 (fun x s g1 g2 => u x s g1 g2 + cdt k / 2 * rhs (prob c k1 k2 (ct k) E0) u x s g1 g2))).
    { intros x sp g1 g2 Hx Hs H1 H2.
      rewrite (rhs_moved (ct k) E0 E0' u (moved c d1 d2 u) M0 ltac:(repeat intro; reflexivity) x sp g1 g2) by auto.
      reflexivity. }
    intros x sp g1 g2 Hx Hs H1 H2. unfold midpoint.
    rewrite (rhs_moved (ct k) Eh Eh' _ _ Mh HH x sp g1 g2) by auto. reflexivity.
Qed.
End Move.

(** ** Convex combinations *)
Definition wsum (l : list (R * R)) : R := fold_right (fun p a => fst p * snd p + a) 0 l.
Definition wtot (l : list (R * R)) : R := fold_right (fun p a => fst p + a) 0 l.
Definition wpos (l : list (R * R)) : Prop := Forall (fun p => 0 <= fst p) l.
Definition wmap (phi : R -> R) (l : list (R * R)) : list (R * R) := map (fun p => (fst p, phi (snd p))) l.

Lemma wtot_nonneg l : wpos l -> 0 <= wtot l.
Proof. induction 1 as [|p l Hp H IH]; [cbn; lra|]. change (0 <= fst p + wtot l). lra. Qed.
Lemma wsum_zero l : wpos l -> wtot l = 0 -> wsum l = 0.
Proof.
  induction 1 as [|p l Hp H IH]; auto. intros E. pose proof (wtot_nonneg l H) as N.
  change (fst p * snd p + wsum l = 0). change (fst p + wtot l = 0) in E.
  rewrite IH by lra. replace (fst p) with 0 by lra. ring.
Qed.
Lemma wtot_map phi l : wtot (wmap phi l) = wtot l.
Proof. induction l as [|p l IH]; [reflexivity|]. change (fst p + wtot (wmap phi l) = fst p + wtot l). rewrite IH. reflexivity. Qed.
Lemma wpos_map phi l : wpos l -> wpos (wmap phi l).
Proof. induction 1; cbn; constructor; auto. Qed.

Lemma jensen phi l : convex phi -> wpos l -> 0 < wtot l ->
  wtot l * phi (wsum l / wtot l) <= wsum (wmap phi l).
Proof.
  intros C. induction 1 as [|p l Hp H IH]; intros T; [cbn in T; lra|].
  change (wtot (p :: l)) with (fst p + wtot l) in *. change (wsum (p :: l)) with (fst p * snd p + wsum l).
  change (wsum (wmap phi (p :: l))) with (fst p * phi (snd p) + wsum (wmap phi l)).
  pose proof (wtot_nonneg l H) as N. destruct (Req_dec (wtot l) 0) as [Z|Z].
  - rewrite Z in *. rewrite (wsum_zero l H Z), (wsum_zero (wmap phi l)); [|apply wpos_map; auto|rewrite wtot_map; auto].
    replace ((fst p * snd p + 0) / (fst p + 0)) with (snd p) by (field; lra). lra.
  - assert (P : 0 < wtot l) by lra. specialize (IH P).
    set (A := fst p) in *. set (B := wtot l) in *. set (X := wsum l) in *.
    pose proof (C (A / (A + B)) (snd p) (X / B)) as J.
    assert (0 <= A / (A + B) <= 1).
    { split; [apply Rmult_le_pos; [auto|left; apply Rinv_0_lt_compat; lra]|].
      apply Rmult_le_reg_r with (A + B); [lra|]. unfold Rdiv. rewrite Rmult_assoc, Rinv_l by lra. lra. }
    specialize (J H0).
    replace (A / (A + B) * snd p + (1 - A / (A + B)) * (X / B)) with ((A * snd p + X) / (A + B)) in J by (field; lra).
    apply (Rmult_le_compat_l (A + B)) in J; [|lra].
    replace ((A + B) * (A / (A + B) * phi (snd p) + (1 - A / (A + B)) * phi (X / B)))
      with (A * phi (snd p) + B * phi (X / B)) in J by (field; lra).
    lra.
Qed.

Lemma jensen1 phi l : convex phi -> wpos l -> wtot l = 1 -> phi (wsum l) <= wsum (wmap phi l).
Proof.
  intros C P T. pose proof (jensen phi l C P). rewrite T in H.
  replace (wsum l / 1) with (wsum l) in H by field. rewrite Rmult_1_l in H. apply H; lra.
Qed.

(** ** The first-order step as a convex combination of shifted copies *)
Definition shifts : Type := list (R * (Z * Z)).
Definition combine_at (c : cfg) (w : shifts) (f : Z -> Z -> R) (g1 g2 : Z) : list (R * R) :=
  map (fun p => (fst p, f ((g1 + fst (snd p)) mod gN1 (lay c))%Z ((g2 + snd (snd p)) mod gN2 (lay c))%Z)) w.

Lemma first_order_explicit c k2 t dt x sp :
  wf_cfg c FirstOrder k2 -> periodic_fvm c FirstOrder -> velocity_uniform c ->
  0 < dq1 c -> 0 < dq2 c -> source_enabled c = false -> p_is_fvm c = false ->
  cfl c t dt -> inb (N_p c) x -> inb (N_species c) sp ->
  let V1 := fst (velocity c t x sp (pos1 c 0 0) (pos2 c 0 0)) in
  let V2 := snd (velocity c t x sp (pos1 c 0 0) (pos2 c 0 0)) in
  let e1 := if Rlt_dec 0 V1 then (-1)%Z else 1%Z in let e2 := if Rlt_dec 0 V2 then (-1)%Z else 1%Z in
  let a := Rabs V1 * dt / dq1 c in let b := Rabs V2 * dt / dq2 c in
  let w := [(1 - (a + b) + (a + b) * (a + b) / 2, (0, 0)%Z); ((1 - (a + b)) * a, (e1, 0%Z)); ((1 - (a + b)) * b, (0%Z, e2));
     (a * a / 2, (2 * e1, 0)%Z); (a * b, (e1, e2)); (b * b / 2, (0, 2 * e2)%Z)] in
  0 <= a /\ 0 <= b /\ a + b <= 1
  /\ forall E0 Eh u g1 g2, inb (gN1 (lay c)) g1 -> inb (gN2 (lay c)) g2 ->
     midpoint (prob c FirstOrder k2 t E0) (prob c FirstOrder k2 t Eh) dt u x sp g1 g2
     = wsum (combine_at c w (u x sp) g1 g2).
Proof.
  intros W PF VU D1 D2 SO PO [Dt CF] Hx Hs. destruct (grid_pos c _ PF) as [N1 N2].
  specialize (CF x sp (pos1 c 0 0) (pos2 c 0 0) Hx Hs).
  intros V1 V2 e1 e2 a b w. fold V1 V2 in CF. fold a b in CF.
  assert (A0 : 0 <= a).
  { unfold a, Rdiv. apply Rmult_le_pos; [apply Rmult_le_pos; [apply Rabs_pos|auto]|]. left. apply Rinv_0_lt_compat; auto. }
  assert (B0 : 0 <= b).
  { unfold b, Rdiv. apply Rmult_le_pos; [apply Rmult_le_pos; [apply Rabs_pos|auto]|]. left. apply Rinv_0_lt_compat; auto. }
  split; [exact A0|]. split; [exact B0|]. split; [exact CF|].
  intros E0 Eh u g1 g2 H1 H2.
    assert (RH : forall E v a1 a2, rhs (prob c FirstOrder k2 t E) v x sp a1 a2
       = - (Rabs V1 / dq1 c) * (periodic (gN1 (lay c)) (fun i => v x sp i a2) a1
                               - periodic (gN1 (lay c)) (fun i => v x sp i a2) (a1 + e1)%Z)
         + - (Rabs V2 / dq2 c) * (periodic (gN2 (lay c)) (fun j => v x sp a1 j) a2
                               - periodic (gN2 (lay c)) (fun j => v x sp a1 j) (a2 + e2)%Z)).
    { intros E v a1 a2. unfold rhs. rewrite src_off, advect_p_off by auto. unfold advect_q.
      change (kq (prob c FirstOrder k2 t E)) with FirstOrder.
      assert (V1' : forall g1 g2, vel1 (prob c FirstOrder k2 t E) x sp g1 g2 = V1).
      { intros. unfold V1, velocity, prob, problem_of, problem_at; cbn [vel1]. f_equal. apply VU. }
      assert (V2' : forall g1 g2, vel2 (prob c FirstOrder k2 t E) x sp g1 g2 = V2).
      { intros. unfold V2, velocity, prob, problem_of, problem_at; cbn [vel2]. f_equal. apply VU. }
      rewrite (upwind_first _ (fun i => vel1 _ x sp i a2) _ a1 V1) by (auto; cbn [h1 prob problem_of problem_at]; lra).
      rewrite (upwind_first _ (fun j => vel2 _ x sp a1 j) _ a2 V2) by (auto; cbn [h2 prob problem_of problem_at]; lra).
      cbn [h1 h2 n1 n2 prob problem_of problem_at].
      unfold e1, e2. destruct (Rlt_dec 0 V1); destruct (Rlt_dec 0 V2); unfold Z.sub; change (- (1))%Z with (-1)%Z; ring. }
    unfold midpoint. rewrite RH.
    set (P1 z := (z mod gN1 (lay c))%Z). set (P2 z := (z mod gN2 (lay c))%Z).
    assert (S1 : P1 g1 = g1) by (apply Z.mod_small; exact H1).
    assert (S2 : P2 g2 = g2) by (apply Z.mod_small; exact H2).
    unfold periodic. fold (P1 g1) (P1 (g1 + e1)%Z) (P2 g2) (P2 (g2 + e2)%Z). rewrite S1, S2.
    rewrite !RH. unfold periodic.
    fold (P1 g1) (P1 (g1 + e1)%Z) (P2 g2) (P2 (g2 + e2)%Z) (P1 (P1 (g1 + e1))%Z) (P2 (P2 (g2 + e2))%Z)
      (P1 (P1 (g1 + e1) + e1)%Z) (P2 (P2 (g2 + e2) + e2)%Z).
    rewrite S1, S2.
    assert (T1 : P1 (P1 (g1 + e1)%Z) = P1 (g1 + e1)%Z) by (unfold P1; apply Z.mod_mod; lia).
    assert (T2 : P2 (P2 (g2 + e2)%Z) = P2 (g2 + e2)%Z) by (unfold P2; apply Z.mod_mod; lia).
    rewrite T1, T2.
    unfold combine_at, w. cbn [map fst snd wsum fold_right].
    fold (P1 (g1 + 0)%Z) (P2 (g2 + 0)%Z) (P1 (g1 + e1)%Z) (P2 (g2 + e2)%Z) (P1 (g1 + 2 * e1)%Z) (P2 (g2 + 2 * e2)%Z).
    rewrite !Z.add_0_r, S1, S2.
    replace (P1 (P1 (g1 + e1) + e1)%Z) with (P1 (g1 + 2 * e1)%Z)
      by (unfold P1; rewrite Zplus_mod_idemp_l; f_equal; ring).
    replace (P2 (P2 (g2 + e2) + e2)%Z) with (P2 (g2 + 2 * e2)%Z)
      by (unfold P2; rewrite Zplus_mod_idemp_l; f_equal; ring).
    unfold a, b. field. split; lra.
Qed.

Lemma first_order_weights c k2 t dt x sp :
  wf_cfg c FirstOrder k2 -> periodic_fvm c FirstOrder -> velocity_uniform c ->
  0 < dq1 c -> 0 < dq2 c -> source_enabled c = false -> p_is_fvm c = false ->
  cfl c t dt -> inb (N_p c) x -> inb (N_species c) sp ->
  exists w : shifts, Forall (fun p => 0 <= fst p) w /\ fold_right (fun p a => fst p + a) 0 w = 1
  /\ forall E0 Eh u g1 g2, inb (gN1 (lay c)) g1 -> inb (gN2 (lay c)) g2 ->
     midpoint (prob c FirstOrder k2 t E0) (prob c FirstOrder k2 t Eh) dt u x sp g1 g2
     = wsum (combine_at c w (u x sp) g1 g2).
Proof.
  intros W PF VU D1 D2 SO PO CF Hx Hs.
  destruct (first_order_explicit c k2 t dt x sp W PF VU D1 D2 SO PO CF Hx Hs) as (A0&B0&AB&H).
  eexists. split; [|split; [|exact H]].
  - repeat (apply Forall_cons; [cbn [fst]; nra|]); apply Forall_nil.
  - cbn [fold_right fst]. field. split; lra.
Qed.

Lemma wsum_cons c p w f g1 g2 :
  wsum (combine_at c (p :: w) f g1 g2)
  = fst p * f ((g1 + fst (snd p)) mod gN1 (lay c))%Z ((g2 + snd (snd p)) mod gN2 (lay c))%Z + wsum (combine_at c w f g1 g2).
Proof. reflexivity. Qed.

Lemma wsum_minus c w f g g1 g2 :
  wsum (combine_at c w f g1 g2) - wsum (combine_at c w g g1 g2) = wsum (combine_at c w (fun i j => f i j - g i j) g1 g2).
Proof.
  induction w as [|p w IH]; [cbn; ring|]. rewrite !wsum_cons. rewrite <- IH. ring.
Qed.

Lemma wsum_le c w f g g1 g2 : Forall (fun p => 0 <= fst p) w -> (0 < gN1 (lay c))%Z -> (0 < gN2 (lay c))%Z ->
  (forall i j, inb (gN1 (lay c)) i -> inb (gN2 (lay c)) j -> f i j <= g i j) ->
  wsum (combine_at c w f g1 g2) <= wsum (combine_at c w g g1 g2).
Proof.
  intros P N1 N2 H. induction P as [|p w Hp P IH]; [cbn; lra|]. rewrite !wsum_cons.
  assert (f ((g1 + fst (snd p)) mod gN1 (lay c))%Z ((g2 + snd (snd p)) mod gN2 (lay c))%Z
     <= g ((g1 + fst (snd p)) mod gN1 (lay c))%Z ((g2 + snd (snd p)) mod gN2 (lay c))%Z).
  { apply H; apply Z.mod_pos_bound; auto. }
  apply Rplus_le_compat; [apply Rmult_le_compat_l; auto|exact IH].
Qed.

Lemma total_shift N1 N2 f d1 d2 : (0 < N1)%Z -> (0 < N2)%Z ->
  total N1 N2 (fun g1 g2 => f ((g1 + d1) mod N1)%Z ((g2 + d2) mod N2)%Z) = total N1 N2 f.
Proof.
  intros P1 P2. unfold total.
  rewrite (zsum_shift N1 (fun i => zsum N2 (fun g2 => f i ((g2 + d2) mod N2)%Z)) d1) by auto.
  apply zsum_ext. intros. apply zsum_shift; auto.
Qed.

Lemma total_wsum c w f : (0 < gN1 (lay c))%Z -> (0 < gN2 (lay c))%Z ->
  total (gN1 (lay c)) (gN2 (lay c)) (fun g1 g2 => wsum (combine_at c w f g1 g2))
  = fold_right (fun p a => fst p + a) 0 w * total (gN1 (lay c)) (gN2 (lay c)) f.
Proof.
  intros P1 P2. induction w as [|p w IH].
  - change (total (gN1 (lay c)) (gN2 (lay c)) (fun _ _ => 0) = 0 * total (gN1 (lay c)) (gN2 (lay c)) f). rewrite total_zero. ring.
  - change (fold_right (fun p a => fst p + a) 0 (p :: w)) with (fst p + fold_right (fun p a => fst p + a) 0 w).
    rewrite (total_plus _ _ (fun g1 g2 => fst p * f ((g1 + fst (snd p)) mod gN1 (lay c))%Z ((g2 + snd (snd p)) mod gN2 (lay c))%Z)
      (fun g1 g2 => wsum (combine_at c w f g1 g2))).
    rewrite IH. rewrite (total_scal _ _ (fst p) (fun g1 g2 => f ((g1 + fst (snd p)) mod gN1 (lay c))%Z ((g2 + snd (snd p)) mod gN2 (lay c))%Z)).
    rewrite total_shift by auto. ring.
Qed.

Lemma total_le N1 N2 f g : (forall i j, (0 <= i < N1)%Z -> (0 <= j < N2)%Z -> f i j <= g i j) ->
  total N1 N2 f <= total N1 N2 g.
Proof. intros H. unfold total. apply zsum_le. intros. apply zsum_le. intros. apply H; auto. Qed.

Section First.
Variables (c : cfg) (k2 : scheme).
Hypothesis W : wf_cfg c FirstOrder k2.
Hypothesis PF : periodic_fvm c FirstOrder.
Hypothesis VU : velocity_uniform c.
Hypothesis D1 : 0 < dq1 c.
Hypothesis D2 : 0 < dq2 c.
Hypothesis SO : source_enabled c = false.
Hypothesis PO : p_is_fvm c = false.

Lemma order_kept l s s' u v : (forall k, In k l -> cfl c (ct k) (cdt k)) ->
  holds c (sf s) u -> holds c (sf s') v ->
  (forall x sp g1 g2, inb (N_p c) x -> inb (N_species c) sp -> inb (gN1 (lay c)) g1 -> inb (gN2 (lay c)) g2 ->
     u x sp g1 g2 <= v x sp g1 g2) ->
  exists r r' u' v', run_fvm c l s = Ok r /\ run_fvm c l s' = Ok r' /\ holds c (sf r) u' /\ holds c (sf r') v'
  /\ (forall x sp g1 g2, inb (N_p c) x -> inb (N_species c) sp -> inb (gN1 (lay c)) g1 -> inb (gN2 (lay c)) g2 ->
     u' x sp g1 g2 <= v' x sp g1 g2).
Proof using W PF VU D1 D2 SO PO.
  intros CF H H' LE. destruct (grid_pos c _ PF) as [N1 N2].
  apply (run_related c FirstOrder k2 W PF (fun u v => forall x sp g1 g2, inb (N_p c) x -> inb (N_species c) sp ->
    inb (gN1 (lay c)) g1 -> inb (gN2 (lay c)) g2 -> u x sp g1 g2 <= v x sp g1 g2) l) with (u := u) (u' := v); auto.
  intros k E0 Eh p q Ik Q x sp g1 g2 Hx Hs H1 H2.
  destruct (first_order_weights c k2 (ct k) (cdt k) x sp) as (w&P&_&M); auto.
  rewrite !M by auto. apply wsum_le; auto.
Qed.

Lemma contraction phi l s s' u v : convex phi -> (forall k, In k l -> cfl c (ct k) (cdt k)) ->
  holds c (sf s) u -> holds c (sf s') v ->
  exists r r' u' v', run_fvm c l s = Ok r /\ run_fvm c l s' = Ok r' /\ holds c (sf r) u' /\ holds c (sf r') v'
  /\ forall x sp, inb (N_p c) x -> inb (N_species c) sp -> distance c phi u' v' x sp <= distance c phi u v x sp.
Proof using W PF VU D1 D2 SO PO.
  intros C CF H H'. destruct (grid_pos c _ PF) as [N1 N2].
  apply (run_related c FirstOrder k2 W PF (fun u' v' => forall x sp, inb (N_p c) x -> inb (N_species c) sp ->
    distance c phi u' v' x sp <= distance c phi u v x sp) l) with (u := u) (u' := v); auto.
  2:{ intros; lra. }
  intros k E0 Eh p q Ik Q x sp Hx Hs. eapply Rle_trans; [|apply Q; auto].
  destruct (first_order_weights c k2 (ct k) (cdt k) x sp) as (w&P&T&M); auto.
  change (total (gN1 (lay c)) (gN2 (lay c)) (fun g1 g2 =>
     phi (midpoint (prob c FirstOrder k2 (ct k) E0) (prob c FirstOrder k2 (ct k) Eh) (cdt k) p x sp g1 g2
        - midpoint (prob c FirstOrder k2 (ct k) E0) (prob c FirstOrder k2 (ct k) Eh) (cdt k) q x sp g1 g2))
     <= total (gN1 (lay c)) (gN2 (lay c)) (fun g1 g2 => phi (p x sp g1 g2 - q x sp g1 g2))).
  rewrite <- (Rmult_1_l (total _ _ (fun g1 g2 => phi (p x sp g1 g2 - q x sp g1 g2)))). rewrite <- T.
  rewrite <- total_wsum by auto. apply total_le. intros i j Hi Hj.
  rewrite !M by auto. rewrite wsum_minus.
  eapply Rle_trans; [apply jensen1; auto|].
  - unfold wpos, combine_at. clear - P. induction P; cbn; constructor; auto.
  - rewrite <- T. clear. induction w as [|a w IH]; [reflexivity|].
    change (fst a + wtot (combine_at c w (fun i j => p x sp i j - q x sp i j) i j) = fst a + fold_right (fun p a => fst p + a) 0 w).
    rewrite IH. reflexivity.
  - right. unfold wmap, combine_at. rewrite map_map. reflexivity.
Qed.
End First.

(** ** Domains of dependence *)
Lemma near_all c k1 k2 l s s' u u' g1 g2 : wf_cfg c k1 k2 -> periodic_fvm c k1 ->
  inb (gN1 (lay c)) g1 -> inb (gN2 (lay c)) g2 -> holds c (sf s) u -> holds c (sf s') u' ->
  agree_near c (fun _ _ => True) (2 * Z.of_nat (List.length l) * (radius k1 + 1)) u u' g1 g2 ->
  exists r r', run_fvm c l s = Ok r /\ run_fvm c l s' = Ok r'
  /\ forall x sp, inb (N_p c) x -> inb (N_species c) sp ->
     gval (lay c) (sf r) x sp g1 g2 = gval (lay c) (sf r') x sp g1 g2.
Proof.
  intros W PF H1 H2 H H' A. destruct (near c k1 k2 W PF (fun _ _ => True) l s s' u u' g1 g2) as (r&r'&R&R'&Q); auto.
  - split; auto. intros _ x sp _ Hx Hs t q1 q2 w w' E. destruct W as (_&_&_&_&_&_&_&_&_&_&_&_&W).
    apply W; auto.
  - exists r, r'. auto.
Qed.

Lemma near_momentum c k1 k2 x sp l s s' u u' g1 g2 : wf_cfg c k1 k2 -> periodic_fvm c k1 ->
  source_enabled c = false -> p_is_fvm c = false -> inb (N_p c) x -> inb (N_species c) sp ->
  inb (gN1 (lay c)) g1 -> inb (gN2 (lay c)) g2 -> holds c (sf s) u -> holds c (sf s') u' ->
  (forall h1 h2, inb (gN1 (lay c)) h1 -> inb (gN2 (lay c)) h2 -> u x sp h1 h2 = u' x sp h1 h2) ->
  exists r r', run_fvm c l s = Ok r /\ run_fvm c l s' = Ok r'
  /\ gval (lay c) (sf r) x sp g1 g2 = gval (lay c) (sf r') x sp g1 g2.
Proof.
  intros W PF SO PO Hx Hs H1 H2 H H' A. destruct (grid_pos c _ PF) as [N1 N2].
  destruct (near c k1 k2 W PF (fun a b => a = x /\ b = sp) l s s' u u' g1 g2) as (r&r'&R&R'&Q); auto.
  - split; intros C; congruence.
  - intros a b d1 d2 [-> ->] _ _ _. apply A; apply Z.mod_pos_bound; auto.
  - exists r, r'. auto.
Qed.

Lemma near_species c k1 k2 sp l s s' u u' g1 g2 : wf_cfg c k1 k2 -> periodic_fvm c k1 ->
  source_own_species c -> inb (N_species c) sp ->
  inb (gN1 (lay c)) g1 -> inb (gN2 (lay c)) g2 -> holds c (sf s) u -> holds c (sf s') u' ->
  (forall x h1 h2, inb (N_p c) x -> inb (gN1 (lay c)) h1 -> inb (gN2 (lay c)) h2 -> u x sp h1 h2 = u' x sp h1 h2) ->
  exists r r', run_fvm c l s = Ok r /\ run_fvm c l s' = Ok r'
  /\ forall x, inb (N_p c) x -> gval (lay c) (sf r) x sp g1 g2 = gval (lay c) (sf r') x sp g1 g2.
Proof.
  intros W PF SO Hs H1 H2 H H' A. destruct (grid_pos c _ PF) as [N1 N2].
  destruct (near c k1 k2 W PF (fun _ b => b = sp) l s s' u u' g1 g2) as (r&r'&R&R'&Q); auto.
  - split; auto. intros E x b -> Hx _ t q1 q2 w w' Ew. destruct SO as [SO|SO]; [congruence|].
    apply SO; auto.
  - intros a b d1 d2 -> Ha _ _. apply A; auto; apply Z.mod_pos_bound; auto.
  - exists r, r'. auto.
Qed.
