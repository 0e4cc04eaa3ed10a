(** Runs with the minmod reconstruction and signs: bounds for motion along one
    axis, and a state in the plane that goes negative at every Courant number. *)
From Coq Require Import ZArith Reals Lra Lia Psatz String List Bool.
From Verif Require Import Base.Prelude Base.ZSum Model.Af Model.Grid Model.Petsc Model.Config
  Model.Fvm Spec.Limiters Spec.Lattice Spec.Domain Spec.FvmProblem Spec.FvmRun Spec.Symmetry Spec.Converge
  Proofs.AfLemmas Proofs.PetscLemmas Proofs.FluxLemmas Proofs.ConvLemmas Proofs.FvmLemmas Proofs.FvmLemmas2
  Proofs.FvmConserve Proofs.FvmMore Proofs.SchemeSym Proofs.SymmetryRun Proofs.SymmetryMore Proofs.Converge.
Import ListNotations.
Local Open Scope R_scope.

Lemma mc_right a b c m : m <= a -> m <= b -> m <= c ->
  let f := b + mc_slope a b c / 2 in
  m <= f /\ f <= 2 * b - m /\ (b <= c -> b <= f) /\ (c <= b -> c <= f) /\ (a <= b -> f <= 2 * b - a) /\ (b <= a -> f <= b).
Proof.
  cbv zeta. intros Ha Hb Hc. unfold mc_slope, Rmin, Rmax.
  repeat match goal with |- context [Rlt_dec ?x ?y] => destruct (Rlt_dec x y) end;
  repeat match goal with |- context [Rle_dec ?x ?y] =>
    lazymatch y with context [Rle_dec _ _] => fail | _ => destruct (Rle_dec x y) end end; repeat split; intros; lra.
Qed.
Lemma mc_left a b c m : m <= a -> m <= b -> m <= c ->
  let f := b - mc_slope a b c / 2 in
  m <= f /\ f <= 2 * b - m /\ (b <= a -> b <= f) /\ (a <= b -> a <= f) /\ (c <= b -> f <= 2 * b - c) /\ (b <= c -> f <= b).
Proof.
  intros Ha Hb Hc f. pose proof (mc_right c b a m Hc Hb Ha) as Q. cbv zeta in Q. rewrite mc_rev in Q.
  replace (b + - mc_slope a b c / 2) with f in Q by (unfold f; lra). exact Q.
Qed.

(** One cell: upwind neighbour [a], cell [b]. *)
Lemma low_core lam m a b f2 f1 f0 h1 h0 : 0 <= lam <= 1/2 -> m <= a -> m <= b ->
  m <= f2 -> f1 <= 2 * a - m -> m <= f0 ->
  let ah := a - lam / 2 * (f1 - f2) in let bh := b - lam / 2 * (f0 - f1) in
  (ah <= bh -> ah <= h1) -> (bh <= ah -> bh <= h1) -> (ah <= bh -> h0 <= 2 * bh - ah) -> (bh <= ah -> h0 <= bh) ->
  m <= b - lam * (h0 - h1).
Proof.
  intros L Ha Hb F2 F1 F0 ah bh A1 A2 A3 A4.
  destruct (Rle_dec ah bh) as [D|D].
  - specialize (A1 D). specialize (A3 D). clear A2 A4.
    assert (h0 - h1 <= 2 * (bh - ah)) by lra.
    assert (lam * f1 <= a - m + lam * m) by nra.
    assert (bh - ah <= b - m).
    { unfold ah, bh. assert (lam / 2 * f2 >= lam / 2 * m) by nra. assert (lam / 2 * f0 >= lam / 2 * m) by nra. lra. }
    assert (lam * (h0 - h1) <= b - m); [|lra].
    assert (lam * (h0 - h1) <= lam * (2 * (bh - ah))) by (apply Rmult_le_compat_l; lra).
    assert (lam * (2 * (bh - ah)) <= lam * 2 * (b - m)) by nra. nra.
  - assert (D' : bh <= ah) by lra. specialize (A2 D'). specialize (A4 D'). nra.
Qed.

Lemma line_low V h dt u m i : 0 < h -> 0 <= dt -> Rabs V * dt / h <= 1/2 -> (forall z, m <= u z) ->
  m <= u i + dt * advect MC h (fun _ => V) (fun z => u z + dt / 2 * advect MC h (fun _ => V) u z) i.
Proof.
  intros Hh Hd HC HU.
  destruct (Rlt_dec 0 V) as [P|P].
  - rewrite Rabs_pos_eq in HC by lra. set (lam := V * dt / h) in *.
    assert (L0 : 0 <= lam) by (unfold lam; apply Rmult_le_pos; [nra|left; apply Rinv_0_lt_compat; lra]).
    set (F := fun w z => w z + mc_slope (w (z - 1)%Z) (w z) (w (z + 1)%Z) / 2).
    assert (AD : forall w z, advect MC h (fun _ => V) w z = - V / h * (F w z - F w (z - 1)%Z)).
    { intros w z. unfold advect, flux, upwind. destruct (Rlt_dec 0 V); [|lra]. cbn [cell_faces snd].
      replace (z + 1 - 1)%Z with z by lia. unfold F. unfold Rdiv. ring. }
    set (uh := fun z => u z + dt / 2 * advect MC h (fun _ => V) u z).
    assert (UH : forall z, uh z = u z - lam / 2 * (F u z - F u (z - 1)%Z)).
    { intros z. unfold uh. rewrite AD. unfold lam. field. lra. }
    assert (UB : forall z, m <= uh z).
    { intros z. rewrite UH.
      destruct (mc_right (u (z - 1)%Z) (u z) (u (z + 1)%Z) m (HU _) (HU _) (HU _)) as (Q1&Q2&_).
      destruct (mc_right (u (z - 1 - 1)%Z) (u (z - 1)%Z) (u (z - 1 + 1)%Z) m (HU _) (HU _) (HU _)) as (Q3&_).
      cbv zeta in Q1, Q2, Q3. fold (F u z) in Q1, Q2. fold (F u (z - 1)%Z) in Q3.
      assert (lam / 2 * (F u z - F u (z - 1)%Z) <= lam / 2 * (2 * u z - 2 * m)) by (apply Rmult_le_compat_l; lra).
      specialize (HU z). nra. }
    rewrite AD. replace (u i + dt * (- V / h * (F uh i - F uh (i - 1)%Z))) with (u i - lam * (F uh i - F uh (i - 1)%Z)) by (unfold lam; field; lra).
    destruct (mc_right (u (i - 2 - 1)%Z) (u (i - 2)%Z) (u (i - 2 + 1)%Z) m (HU _) (HU _) (HU _)) as (P2&_).
    destruct (mc_right (u (i - 1 - 1)%Z) (u (i - 1)%Z) (u (i - 1 + 1)%Z) m (HU _) (HU _) (HU _)) as (P1&P1'&_).
    destruct (mc_right (u (i - 1)%Z) (u i) (u (i + 1)%Z) m (HU _) (HU _) (HU _)) as (P0&_).
    destruct (mc_right (uh (i - 1 - 1)%Z) (uh (i - 1)%Z) (uh (i - 1 + 1)%Z) m (UB _) (UB _) (UB _)) as (_&_&G1&G2&_).
    destruct (mc_right (uh (i - 1)%Z) (uh i) (uh (i + 1)%Z) m (UB _) (UB _) (UB _)) as (_&_&_&_&G3&G4).
    cbv zeta in *. fold (F u i) in P0. fold (F u (i - 1)%Z) in P1, P1'. fold (F u (i - 2)%Z) in P2.
    fold (F uh i) in G3, G4. fold (F uh (i - 1)%Z) in G1, G2. replace (i - 1 + 1)%Z with i in G1, G2 by lia.
    apply (low_core lam m (u (i - 1)%Z) (u i) (F u (i - 2)%Z) (F u (i - 1)%Z) (F u i)); auto; cbv zeta;
      replace (i - 2)%Z with (i - 1 - 1)%Z by lia; rewrite <- !UH; assumption.
  - assert (HA : Rabs V = - V) by (apply Rabs_left1; lra). rewrite HA in HC. set (lam := - V * dt / h) in *.
    assert (L0 : 0 <= lam) by (unfold lam; apply Rmult_le_pos; [nra|left; apply Rinv_0_lt_compat; lra]).
    set (F := fun w z => w z - mc_slope (w (z - 1)%Z) (w z) (w (z + 1)%Z) / 2).
    assert (AD : forall w z, advect MC h (fun _ => V) w z = V / h * (F w z - F w (z + 1)%Z)).
    { intros w z. unfold advect, flux, upwind. destruct (Rlt_dec 0 V); [lra|]. cbn [cell_faces fst].
      unfold F. unfold Rdiv. ring. }
    set (uh := fun z => u z + dt / 2 * advect MC h (fun _ => V) u z).
    assert (UH : forall z, uh z = u z - lam / 2 * (F u z - F u (z + 1)%Z)).
    { intros z. unfold uh. rewrite AD. unfold lam. field. lra. }
    assert (UB : forall z, m <= uh z).
    { intros z. rewrite UH.
      destruct (mc_left (u (z - 1)%Z) (u z) (u (z + 1)%Z) m (HU _) (HU _) (HU _)) as (Q1&Q2&_).
      destruct (mc_left (u (z + 1 - 1)%Z) (u (z + 1)%Z) (u (z + 1 + 1)%Z) m (HU _) (HU _) (HU _)) as (Q3&_).
      cbv zeta in Q1, Q2, Q3. fold (F u z) in Q1, Q2. fold (F u (z + 1)%Z) in Q3.
      assert (lam / 2 * (F u z - F u (z + 1)%Z) <= lam / 2 * (2 * u z - 2 * m)) by (apply Rmult_le_compat_l; lra).
      specialize (HU z). nra. }
    rewrite AD. replace (u i + dt * (V / h * (F uh i - F uh (i + 1)%Z))) with (u i - lam * (F uh i - F uh (i + 1)%Z)) by (unfold lam; field; lra).
    destruct (mc_left (u (i + 2 - 1)%Z) (u (i + 2)%Z) (u (i + 2 + 1)%Z) m (HU _) (HU _) (HU _)) as (P2&_).
    destruct (mc_left (u (i + 1 - 1)%Z) (u (i + 1)%Z) (u (i + 1 + 1)%Z) m (HU _) (HU _) (HU _)) as (P1&P1'&_).
    destruct (mc_left (u (i - 1)%Z) (u i) (u (i + 1)%Z) m (HU _) (HU _) (HU _)) as (P0&_).
    destruct (mc_left (uh (i + 1 - 1)%Z) (uh (i + 1)%Z) (uh (i + 1 + 1)%Z) m (UB _) (UB _) (UB _)) as (_&_&G1&G2&_).
    destruct (mc_left (uh (i - 1)%Z) (uh i) (uh (i + 1)%Z) m (UB _) (UB _) (UB _)) as (_&_&_&_&G3&G4).
    cbv zeta in *. fold (F u i) in P0. fold (F u (i + 1)%Z) in P1, P1'. fold (F u (i + 2)%Z) in P2.
    fold (F uh i) in G3, G4. fold (F uh (i + 1)%Z) in G1, G2. replace (i + 1 - 1)%Z with i in G1, G2 by lia.
    apply (low_core lam m (u (i + 1)%Z) (u i) (F u (i + 2)%Z) (F u (i + 1)%Z) (F u i)); auto; cbv zeta;
      replace (i + 2)%Z with (i + 1 + 1)%Z by lia; rewrite <- !UH; assumption.
Qed.

Lemma advect_opp V h w z : advect MC h (fun _ => V) (fun i => - w i) z = - advect MC h (fun _ => V) w z.
Proof.
  unfold advect, flux, upwind. destruct (Rlt_dec 0 V); cbn [cell_faces fst snd]; rewrite !mc_opp; unfold Rdiv; ring.
Qed.
Lemma adv_ext V h w w' z : (forall i, w i = w' i) -> advect MC h (fun _ => V) w z = advect MC h (fun _ => V) w' z.
Proof. intros E. unfold advect, flux, upwind. cbn [cell_faces fst snd]. rewrite !E. reflexivity. Qed.

Lemma line_bounds V h dt u m M i : 0 < h -> 0 <= dt -> Rabs V * dt / h <= 1/2 -> (forall z, m <= u z <= M) ->
  m <= u i + dt * advect MC h (fun _ => V) (fun z => u z + dt / 2 * advect MC h (fun _ => V) u z) i <= M.
Proof.
  intros Hh Hd HC HU. split; [apply line_low; auto; apply HU|].
  pose proof (line_low V h dt (fun z => - u z) (- M) i Hh Hd HC ltac:(intros z; specialize (HU z); lra)) as Q.
  cbv beta in Q.
  rewrite (adv_ext V h _ (fun z => - (u z + dt / 2 * advect MC h (fun _ => V) u z))) in Q
    by (intros z; rewrite advect_opp; ring).
  rewrite advect_opp in Q. lra.
Qed.

Lemma adv_per V h n w z : (0 < n)%Z ->
  advect MC h (fun _ => V) (periodic n w) z = advect MC h (fun _ => V) (periodic n w) (z mod n).
Proof.
  intros Hn. unfold advect, flux, upwind, periodic. cbn [cell_faces fst snd].
  assert (F : forall y : Z, (y + 1 - 1 = y)%Z) by (intros; lia). rewrite !F.
  assert (F' : forall y : Z, (y - 1 + 1 = y)%Z) by (intros; lia). rewrite !F'.
  assert (M : forall d, ((z mod n + d) mod n = (z + d) mod n)%Z) by (intros; apply Zplus_mod_idemp_l).
  assert (M2 : forall d e, ((z mod n + d + e) mod n = (z + d + e) mod n)%Z)
    by (intros; rewrite <- !Z.add_assoc; apply Zplus_mod_idemp_l).
  unfold Z.sub. rewrite !M2, !M, !Zmod_mod. reflexivity.
Qed.

Section Axis.
Variables (c : cfg) (k2 : scheme).
Hypothesis W : wf_cfg c MC k2.
Hypothesis PF : periodic_fvm c MC.
Hypothesis D1 : 0 < dq1 c.
Hypothesis D2 : 0 < dq2 c.
Hypothesis SO : source_enabled c = false.
Hypothesis PO : p_is_fvm c = false.
Variables (v1 v2 : Z -> Z -> R).
Hypothesis MV : moves_with c v1 v2.
Hypothesis AX : forall x s, inb (N_p c) x -> inb (N_species c) s -> v1 x s = 0 \/ v2 x s = 0.

Lemma rhs_axes t E u x s g1 g2 : inb (N_p c) x -> inb (N_species c) s ->
  rhs (prob c MC k2 t E) u x s g1 g2 =
  advect MC (dq1 c) (fun _ => v1 x s) (periodic (gN1 (lay c)) (fun i => u x s i g2)) g1
  + advect MC (dq2 c) (fun _ => v2 x s) (periodic (gN2 (lay c)) (fun j => u x s g1 j)) g2.
Proof.
  intros Hx Hs. unfold rhs. rewrite src_off, advect_p_off by auto. rewrite !Rplus_0_r. unfold advect_q.
  change (kq (prob c MC k2 t E)) with MC. change (h1 (prob c MC k2 t E)) with (dq1 c). change (h2 (prob c MC k2 t E)) with (dq2 c).
  change (n1 (prob c MC k2 t E)) with (gN1 (lay c)). change (n2 (prob c MC k2 t E)) with (gN2 (lay c)).
  f_equal; apply advect_vel_ext.
  - intros z. pose proof (MV t x s (pos1 c 0 z) (pos2 c 0 g2) Hx Hs) as Q. unfold velocity in Q.
    unfold prob, problem_of, problem_at; cbn [vel1]. rewrite Q. reflexivity.
  - intros z. pose proof (MV t x s (pos1 c (1/2) g1) (pos2 c 0 z) Hx Hs) as Q. unfold velocity in Q.
    unfold prob, problem_of, problem_at; cbn [vel2]. rewrite Q. reflexivity.
Qed.

(** One step of a row. *)
Lemma step_bounds t dt E0 Eh u m M x s : 0 <= dt -> inb (N_p c) x -> inb (N_species c) s ->
  Rabs (v1 x s) * dt / dq1 c + Rabs (v2 x s) * dt / dq2 c <= 1/2 ->
  (forall g1 g2, inb (gN1 (lay c)) g1 -> inb (gN2 (lay c)) g2 -> m <= u x s g1 g2 <= M) ->
  forall g1 g2, inb (gN1 (lay c)) g1 -> inb (gN2 (lay c)) g2 ->
  m <= midpoint (prob c MC k2 t E0) (prob c MC k2 t Eh) dt u x s g1 g2 <= M.
Proof.
  intros Hd Hx Hs HC HU g1 g2 H1 H2. destruct (grid_pos c _ PF) as [N1 N2].
  assert (IN1 : forall z, inb (gN1 (lay c)) (z mod gN1 (lay c))) by (intros; apply Z.mod_pos_bound; lia).
  assert (IN2 : forall z, inb (gN2 (lay c)) (z mod gN2 (lay c))) by (intros; apply Z.mod_pos_bound; lia).
  unfold midpoint. rewrite rhs_axes by auto.
  destruct (AX x s Hx Hs) as [Z|Z]; rewrite Z in HC |- *; rewrite Rabs_R0 in HC; rewrite advect_v0.
  - replace (0 * dt / dq1 c + Rabs (v2 x s) * dt / dq2 c) with (Rabs (v2 x s) * dt / dq2 c) in HC by (unfold Rdiv; ring).
    pose proof (line_bounds (v2 x s) (dq2 c) dt (periodic (gN2 (lay c)) (fun j => u x s g1 j)) m M g2 D2 Hd HC
      ltac:(intros z; apply HU; auto)) as Q.
    rewrite Rplus_0_l.
    assert (PE : periodic (gN2 (lay c)) (fun j => u x s g1 j) g2 = u x s g1 g2) by (unfold periodic; rewrite Z.mod_small by exact H2; reflexivity).
    rewrite PE in Q.
    match goal with |- _ <= _ + dt * ?A <= _ => match type of Q with _ <= _ + dt * ?B <= _ => replace A with B; [exact Q|] end end.
    apply adv_ext. intros z. unfold periodic at 1 3. f_equal. f_equal.
    rewrite rhs_axes by auto. rewrite Z, advect_v0, Rplus_0_l.
    apply adv_per. lia.
  - replace (Rabs (v1 x s) * dt / dq1 c + 0 * dt / dq2 c) with (Rabs (v1 x s) * dt / dq1 c) in HC by (unfold Rdiv; ring).
    pose proof (line_bounds (v1 x s) (dq1 c) dt (periodic (gN1 (lay c)) (fun i => u x s i g2)) m M g1 D1 Hd HC
      ltac:(intros z; apply HU; auto)) as Q.
    rewrite Rplus_0_r.
    assert (PE : periodic (gN1 (lay c)) (fun i => u x s i g2) g1 = u x s g1 g2) by (unfold periodic; rewrite Z.mod_small by exact H1; reflexivity).
    rewrite PE in Q.
    match goal with |- _ <= _ + dt * ?A <= _ => match type of Q with _ <= _ + dt * ?B <= _ => replace A with B; [exact Q|] end end.
    apply adv_ext. intros z. unfold periodic at 1 3. f_equal. f_equal.
    rewrite rhs_axes by auto. rewrite Z, advect_v0, Rplus_0_r.
    apply adv_per. lia.
Qed.

Lemma run_bounds l s u m M : (forall k, In k l -> 0 <= cdt k /\ forall x sp, inb (N_p c) x -> inb (N_species c) sp ->
     Rabs (v1 x sp) * cdt k / dq1 c + Rabs (v2 x sp) * cdt k / dq2 c <= 1/2) ->
  holds c (sf s) u ->
  (forall x sp g1 g2, inb (N_p c) x -> inb (N_species c) sp -> inb (gN1 (lay c)) g1 -> inb (gN2 (lay c)) g2 ->
     m x sp <= u x sp g1 g2 <= M x sp) ->
  exists r, run_fvm c l s = Ok r
  /\ forall x sp g1 g2, inb (N_p c) x -> inb (N_species c) sp -> inb (gN1 (lay c)) g1 -> inb (gN2 (lay c)) g2 ->
     m x sp <= gval (lay c) (sf r) x sp g1 g2 <= M x sp.
Proof.
  intros CF HD HU. destruct (run_exact c MC k2 W PF l s _ HD) as (r&E&HR). exists r. split; [exact E|].
  intros x sp g1 g2 Hx Hs H1 H2. rewrite (proj2 HR) by auto. clear HR E r HD s.
  assert (HV : forall g1 g2, inb (gN1 (lay c)) g1 -> inb (gN2 (lay c)) g2 -> m x sp <= u x sp g1 g2 <= M x sp) by auto.
  clear HU. revert u HV. induction l as [|k l IH]; intros u HV; cbn [map run_global]; [apply HV; auto|].
  unfold witness at 1. apply IH; [intros; apply CF; right; auto|].
  apply step_bounds; auto; apply (CF k); simpl; auto.
Qed.
End Axis.

(** ** In the plane: a non-negative state that goes negative *)
Definition wface (a b c : R) : R := b + mc_slope a b c / 2.
Lemma rhs_plane_11 c k2 t E u v1 v2 x s g1 g2 : source_enabled c = false -> p_is_fvm c = false -> moves_with c v1 v2 ->
  inb (N_p c) x -> inb (N_species c) s -> dq1 c = 1 -> dq2 c = 1 -> v1 x s = 1 -> v2 x s = 1 ->
  (2 <= g1 < gN1 (lay c) - 1)%Z -> (2 <= g2 < gN2 (lay c) - 1)%Z ->
  rhs (prob c MC k2 t E) u x s g1 g2 =
  wface (u x s (g1 - 2)%Z g2) (u x s (g1 - 1)%Z g2) (u x s g1 g2) - wface (u x s (g1 - 1)%Z g2) (u x s g1 g2) (u x s (g1 + 1)%Z g2)
  + wface (u x s g1 (g2 - 2)%Z) (u x s g1 (g2 - 1)%Z) (u x s g1 g2) - wface (u x s g1 (g2 - 1)%Z) (u x s g1 g2) (u x s g1 (g2 + 1)%Z).
Proof.
  intros SO PO MV Hx Hs E1 E2 V1 V2 H1 H2.
  rewrite (rhs_axes c k2 SO PO v1 v2 MV) by auto. rewrite E1, E2, V1, V2.
  unfold advect, flux, upwind, periodic. cbn [cell_faces fst snd].
  destruct (Rlt_dec 0 1); [|lra].
  assert (F : forall y : Z, (y + 1 - 1 = y)%Z) by (intros; lia). rewrite !F.
  assert (F' : forall y : Z, (y - 1 + 1 = y)%Z) by (intros; lia). rewrite !F'.
  assert (F2 : forall y : Z, (y - 1 - 1 = y - 2)%Z) by (intros; lia). rewrite !F2.
  rewrite !Z.mod_small by lia. unfold wface. lra.
Qed.

(** Ten by ten cells of size one, one momentum, velocity (1, 1). *)
Definition pk_lay : layout := Layout 10 10 [10]%Z [10]%Z 3 3 PPeriodic PPeriodic.
Definition pk_cfg : cfg :=
  Cfg pk_lay 3 1 1 1 1 0 10 0 10 1 1 [1/2] [1/2] [1/2] [1] [1] [1]
    "FVM" "FVM" "minmod" "minmod" "cartesian" false false
    (fun _ _ _ _ p1 p2 _ => (p1, p2)) (fun _ _ _ _ p1 p2 _ => (p1, p2))
    (fun _ _ _ _ _ _ _ _ _ _ _ _ _ => (0, 0, 0)) (fun _ _ _ _ _ _ _ _ _ _ _ _ _ => (0, 0, 0))
    (fun _ _ _ w x s => 0)
    (fun _ => "periodic"%string) (fun _ _ _ _ f => f) 0 0
    (fun v _ _ _ _ => v) 0.
(** A column of peaks, the highest one 1 + 6 / dt. *)
Definition pk_data (dt : R) : gstate := fun _ _ g1 g2 =>
  if (g1 =? 5)%Z then
    if (g2 =? 2)%Z then 1 + 6 / dt else if (g2 =? 3)%Z then 1 else if (g2 =? 4)%Z then 1 else if (g2 =? 6)%Z then 1 else 0
  else 0.
Definition pk_state (dt : R) : fstate :=
  FState (fun r1 r2 => Arr 1 1 (n1g pk_lay r1) (n2g pk_lay r2)
    (fun x s i j => pk_data dt x s (off (blk1 pk_lay) r1 + (i - 3))%Z (off (blk2 pk_lay) r2 + (j - 3))%Z)) (fun _ _ _ => 0).
Lemma pk_wf : wf_cfg pk_cfg MC MC.
Proof.
  unfold wf_cfg. cbn [N_p1 N_p2 N_p3 N_species p1_start p2_start p3_start dp1 dp2 dp3 pk_cfg List.length].
  repeat split; try lia; auto.
Qed.
Lemma pk_periodic : periodic_fvm pk_cfg MC.
Proof. unfold periodic_fvm, periodic_layout, tiles; cbn. repeat split; try lia; repeat constructor; try lia. Qed.
Lemma pk_moves : moves_with pk_cfg (fun _ _ => 1) (fun _ _ => 1).
Proof.
  intros t x s q1 q2 Hx Hs. change (N_p pk_cfg) with 1%Z in Hx. change (N_species pk_cfg) with 1%Z in Hs. unfold inb in *.
  replace x with 0%Z by lia. replace s with 0%Z by lia. unfold velocity, mom1, mom2, mom3.
  cbv -[Rplus Rmult Ropp Rdiv Rinv IZR Rminus]; f_equal; lra.
Qed.
Lemma pk_holds dt : holds pk_cfg (sf (pk_state dt)) (pk_data dt).
Proof.
  split; [intros r1 r2 _; repeat split|]. intros x s g1 g2 _ _ _ _. unfold gval, pk_state; cbn [sf el].
  change (ng1 (lay pk_cfg)) with 3%Z. change (ng2 (lay pk_cfg)) with 3%Z. change (lay pk_cfg) with pk_lay. f_equal; lia.
Qed.

Ltac peak := unfold wface, mc_slope, Rmin, Rmax;
  repeat match goal with |- context [Rlt_dec ?x ?y] => destruct (Rlt_dec x y); try (exfalso; lra) end;
  repeat match goal with |- context [Rle_dec ?x ?y] =>
    lazymatch y with context [Rle_dec _ _] => fail | _ => destruct (Rle_dec x y); try (exfalso; lra) end end; try lra.

Lemma pk_half t E dt g1 g2 : 0 < dt <= 1/2 -> (2 <= g1 < 9)%Z -> (2 <= g2 < 9)%Z ->
  pk_data dt 0%Z 0%Z g1 g2 + dt / 2 * rhs (prob pk_cfg MC MC t E) (pk_data dt) 0%Z 0%Z g1 g2 =
  let u := pk_data dt 0%Z 0%Z in
  u g1 g2 + dt / 2 * (wface (u (g1 - 2)%Z g2) (u (g1 - 1)%Z g2) (u g1 g2) - wface (u (g1 - 1)%Z g2) (u g1 g2) (u (g1 + 1)%Z g2)
  + wface (u g1 (g2 - 2)%Z) (u g1 (g2 - 1)%Z) (u g1 g2) - wface (u g1 (g2 - 1)%Z) (u g1 g2) (u g1 (g2 + 1)%Z)).
Proof.
  intros Hd H1 H2. cbv zeta. f_equal. f_equal.
  apply (rhs_plane_11 pk_cfg MC t E (pk_data dt) (fun _ _ => 1) (fun _ _ => 1)); auto; try reflexivity; try (unfold inb; cbn; lia).
  - apply pk_moves.


Qed.

Lemma pk_step t E0 Eh dt : 0 < dt <= 1/2 ->
  midpoint (prob pk_cfg MC MC t E0) (prob pk_cfg MC MC t Eh) dt (pk_data dt) 0%Z 0%Z 5%Z 5%Z = - (dt * dt / 2).
Proof.
  intros Hd. unfold midpoint. set (uh := fun _ _ _ _ => _ + _).
  assert (H6 : 0 < 6 / dt) by (apply Rdiv_lt_0_compat; lra).
  assert (V53 : uh 0%Z 0%Z 5%Z 3%Z = 4 - dt / 2).
  { unfold uh. rewrite pk_half by (auto; lia). cbv zeta. unfold pk_data. cbn -[Rplus Rmult Rdiv Rminus IZR wface].
    replace (wface 0 1 0) with 1 by peak. replace (wface 0 0 1) with 0 by peak.
    replace (wface 0 (1 + 6 / dt) 1) with (1 + 6 / dt) by peak. replace (wface (1 + 6 / dt) 1 1) with 1 by peak. field. lra. }
  assert (V54 : uh 0%Z 0%Z 5%Z 4%Z = 1 - dt / 2).
  { unfold uh. rewrite pk_half by (auto; lia). cbv zeta. unfold pk_data. cbn -[Rplus Rmult Rdiv Rminus IZR wface].
    replace (wface 0 1 0) with 1 by peak. replace (wface 0 0 1) with 0 by peak.
    replace (wface (1 + 6 / dt) 1 1) with 1 by peak. replace (wface 1 1 0) with 1 by peak. lra. }
  assert (V55 : uh 0%Z 0%Z 5%Z 5%Z = dt / 2).
  { unfold uh. rewrite pk_half by (auto; lia). cbv zeta. unfold pk_data. cbn -[Rplus Rmult Rdiv Rminus IZR wface].
    replace (wface 0 0 0) with 0 by peak. replace (wface 1 1 0) with 1 by peak. replace (wface 1 0 1) with 0 by peak. lra. }
  assert (V56 : uh 0%Z 0%Z 5%Z 6%Z = 1 - dt).
  { unfold uh. rewrite pk_half by (auto; lia). cbv zeta. unfold pk_data. cbn -[Rplus Rmult Rdiv Rminus IZR wface].
    replace (wface 0 1 0) with 1 by peak. replace (wface 0 0 1) with 0 by peak. replace (wface 1 0 1) with 0 by peak. lra. }
  assert (V35 : uh 0%Z 0%Z 3%Z 5%Z = 0).
  { unfold uh. rewrite pk_half by (auto; lia). cbv zeta. unfold pk_data. cbn -[Rplus Rmult Rdiv Rminus IZR wface].
    replace (wface 0 0 0) with 0 by peak. lra. }
  assert (V45 : uh 0%Z 0%Z 4%Z 5%Z = 0).
  { unfold uh. rewrite pk_half by (auto; lia). cbv zeta. unfold pk_data. cbn -[Rplus Rmult Rdiv Rminus IZR wface].
    replace (wface 0 0 0) with 0 by peak. lra. }
  assert (V65 : uh 0%Z 0%Z 6%Z 5%Z = 0).
  { unfold uh. rewrite pk_half by (auto; lia). cbv zeta. unfold pk_data. cbn -[Rplus Rmult Rdiv Rminus IZR wface].
    replace (wface 0 0 0) with 0 by peak. lra. }
  rewrite (rhs_plane_11 pk_cfg MC t Eh uh (fun _ _ => 1) (fun _ _ => 1)); try reflexivity; try (unfold inb; cbn; lia); try apply pk_moves.
  cbn [Z.sub Z.add Z.opp Z.pos_sub Pos.pred_double Pos.add Pos.succ Z.succ_double Z.pred_double Z.double].
  change (5 + 1)%Z with 6%Z. change (5 - 1)%Z with 4%Z. change (5 - 2)%Z with 3%Z.
  rewrite V53, V54, V55, V56, V35, V45, V65.
  replace (wface 0 0 (dt / 2)) with 0 by peak. replace (wface 0 (dt / 2) 0) with (dt / 2) by peak.
  replace (wface (4 - dt / 2) (1 - dt / 2) (dt / 2)) with (dt / 2) by peak.
  replace (wface (1 - dt / 2) (dt / 2) (1 - dt)) with (dt / 2) by peak.
  unfold pk_data. cbn -[Rplus Rmult Rdiv Rminus IZR]. lra.
Qed.

Lemma pk_negative dt : 0 < dt <= 1/2 -> forall t A B,
  (forall x s g1 g2, 0 <= pk_data dt x s g1 g2) /\ cfl pk_cfg t dt
  /\ exists r, run_fvm pk_cfg [Call t dt A B] (pk_state dt) = Ok r /\ gval (lay pk_cfg) (sf r) 0%Z 0%Z 5%Z 5%Z < 0.
Proof.
  intros Hd t A B. assert (H6 : 0 < 6 / dt) by (apply Rdiv_lt_0_compat; lra). split; [|split].
  - intros x s g1 g2. unfold pk_data. repeat destruct (_ =? _)%Z; lra.
  - split; [lra|]. intros x s q1 q2 Hx Hs. rewrite (pk_moves t x s q1 q2 Hx Hs). cbn [fst snd dq1 dq2 pk_cfg].
    rewrite Rabs_R1. lra.
  - destruct (run_exact pk_cfg MC MC pk_wf pk_periodic [Call t dt A B] (pk_state dt) _ (pk_holds dt)) as (r&E&HR).
    exists r. split; [exact E|]. rewrite (proj2 HR) by (unfold inb; cbn; lia).
    cbn [map run_global]. unfold witness at 1. cbn [ct cdt]. rewrite pk_step by auto. nra.
Qed.
