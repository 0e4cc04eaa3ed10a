(** Runs of homogeneous gases with BGK collisions. *)
From Coq Require Import ZArith Reals Lia Lra String List Bool FunctionalExtensionality.
From Verif Require Import Base.Prelude Base.ZSum Model.Af Model.Petsc Model.Grid Model.Config Model.Boundaries
  Model.Fvm Model.Em Model.Moments Model.NonRel Model.Integrators Model.Splitting Model.SemiLag Model.Timestep
  Model.Solver Spec.Domain Spec.Lattice Spec.FvmProblem Spec.FvmRun Spec.Clock Spec.TimeTerms Spec.MomentSpec Spec.Maxwellian Spec.Collisions
  Proofs.FvmLemmas Proofs.FvmConserve Proofs.ConvLemmas Proofs.MomentLemmas Proofs.BgkLemmas Proofs.TimeTerms Props.ExFvm Props.ExEm Props.ExSolver.
Import ListNotations.
Local Open Scope R_scope.

Lemma integral_ext_in G w g h : (forall i1 i2 i3, inb (mn1 G) i1 -> inb (mn2 G) i2 -> inb (mn3 G) i3 -> g i1 i2 i3 = h i1 i2 i3) ->
  integral G w g = integral G w h.
Proof.
  intros E. unfold integral. f_equal. apply zsum_ext; intros. apply zsum_ext; intros. apply zsum_ext; intros. rewrite E; auto.
Qed.
Lemma integral_comb G w a b g h : integral G w (fun i1 i2 i3 => a * g i1 i2 i3 + b * h i1 i2 i3) = a * integral G w g + b * integral G w h.
Proof.
  unfold integral.
  set (v := w1 G * w2 G * w3 G).
  assert (X : forall n (f1 f2 : Z -> R), zsum n (fun i => a * f1 i + b * f2 i) = a * zsum n f1 + b * zsum n f2).
  { intros. rewrite zsum_plus, !zsum_scal. reflexivity. }
  match goal with |- ?l * v = _ => replace l with (a * zsum (mn3 G) (fun i3 => zsum (mn2 G) (fun i2 => zsum (mn1 G) (fun i1 =>
     w (v_of (lo1 G) (w1 G) i1) (v_of (lo2 G) (w2 G) i2) (v_of (lo3 G) (w3 G) i3) * g i1 i2 i3)))
     + b * zsum (mn3 G) (fun i3 => zsum (mn2 G) (fun i2 => zsum (mn1 G) (fun i1 =>
     w (v_of (lo1 G) (w1 G) i1) (v_of (lo2 G) (w2 G) i2) (v_of (lo3 G) (w3 G) i3) * h i1 i2 i3)))) end.
  - ring.
  - rewrite <- X. apply zsum_ext; intros. rewrite <- X. apply zsum_ext; intros. rewrite <- X. apply zsum_ext; intros. ring.
Qed.

Section Run.
  Context (P : params) (k1 k2 : scheme).
  Notation c := (pc P).
  Context (Off : fields_enabled c = false) (W : wf_cfg c k1 k2) (PF : periodic_fvm c k1) (VU : velocity_uniform c).
  Context (CART : p_space_grid c = "cartesian"%string).
  Context (mu : R) (mass : arr R) (k : R) (d : Z) (tau : R) (Hd : (1 <= d <= 3)%Z) (DM : dims4 mass 1 (N_species c) 1 1).
  Notation bgk := (bgk_cell c mu mass k d tau).
  Notation rw := (fun i1 i2 i3 => i1 + N_p1 c * (i2 + N_p2 c * i3))%Z.

  Lemma grid_ok : momentum_grid_ok c.
  Proof using W. unfold momentum_grid_ok. pose proof W as (A&B&C&D&E&F&G&_). repeat split; auto. Qed.

  Lemma row_split x : inb (N_p c) x -> exists i1 i2 i3, inb (N_p1 c) i1 /\ inb (N_p2 c) i2 /\ inb (N_p3 c) i3 /\ x = rw i1 i2 i3.
  Proof using W.
    clear Hd. intros Hx. pose proof W as (A&B&C&_). unfold inb, N_p in Hx.
    exists (x mod N_p1 c)%Z, ((x / N_p1 c) mod N_p2 c)%Z, (x / N_p1 c / N_p2 c)%Z.
    pose proof (Z.mod_pos_bound x (N_p1 c) A). pose proof (Z.mod_pos_bound (x / N_p1 c) (N_p2 c) B).
    repeat split; try lia.
    - apply Z.div_pos; [apply Z.div_pos; lia|lia].
    - rewrite Z.div_div by lia. apply Z.div_lt_upper_bound; nia.
    - pose proof (Z_div_mod_eq_full x (N_p1 c)). pose proof (Z_div_mod_eq_full (x / N_p1 c) (N_p2 c)). nia.
  Qed.

  (** The equilibrium of the values w. *)
  Definition mb (w : Z -> Z -> R) (s i1 i2 i3 : Z) : R :=
    let G := species_grid c s in let g := fun i1 i2 i3 => w (rw i1 i2 i3) s in let n := fluid_n G g in
    f0 d (el mass 0 s 0 0) k (v_of (lo1 G) (w1 G) i1) (v_of (lo2 G) (w2 G) i2) (v_of (lo3 G) (w3 G) i3)
      n (used_T d (el mass 0 s 0 0) n (fluid_m1 G g) (fluid_m2 G g) (fluid_m3 G g)
           (integral G (fun x y z => (x * x + y * y + z * z) / 2) g))
      (used_u (fluid_m1 G g) n) (used_u (fluid_m2 G g) n) (used_u (fluid_m3 G g) n).

  Lemma bgk_is w : exists C F, bgk false w = Ok C /\ bgk true w = Ok F
    /\ (forall i1 i2 i3 s, inb (N_p1 c) i1 -> inb (N_p2 c) i2 -> inb (N_p3 c) i3 -> inb (N_species c) s -> el F (rw i1 i2 i3) s 0 0 = mb w s i1 i2 i3)
    /\ forall x s, inb (N_p c) x -> inb (N_species c) s -> el C x s 0 0 = (el F x s 0 0 - w x s) / tau.
  Proof using W CART Hd DM.
    assert (O : inb 1 0) by (unfold inb; lia).
    assert (DF : dims4 (one_cell c w) (N_p c) (N_species c) 1 1) by (repeat split).
    destruct (bgk_value c 1 1 grid_ok ltac:(lia) ltac:(lia) CART mu k d Hd mass (one_cell c (fun _ _ => tau)) (one_cell c w) DM DF false) as (C&RC&_&VC).
    destruct (bgk_value c 1 1 grid_ok ltac:(lia) ltac:(lia) CART mu k d Hd mass (one_cell c (fun _ _ => tau)) (one_cell c w) DM DF true) as (F&RF&_&VF).
    exists C, F. split; [exact RC|]. split; [exact RF|].
    assert (X : forall i1 i2 i3 s, inb (N_p1 c) i1 -> inb (N_p2 c) i2 -> inb (N_p3 c) i3 -> inb (N_species c) s -> el F (rw i1 i2 i3) s 0 0 = mb w s i1 i2 i3).
    { intros i1 i2 i3 s A B D E. exact (VF i1 i2 i3 s 0%Z 0%Z A B D E O O). }
    split; [exact X|]. intros x s Hx Hs. destruct (row_split x Hx) as (i1&i2&i3&A&B&D&->). rewrite X by auto.
    assert (Y := VC i1 i2 i3 s 0%Z 0%Z A B D Hs O O). cbv zeta in Y. cbn [el one_cell] in Y.
    change (row c i1 i2 i3) with (rw i1 i2 i3) in Y. cbv beta in Y.
    rewrite Y. unfold mb. change (cell_f c (one_cell c w) s 0 0) with (fun i1 i2 i3 => w (rw i1 i2 i3) s). unfold Rdiv. ring.
  Qed.

  Lemma mb_ext w w' : (forall x s, inb (N_p c) x -> inb (N_species c) s -> w x s = w' x s) ->
    forall s i1 i2 i3, inb (N_species c) s -> mb w s i1 i2 i3 = mb w' s i1 i2 i3.
  Proof using W.
    intros E s i1 i2 i3 Hs. unfold mb. cbv zeta.
    assert (X : forall v, integral (species_grid c s) v (fun i1 i2 i3 => w (rw i1 i2 i3) s) = integral (species_grid c s) v (fun i1 i2 i3 => w' (rw i1 i2 i3) s)).
    { intros v. apply integral_ext_in. intros. apply E; auto. apply pidx_bound; auto. }
    unfold fluid_n, fluid_m1, fluid_m2, fluid_m3. rewrite !X. reflexivity.
  Qed.

  Context (CO : collides c mu mass k d tau).
  Definition rate (w : Z -> Z -> R) (x s : Z) : R := match bgk false w with Ok C => el C x s 0 0 | Err _ => 0 end.

  Lemma uniform_midpoint t dt a x s g1 g2 : let p := prob c k1 k2 t no_fields in
    midpoint p p dt (homogeneous_f a) x s g1 g2 = a x s + dt * rate (fun y r => a y r + dt / 2 * rate a y r) x s.
  Proof using Off VU CO.
    intros p.
    assert (Z : forall b y r i j, rhs p (homogeneous_f b) y r i j = rate b y r).
    { intros b y r i j. unfold rhs.
      assert (S : src p i j (fun x' s' => homogeneous_f b x' s' i j) y r = rate b y r).
      { unfold p, prob, problem_of, problem_at; cbn [src]. rewrite (proj1 CO). apply (proj2 CO). }
      rewrite S. unfold p. rewrite advect_p_off by (apply off_fvm; auto). unfold advect_q.
      destruct (vel_uni c k1 k2 t no_fields VU) as [V1 V2].
      rewrite !(advect_const _ _ _ _ _ (b y r)); try (intros; reflexivity); [lra|apply V2|apply V1]. }
    unfold midpoint.
    match goal with |- context [rhs p ?u x s g1 g2] => change u with (fun y r i j => homogeneous_f a y r i j + dt / 2 * rhs p (homogeneous_f a) y r i j) end.
    assert (X : (fun y r i j => homogeneous_f a y r i j + dt / 2 * rhs p (homogeneous_f a) y r i j) = homogeneous_f (fun y r => a y r + dt / 2 * rate a y r)).
    { apply functional_extensionality; intros y. apply functional_extensionality; intros r.
      apply functional_extensionality; intros i. apply functional_extensionality; intros j.
      rewrite Z. reflexivity. }
    rewrite X, Z. reflexivity.
  Qed.

  (** A step of a homogeneous gas. *)
  Lemma budget_step m dt s a : holds c (f_of s) (homogeneous_f a) ->
    exists s' F H, run_steps (solver_stepper P) [(m, dt)] s = Ok (s', None)
    /\ bgk true a = Ok F
    /\ (let mid := fun x sp => a x sp + dt / 2 * ((el F x sp 0 0 - a x sp) / tau) in
        bgk true mid = Ok H
        /\ holds c (f_of s') (homogeneous_f (fun x sp => a x sp + dt * ((el H x sp 0 0 - mid x sp) / tau)))).
  Proof using Off W PF VU CART Hd DM CO.
    intros Ha. destruct (frozen_step P k1 k2 Off W PF m dt s _ Ha) as (s1&R1&T1&H1).
    destruct (bgk_is a) as (C0&F&RC0&RF&_&V0).
    set (mid := fun x sp => a x sp + dt / 2 * ((el F x sp 0 0 - a x sp) / tau)).
    destruct (bgk_is mid) as (C1&H&RC1&RH&VH&V1).
    set (mid' := fun y r => a y r + dt / 2 * rate a y r).
    assert (E : forall x r, inb (N_p c) x -> inb (N_species c) r -> mid x r = mid' x r).
    { intros x r Hx Hr. unfold mid, mid', rate. rewrite RC0, V0 by auto. reflexivity. }
    destruct (bgk_is mid') as (C2&H2&RC2&RH2&VH2&V2).
    exists s1, F, H. split; [cbn [run_steps]; rewrite R1; reflexivity|]. split; [exact RF|]. split; [exact RH|].
    split; [apply H1|]. intros x r g1 g2 Hx Hr B1 B2. rewrite (proj2 H1) by auto. rewrite uniform_midpoint. fold mid'.
    unfold homogeneous_f. unfold rate at 1. rewrite RC2, V2 by auto. rewrite <- E by auto.
    destruct (row_split x Hx) as (i1&i2&i3&A&B&D&->). rewrite VH, VH2 by auto. rewrite (mb_ext mid mid' E) by auto. reflexivity.
  Qed.

  Lemma moment_step (w : R -> R -> R -> R) a b h e s : inb (N_species c) s ->
    (forall x, inb (N_p c) x -> b x s = a x s + e * h x s) ->
    moment_of_cell c w b s = moment_of_cell c w a s + e * moment_of_cell c w h s.
  Proof using.
    intros Hs E. unfold moment_of_cell.
    rewrite (integral_ext_in _ w _ (fun i1 i2 i3 => 1 * a (rw i1 i2 i3) s + e * h (rw i1 i2 i3) s)).
    - rewrite (integral_comb _ w 1 e (fun i1 i2 i3 => a (rw i1 i2 i3) s) (fun i1 i2 i3 => h (rw i1 i2 i3) s)). ring.
    - intros. rewrite E by (apply pidx_bound; auto). ring.
  Qed.

  Lemma budget m dt s a : holds c (f_of s) (homogeneous_f a) ->
    exists s' F H b, run_steps (solver_stepper P) [(m, dt)] s = Ok (s', None)
    /\ bgk true a = Ok F
    /\ (let mid := fun x sp => a x sp + dt / 2 * ((el F x sp 0 0 - a x sp) / tau) in
        bgk true mid = Ok H
        /\ holds c (f_of s') (homogeneous_f b)
        /\ forall w sp, inb (N_species c) sp ->
           moment_of_cell c w b sp = moment_of_cell c w a sp
             + dt / tau * (moment_of_cell c w (fun x sp => el H x sp 0 0) sp - moment_of_cell c w mid sp)).
  Proof using Off W PF VU CART Hd DM CO.
    intros Ha. destruct (budget_step m dt s a Ha) as (s'&F&H&R1&RF&RH&HH).
    exists s', F, H. eexists. split; [exact R1|]. split; [exact RF|]. split; [exact RH|]. split; [exact HH|].
    intros w sp Hs. set (mid := fun x sp => a x sp + dt / 2 * ((el F x sp 0 0 - a x sp) / tau)).
    rewrite (moment_step w a _ (fun x sp => 1 * el H x sp 0 0 + (-1) * mid x sp) (dt / tau) sp Hs).
    - f_equal. f_equal. rewrite (moment_step w (fun x sp => el H x sp 0 0) _ mid (-1) sp Hs); [ring|]. intros. ring.
    - intros x Hx. unfold mid, Rdiv. ring.
  Qed.

  (** ** Gases at rest *)
  Context (SY : symmetric_momenta c).

  Lemma opposite lo w n i : lo = - (IZR n * w) / 2 -> v_of lo w (n - 1 - i) = - v_of lo w i.
  Proof using. intros ->. unfold v_of. rewrite !minus_IZR. field. Qed.

  Lemma odd_integral a s (w : R -> R -> R -> R) : inb (N_species c) s -> even_in_p c a ->
    (forall x y z, w (- x) (- y) (- z) = - w x y z) -> moment_of_cell c w a s = 0.
  Proof using W SY.
    clear Hd. intros Hs E O. pose proof W as (A&B&C&_). destruct (SY s Hs) as (L1&L2&L3). cbv zeta in L1, L2, L3.
    assert (X : moment_of_cell c w a s = - moment_of_cell c w a s); [|lra].
    unfold moment_of_cell at 1, integral. cbn [mn1 mn2 mn3 species_grid].
    rewrite <- zsum_rev by lia.
    transitivity (zsum (N_p3 c) (fun i3 => zsum (N_p2 c) (fun i2 => zsum (N_p1 c) (fun i1 => -1 *
      (w (v_of (lo1 (species_grid c s)) (w1 (species_grid c s)) i1) (v_of (lo2 (species_grid c s)) (w2 (species_grid c s)) i2)
         (v_of (lo3 (species_grid c s)) (w3 (species_grid c s)) i3) * a (rw i1 i2 i3) s))))
      * (w1 (species_grid c s) * w2 (species_grid c s) * w3 (species_grid c s))).
    - f_equal. apply zsum_ext; intros i3 H3. rewrite <- zsum_rev by lia. apply zsum_ext; intros i2 H2. rewrite <- zsum_rev by lia.
      apply zsum_ext; intros i1 H1. rewrite (opposite _ _ _ i1 L1), (opposite _ _ _ i2 L2), (opposite _ _ _ i3 L3), O.
      rewrite (E i1 i2 i3 s) by auto. ring.
    - unfold moment_of_cell, integral. cbn [mn1 mn2 mn3 species_grid].
      rewrite Ropp_mult_distr_l. f_equal.
      transitivity (-1 * zsum (N_p3 c) (fun i3 => zsum (N_p2 c) (fun i2 => zsum (N_p1 c) (fun i1 => 
      (w (v_of (lo1 (species_grid c s)) (w1 (species_grid c s)) i1) (v_of (lo2 (species_grid c s)) (w2 (species_grid c s)) i2)
         (v_of (lo3 (species_grid c s)) (w3 (species_grid c s)) i3) * a (rw i1 i2 i3) s))))); [|unfold species_grid; cbn; ring].
      rewrite <- zsum_scal. apply zsum_ext; intros. rewrite <- zsum_scal. apply zsum_ext; intros. rewrite <- zsum_scal. reflexivity.
  Qed.

  Lemma mb_even a s i1 i2 i3 : inb (N_species c) s -> even_in_p c a ->
    mb a s (N_p1 c - 1 - i1) (N_p2 c - 1 - i2) (N_p3 c - 1 - i3) = mb a s i1 i2 i3.
  Proof using W SY.
    intros Hs E. unfold mb. cbv zeta. destruct (SY s Hs) as (L1&L2&L3). cbv zeta in L1, L2, L3.
    assert (M1 : fluid_m1 (species_grid c s) (fun i1 i2 i3 => a (rw i1 i2 i3) s) = 0)
      by (apply (odd_integral a s (fun x _ _ => x)); auto; intros; ring).
    assert (M2 : fluid_m2 (species_grid c s) (fun i1 i2 i3 => a (rw i1 i2 i3) s) = 0)
      by (apply (odd_integral a s (fun _ y _ => y)); auto; intros; ring).
    assert (M3 : fluid_m3 (species_grid c s) (fun i1 i2 i3 => a (rw i1 i2 i3) s) = 0)
      by (apply (odd_integral a s (fun _ _ z => z)); auto; intros; ring).
    rewrite M1, M2, M3. rewrite (opposite _ _ _ i1 L1), (opposite _ _ _ i2 L2), (opposite _ _ _ i3 L3).
    unfold used_u, Rdiv. rewrite Rmult_0_l. unfold f0.
    assert (Q : forall v, (- v - 0) ^ 2 = (v - 0) ^ 2) by (intros; ring). rewrite !Q. reflexivity.
  Qed.

  Lemma even_run h s a : holds c (f_of s) (homogeneous_f a) -> even_in_p c a ->
    exists s' b, run_steps (solver_stepper P) h s = Ok (s', None) /\ holds c (f_of s') (homogeneous_f b) /\ even_in_p c b.
  Proof using Off W PF VU CART Hd DM CO SY.
    revert s a. induction h as [|(m&dt) h IH]; intros s a Ha Ea.
    - exists s, a. split; [reflexivity|]. split; auto.
    - destruct (bgk_is a) as (C0&F&RC0&RF&VF&V0).
      destruct (budget_step m dt s a Ha) as (s1&F'&H&R1&RF'&RH&HH). rewrite RF in RF'. injection RF' as <-.
      set (mid := fun x sp => a x sp + dt / 2 * ((el F x sp 0 0 - a x sp) / tau)) in *.
      assert (Hi : forall n i, inb n i -> inb n (n - 1 - i)) by (unfold inb; lia).
      assert (Em : even_in_p c mid).
      { intros i1 i2 i3 r A B D Hr. unfold mid. rewrite (VF (N_p1 c - 1 - i1) (N_p2 c - 1 - i2) (N_p3 c - 1 - i3))%Z by auto.
        rewrite (VF i1 i2 i3) by auto. rewrite mb_even by auto. rewrite (Ea i1 i2 i3 r) by auto. reflexivity. }
      destruct (bgk_is mid) as (C1&H'&RC1&RH'&VH&V1). change (bgk true mid = Ok H) in RH. rewrite RH in RH'. injection RH' as <-.
      edestruct (IH s1 _ HH) as (s2&b&R2&H2&E2).
      { intros i1 i2 i3 r A B D Hr. fold (mid (rw (N_p1 c - 1 - i1) (N_p2 c - 1 - i2) (N_p3 c - 1 - i3))%Z r). fold (mid (rw i1 i2 i3) r).
        rewrite (VH (N_p1 c - 1 - i1) (N_p2 c - 1 - i2) (N_p3 c - 1 - i3))%Z by auto.
        rewrite (VH i1 i2 i3) by auto. rewrite mb_even by auto. rewrite (Ea i1 i2 i3 r) by auto. rewrite (Em i1 i2 i3 r) by auto. reflexivity. }
      exists s2, b. split; [|split; auto]. cbn [run_steps] in R1 |- *. destruct (step_of (solver_stepper P) m dt s) as [(y&o)|]; [|discriminate].
      cbn [rbind] in *. destruct o; [discriminate|]. injection R1 as ->. exact R2.
  Qed.

  Lemma at_rest h s a : holds c (f_of s) (homogeneous_f a) -> even_in_p c a ->
    exists s' b, run_steps (solver_stepper P) h s = Ok (s', None) /\ holds c (f_of s') (homogeneous_f b)
    /\ forall sp, inb (N_species c) sp ->
       moment_of_cell c (fun v _ _ => v) b sp = 0 /\ moment_of_cell c (fun _ v _ => v) b sp = 0 /\ moment_of_cell c (fun _ _ v => v) b sp = 0.
  Proof using Off W PF VU CART Hd DM CO SY.
    intros Ha Ea. destruct (even_run h s a Ha Ea) as (s'&b&R1&H1&E1). exists s', b. split; auto. split; auto. intros sp Hs.
    repeat split; apply odd_integral; auto; intros; ring.
  Qed.
End Run.

(** ** Two velocities *)
Lemma exp_times n r : exp (INR n * r) = exp r ^ n.
Proof.
  induction n as [|n IH]; [cbn; rewrite Rmult_0_l; apply exp_0|].
  rewrite S_INR, Rmult_plus_distr_r, exp_plus, Rmult_1_l, IH. cbn [pow]. ring.
Qed.
Lemma e_above : 2676 / 1000 < exp 1.
Proof.
  assert (X : 1 + 1/32 < exp (1/32)) by (apply exp_ineq1; lra).
  replace 1 with (INR 32 * (1/32)) by (rewrite INR_IZR_INZ; cbn; lra). rewrite exp_times.
  apply Rlt_le_trans with ((33/32) ^ 32); [lra|]. apply pow_incr. lra.
Qed.

(** A Gaussian at unit distance is at most its value for unit variance. *)
Lemma gaussian_one th : 0 < th -> 4 * gaussian th 1 <= 999 / 1000.
Proof.
  intros H. pose proof e_above as E. pose proof PI2_3_2 as Q. unfold gaussian.
  assert (PP : 3 < PI) by lra.
  set (y := / (2 * th)). assert (Hy : 0 < y) by (apply Rinv_0_lt_compat; lra).
  replace (- (1 * 1) / (2 * th)) with (- y) by (unfold y; field; lra).
  assert (B : 0 < 2 * PI * th) by (apply Rmult_lt_0_compat; lra).
  assert (S : 0 < sqrt (2 * PI * th)) by (apply sqrt_lt_R0; auto).
  assert (Ex : 0 < exp (- y)) by apply exp_pos.
  assert (SQ : (4 * (exp (- y) / sqrt (2 * PI * th))) ^ 2 = 16 * y * exp (- (2 * y)) / PI).
  { replace (- (2 * y)) with (- y + - y) by ring. rewrite exp_plus.
    replace ((4 * (exp (- y) / sqrt (2 * PI * th))) ^ 2) with (16 * (exp (- y) * exp (- y)) / (sqrt (2 * PI * th) * sqrt (2 * PI * th))) by (field; lra).
    rewrite sqrt_sqrt by lra. unfold y. field. split; lra. }
  assert (G : 2 * y * exp 1 <= exp (2 * y)).
  { replace (2 * y) with (1 + (2 * y - 1)) at 2 by ring. rewrite exp_plus.
    assert (2 * y <= exp (2 * y - 1)). { pose proof (exp_ineq1_le (2 * y - 1)). lra. }
    pose proof (exp_pos 1). nra. }
  assert (R1 : 16 * y * exp (- (2 * y)) / PI <= (999/1000) ^ 2).
  { rewrite exp_Ropp. pose proof (exp_pos (2 * y)) as X.
    apply Rmult_le_reg_r with (PI * exp (2 * y)); [apply Rmult_lt_0_compat; lra|].
    replace (16 * y * / exp (2 * y) / PI * (PI * exp (2 * y))) with (16 * y) by (field; split; lra).
    assert (2 * y * (2676/1000) <= exp (2 * y)) by nra. assert (3 * (2 * y * (2676/1000)) <= PI * exp (2 * y)) by nra. nra. }
  assert (N : 0 <= 4 * (exp (- y) / sqrt (2 * PI * th))).
  { apply Rmult_le_pos; [lra|]. left. apply Rmult_lt_0_compat; auto. apply Rinv_0_lt_compat; auto. }
  rewrite <- SQ in R1. apply Rsqr_incr_0_var; [|lra]. unfold Rsqr. simpl in R1. lra.
Qed.

(** One species with the velocities -1 and 1 on 2 x 2 ranks, mass and Boltzmann's
    constant 1, collision time 1. *)
Definition one_mass : arr R := Arr 1 1 1 1 (fun _ _ _ _ => 1).
Definition two_cfg (on : bool) (src : R -> R -> R -> (Z -> Z -> R) -> Z -> Z -> R) : cfg :=
  Cfg ex_lay 3 2 1 1 1 0 4 0 3 1 1 [-2] [-1/2] [-1/2] [2] [1] [1]
    "FVM" "FVM" "minmod" "minmod" "cartesian" false on
    (fun _ => C_q_nonrel) (fun _ => A_q_nonrel) (fun _ => C_p_nonrel 1 1) (fun _ => A_p_nonrel 1 1)
    src (fun _ => "periodic"%string) (fun _ _ _ _ f => f) 0 0 (fun v _ _ _ _ => v) 0.
Definition two_base : cfg := two_cfg false (fun _ _ _ _ _ _ => 0).
Definition two_gas : params :=
  Params (two_cfg true (fun _ _ _ w x s => match bgk_cell two_base 0 one_mass 1 1 1 false w with Ok C => el C x s 0 0 | Err _ => 0 end))
    ex_em "electrodynamic" [1] nonrel_moments 0 1 false mean_inst (fun a _ _ => a).
Definition base_gas : params := Params two_base ex_em "electrodynamic" [1] nonrel_moments 0 1 false mean_inst (fun a _ _ => a).
Definition gas_state (a : R) : solver :=
  Solver (FState (fun r1 r2 => Arr 2 1 (n1g ex_lay r1) (n2g ex_lay r2) (fun _ _ _ _ => a)) (fun _ _ _ => 0)) (fresh ex_em) 0 0.

Lemma base_wf : wf_cfg (pc base_gas) MC MC.
Proof.
  unfold wf_cfg. cbn [pc base_gas two_base two_cfg N_p1 N_p2 N_p3 N_species p1_start p2_start p3_start dp1 dp2 dp3 List.length].
  repeat split; try lia; auto.
Qed.
Lemma two_wf : wf_cfg (pc two_gas) MC MC.
Proof.
  pose proof base_wf as (A&B&C&D&E&F&G&H&I&J&K&L&_).
  split; [exact A|]. split; [exact B|]. split; [exact C|]. split; [exact D|]. split; [exact E|]. split; [exact F|]. split; [exact G|].
  split; [exact H|]. split; [exact I|]. split; [exact J|]. split; [exact K|]. split; [exact L|].
  intros t q1 q2 w w' X x s Hx Hs. cbn [source pc two_gas two_cfg].
  assert (DM : dims4 one_mass 1 (N_species (pc base_gas)) 1 1) by (repeat split).
  destruct (bgk_is base_gas MC MC base_wf eq_refl 0 one_mass 1 1 1 ltac:(lia) DM w) as (C1&F1&R1&_&V1&W1).
  destruct (bgk_is base_gas MC MC base_wf eq_refl 0 one_mass 1 1 1 ltac:(lia) DM w') as (C2&F2&R2&_&V2&W2).
  change (pc base_gas) with two_base in R1, R2. rewrite R1, R2.
  rewrite (W1 x s Hx Hs), (W2 x s Hx Hs). rewrite (X x s Hx Hs).
  destruct (row_split base_gas MC MC base_wf x Hx) as (i1&i2&i3&Y1&Y2&Y3&->). rewrite V1, V2 by auto.
  rewrite (mb_ext base_gas MC MC base_wf one_mass 1 1 w w' X) by auto. reflexivity.
Qed.
Lemma two_periodic : periodic_fvm (pc two_gas) MC.
Proof. unfold periodic_fvm, periodic_layout, tiles; cbn. repeat split; try lia; repeat constructor; try lia. Qed.
Lemma two_collides : collides (pc two_gas) 0 one_mass 1 1 1.
Proof. split; [reflexivity|]. intros. reflexivity. Qed.
Lemma two_vel : velocity_uniform (pc two_gas).
Proof. repeat intro. reflexivity. Qed.
Lemma two_sym : symmetric_momenta (pc two_gas).
Proof. intros s Hs. unfold inb in Hs. cbn in Hs. assert (s = 0%Z) by lia. subst s. cbn. repeat split; lra. Qed.

Lemma two_mb w a i1 : 0 <= a -> w 0%Z 0%Z = a -> w 1%Z 0%Z = a -> inb 2 i1 ->
  0 <= mb two_gas one_mass 1 1 w 0 i1 0 0 <= 999 / 1000 * a.
Proof.
  intros Ha W0 W1 Hi. unfold mb. cbv zeta.
  set (G := species_grid (pc two_gas) 0). set (g := fun i1 i2 i3 => w (i1 + N_p1 (pc two_gas) * (i2 + N_p2 (pc two_gas) * i3))%Z 0%Z).
  assert (I : forall v, integral G v g = (v (-1) 0 0 + v 1 0 0) * a * 2).
  { intros v. unfold integral, G, g. cbn [mn1 mn2 mn3 lo1 lo2 lo3 w1 w2 w3 species_grid pc two_gas two_cfg N_p1 N_p2 N_p3 p1_start p2_start p3_start dp1 dp2 dp3].
    rewrite !zsum_1. change 2%Z with (1 + 1)%Z at 1. rewrite zsum_succ, zsum_1 by lia. cbn [nth Z.to_nat Z.add Z.mul].
    change (0 + 2 * 0)%Z with 0%Z. change (1 + 2 * 0)%Z with 1%Z. unfold v_of.
    replace (-2 + (1/2 + 0) * 2) with (-1) by lra. replace (-2 + (1/2 + 1) * 2) with 1 by lra. replace (-1/2 + (1/2 + 0) * 1) with 0 by lra.
    rewrite W0, W1. ring. }
  unfold fluid_n, fluid_m1, fluid_m2, fluid_m3. rewrite !I.
  change (el one_mass 0 0 0 0) with 1.
  set (T := used_T 1 1 _ _ _ _ _).
  assert (HT : 0 < T).
  { unfold T, used_T, used_u. pose proof floor_pos as FE. 
    replace ((-1 + 1) * a * 2) with 0 by ring. replace ((0 + 0) * a * 2) with 0 by ring.
    unfold Rdiv at 2 3 4. rewrite !Rmult_0_l.
    replace ((((-1 * -1 + 0 * 0 + 0 * 0) / 2 + (1 * 1 + 0 * 0 + 0 * 0) / 2) * a * 2 * 1)) with (2 * a) by field.
    replace (0 ^ 2) with 0 by ring. rewrite !Rmult_0_r, !Rminus_0_r, Rinv_1, Rmult_1_l.
    assert (0 <= 2 * (2 * a) / ((1 + 1) * a * 2 + floor_eps)).
    { apply Rmult_le_pos; [lra|]. left. apply Rinv_0_lt_compat. lra. }
    lra. }
  rewrite f0_maxwellian by (auto; try lia; lra). cbn [maxwellian].
  replace ((-1 + 1) * a * 2) with 0 by ring. unfold used_u. unfold Rdiv at 2 4. rewrite !Rmult_0_l, !Rminus_0_r.
  assert (HG : gaussian (1 * T / 1) (v_of (lo1 G) (w1 G) i1) = gaussian T 1).
  { replace (1 * T / 1) with T by field. unfold gaussian. do 3 f_equal.
    assert (X : v_of (lo1 G) (w1 G) i1 = -1 \/ v_of (lo1 G) (w1 G) i1 = 1).
    { unfold inb in Hi. assert (i1 = 0 \/ i1 = 1)%Z as [->| ->] by lia; unfold v_of, G; cbn; lra. }
    destruct X as [->| ->]; ring. }
  rewrite HG. pose proof (gaussian_one T HT). pose proof (gaussian_pos T 1 HT). split; nra.
Qed.

Lemma gas_holds a : holds (pc two_gas) (f_of (gas_state a)) (homogeneous_f (fun _ _ => a)).
Proof. split; [repeat split|]. intros. reflexivity. Qed.

Lemma two_step m dt s w a : 0 < dt <= 1 -> 0 <= a -> holds (pc two_gas) (f_of s) (homogeneous_f w) ->
  (w 0 0 = a)%Z -> (w 1 0 = a)%Z ->
  exists s' w' b, run_steps (solver_stepper two_gas) [(m, dt)] s = Ok (s', None) /\ holds (pc two_gas) (f_of s') (homogeneous_f w')
  /\ (w' 0 0 = b)%Z /\ (w' 1 0 = b)%Z /\ 0 <= b <= (1 - dt / 2000) * a.
Proof.
  intros Hdt Ha Hw W0 W1.
  assert (DM : dims4 one_mass 1 (N_species (pc two_gas)) 1 1) by (repeat split).
  destruct (budget_step two_gas MC MC eq_refl two_wf two_periodic two_vel eq_refl 0 one_mass 1 1 1 ltac:(lia) DM two_collides m dt s w Hw)
    as (s'&F&H&R1&RF&RH&HH).
  destruct (bgk_is two_gas MC MC two_wf eq_refl 0 one_mass 1 1 1 ltac:(lia) DM w) as (C0&F'&_&RF'&VF&_).
  rewrite RF in RF'. injection RF' as <-.
  set (mid := fun x sp => w x sp + dt / 2 * ((el F x sp 0 0 - w x sp) / 1)) in *.
  destruct (bgk_is two_gas MC MC two_wf eq_refl 0 one_mass 1 1 1 ltac:(lia) DM mid) as (C1&H'&_&RH'&VH&_).
  change (bgk_cell (pc two_gas) 0 one_mass 1 1 1 true mid = Ok H) in RH. rewrite RH in RH'. injection RH' as <-.
  assert (O : inb 1 0) by (unfold inb; lia). assert (I0 : inb 2 0) by (unfold inb; lia). assert (I1 : inb 2 1) by (unfold inb; lia).
  assert (F0 : el F 0 0 0 0 = mb two_gas one_mass 1 1 w 0 0 0 0) by exact (VF 0 0 0 0 I0 O O O)%Z.
  assert (F1 : el F 1 0 0 0 = mb two_gas one_mass 1 1 w 0 1 0 0) by exact (VF 1 0 0 0 I1 O O O)%Z.
  assert (H0 : el H 0 0 0 0 = mb two_gas one_mass 1 1 mid 0 0 0 0) by exact (VH 0 0 0 0 I0 O O O)%Z.
  assert (H1 : el H 1 0 0 0 = mb two_gas one_mass 1 1 mid 0 1 0 0) by exact (VH 1 0 0 0 I1 O O O)%Z.
  assert (EV : forall v b, v 0%Z 0%Z = b -> v 1%Z 0%Z = b -> even_in_p (pc two_gas) v).
  { intros v b A B i1 i2 i3 r J1 J2 J3 Jr. unfold inb in J1, J2, J3, Jr.
    cbn [pc two_gas two_cfg N_p1 N_p2 N_p3 N_species] in *. assert (i2 = 0 /\ i3 = 0 /\ r = 0)%Z as (->&->&->) by lia.
    assert (i1 = 0 \/ i1 = 1)%Z as [->| ->] by lia; [change (v 1 0 = v 0 0)%Z|change (v 0 0 = v 1 0)%Z]; congruence. }
  assert (MB : forall v b, v 0%Z 0%Z = b -> v 1%Z 0%Z = b -> mb two_gas one_mass 1 1 v 0 1 0 0 = mb two_gas one_mass 1 1 v 0 0 0 0).
  { intros v b A B. exact (mb_even two_gas MC MC two_wf one_mass 1 1 two_sym v 0 0 0 0 O (EV v b A B))%Z. }
  set (f0 := mb two_gas one_mass 1 1 w 0 0 0 0) in *.
  assert (B0 : 0 <= f0 <= 999 / 1000 * a) by (apply two_mb; auto).
  rewrite (MB w a W0 W1) in F1. fold f0 in F1.
  set (b1 := a + dt / 2 * (f0 - a)).
  assert (M0 : mid 0%Z 0%Z = b1) by (unfold mid, b1; rewrite W0, F0; field).
  assert (M1 : mid 1%Z 0%Z = b1) by (unfold mid, b1; rewrite W1, F1; field).
  assert (P1 : a / 2 <= b1 <= a) by (unfold b1; split; nra).
  set (h0 := mb two_gas one_mass 1 1 mid 0 0 0 0) in *.
  assert (B1 : 0 <= h0 <= 999 / 1000 * b1) by (apply two_mb; auto; lra).
  rewrite (MB mid b1 M0 M1) in H1. fold h0 in H1.
  exists s'. eexists. exists (a + dt * (h0 - b1)). split; [exact R1|]. split; [exact HH|]. cbv beta.
  fold (mid 0%Z 0%Z). fold (mid 1%Z 0%Z). rewrite M0, M1, W0, W1, H0, H1.
  split; [field|]. split; [field|]. split; nra.
Qed.

Lemma two_run m dt n s w a : 0 < dt <= 1 -> 0 <= a -> holds (pc two_gas) (f_of s) (homogeneous_f w) ->
  (w 0 0 = a)%Z -> (w 1 0 = a)%Z ->
  exists s' w' b, run_steps (solver_stepper two_gas) (repeat (m, dt) n) s = Ok (s', None) /\ holds (pc two_gas) (f_of s') (homogeneous_f w')
  /\ (w' 0 0 = b)%Z /\ (w' 1 0 = b)%Z /\ 0 <= b <= (1 - dt / 2000) ^ n * a.
Proof.
  intros Hdt. revert s w a. induction n as [|n IH]; intros s w a Ha Hw W0 W1.
  - exists s, w, a. cbn [repeat pow]. split; [reflexivity|]. split; [exact Hw|]. split; [exact W0|]. split; [exact W1|]. lra.
  - destruct (two_step m dt s w a Hdt Ha Hw W0 W1) as (s1&w1&b&R1&H1&A&B&Hb).
    destruct (IH s1 w1 b (proj1 Hb) H1 A B) as (s2&w2&b2&R2&H2&A2&B2&Hb2).
    exists s2, w2, b2. split.
    + cbn [repeat run_steps] in R1 |- *. destruct (step_of (solver_stepper two_gas) m dt s) as [(y&o)|]; [|discriminate].
      cbn [rbind] in *. destruct o; [discriminate|]. injection R1 as ->. exact R2.
    + split; [exact H2|]. split; auto. split; auto. split; [lra|]. cbn [pow].
      assert (0 <= (1 - dt / 2000) ^ n) by (apply pow_le; lra).
      apply Rle_trans with (1 := proj2 Hb2). apply Rle_trans with ((1 - dt / 2000) ^ n * ((1 - dt / 2000) * a)); [apply Rmult_le_compat_l; lra|lra].
Qed.

Lemma number_homogeneous s w a : holds (pc two_gas) (f_of s) (homogeneous_f w) -> (w 0 0 = a)%Z -> (w 1 0 = a)%Z ->
  number_in (pc two_gas) (f_of s) 0 = 48 * a.
Proof.
  intros H W0 W1. unfold number_in. 
  transitivity (zsum 4 (fun _ => zsum 3 (fun _ => 4 * a)) * (1 * 1)).
  - cbn [dq1 dq2 pc two_gas two_cfg]. f_equal. cbn [lay two_cfg pc two_gas gN1 gN2 ex_lay].
    apply zsum_ext; intros g1 H1. apply zsum_ext; intros g2 H2.
    assert (X : forall x, inb 2 x -> gval ex_lay (f_of s) x 0 g1 g2 = w x 0%Z).
    { intros x Hx. assert (O : inb 1 0) by (unfold inb; lia). exact (proj2 H x 0%Z g1 g2 Hx O H1 H2). }
    unfold moment_of_cell, integral. cbn [mn1 mn2 mn3 lo1 lo2 lo3 w1 w2 w3 species_grid pc two_gas two_cfg N_p1 N_p2 N_p3 p1_start p2_start p3_start dp1 dp2 dp3].
    rewrite !zsum_1. change 2%Z with (1 + 1)%Z at 1. rewrite zsum_succ, zsum_1 by lia. cbn [nth Z.to_nat].
    change (0 + 2 * (0 + 1 * 0))%Z with 0%Z. change (1 + 2 * (0 + 1 * 0))%Z with 1%Z.
    rewrite !X by (unfold inb; lia). rewrite W0, W1. ring.
  - rewrite !zsum_const by lia. ring.
Qed.

Lemma gas_lost m dt : 0 < dt <= 1 -> 
  number_in (pc two_gas) (f_of (gas_state 1)) 0 = 48
  /\ forall n, exists s', run_steps (solver_stepper two_gas) (repeat (m, dt) n) (gas_state 1) = Ok (s', None)
     /\ 0 <= number_in (pc two_gas) (f_of s') 0 <= 48 * (1 - dt / 2000) ^ n.
Proof.
  intros Hdt. split; [rewrite (number_homogeneous _ _ 1 (gas_holds 1) eq_refl eq_refl); lra|].
  intros n. destruct (two_run m dt n (gas_state 1) (fun _ _ => 1) 1 Hdt ltac:(lra) (gas_holds 1) eq_refl eq_refl) as (s'&w'&b&R1&H1&A&B&Hb).
  exists s'. split; auto. rewrite (number_homogeneous _ _ b H1 A B). lra.
Qed.

Lemma gas_vanishes m dt : 0 < dt <= 1 ->
  collides (pc two_gas) 0 one_mass 1 1 1
  /\ number_in (pc two_gas) (f_of (gas_state 1)) 0 = 48
  /\ (forall n, exists s', run_steps (solver_stepper two_gas) (repeat (m, dt) n) (gas_state 1) = Ok (s', None)
      /\ 0 <= number_in (pc two_gas) (f_of s') 0 <= 48 * (1 - dt / 2000) ^ n)
  /\ (forall e, 0 < e -> exists n s', run_steps (solver_stepper two_gas) (repeat (m, dt) n) (gas_state 1) = Ok (s', None)
      /\ 0 <= number_in (pc two_gas) (f_of s') 0 < e).
Proof.
  intros Hdt. destruct (gas_lost m dt Hdt) as (A&B). split; [exact two_collides|]. split; [exact A|]. split; [exact B|].
  intros e He. destruct (pow_lt_1_zero (1 - dt / 2000)) with (y := e / 48) as (n&Hn); [rewrite Rabs_pos_eq; lra|lra|].
  destruct (B n) as (s'&R1&L). exists n, s'. split; [exact R1|]. specialize (Hn n (le_n n)).
  rewrite Rabs_pos_eq in Hn by (apply pow_le; lra). lra.
Qed.
