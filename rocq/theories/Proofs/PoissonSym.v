(** Symmetries of electrostatic runs. *)
From Coq Require Import ZArith Reals Lia Lra String List Bool.
From Verif Require Import Base.Prelude Base.ZSum Base.Cplx Model.Af Model.Petsc Model.Config
  Model.Fvm Model.Em Model.Moments Model.Timestep Model.Solver Spec.Domain Spec.Lattice Spec.FvmProblem Spec.FvmRun
  Spec.Yee Spec.EmRun Spec.Waves Spec.MomentSpec Spec.Clock Spec.SolverSpec Spec.VlasovMaxwell Spec.Symmetry Spec.Slide Spec.Reflect Spec.Poisson
  Proofs.AfLemmas Proofs.PetscLemmas Proofs.ConvLemmas
  Proofs.FluxLemmas Proofs.FvmLemmas Proofs.FvmLemmas2 Proofs.FvmConserve Proofs.SymmetryMore Proofs.MomentLemmas Proofs.ChargeLemmas
  Proofs.EmLemmas Proofs.EmStep Proofs.EmGrids Proofs.EmInit Proofs.EmProps Proofs.VmProps
  Proofs.PoissonKernel Proofs.PoissonRun Proofs.ReflectFields Proofs.Slide Proofs.Reflect.
Import ListNotations.
Local Open Scope R_scope.

(** ** The kernel *)
Lemma signed_flip N j : (0 < N)%Z -> inb N j ->
  (signed_mode N ((- j) mod N) ^ 2 = signed_mode N j ^ 2)%Z.
Proof.
  intros HN (A&B). unfold signed_mode.
  destruct (Z.eq_dec j 0) as [->|NZ]; [rewrite Z.mod_0_l by lia; reflexivity|].
  replace ((- j) mod N)%Z with (N - j)%Z.
  2:{ rewrite <- (Z_mod_plus_full (- j) 1). rewrite Z.mod_small; lia. }
  repeat match goal with |- context[(?a <? ?b)%Z] => destruct (Z.ltb_spec a b) | |- context[(?a <=? ?b)%Z] => destruct (Z.leb_spec a b) end; nia.
Qed.

Lemma zsum_neg n F : (0 < n)%Z -> zsum n (fun j => F ((- j) mod n)%Z) = zsum n F.
Proof.
  intros H. rewrite <- (zsum_rev n (fun j => F ((- j) mod n)%Z)) by lia.
  transitivity (zsum n (fun i => F ((i + 1) mod n)%Z)); [|apply zsum_shift; auto].
  apply zsum_ext; intros i _. f_equal. rewrite <- (Z_mod_plus_full (- (n - 1 - i)) 1). f_equal. lia.
Qed.

Section Parity.
  Context (N1 N2 : Z) (P1 : (0 < N1)%Z) (P2 : (0 < N2)%Z) (dq1 dq2 eps : R).
  Lemma neg_zero n i : (0 < n)%Z -> inb n i -> (((- i) mod n =? 0) = (i =? 0))%Z.
  Proof using.
    intros H (A&B). destruct (Z.eqb_spec i 0) as [->|NZ]; [rewrite Z.mod_0_l by lia; reflexivity|].
    replace ((- i) mod n)%Z with (n - i)%Z; [lia|]. rewrite <- (Z_mod_plus_full (- i) 1). rewrite Z.mod_small; lia.
  Qed.
  Lemma wave_flip n dq i : (0 < n)%Z -> inb n i -> wavenumber n dq ((- i) mod n) ^ 2 = wavenumber n dq i ^ 2.
  Proof using.
    intros H Hi. unfold wavenumber. pose proof (signed_flip n i H Hi) as Q. apply (f_equal IZR) in Q.
    change 2%Z with (Z.of_nat 2) in Q. rewrite <- !pow_IZR in Q. unfold Rdiv. rewrite !Rpow_mult_distr, Q. reflexivity.
  Qed.
  Lemma turns (x : R) i m n : (0 < n)%Z -> exists k : Z, 2 * PI * (x + IZR ((- i) mod n) * IZR m / IZR n) = 2 * PI * (x + IZR (- i) * IZR m / IZR n) + 2 * PI * IZR k.
  Proof using.
    intros H. exists (- ((- i) / n) * m)%Z. rewrite Z.mod_eq by lia. generalize ((- i) / n)%Z as q; intros q.
    rewrite minus_IZR, !mult_IZR, !opp_IZR. field. apply not_0_IZR; lia.
  Qed.

  Lemma coulomb_even2 kk m n : (forall i j, inb N1 i -> inb N2 j -> kk i ((- j) mod N2)%Z = kk i j) ->
    coulomb N1 N2 dq1 dq2 eps kk m (- n) = coulomb N1 N2 dq1 dq2 eps kk m n.
  Proof using P1 P2.
    intros HK. unfold coulomb. f_equal. apply zsum_ext; intros i Hi.
    rewrite <- (zsum_neg N2) by auto. apply zsum_ext; intros j Hj. rewrite neg_zero by auto.
    destruct ((i =? 0) && (j =? 0))%Z%bool; auto. rewrite HK, wave_flip by auto. f_equal.
    destruct (turns (IZR i * IZR m / IZR N1) j (- n) N2 P2) as (k&Ek). rewrite Ek, sin_turns. f_equal.
    rewrite !opp_IZR. unfold Rdiv. ring.
  Qed.
  Lemma coulomb_even1 kk m n : (forall i j, inb N1 i -> inb N2 j -> kk ((- i) mod N1)%Z j = kk i j) ->
    coulomb N1 N2 dq1 dq2 eps kk (- m) n = coulomb N1 N2 dq1 dq2 eps kk m n.
  Proof using P1 P2.
    intros HK. unfold coulomb. f_equal. rewrite <- (zsum_neg N1) by auto. apply zsum_ext; intros i Hi.
    apply zsum_ext; intros j Hj. rewrite neg_zero by auto.
    destruct ((i =? 0) && (j =? 0))%Z%bool; auto. rewrite HK, wave_flip by auto. f_equal.
    destruct (turns (IZR j * IZR n / IZR N2) i (- m) N1 P1) as (k&Ek).
    rewrite (Rplus_comm (IZR ((- i) mod N1) * IZR (- m) / IZR N1)), Ek, sin_turns. f_equal.
    rewrite !opp_IZR. unfold Rdiv. ring.
  Qed.

  Lemma coulomb1_parity m n (b1 b2 : bool) : coulomb1 N1 N2 dq1 dq2 eps (if b1 then - m else m)%Z (if b2 then - n else n)%Z
    = turn b1 (coulomb1 N1 N2 dq1 dq2 eps m n).
  Proof using P1 P2.
    unfold coulomb1. set (K := coulomb N1 N2 dq1 dq2 eps (fun i _ => wavenumber N1 dq1 i)).
    assert (E : forall a b, K a (- b)%Z = K a b) by (intros; apply coulomb_even2; auto).
    assert (O : forall a b, K (- a)%Z b = - K a b).
    { intros a b. rewrite <- (E (- a)%Z b). unfold K. apply coulomb_odd; auto. }
    destruct b1, b2; cbn [turn]; rewrite ?O, ?E; reflexivity.
  Qed.
  Lemma coulomb2_parity m n (b1 b2 : bool) : coulomb2 N1 N2 dq1 dq2 eps (if b1 then - m else m)%Z (if b2 then - n else n)%Z
    = turn b2 (coulomb2 N1 N2 dq1 dq2 eps m n).
  Proof using P1 P2.
    unfold coulomb2. set (K := coulomb N1 N2 dq1 dq2 eps (fun _ j => wavenumber N2 dq2 j)).
    assert (E : forall a b, K (- a)%Z b = K a b) by (intros; apply coulomb_even1; auto).
    assert (O : forall a b, K a (- b)%Z = - K a b).
    { intros a b. rewrite <- (E a (- b)%Z). unfold K. apply coulomb_odd; auto. }
    destruct b1, b2; cbn [turn]; rewrite ?E, ?O; reflexivity.
  Qed.

  (** Fields of moved and of reflected charges. *)
  Context (K : Z -> Z -> R) (KP : forall m n, K (m mod N1)%Z (n mod N2)%Z = K m n).
  Lemma KP1 m m' n n' : (m mod N1 = m' mod N1)%Z -> (n mod N2 = n' mod N2)%Z -> K m n = K m' n'.
  Proof using KP. intros A B. rewrite <- KP, A, B. apply KP. Qed.
  Lemma field_moved rho rho' d1 d2 : (forall a b, inb N1 a -> inb N2 b -> rho' a b = rho ((a - d1) mod N1)%Z ((b - d2) mod N2)%Z) ->
    forall i j, field_of N1 N2 K rho' i j = field_of N1 N2 K rho (i - d1)%Z (j - d2)%Z.
  Proof using P1 P2 KP.
    intros H i j. unfold field_of.
    rewrite <- (zsum_shift_sub N1 (fun a => zsum N2 (fun b => K (i - d1 - a)%Z (j - d2 - b)%Z * rho a b)) d1) by auto.
    apply zsum_ext; intros a Ha.
    rewrite <- (zsum_shift_sub N2 (fun b => K (i - d1 - (a - d1) mod N1)%Z (j - d2 - b)%Z * rho ((a - d1) mod N1)%Z b) d2) by auto.
    apply zsum_ext; intros b Hb. rewrite H by auto. f_equal. apply KP1.
    - rewrite Zminus_mod_idemp_r. f_equal. ring.
    - rewrite Zminus_mod_idemp_r. f_equal. ring.
  Qed.
  Lemma field_mirrored (b : bool) rho rho' (b1 b2 : bool) :
    (forall m n, K (if b1 then - m else m)%Z (if b2 then - n else n)%Z = turn b (K m n)) ->
    (forall x y, inb N1 x -> inb N2 y -> rho' x y = rho (flip b1 N1 x) (flip b2 N2 y)) ->
    forall i j, field_of N1 N2 K rho' i j = turn b (field_of N1 N2 K rho (flip b1 N1 i) (flip b2 N2 j)).
  Proof using P1 P2 KP.
    intros HK H i j. unfold field_of.
    transitivity (zsum N1 (fun x => zsum N2 (fun y => turn b (K (flip b1 N1 i - x)%Z (flip b2 N2 j - y)%Z * rho x y)))).
    - rewrite <- (sum_flip b1 N1 (fun x => zsum N2 (fun y => turn b (K (flip b1 N1 i - x)%Z (flip b2 N2 j - y)%Z * rho x y)))) by lia.
      apply zsum_ext; intros x Hx.
      rewrite <- (sum_flip b2 N2 (fun y => turn b (K (flip b1 N1 i - flip b1 N1 x)%Z (flip b2 N2 j - y)%Z * rho (flip b1 N1 x) y))) by lia.
      apply zsum_ext; intros y Hy. rewrite H by auto.
      assert (E : K (i - x)%Z (j - y)%Z = turn b (K (flip b1 N1 i - flip b1 N1 x)%Z (flip b2 N2 j - flip b2 N2 y)%Z)).
      { rewrite <- HK. f_equal.
        - unfold flip. destruct b1; ring.
        - unfold flip. destruct b2; ring. }
      rewrite E. destruct b; cbn [turn]; ring.
    - destruct b; cbn [turn]; auto. rewrite <- zsum_opp. apply zsum_ext; intros. apply zsum_opp.
  Qed.
End Parity.

Lemma shown_same L F C : (0 < gN1 L)%Z -> (0 < gN2 L)%Z -> shown L F C ->
  (forall n i j, components C n (i mod gN1 L)%Z (j mod gN2 L)%Z = components C n i j) -> same (view L F) C.
Proof.
  intros G1 G2 H B.
  assert (Q : forall n i j, inb 6 n -> gper L F n 0 i j = components C n i j).
  { intros n i j Hn. unfold gper. rewrite H; auto; apply Z.mod_pos_bound; auto. }
  repeat split; intros i j; cbn [view Yee.E1 Yee.E2 Yee.E3 Yee.B1 Yee.B2 Yee.B3]; rewrite Q by (unfold inb; lia); reflexivity.
Qed.

Section Move.
  Context (P : params) (k1 k2 : scheme).
  Let c := pc P.
  Let L := lay c.
  Context (W : wf_cfg c k1 k2) (PF : periodic_fvm c k1).
  Let K1 := coulomb1 (gN1 L) (gN2 L) (fdq1 (pf P)) (fdq2 (pf P)) (eps (pf P)).
  Let K2 := coulomb2 (gN1 L) (gN2 L) (fdq1 (pf P)) (fdq2 (pf P)) (eps (pf P)).

  Lemma per1 : forall m n, K1 (m mod gN1 L)%Z (n mod gN2 L)%Z = K1 m n.
  Proof using PF. destruct (grid_pos c k1 PF). intros. apply coulomb_mod; auto. Qed.
  Lemma per2 : forall m n, K2 (m mod gN1 L)%Z (n mod gN2 L)%Z = K2 m n.
  Proof using PF. destruct (grid_pos c k1 PF). intros. apply coulomb_mod; auto. Qed.

  Lemma density_moved d1 d2 u u' : Slide.Cells P u' (moved c d1 d2 u) -> forall a b, inb (gN1 L) a -> inb (gN2 L) b ->
    charge_density P u' a b = charge_density P u ((a - d1) mod gN1 L)%Z ((b - d2) mod gN2 L)%Z.
  Proof using W. intros H a b Ha Hb. unfold charge_density. apply charge_moment_ext. intros x s Hx Hs. rewrite H by auto. reflexivity. Qed.

  Lemma es_slid d1 d2 bg bg' u u' : same bg' (slide d1 d2 bg) -> Slide.Cells P u' (moved c d1 d2 u) ->
    same (es_fields P bg' u') (slide d1 d2 (es_fields P bg u)).
  Proof using W PF.
    intros (_&_&A3&A4&A5&A6) H. destruct (grid_pos c k1 PF) as (G1&G2).
    repeat split; intros i j; cbn [es_fields slide Yee.E1 Yee.E2 Yee.E3 Yee.B1 Yee.B2 Yee.B3]; try apply A3; try apply A4; try apply A5; try apply A6; unfold slid.
    - apply field_moved; auto; [apply per1|]. apply density_moved; auto.
    - apply field_moved; auto; [apply per2|]. apply density_moved; auto.
  Qed.

  Lemma field_box K rho : (forall m n, K (m mod gN1 L)%Z (n mod gN2 L)%Z = K m n) -> forall i j,
    field_of (gN1 L) (gN2 L) K rho (i - gN1 L)%Z (j - 0)%Z = field_of (gN1 L) (gN2 L) K rho i j
    /\ field_of (gN1 L) (gN2 L) K rho (i - 0)%Z (j - gN2 L)%Z = field_of (gN1 L) (gN2 L) K rho i j.
  Proof using PF.
    intros KP i j. unfold field_of.
    split; apply zsum_ext; intros a _; apply zsum_ext; intros b _; f_equal; apply (KP1 _ _ K KP); try (f_equal; lia).
    - replace (i - gN1 L - a)%Z with (i - a + (-1) * gN1 L)%Z by ring. apply Z_mod_plus_full.
    - replace (j - gN2 L - b)%Z with (j - b + (-1) * gN2 L)%Z by ring. apply Z_mod_plus_full.
  Qed.
  Lemma es_boxed bg u : boxed P bg -> boxed P (es_fields P bg u).
  Proof using PF.
    intros ((_&_&A3&A4&A5&A6)&(_&_&B3&B4&B5&B6)).
    split; repeat split; intros i j; cbn [es_fields slide Yee.E1 Yee.E2 Yee.E3 Yee.B1 Yee.B2 Yee.B3];
      try apply A3; try apply A4; try apply A5; try apply A6; try apply B3; try apply B4; try apply B5; try apply B6; unfold slid;
      apply field_box; (apply per1 || apply per2).
  Qed.

  Lemma es_any bg bg' u u' : Yee.E3 bg = Yee.E3 bg' -> Yee.B1 bg = Yee.B1 bg' -> Yee.B2 bg = Yee.B2 bg' -> Yee.B3 bg = Yee.B3 bg' ->
    u = u' -> es_fields P bg u = es_fields P bg' u'.
  Proof using. unfold es_fields. intros -> -> -> -> ->. reflexivity. Qed.

  Section Slides.
  Context (VU : velocity_uniform c) (SE : same_everywhere c) (d1 d2 : Z) (bg bg' : lattice) (BB : boxed P bg) (BM : same bg' (slide d1 d2 bg)).
  Lemma half_slid t dt u u' : Slide.Cells P u' (moved c d1 d2 u) ->
    Slide.Cells P (vp_half P k1 k2 bg' t dt u') (moved c d1 d2 (vp_half P k1 k2 bg t dt u)).
  Proof using W PF VU SE BB BM.
    intros H. apply (half_moved P k1 k2 W PF VU SE t dt d1 d2 (es_fields P bg u) (es_fields P bg' u') u u'); auto.
    - apply es_boxed; auto. - apply es_slid; auto.
  Qed.
  Lemma step_slid t dt u u' : Slide.Cells P u' (moved c d1 d2 u) ->
    Slide.Cells P (vp_step P k1 k2 bg' t dt u') (moved c d1 d2 (vp_step P k1 k2 bg t dt u)).
  Proof using W PF VU SE BB BM.
    intros H x s i j Hx Hs Hi Hj. pose proof (half_slid t dt u u' H) as Hh.
    set (uh := vp_half P k1 k2 bg t dt u) in *. set (uh' := vp_half P k1 k2 bg' t dt u') in *.
    assert (MF := moved_components P k1 PF d1 d2 (es_fields P bg uh) (es_fields P bg' uh') (es_boxed bg uh BB) (es_slid d1 d2 bg bg' uh uh' BM Hh)).
    pose proof (rhs_moved c k1 k2 d1 d2 W PF VU SE t _ _ uh uh' MF Hh x s i j Hx Hs Hi Hj) as Q.
    change (vp_step P k1 k2 bg' t dt u' x s i j) with (u' x s i j + dt * rhs (vm_problem P k1 k2 t (es_fields P bg' uh')) uh' x s i j).
    unfold vm_problem. fold c. rewrite Q, H by auto. reflexivity.
  Qed.
  Lemma run_slid h : forall t u u' C C', Slide.Cells P u' (moved c d1 d2 u) -> boxed P C -> same C' (slide d1 d2 C) ->
    Slide.Cells P (vp_run P k1 k2 bg' t h u') (moved c d1 d2 (vp_run P k1 k2 bg t h u))
    /\ boxed P (vp_fields P k1 k2 bg t h u C)
    /\ same (vp_fields P k1 k2 bg' t h u' C') (slide d1 d2 (vp_fields P k1 k2 bg t h u C)).
  Proof using W PF VU SE BB BM.
    induction h as [|(m&dt) h IH]; intros t u u' C C' H BC HC; cbn [vp_run vp_fields]; auto.
    apply IH.
    - apply step_slid; auto.
    - apply es_boxed; auto.
    - apply es_slid; auto. apply half_slid; auto.
  Qed.
  End Slides.
End Move.

Lemma boxed_slide P d1 d2 Y : boxed P Y -> boxed P (slide d1 d2 Y).
Proof.
  intros ((A1&A2&A3&A4&A5&A6)&(B1&B2&B3&B4&B5&B6)).
  assert (Q : forall u : grid, ((forall i j, slid (gN1 (lay (pc P))) 0 u i j = u i j) -> forall i j, slid (gN1 (lay (pc P))) 0 (slid d1 d2 u) i j = slid d1 d2 u i j)
     /\ ((forall i j, slid 0 (gN2 (lay (pc P))) u i j = u i j) -> forall i j, slid 0 (gN2 (lay (pc P))) (slid d1 d2 u) i j = slid d1 d2 u i j)).
  { intros u. unfold slid. split; intros H i j; rewrite <- (H (i - d1)%Z (j - d2)%Z); f_equal; ring. }
  split; repeat split; cbn [slide Yee.E1 Yee.E2 Yee.E3 Yee.B1 Yee.B2 Yee.B3] in *; apply Q; auto.
Qed.
Lemma boxed_same P Y Z : same Y Z -> boxed P Z -> boxed P Y.
Proof.
  intros S (A&B). split; (eapply same_trans; [apply slide_same; exact S|]); (eapply same_trans; [|apply same_sym; exact S]); auto.
Qed.
Lemma with_electrostatic P c' : electrostatic P -> electrostatic (with_fields_from P c').
Proof. intros [a b d e f g i j]. constructor; auto. Qed.
Lemma with_half P c' k1 k2 bg t dt u : vp_half (with_fields_from P c') k1 k2 bg t dt u = vp_half P k1 k2 bg t dt u.
Proof. reflexivity. Qed.
Lemma with_run P c' k1 k2 bg h : forall t u, vp_run (with_fields_from P c') k1 k2 bg t h u = vp_run P k1 k2 bg t h u.
Proof. induction h as [|(m&dt) h IH]; intros; [reflexivity|]. cbn [vp_run]. rewrite IH. reflexivity. Qed.
Lemma with_fields P c' k1 k2 bg h : forall t u C, vp_fields (with_fields_from P c') k1 k2 bg t h u C = vp_fields P k1 k2 bg t h u C.
Proof. induction h as [|(m&dt) h IH]; intros; [reflexivity|]. cbn [vp_fields]. rewrite IH. reflexivity. Qed.

(** ** The solver *)
Lemma es_translation P c' k1 k2 d1 d2 h s s2 : let P' := with_fields_from P c' in
  wf_cfg (pc P) k1 k2 -> periodic_fvm (pc P) k1 -> plasma P -> electrostatic P ->
  velocity_uniform (pc P) -> same_everywhere (pc P) ->
  starts P s -> starts P' s2 -> time_elapsed s2 = time_elapsed s -> es_moved P d1 d2 s s2 ->
  exists r r2, run_steps (solver_stepper P) h s = Ok (r, None) /\ run_steps (solver_stepper P') h s2 = Ok (r2, None)
  /\ es_moved P d1 d2 r r2.
Proof.
  intros P' W PF PM ES VU SE ST ST2 T (MF&MC).
  assert (PM' : plasma P') by (destruct PM; constructor; auto).
  destruct (grid_pos (pc P) k1 PF) as (G1&G2).
  set (L := lay (pc P)) in *. set (u := gval L (f_of s)). set (u2 := gval L (f_of s2)).
  set (C := view L (cc_val (fields s))) in *. set (C2 := view L (cc_val (fields s2))) in *.
  assert (HU : holds (pc P) (f_of s) u) by (split; [apply ST|reflexivity]).
  assert (HU2 : holds (pc P') (f_of s2) u2) by (split; [apply ST2|reflexivity]).
  destruct (vp_refines P k1 k2 W PF PM ES h s u ST HU) as (r&R&_&(_&H)&F).
  destruct (vp_refines P' k1 k2 W PF PM' (with_electrostatic P c' ES) h s2 u2 ST2 HU2) as (r2&R2&_&(_&H2)&F2).
  change (pc P') with (pc P) in *. fold L in H, F, H2, F2. fold C in H, F. fold C2 in H2, F2. unfold P' in H2, F2. rewrite with_run in H2. rewrite with_fields in F2. rewrite T in H2, F2.
  exists r, r2. split; [exact R|]. split; [exact R2|].
  assert (BC : boxed P C) by (apply (boxed_view P k1 PF)).
  destruct (run_slid P k1 k2 W PF VU SE d1 d2 C C2 BC MC h (time_elapsed s) u u2 C C2 MF BC MC) as (A&B&D).
  split.
  - intros x sp i j Hx Hs Hi Hj. fold L in Hi, Hj |- *. rewrite H2 by auto. rewrite (A x sp i j Hx Hs Hi Hj). unfold moved. fold L.
    symmetry. apply H; auto; apply Z.mod_pos_bound; auto.
  - fold L. eapply same_trans; [apply (shown_same L _ _ G1 G2 F2)|].
    + intros n i j. apply (boxed_wrap P k1 PF). eapply boxed_same; [exact D|]. apply boxed_slide; exact B.
    + eapply same_trans; [exact D|]. apply slide_same, same_sym. apply (shown_same L _ _ G1 G2 F).
      intros n i j. apply (boxed_wrap P k1 PF). exact B.
Qed.

Section Box.
  Context (P : params) (b1 b2 : bool).
  Let L := lay (pc P).
  Lemma boxed_mirror Y : boxed P Y -> boxed P (mirror_centre (gN1 L) (gN2 L) b1 b2 Y).
  Proof using.
    intros ((A1&A2&A3&A4&A5&A6)&(B1&B2&B3&B4&B5&B6)).
    assert (Q : forall (b : bool) (u : grid), ((forall i j, slid (gN1 L) 0 u i j = u i j) -> forall i j,
         slid (gN1 L) 0 (fun i j => turn b (u (flip b1 (gN1 L) i) (flip b2 (gN2 L) j))) i j = turn b (u (flip b1 (gN1 L) i) (flip b2 (gN2 L) j)))
       /\ ((forall i j, slid 0 (gN2 L) u i j = u i j) -> forall i j,
         slid 0 (gN2 L) (fun i j => turn b (u (flip b1 (gN1 L) i) (flip b2 (gN2 L) j))) i j = turn b (u (flip b1 (gN1 L) i) (flip b2 (gN2 L) j)))).
    { intros b u. unfold slid, flip. split; intros H i j; f_equal.
      - destruct b1.
        + rewrite <- (H (gN1 L - 1 - (i - gN1 L))%Z). f_equal; [ring|]. destruct b2; ring.
        + rewrite <- (H i). f_equal. destruct b2; ring.
      - destruct b2.
        + rewrite <- (H _ (gN2 L - 1 - (j - gN2 L))%Z). f_equal; [|ring]. destruct b1; ring.
        + rewrite <- (H _ j). f_equal. destruct b1; ring. }
    cbn [slide Yee.E1 Yee.E2 Yee.E3 Yee.B1 Yee.B2 Yee.B3] in A1, A2, A3, A4, A5, A6, B1, B2, B3, B4, B5, B6.
    split; repeat split; cbn [mirror_centre slide Yee.E1 Yee.E2 Yee.E3 Yee.B1 Yee.B2 Yee.B3]; apply Q; assumption.
  Qed.
End Box.

(** ** Mirror images *)
Section Mirror.
  Context (P : params) (k1 k2 : scheme) (b1 b2 : bool).
  Let c := pc P.
  Let L := lay c.
  Context (W : wf_cfg c k1 k2) (PF : periodic_fvm c k1) (BL : ballistic P) (SE : same_everywhere c) (ML : mirror_law c b1 b2).
  Let mir := reflection c b1 b2 (opposite c b1 b2).
  Let mc := mirror_centre (gN1 L) (gN2 L) b1 b2.

  Lemma density_mirrored u u' : Reflect.Cells P u' (mir u) -> forall a b, inb (gN1 L) a -> inb (gN2 L) b ->
    charge_density P u' a b = charge_density P u (flip b1 (gN1 L) a) (flip b2 (gN2 L) b).
  Proof using W.
    intros H a b Ha Hb. unfold charge_density. apply (charge_opp P k1 k2 b1 b2 W). intros x s Hx Hs.
    rewrite H by auto. reflexivity.
  Qed.
  Lemma es_mirror bg bg' u u' : same bg' (mc bg) -> Reflect.Cells P u' (mir u) ->
    same (es_fields P bg' u') (mc (es_fields P bg u)).
  Proof using W PF.
    intros (_&_&A3&A4&A5&A6) H. destruct (grid_pos c k1 PF) as (G1&G2).
    unfold mc in *. repeat split; intros i j; cbn [es_fields mirror_centre Yee.E1 Yee.E2 Yee.E3 Yee.B1 Yee.B2 Yee.B3] in *;
      try apply A3; try apply A4; try apply A5; try apply A6.
    - apply field_mirrored; auto. + apply (per1 P k1 PF). + intros; apply coulomb1_parity; auto. + apply density_mirrored; auto.
    - apply field_mirrored; auto. + apply (per2 P k1 PF). + intros; apply coulomb2_parity; auto. + apply density_mirrored; auto.
  Qed.

  Context (bg bg' : lattice) (BM : same bg' (mc bg)).
  Lemma half_mirror t dt u u' : Reflect.Cells P u' (mir u) ->
    Reflect.Cells P (vp_half P k1 k2 bg' t dt u') (mir (vp_half P k1 k2 bg t dt u)).
  Proof using W PF BL SE ML BM.
    intros H x s i j Hx Hs Hi Hj. unfold vp_half.
    rewrite (rhs_opp P k1 k2 b1 b2 W PF BL SE ML t _ _ (es_mirror bg bg' u u' BM H) u u' H x s i j Hx Hs Hi Hj).
    rewrite H by auto. reflexivity.
  Qed.
  Lemma step_mirror t dt u u' : Reflect.Cells P u' (mir u) ->
    Reflect.Cells P (vp_step P k1 k2 bg' t dt u') (mir (vp_step P k1 k2 bg t dt u)).
  Proof using W PF BL SE ML BM.
    intros H x s i j Hx Hs Hi Hj. pose proof (half_mirror t dt u u' H) as Hh. unfold vp_step.
    rewrite (rhs_opp P k1 k2 b1 b2 W PF BL SE ML t _ _ (es_mirror bg bg' _ _ BM Hh) _ _ Hh x s i j Hx Hs Hi Hj).
    rewrite H by auto. reflexivity.
  Qed.
  Lemma run_mirror h : forall t u u' C C', Reflect.Cells P u' (mir u) -> boxed P bg -> boxed P C -> same C' (mc C) ->
    Reflect.Cells P (vp_run P k1 k2 bg' t h u') (mir (vp_run P k1 k2 bg t h u))
    /\ boxed P (vp_fields P k1 k2 bg t h u C)
    /\ same (vp_fields P k1 k2 bg' t h u' C') (mc (vp_fields P k1 k2 bg t h u C)).
  Proof using W PF BL SE ML BM.
    induction h as [|(m&dt) h IH]; intros t u u' C C' H BB BC HC; cbn [vp_run vp_fields]; auto.
    apply IH; auto.
    - apply step_mirror; auto.
    - apply (es_boxed P k1 PF); auto.
    - apply es_mirror; auto. apply half_mirror; auto.
  Qed.
End Mirror.

Lemma es_mirror_images P c' k1 k2 b1 b2 h s s2 : let P' := with_fields_from P c' in
  wf_cfg (pc P) k1 k2 -> periodic_fvm (pc P) k1 -> plasma P -> electrostatic P ->
  ballistic P -> same_everywhere (pc P) -> mirror_law (pc P) b1 b2 ->
  starts P s -> starts P' s2 -> time_elapsed s2 = time_elapsed s -> es_mirrored P b1 b2 s s2 ->
  exists r r2, run_steps (solver_stepper P) h s = Ok (r, None) /\ run_steps (solver_stepper P') h s2 = Ok (r2, None)
  /\ es_mirrored P b1 b2 r r2.
Proof.
  intros P' W PF PM ES BL SE ML ST ST2 T (MF&MC).
  assert (PM' : plasma P') by (destruct PM; constructor; auto).
  destruct (grid_pos (pc P) k1 PF) as (G1&G2).
  set (L := lay (pc P)) in *. set (u := gval L (f_of s)). set (u2 := gval L (f_of s2)).
  set (C := view L (cc_val (fields s))) in *. set (C2 := view L (cc_val (fields s2))) in *.
  assert (HU : holds (pc P) (f_of s) u) by (split; [apply ST|reflexivity]).
  assert (HU2 : holds (pc P') (f_of s2) u2) by (split; [apply ST2|reflexivity]).
  destruct (vp_refines P k1 k2 W PF PM ES h s u ST HU) as (r&R&_&(_&H)&F).
  destruct (vp_refines P' k1 k2 W PF PM' (with_electrostatic P c' ES) h s2 u2 ST2 HU2) as (r2&R2&_&(_&H2)&F2).
  change (pc P') with (pc P) in *. fold L in H, F, H2, F2. fold C in H, F. fold C2 in H2, F2. unfold P' in H2, F2. rewrite with_run in H2. rewrite with_fields in F2. rewrite T in H2, F2.
  exists r, r2. split; [exact R|]. split; [exact R2|].
  assert (BC : boxed P C) by (apply (boxed_view P k1 PF)).
  destruct (run_mirror P k1 k2 b1 b2 W PF BL SE ML C C2 MC h (time_elapsed s) u u2 C C2 MF BC BC MC) as (A&B&D).
  split.
  - intros x sp i j Hx Hs Hi Hj. fold L in Hi, Hj |- *. rewrite H2 by auto. rewrite (A x sp i j Hx Hs Hi Hj). unfold reflection. fold L.
    symmetry. apply H; auto; try (apply flip_inb; auto). apply (opp_spec P k1 k2 b1 b2 W x Hx).
  - fold L. eapply same_trans; [apply (shown_same L _ _ G1 G2 F2)|].
    + intros n i j. apply (boxed_wrap P k1 PF). eapply boxed_same; [exact D|]. apply boxed_mirror; auto.
    + eapply same_trans; [exact D|]. apply mirror_c_same, same_sym. apply (shown_same L _ _ G1 G2 F).
      intros n i j. apply (boxed_wrap P k1 PF). exact B.
Qed.

(** ** A uniform plasma stays at rest *)
Section Rest.
  Context (P : params) (k1 k2 : scheme).
  Let c := pc P.
  Let L := lay c.
  Context (W : wf_cfg c k1 k2) (PF : periodic_fvm c k1) (PM : plasma P) (ES : electrostatic P).
  Context (VU : velocity_uniform c) (SO : source_enabled c = false) (FD : field_driven c) (a : Z -> Z -> R).
  Let uniform (u : gstate) := forall x s i j, inb (N_p c) x -> inb (N_species c) s -> inb (gN1 L) i -> inb (gN2 L) j -> u x s i j = a x s.

  Lemma uniform_es bg u : uniform u -> Yee.E3 bg = (fun _ _ => 0) \/ (forall i j, Yee.E3 bg i j = 0) -> unmagnetised bg -> no_fields (es_fields P bg u).
  Proof using W PF.
    intros H E3 (U1&U2&U3). destruct (grid_pos c k1 PF) as (G1&G2).
    assert (Q : forall kk i j, field_of (gN1 L) (gN2 L) (coulomb (gN1 L) (gN2 L) (fdq1 (pf P)) (fdq2 (pf P)) (eps (pf P)) kk) (charge_density P u) i j = 0).
    { intros kk i j. rewrite (field_of_ext _ _ _ _ (fun _ _ => charge_moment P (fun _ _ _ => 1) a)).
      - unfold field_of. rewrite (zsum_ext (gN1 L) _ (fun x => zsum (gN2 L) (fun y => coulomb (gN1 L) (gN2 L) (fdq1 (pf P)) (fdq2 (pf P)) (eps (pf P)) kk (i - x) (j - y))
          * charge_moment P (fun _ _ _ => 1) a)) by (intros; apply zsum_scal_r).
        rewrite zsum_scal_r. rewrite (coulomb_total (gN1 L) (gN2 L)) by auto. ring.
      - intros x y Hx Hy. unfold charge_density. apply charge_moment_ext. intros; apply H; auto. }
    unfold no_fields. repeat split; intros i j; cbn [es_fields Yee.E1 Yee.E2 Yee.E3 Yee.B1 Yee.B2 Yee.B3]; auto.
    - apply Q. - apply Q. - destruct E3 as [->|E3]; auto.
  Qed.

  Lemma rest_vp bg : (forall i j, Yee.E3 bg i j = 0) -> unmagnetised bg -> forall h t u C, uniform u -> no_fields C ->
    uniform (vp_run P k1 k2 bg t h u) /\ no_fields (vp_fields P k1 k2 bg t h u C).
  Proof using W PF VU SO FD.
    intros E3 UB. induction h as [|(m&dt) h IH]; intros t u C HU HC; cbn [vp_run vp_fields]; auto.
    assert (HH : uniform (vp_half P k1 k2 bg t dt u)).
    { intros x s i j Hx Hs Hi Hj. unfold vp_half. rewrite (rest_rhs P k1 k2 W PF VU SO FD a t); auto.
      - rewrite HU by auto. ring. - apply uniform_es; auto. }
    apply IH.
    - intros x s i j Hx Hs Hi Hj. unfold vp_step. rewrite (rest_rhs P k1 k2 W PF VU SO FD a t); auto.
      + rewrite HU by auto. ring. + apply uniform_es; auto.
    - apply uniform_es; auto.
  Qed.

  Lemma es_rest h s : starts P s -> holds c (f_of s) (fun x sp _ _ => a x sp) -> no_fields (view L (cc_val (fields s))) ->
    exists r, run_steps (solver_stepper P) h s = Ok (r, None) /\ holds c (f_of r) (fun x sp _ _ => a x sp)
    /\ no_fields (view L (cc_val (fields r))).
  Proof using W PF PM ES VU SO FD.
    intros ST HU NF. destruct (grid_pos c k1 PF) as (G1&G2).
    destruct (vp_refines P k1 k2 W PF PM ES h s _ ST HU) as (r&R&_&(SH&H)&F). fold c L in H, F.
    pose proof NF as (_&_&N3&N4&N5&N6).
    assert (UB : unmagnetised (view L (cc_val (fields s)))) by (split; [exact N4|]; split; [exact N5|exact N6]).
    destruct (rest_vp (view L (cc_val (fields s))) N3 UB h (time_elapsed s) (fun x sp _ _ => a x sp) (view L (cc_val (fields s)))) as (A&B).
    { intros x sp i j _ _ _ _. reflexivity. } { exact NF. }
    exists r. split; [exact R|]. split.
    - split; [exact SH|]. intros x sp i j Hx Hs Hi Hj. rewrite H by auto. apply A; auto.
    - eapply same_trans; [|exact B]. apply shown_same; auto.
      intros n i j. destruct B as (M1&M2&M3&M4&M5&M6). unfold components.
      rewrite !M1, !M2, !M3, !M4, !M5, !M6. reflexivity.
  Qed.
End Rest.
