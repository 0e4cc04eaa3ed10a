(** Electrostatic runs as the user sees them. *)
From Coq Require Import ZArith Reals Lia Lra String List Bool.
From Verif Require Import Base.Prelude Base.ZSum Model.Af Model.Petsc Model.Config Model.Fft Model.Fvm Model.Em
  Model.Moments Model.Splitting Model.Timestep Model.Solver Spec.Domain Spec.Lattice Spec.FvmProblem Spec.FvmRun
  Spec.Yee Spec.EmRun Spec.Waves Spec.MomentSpec Spec.Clock Spec.SolverSpec Spec.VlasovMaxwell Spec.Slide Spec.Poisson
  Proofs.AfLemmas Proofs.PetscLemmas Proofs.ConvLemmas Proofs.FluxLemmas Proofs.FvmConserve
  Proofs.EmLemmas Proofs.EmStep Proofs.EmInit Proofs.PoissonKernel Proofs.Electrostatic
  Proofs.TimestepLemmas Proofs.MomentLemmas Proofs.PoissonLemmas Proofs.VlasovPoisson Proofs.Slide Proofs.PoissonRun Proofs.PoissonMomentum Proofs.PoissonSym.
Import ListNotations.
Local Open Scope R_scope.

Lemma all_zero n f : (forall i, (0 <= i < n)%Z -> f i = 0) -> zsum n f = 0.
Proof. intros H. rewrite (zsum_ext n f (fun _ => 0) H). apply zsum_zero. Qed.

Lemma cc_is_got P e : electrostatic P -> fst (get_fields (pf P) e) = cc_val e.
Proof. intros ES. unfold get_fields. rewrite (el_solver P ES). reflexivity. Qed.

Section Runs.
  Context (P : params) (k1 k2 : scheme).
  Let c := pc P.
  Let L := lay c.
  Context (W : wf_cfg c k1 k2) (PF : periodic_fvm c k1) (PM : plasma P) (ES : electrostatic P).
  Let handed s := view L (fst (get_fields (pf P) (fields s))).

  Lemma vp_fields_boxed bg h : boxed P bg -> forall t u C, boxed P C -> boxed P (vp_fields P k1 k2 bg t h u C).
  Proof using PF.
    intros B. induction h as [|(m&dt) h IH]; intros t u C BC; cbn [vp_fields]; auto.
    apply IH. apply (es_boxed P k1 PF). exact B.
  Qed.

  Lemma vp_program h s u : starts P s -> holds c (f_of s) u ->
    exists s', run_steps (solver_stepper P) h s = Ok (s', None) /\ time_elapsed s' = time_elapsed s + elapsed h
    /\ holds c (f_of s') (vp_run P k1 k2 (handed s) (time_elapsed s) h u)
    /\ same (handed s') (vp_fields P k1 k2 (handed s) (time_elapsed s) h u (handed s)).
  Proof using W PF PM ES.
    intros ST HU. unfold handed. destruct (vp_refines P k1 k2 W PF PM ES h s u ST HU) as (s'&R&T&H&F).
    fold c L in H, F. exists s'. rewrite !(cc_is_got P _ ES). split; [exact R|]. split; [exact T|]. split; [exact H|].
    destruct (grid_pos c k1 PF) as (G1&G2). apply shown_same; auto.
    intros n i j. apply (boxed_wrap P k1 PF). apply vp_fields_boxed; apply (boxed_view P k1 PF).
  Qed.

  (** The last step, from the state before it. *)
  Lemma vp_last h m dt : forall bg t u C, vp_fields P k1 k2 bg t (h ++ [(m, dt)]) u C
    = es_fields P bg (vp_half P k1 k2 bg (t + elapsed h) dt (vp_run P k1 k2 bg t h u)).
  Proof using.
    induction h as [|(m'&dt') h IH]; intros bg t u C; cbn [app vp_fields vp_run elapsed].
    - rewrite Rplus_0_r. reflexivity.
    - rewrite IH. rewrite Rplus_assoc. reflexivity.
  Qed.
  Lemma half_step_fields h m dt s u : starts P s -> holds c (f_of s) u ->
    exists r r', run_steps (solver_stepper P) h s = Ok (r, None) /\ run_steps (solver_stepper P) (h ++ [(m, dt)]) s = Ok (r', None)
    /\ exists v, holds c (f_of r) v
    /\ same (handed r') (es_fields P (handed s) (vp_half P k1 k2 (handed s) (time_elapsed r) dt v)).
  Proof using W PF PM ES.
    intros ST HU. destruct (vp_program h s u ST HU) as (r&R&T&H&_).
    destruct (vp_program (h ++ [(m, dt)]) s u ST HU) as (r'&R'&_&_&F').
    exists r, r'. split; [exact R|]. split; [exact R'|].
    exists (vp_run P k1 k2 (handed s) (time_elapsed s) h u). split; [exact H|]. rewrite T. rewrite vp_last in F'. exact F'.
  Qed.
End Runs.

(** ** The force of the solver's field on the charges that it was computed for *)
Lemma solver_no_force c rho s : electrostatic_ok c -> wf_em c s -> shaped (flay c) 1 1 (dmap asum1 rho) ->
  let L := flay c in let r := gval L (dmap asum1 rho) 0 0 in
  exists s', compute_electrostatic_fields c rho s = Ok s'
  /\ let E n := gval L (fst (get_fields c s')) n 0 in
     (forall i j, inb (gN1 L) i -> inb (gN2 L) j ->
        E 0%Z i j = field_of (gN1 L) (gN2 L) (coulomb1 (gN1 L) (gN2 L) (fdq1 c) (fdq2 c) (eps c)) r i j
        /\ E 1%Z i j = field_of (gN1 L) (gN2 L) (coulomb2 (gN1 L) (gN2 L) (fdq1 c) (fdq2 c) (eps c)) r i j)
     /\ zsum (gN1 L) (fun i => zsum (gN2 L) (fun j => r i j * E 0%Z i j)) = 0
     /\ zsum (gN1 L) (fun i => zsum (gN2 L) (fun j => r i j * E 1%Z i j)) = 0.
Proof.
  intros OK We SR L r. pose proof OK as (RG&G1&G2&Q1&Q2&FS&CS). pose proof RG as ((PL&PE)&_).
  pose proof PL as (T1&T2&P1&P2&PB).
  destruct (electrostatic_fields c rho s OK We SR) as (s'&R&_&_&V&_). fold L in V.
  destruct (one_rank c T1 T2 CS) as (B1&B2). fold L in B1, B2, G1, G2.
  assert (RK : rank_ok L 0 0) by (unfold rank_ok; rewrite B1, B2; cbn; lia).
  assert (N1 : (0 < gN1 L)%Z) by apply T1. assert (N2 : (0 < gN2 L)%Z) by apply T2.
  assert (PG : (0 < fN_g c)%Z) by (rewrite <- G1; apply P1).
  assert (DR : dims4 (asum1 (rho 0%nat 0%nat)) 1 1 (gN1 L + 2 * fN_g c) (gN2 L + 2 * fN_g c)).
  { destruct (SR 0%nat 0%nat RK) as (D0&D1&D2&D3). unfold dmap in D0, D1, D2, D3. fold L in D2, D3.
    unfold n1g, n2g, bsize in D2, D3. rewrite B1, G1 in D2. rewrite B2, G2 in D3. cbn [nth] in D2, D3. repeat split; auto. }
  assert (RH : forall i j, inb (gN1 L) i -> inb (gN2 L) j -> el (asum1 (rho 0%nat 0%nat)) 0 0 (fN_g c + i)%Z (fN_g c + j)%Z = r i j).
  { intros i j Hi Hj. unfold r. replace i with (off (blk1 L) 0 + i)%Z at 2 by (unfold off; cbn; lia).
    replace j with (off (blk2 L) 0 + j)%Z at 2 by (unfold off; cbn; lia).
    rewrite gval_interior; auto; [|apply T1|apply T2|unfold bsize; rewrite B1; exact Hi|unfold bsize; rewrite B2; exact Hj].
    unfold dmap. rewrite G1, G2. reflexivity. }
  exists s'. split; [exact R|]. intros E.
  assert (GE : fst (get_fields c s') = cc_val s') by (unfold get_fields; rewrite FS; reflexivity).
  assert (K : forall i j, inb (gN1 L) i -> inb (gN2 L) j ->
        E 0%Z i j = field_of (gN1 L) (gN2 L) (coulomb1 (gN1 L) (gN2 L) (fdq1 c) (fdq2 c) (eps c)) r i j
        /\ E 1%Z i j = field_of (gN1 L) (gN2 L) (coulomb2 (gN1 L) (gN2 L) (fdq1 c) (fdq2 c) (eps c)) r i j).
  { intros i j Hi Hj. unfold E. rewrite GE. destruct (V i j Hi Hj) as (V1&V2). rewrite V1, V2.
    destruct (fft_kernel (fN_g c) (gN1 L) (gN2 L) PG N1 N2 (fdq1 c) (fdq2 c) (eps c) Q1 Q2
                (proj1 (proj2 (proj2 RG))) _ DR i j Hi Hj) as (K1&K2).
    rewrite K1, K2. split; apply field_of_ext; intros; apply RH; auto. }
  split; [exact K|]. split.
  - rewrite <- (no_self_force (gN1 L) (gN2 L) (fdq1 c) (fdq2 c) (eps c) (fun i _ => wavenumber (gN1 L) (fdq1 c) i) r).
    apply zsum_ext; intros i Hi. apply zsum_ext; intros j Hj. f_equal. apply K; auto.
  - rewrite <- (no_self_force (gN1 L) (gN2 L) (fdq1 c) (fdq2 c) (eps c) (fun _ j => wavenumber (gN2 L) (fdq2 c) j) r).
    apply zsum_ext; intros i Hi. apply zsum_ext; intros j Hj. f_equal. apply K; auto.
Qed.

(** ** Momentum *)
Section Momenta.
  Context (P : params) (k1 : scheme) (mass : Z -> R).
  Let c := pc P.
  Let L := lay c.
  Context (W : wf_cfg c k1 FirstOrder) (PF : periodic_fvm c k1) (PM : plasma P) (ES : electrostatic P).
  Context (VP : velocity_periodic c) (CK : collisions_keep P mass) (CF : coulomb_force P mass).
  Context (DP : forall s, inb (N_species c) s -> nth (Z.to_nat s) (dp1 c) 0 <> 0 /\ nth (Z.to_nat s) (dp2 c) 0 <> 0).
  Let handed s := view L (fst (get_fields (pf P) (fields s))).

  Lemma flat_index a b m1 m2 m3 : inb (N_p1 c) m1 -> inb (N_p2 c) m2 -> inb (N_p3 c) m3 -> a = N_p1 c -> b = N_p2 c ->
    inb (N_p c) (m1 + a * (m2 + b * m3)).
  Proof using.
    intros A B C -> ->. unfold inb, N_p in *. set (y := (m2 + N_p2 c * m3)%Z).
    assert (0 <= y < N_p2 c * N_p3 c)%Z by (unfold y; nia). rewrite <- Z.mul_assoc. nia.
  Qed.
  Lemma total_same w (g u : gstate) : (forall x s i j, inb (N_p c) x -> inb (N_species c) s -> inb (gN1 L) i -> inb (gN2 L) j -> g x s i j = u x s i j) ->
    total_moment P mass w g = total_moment P mass w u.
  Proof using.
    intros Q. unfold total_moment, integral. fold c L. apply zsum_ext; intros i Hi. apply zsum_ext; intros j Hj. apply zsum_ext; intros sp Hs.
    f_equal. f_equal. cbn [species_grid mn1 mn2 mn3]. apply zsum_ext; intros i3 H3. apply zsum_ext; intros i2 H2. apply zsum_ext; intros i1 H1. f_equal.
    apply Q; auto. apply flat_index; auto.
  Qed.

  Lemma momentum_balance h s u : starts P s -> holds c (f_of s) u -> unmagnetised (handed s) ->
    exists s', run_steps (solver_stepper P) h s = Ok (s', None)
    /\ momentum1 P mass (gval L (f_of s')) = momentum1 P mass (gval L (f_of s))
         - vp_lost (loss1 P mass) P k1 FirstOrder (handed s) (time_elapsed s) h u
    /\ momentum2 P mass (gval L (f_of s')) = momentum2 P mass (gval L (f_of s))
         - vp_lost (loss2 P mass) P k1 FirstOrder (handed s) (time_elapsed s) h u.
  Proof using W PF PM ES VP CK CF DP.
    intros ST HU UB. destruct (vp_program P k1 FirstOrder W PF PM ES h s u ST HU) as (s'&R&_&(_&H)&_). fold c L in H. fold (handed s) in H.
    destruct (momentum_run P k1 FirstOrder W PF PM VP mass CK DP eq_refl CF (handed s) h UB (time_elapsed s) u) as (M1&M2).
    exists s'. split; [exact R|]. unfold momentum1, momentum2 in *. rewrite !(total_same _ _ _ H), !(total_same _ _ _ (proj2 HU)). auto.
  Qed.

  Lemma edges_still b t E u : empty_edges P b u -> let p := vm_problem P k1 FirstOrder t E in
    if b then loss1 P mass p u = 0 else loss2 P mass p u = 0.
  Proof using W.
    intros H p. pose proof W as (H1&H2&H3&_). unfold loss1, loss2, momentum_loss. fold c L.
    assert (N1 : M1 p = N_p1 c) by reflexivity. assert (N2 : M2 p = N_p2 c) by reflexivity. assert (N3 : M3 p = N_p3 c) by reflexivity.
    assert (UP : forall v (g : Z -> R) n, (0 < n)%Z -> g 0%Z = 0 -> g (n - 1)%Z = 0 -> flux FirstOrder v (periodic n g) 0 = 0).
    { intros v g n Hn g0 gn. unfold flux, upwind, cell_faces, periodic. cbn [fst snd].
      replace ((0 - 1) mod n)%Z with (n - 1)%Z by (replace (0 - 1)%Z with (n - 1 + (-1) * n)%Z by ring; rewrite Z.mod_add by lia; rewrite Z.mod_small by lia; ring).
      rewrite Z.mod_0_l by lia. rewrite g0, gn. destruct (Rlt_dec _ _); ring. }
    destruct b.
    - apply all_zero; intros i Hi. apply all_zero; intros j Hj. apply all_zero; intros sp Hs.
      unfold crossing1. rewrite (all_zero (M3 p)); [ring|]. intros i3 Hi3. apply all_zero; intros i2 Hi2.
      change (kp p) with FirstOrder. apply UP.
      + rewrite N1. exact H1.
      + unfold pidx. rewrite N1, N2. apply H; auto; fold c; unfold inb in *; try lia.
      + unfold pidx. rewrite N1, N2. apply H; auto; fold c; unfold inb in *; try lia.
    - apply all_zero; intros i Hi. apply all_zero; intros j Hj. apply all_zero; intros sp Hs.
      unfold crossing2. rewrite (all_zero (M3 p)); [ring|]. intros i3 Hi3. apply all_zero; intros i1 Hi1.
      change (kp p) with FirstOrder. apply UP.
      + rewrite N2. exact H2.
      + unfold pidx. rewrite N1, N2. apply H; auto; fold c; unfold inb in *; try lia.
      + unfold pidx. rewrite N1, N2. apply H; auto; fold c; unfold inb in *; try lia.
  Qed.
  Lemma confined_lossless b bg h : forall t u, vp_confined P b k1 FirstOrder bg t h u ->
    vp_lost (if b then loss1 P mass else loss2 P mass) P k1 FirstOrder bg t h u = 0.
  Proof using W.
    induction h as [|(m&dt) h IH]; intros t u H; cbn [vp_lost vp_confined] in *; [auto|]. destruct H as (E&H).
    rewrite (IH _ _ H). pose proof (edges_still b t (es_fields P bg (vp_half P k1 FirstOrder bg t dt u)) _ E) as X.
    cbv zeta in X. destruct b; rewrite X; ring.
  Qed.
  Lemma momentum_kept h s u : starts P s -> holds c (f_of s) u -> unmagnetised (handed s) ->
    exists s', run_steps (solver_stepper P) h s = Ok (s', None)
    /\ (vp_confined P true k1 FirstOrder (handed s) (time_elapsed s) h u ->
         momentum1 P mass (gval L (f_of s')) = momentum1 P mass (gval L (f_of s)))
    /\ (vp_confined P false k1 FirstOrder (handed s) (time_elapsed s) h u ->
         momentum2 P mass (gval L (f_of s')) = momentum2 P mass (gval L (f_of s))).
  Proof using W PF PM ES VP CK CF DP.
    intros ST HU UB. destruct (momentum_balance h s u ST HU UB) as (s'&R&M1&M2).
    exists s'. split; [exact R|]. split; intros VC; pose proof (confined_lossless _ _ h _ _ VC) as A; cbv iota in A.
    - rewrite A in M1. lra. - rewrite A in M2. lra.
  Qed.
End Momenta.
