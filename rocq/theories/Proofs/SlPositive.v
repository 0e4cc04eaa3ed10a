(** Bounds of semi-Lagrangian runs of free particles. *)
From Coq Require Import ZArith Reals Lra Lia Psatz String List Bool FunctionalExtensionality.
From Verif Require Import Base.Prelude Base.ZSum Model.Af Model.Grid Model.Petsc Model.Config
  Model.Timestep Model.Solver
  Spec.Lattice Spec.Domain Spec.FvmProblem Spec.FvmRun Spec.Clock Spec.Interp Spec.SlAccuracy
  Proofs.InterpLemmas Proofs.SemiLagProps Proofs.SlAccuracy.
Import ListNotations.
Local Open Scope R_scope.

Lemma zsum_term n f k : (forall i, (0 <= i < n)%Z -> 0 <= f i) -> (0 <= k < n)%Z -> f k <= zsum n f.
Proof.
  intros F K. assert (E : zsum n (fun i => if (i =? k)%Z then f k else 0) = f k).
  { rewrite (zsum_single n k) by (auto; intros i _ NE; apply Z.eqb_neq in NE; rewrite NE; reflexivity).
    rewrite Z.eqb_refl. reflexivity. }
  rewrite <- E. apply zsum_le; intros i Hi. destruct (Z.eqb_spec i k); [subst; lra|apply F, Hi].
Qed.
Lemma value_rms c u x s g1 g2 : inb (gN1 (lay c)) g1 -> inb (gN2 (lay c)) g2 ->
  Rabs (u x s g1 g2) <= sqrt (IZR (gN1 (lay c)) * IZR (gN2 (lay c))) * rms c u x s.
Proof.
  intros H1 H2. unfold inb in *. set (n1 := gN1 (lay c)) in *. set (n2 := gN2 (lay c)) in *.
  assert (K : 0 < IZR n1 * IZR n2) by (apply Rmult_lt_0_compat; apply IZR_lt; lia).
  unfold rms. fold n1 n2. rewrite <- sqrt_mult_alt by lra.
  set (S := zsum n1 (fun i => zsum n2 (fun j => u x s i j ^ 2))).
  replace (IZR n1 * IZR n2 * (S / (IZR n1 * IZR n2))) with S by (field; split; intros E; rewrite E in K; lra).
  rewrite <- sqrt_Rsqr_abs. apply sqrt_le_1_alt. rewrite Rsqr_pow2.
  eapply Rle_trans; [apply (zsum_term n2 (fun j => u x s g1 j ^ 2) g2); [intros; apply pow2_ge_0|lia]|].
  apply (zsum_term n1 (fun i => zsum n2 (fun j => u x s i j ^ 2)) g1); [|lia].
  intros. apply zsum_nonneg; intros. apply pow2_ge_0.
Qed.
Lemma sl_bounded P k1 k2 ap h s u : streaming P -> quiet P -> wf_cfg (pc P) k1 k2 -> interpolates catmull_rom ap -> uses (pc P) ap ->
  streams (pc P) -> reach_run (pc P) (time_elapsed s) h -> holds (pc P) (f_of s) u ->
  exists r, run_steps (solver_stepper P) h s = Ok (r, None)
  /\ forall x sp g1 g2, inb (N_p (pc P)) x -> inb (N_species (pc P)) sp -> inb (gN1 (lay (pc P))) g1 -> inb (gN2 (lay (pc P))) g2 ->
     Rabs (gval (lay (pc P)) (f_of r) x sp g1 g2) <= sqrt (IZR (gN1 (lay (pc P))) * IZR (gN2 (lay (pc P)))) * rms (pc P) u x sp.
Proof.
  intros ST Q W IT US SM RE H. destruct (sl_contracts P k1 k2 ap h s u ST Q W IT US SM RE H) as (r&v&R1&V&B).
  exists r. split; [exact R1|]. intros x sp g1 g2 Hx Hs H1 H2. destruct V as (_&V). rewrite V by assumption.
  eapply Rle_trans; [exact (value_rms (pc P) v x sp g1 g2 H1 H2)|]. apply Rmult_le_compat_l; [apply sqrt_pos|]. apply B; assumption.
Qed.

(** One cell with particles, half a cell or so further on. *)
Lemma frac_down z d : 0 < d < 1 -> Int_part (IZR z - d) = (z - 1)%Z /\ frac_part (IZR z - d) = 1 - d.
Proof.
  intros D. assert (I : Int_part (IZR z - d) = (z - 1)%Z) by (apply Int_part_unique; rewrite minus_IZR; lra).
  split; [exact I|]. unfold frac_part. rewrite I, minus_IZR. ring.
Qed.
Lemma cr_signs h : 0 < h < 1 -> catmull_rom h (-1)%Z * catmull_rom h 0%Z < 0.
Proof.
  intros H. replace (catmull_rom h (-1)%Z) with (- (h * (1 - h) ^ 2 / 2)) by (unfold catmull_rom; field).
  replace (catmull_rom h 0%Z) with ((1 - h) * (2 + 2 * h - 3 * h ^ 2) / 2) by (unfold catmull_rom; field).
  assert (0 < h * (1 - h) ^ 2) by (apply Rmult_lt_0_compat; [lra|apply pow_lt; lra]).
  assert (0 < (1 - h) * (2 + 2 * h - 3 * h ^ 2)) by (apply Rmult_lt_0_compat; [lra|nra]).
  assert (0 < h * (1 - h) ^ 2 / 2 * ((1 - h) * (2 + 2 * h - 3 * h ^ 2) / 2)) by (apply Rmult_lt_0_compat; lra). lra.
Qed.
