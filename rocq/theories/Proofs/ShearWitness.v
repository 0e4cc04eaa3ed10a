(** With a limiter, half a cell of shear loses particles. *)
From Coq Require Import ZArith Reals Lra Lia Psatz String List Bool.
From Verif Require Import Base.Prelude Base.ZSum Model.Af Model.Grid Model.Petsc Model.Config
  Model.Boundaries Model.Fvm
  Spec.Limiters Spec.Stencil Spec.Lattice Spec.Domain Spec.FvmProblem Spec.FvmRun Spec.Mirror Spec.Walls Spec.Interp Spec.Shear
  Proofs.AfLemmas Proofs.PetscLemmas Proofs.FluxLemmas Proofs.ConvLemmas Proofs.FvmLemmas Proofs.FvmLemmas2
  Proofs.FvmConserve Proofs.BoundaryLemmas Proofs.BoundaryRun Proofs.FvmGeneral Proofs.BoxConserve Proofs.FvmLines
  Proofs.InterpLemmas Proofs.SemiLagLemmas Proofs.ShearLemmas Proofs.ShearRun Proofs.ShearProps.
Import ListNotations.
Local Open Scope R_scope.

(** Cubic interpolation of every layer at one set of positions. *)
Definition layered (v x y : arr R) : arr R :=
  Arr (d0 x) (d1 x) (d2 v) (d3 v) (fun i j k l =>
    interp2 catmull_rom (fun a b => el v a b k l) (el x i j 0%Z 0%Z) (el y i j 0%Z 0%Z)).
Lemma rom_nodal : nodal catmull_rom.
Proof.
  intros a. unfold catmull_rom. destruct a as [|[p|p|]|[p|p|]]; cbn -[pow]; try field; try reflexivity;
  destruct p; cbn -[pow]; try field; reflexivity.
Qed.
Lemma rom_normalised : normalised catmull_rom.
Proof. intros h. rewrite zsum4; cbn -[pow]; field. Qed.
Lemma layered_interpolates : interpolates_layers catmull_rom layered.
Proof. constructor; [exact rom_nodal|intros; cbn; auto|reflexivity]. Qed.

Definition sheared_sides (lr : bool) (e : edge) : string :=
  match e with
  | ELeft | ERight => if lr then "shearing-box" else "periodic"
  | _ => if lr then "periodic" else "shearing-box"
  end.

(** 2 x 2 cells of unit size, one momentum, velocity (1, 0), half a cell of shear
    per unit of time and cell. *)
Definition sw_lay : layout := Layout 2 2 [2]%Z [2]%Z 2 2 PPeriodic PPeriodic.
Definition sw_cfg : cfg :=
  Cfg sw_lay 2 1 1 1 1 0 2 0 2 1 1 [1/2] [0] [0] [1] [1] [1]
    "FVM" "FVM" "minmod" "minmod" "cartesian" false false
    (fun _ _ _ _ _ _ _ => (1, 0)) (fun _ _ _ _ _ _ _ => (1, 0))
    (fun _ _ _ _ _ _ _ _ _ _ _ _ _ => (0, 0, 0)) (fun _ _ _ _ _ _ _ _ _ _ _ _ _ => (0, 0, 0))
    (fun _ _ _ _ _ _ => 0)
    (sheared_sides true) (fun _ _ _ _ f => f) (1/2) 1
    (in_cells layered) 2.
Definition sw_data : gstate := fun x s g1 g2 =>
  if Z.eqb g1 0 then if Z.eqb g2 0 then 0 else 3 else if Z.eqb g2 0 then 8 else 0.
Definition sw_state : fstate :=
  FState (fun r1 r2 => Arr 1 1 (n1g sw_lay r1) (n2g sw_lay r2) (fun x s i j => sw_data x s (i - 2)%Z (j - 2)%Z)) (fun _ _ _ => 0).
Definition sw_no : fieldseq := fun _ _ => (Arr 6 1 6 6 (fun _ _ _ _ => 0), Arr 6 1 6 6 (fun _ _ _ _ => 0), Arr 6 1 6 6 (fun _ _ _ _ => 0)).
Definition sw_call : call := Call (1/2) 1 sw_no sw_no.

Lemma sw_wf : wf_cfg sw_cfg MC MC.
Proof. unfold wf_cfg. cbn. repeat split; try lia; auto. Qed.
Lemma sw_shear : shear_fvm sw_cfg true MC.
Proof.
  constructor; cbn; try reflexivity; try lia; try lra; try (repeat constructor; lia).
Qed.
Lemma sw_uses : uses sw_cfg layered.
Proof. intros v x y xp yp. reflexivity. Qed.
Lemma sw_drift : drift sw_cfg true (1/2) = 1/2.
Proof. unfold drift; cbn. field. Qed.
Lemma sw_time : in_time sw_cfg true (1/2).
Proof. unfold in_time. rewrite sw_drift. cbn [N_ghost sw_cfg loop_fuel lay sw_lay gN2 INR]. rewrite Rabs_right by lra. lra. Qed.
Lemma sw_holds : holds sw_cfg (sf sw_state) sw_data.
Proof.
  split; [intros r1 r2 _; cbn; auto|]. intros x s g1 g2 Hx Hs H1 H2. unfold inb in H1, H2. cbn in H1, H2.
  assert (A : (g1 = 0 \/ g1 = 1)%Z) by lia. assert (B : (g2 = 0 \/ g2 = 1)%Z) by lia.
  destruct A as [-> | ->], B as [-> | ->]; reflexivity.
Qed.

(** Half a cell along two cells: the mean. *)
Lemma half_frac : Int_part (1/2) = 0%Z /\ frac_part (1/2) = 1/2.
Proof. assert (E : Int_part (1/2) = 0%Z) by (apply Int_part_unique; lra). split; auto. unfold frac_part. rewrite E. lra. Qed.
Lemma slid_half row (j : Z) : (j = 0 \/ j = 1)%Z ->
  slid catmull_rom 2 row (IZR j - 1/2) = (row 0%Z + row 1%Z) / 2
  /\ slid catmull_rom 2 row (IZR j + 1/2) = (row 0%Z + row 1%Z) / 2.
Proof.
  intros J. destruct half_frac as (I&F). unfold slid.
  replace (IZR j - 1/2) with (1/2 + IZR (j - 1)) by (rewrite minus_IZR; lra).
  replace (IZR j + 1/2) with (1/2 + IZR j) by lra.
  rewrite !Int_part_shift, !frac_part_shift, I, F, !zsum4.
  destruct J as [-> | ->]; split; unfold catmull_rom; cbn -[pow Rdiv Rmult Rplus Rminus Ropp]; field.
Qed.

Local Notation la := (shear_line1 sw_cfg catmull_rom true).
Local Notation lb := (shear_line2 sw_cfg catmull_rom true).

(** The fluxes of a state with the given four values. *)
Section Values.
Variables (u : gstate) (a b p q : R).
Hypothesis U00 : u 0%Z 0%Z 0%Z 0%Z = a.
Hypothesis U01 : u 0%Z 0%Z 0%Z 1%Z = b.
Hypothesis U10 : u 0%Z 0%Z 1%Z 0%Z = p.
Hypothesis U11 : u 0%Z 0%Z 1%Z 1%Z = q.
Let m0 := (a + b) / 2.
Let m1 := (p + q) / 2.

Lemma sw_line j : (j = 0 \/ j = 1)%Z ->
  la (1/2) u 0 0 j (-2) = m0 /\ la (1/2) u 0 0 j (-1) = m1
  /\ la (1/2) u 0 0 j 0 = u 0%Z 0%Z 0%Z j /\ la (1/2) u 0 0 j 1 = u 0%Z 0%Z 1%Z j
  /\ la (1/2) u 0 0 j 2 = m0.
Proof.
  intros J. unfold shear_line1. rewrite sw_drift. cbn [lay sw_cfg sw_lay gN1 gN2 Z.ltb Z.compare Z.add Z.sub Z.opp Pos.compare Pos.compare_cont].
  change (Z.pos_sub 2 2) with 0%Z. change (Z.pos_sub 2 1) with 1%Z.
  destruct (slid_half (fun b => u 0%Z 0%Z 0%Z b) j J) as (A&B). destruct (slid_half (fun b => u 0%Z 0%Z 1%Z b) j J) as (C&D).
  rewrite A, B, C, U00, U01, U10, U11. auto.
Qed.

Definition sw_flux (l c r : R) : R := c + mc_slope l c r / 2.
Lemma sw_rhs i j E : (i = 0 \/ i = 1)%Z -> (j = 0 \/ j = 1)%Z ->
  rhs_lines la lb (1/2) (prob sw_cfg MC MC (1/2) E) u 0%Z 0%Z i j =
  let x0 := u 0%Z 0%Z 0%Z j in let x1 := u 0%Z 0%Z 1%Z j in
  if Z.eqb i 0 then sw_flux m0 m1 x0 - sw_flux m1 x0 x1 else sw_flux m1 x0 x1 - sw_flux x0 x1 m0.
Proof.
  intros I J. destruct (sw_line j J) as (L2&L1&L0&M1&M2). unfold rhs_lines.
  rewrite src_off, advect_p_off by reflexivity.
  unfold prob, problem_of, problem_at, advect, flux, upwind. cbn [kq h1 h2 vel1 vel2 C_q sw_cfg dq1 dq2 fst snd cell_faces].
  destruct (Rlt_dec 0 1); [|lra]. destruct (Rlt_dec 0 0); [lra|].
  destruct I as [-> | ->]; cbn [Z.eqb Z.add Z.sub Z.opp Pos.add Z.pos_sub Pos.pred_double Pos.succ]; rewrite ?L2, ?L1, ?L0, ?M1, ?M2; cbv zeta; unfold sw_flux; field.
Qed.
End Values.

Ltac slope := unfold mc_slope; repeat match goal with
  | |- context [Rlt_dec ?x ?y] => destruct (Rlt_dec x y); try lra
  | |- context [Rmin ?x ?y] => first [rewrite (Rmin_left x y) by lra | rewrite (Rmin_right x y) by lra]
  | |- context [Rmax ?x ?y] => first [rewrite (Rmax_left x y) by lra | rewrite (Rmax_right x y) by lra]
  end; try lra.
Lemma sw_half E i j : (i = 0 \/ i = 1)%Z -> (j = 0 \/ j = 1)%Z ->
  sw_data 0%Z 0%Z i j + 1 / 2 * rhs_lines la lb (1/2) (prob sw_cfg MC MC (1/2) E) sw_data 0%Z 0%Z i j
  = if Z.eqb i 0 then if Z.eqb j 0 then 2 else 4 else if Z.eqb j 0 then 4 else 1.
Proof.
  intros I J. rewrite (sw_rhs sw_data 0 3 8 0 eq_refl eq_refl eq_refl eq_refl i j E I J).
  destruct I as [-> | ->], J as [-> | ->]; unfold sw_data; cbn [Z.eqb]; cbv zeta; unfold sw_flux; slope.
Qed.

Lemma sum2 f : zsum 2 f = f 0%Z + f 1%Z.
Proof. change 2%Z with (1 + 1)%Z. rewrite zsum_succ, zsum_1 by lia. reflexivity. Qed.
Lemma sw_total E0 Eh :
  total 2 2 (midpoint_lines la lb (1/2) (prob sw_cfg MC MC (1/2) E0) (prob sw_cfg MC MC (1/2) Eh) 1 sw_data 0%Z 0%Z) = 43/4.
Proof.
  unfold midpoint_lines.
  set (uh := (fun x s g1 g2 => sw_data x s g1 g2 + 1 / 2 * rhs_lines la lb (1/2) (prob sw_cfg MC MC (1/2) E0) sw_data x s g1 g2) : gstate).
  assert (H00 : uh 0%Z 0%Z 0%Z 0%Z = 2) by (unfold uh; rewrite sw_half by auto; reflexivity).
  assert (H01 : uh 0%Z 0%Z 0%Z 1%Z = 4) by (unfold uh; rewrite sw_half by auto; reflexivity).
  assert (H10 : uh 0%Z 0%Z 1%Z 0%Z = 4) by (unfold uh; rewrite sw_half by auto; reflexivity).
  assert (H11 : uh 0%Z 0%Z 1%Z 1%Z = 1) by (unfold uh; rewrite sw_half by auto; reflexivity).
  clearbody uh. unfold total. rewrite !sum2.
  rewrite !(sw_rhs uh 2 4 4 1 H00 H01 H10 H11 _ _ Eh) by auto. cbn [Z.eqb]. cbv zeta. rewrite H00, H01, H10, H11.
  unfold sw_data; cbn [Z.eqb]. unfold sw_flux. slope.
Qed.

Lemma sw_loses : exists s', run_fvm sw_cfg [sw_call] sw_state = Ok s'
  /\ gtotal sw_lay (sf sw_state) 0 0 = 11 /\ gtotal sw_lay (sf s') 0 0 = 43/4.
Proof.
  destruct (refinement_shear sw_cfg catmull_rom layered true MC MC sw_wf sw_shear layered_interpolates sw_uses
     [(sw_call, (fun _ _ _ => 0, fun _ _ _ => 0, fun _ _ _ => 0), (fun _ _ _ => 0, fun _ _ _ => 0, fun _ _ _ => 0))])
     with (s := sw_state) (u := sw_data) as (s'&R&V).
  - intros k E0 Eh [I|[]]. injection I as <- <- <-. split; [exact sw_time|].
    repeat split; intros r1 r2 i j n _ _ _ _; reflexivity.
  - exact sw_holds.
  - exists s'. split; [exact R|]. destruct V as (_&V). split.
    + cbv -[Rplus Rmult Ropp Rdiv Rinv IZR Rminus]. lra.
    + rewrite run_shear_lines in V. cbn [run_lines] in V.
      transitivity (total 2 2 (midpoint_lines la lb (1/2) (prob sw_cfg MC MC (1/2) (fun _ _ _ => 0, fun _ _ _ => 0, fun _ _ _ => 0))
        (prob sw_cfg MC MC (1/2) (fun _ _ _ => 0, fun _ _ _ => 0, fun _ _ _ => 0)) 1 sw_data 0%Z 0%Z)); [|apply sw_total].
      unfold gtotal. apply total_ext. intros g1 g2 H1 H2. apply (V 0%Z 0%Z); auto; unfold inb; cbn; lia.
Qed.
