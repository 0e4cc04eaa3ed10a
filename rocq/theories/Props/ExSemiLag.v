(** Examples for semi-Lagrangian advection: a cubic interpolation, an 8 x 4 grid
    on 2 x 1 ranks or on one, momenta -1/2 and 1/2 along p1 and p2. *)
From Coq Require Import ZArith Reals Lra Lia String List Bool.
From Verif Require Import Base.Prelude Base.ZSum Model.Af Model.Petsc Model.Config Model.Fvm Model.Em
  Model.Moments Model.Timestep Model.Solver Spec.Domain Spec.Lattice Spec.FvmProblem Spec.FvmRun Spec.Interp
  Proofs.AfLemmas Proofs.InterpLemmas Proofs.FileWitness Props.ExEm Props.ExSolver.
Import ListNotations.
Local Open Scope R_scope.

Lemma catmull_rom_nodal : nodal catmull_rom.
Proof.
  intros a. unfold catmull_rom. destruct a as [|[p|p|]|[p|p|]]; cbn -[pow]; try field; try reflexivity;
  destruct p; cbn -[pow]; try field; reflexivity.
Qed.
Lemma catmull_rom_normalised : normalised catmull_rom.
Proof. intros h. rewrite zsum4; cbn -[pow]; field. Qed.

(** Interpolation with these weights, 0 off the table. *)
Definition spline (v x y : arr R) : arr R :=
  Arr (d0 x) (d1 x) (d2 x) (d3 x) (fun i j k l =>
    let X := el x i j k l in let Y := el y i j k l in
    if Rlt_dec X 0 then 0 else if Rlt_dec (IZR (d0 v - 1)) X then 0
    else if Rlt_dec Y 0 then 0 else if Rlt_dec (IZR (d1 v - 1)) Y then 0
    else interp2 catmull_rom (fun a b => el v a b k l) X Y).

Lemma fits_on n X : fits n X -> ~ X < 0 /\ ~ IZR (n - 1) < X.
Proof.
  intros H. pose proof (Int_part_bounds X) as (A&B). destruct H as [(C&D)|(C&D)].
  - split; intros F.
    + assert (IZR 1 <= IZR (Int_part X)) by (apply IZR_le; lia). lra.
    + assert (IZR (Int_part X + 1) <= IZR (n - 1)) by (apply IZR_le; lia). rewrite plus_IZR in H. lra.
  - apply frac_0 in C. rewrite C. split; apply Rle_not_lt, IZR_le; lia.
Qed.

Lemma spline_interpolates : interpolates catmull_rom spline.
Proof.
  constructor.
  - exact catmull_rom_nodal.
  - intros v x y _ _. repeat split.
  - intros v x y i j k l _ _ _ FX FY. apply fits_on in FX, FY. destruct FX as (A&B), FY as (C&D).
    unfold spline; cbn [el]. cbv zeta.
    repeat (match goal with |- context [Rlt_dec ?a ?b] => destruct (Rlt_dec a b); [contradiction|] end). reflexivity.
  - intros v x y i j k l _ _ _ H. unfold spline; cbn [el]. cbv zeta. unfold off_table in H.
    repeat (match goal with |- context [Rlt_dec ?a ?b] => destruct (Rlt_dec a b); [reflexivity|] end). tauto.
Qed.

Definition sl_two : layout := Layout 8 4 [4;4]%Z [4]%Z 3 3 PPeriodic PPeriodic.
Definition sl_one : layout := Layout 8 4 [8]%Z [4]%Z 3 3 PPeriodic PPeriodic.

Definition sl_cfg (L : layout) (src : bool) : cfg :=
  Cfg L 3 2 2 1 1 0 8 0 4 1 1 [-1] [-1] [-1] [1] [1] [2]
    "ASL" "ASL" "ppm" "ppm" "cartesian" false src
    (fun _ _ _ _ p1 p2 _ => (p1, p2)) (fun _ _ _ _ p1 p2 _ => (p1, p2))
    (fun _ _ _ _ _ _ _ E1 _ _ _ _ _ => (1 + E1 ^ 2, 0, 0)) (fun _ _ _ _ _ _ _ E1 _ _ _ _ _ => (1 + E1 ^ 2, 0, 0))
    (fun _ _ _ w x s => zsum 4 (fun y => w y s) / 4 - w x s)
    (fun _ => "periodic"%string) (fun _ _ _ _ f => f) 0 0
    (in_cells spline) 0.
Definition sl_em (L : layout) : fcfg :=
  FCfg L 3 0 0 1 1 1 1 (fun _ => "periodic"%string) (fun _ _ _ _ _ a => a)
    "fft" "user-defined" "ASL" false (Some (fun _ _ => (1, 0, 0))) None None None (Some (fun _ _ => (0, 0))).
Definition sl (L : layout) (src : bool) : params :=
  Params (sl_cfg L src) (sl_em L) "electrostatic" [1] nonrel_moments 0 1 false mean_inst spline.

Lemma sl_periodic_two : periodic_layout sl_two.
Proof. unfold periodic_layout, tiles; cbn. repeat split; try lia; repeat constructor; lia. Qed.
Lemma sl_periodic_one : periodic_layout sl_one.
Proof. unfold periodic_layout, tiles; cbn. repeat split; try lia; repeat constructor; lia. Qed.

Lemma sl_wf L src : wf_cfg (sl_cfg L src) PPM PPM.
Proof.
  unfold wf_cfg. cbn -[zsum]. repeat split; try lia. intros. rewrite H by auto. rewrite !zsum4.
  rewrite !H by (auto; unfold inb; lia). reflexivity.
Qed.
Lemma sl_uses L src : uses (pc (sl L src)) spline.
Proof. intros v x y xp yp. reflexivity. Qed.
Lemma sl_streaming L src : periodic_layout L -> streaming (sl L src).
Proof.
  intros PL. constructor; try reflexivity; auto.
  - cbn; split; lra.
  - discriminate.
Qed.
Lemma sl_streams L src : streams (sl_cfg L src).
Proof. intros s t q1 q2 q1' q2' p1 p2 p3. reflexivity. Qed.
Lemma sl_quiet L : quiet (sl L false).
Proof. split; reflexivity. Qed.

(** Velocities are -1/2 or 1/2. *)
Lemma sl_moved L src t dt x s g1 g2 : inb 4 x -> inb 1 s ->
  (moved1 (sl_cfg L src) t dt x s g1 g2 = dt / 2 \/ moved1 (sl_cfg L src) t dt x s g1 g2 = - dt / 2)
  /\ (moved2 (sl_cfg L src) t dt x s g1 g2 = dt / 2 \/ moved2 (sl_cfg L src) t dt x s g1 g2 = - dt / 2).
Proof.
  intros Hx Hs. assert (s = 0%Z) as -> by (unfold inb in Hs; lia).
  assert (x = 0 \/ x = 1 \/ x = 2 \/ x = 3)%Z as HH by (unfold inb in Hx; lia).
  destruct HH as [-> |[-> |[-> | ->]]]; unfold moved1, moved2, velocity_a;
  cbv -[Rplus Rmult Ropp Rdiv Rinv IZR]; split; lra.
Qed.
Lemma sl_served L src t dt x s g1 g2 : inb 4 x -> inb 1 s -> Rabs dt < 4 ->
  served 3 (moved1 (sl_cfg L src) t dt x s g1 g2) /\ served 3 (moved2 (sl_cfg L src) t dt x s g1 g2).
Proof.
  intros Hx Hs Hd. destruct (sl_moved L src t dt x s g1 g2 Hx Hs) as (A&B).
  apply Rabs_def2 in Hd. split; left; apply Rabs_def1; change (3 - 1)%Z with 2%Z; lra.
Qed.
Lemma sl_reach L src t dt : ng1 L = 3%Z -> ng2 L = 3%Z -> Rabs dt < 4 -> reach (sl_cfg L src) t dt.
Proof.
  intros G1 G2 Hd x s g1 g2 Hx Hs _ _. change (lay (sl_cfg L src)) with L. rewrite G1, G2.
  apply sl_served; auto.
Qed.
Lemma sl_reach_run L src h : ng1 L = 3%Z -> ng2 L = 3%Z -> Forall (fun k => Rabs (snd k) < 4) h ->
  forall t, reach_run (sl_cfg L src) t h.
Proof.
  intros G1 G2 H. induction H as [|(m&dt) h Hd H IH]; intros t; cbn [reach_run]; [exact I|]. cbn [snd] in Hd.
  split; [|apply IH].
  assert (Hh : Rabs (1 / 2 * dt) < 4).
  { apply Rabs_def2 in Hd. apply Rabs_def1; lra. }
  destruct m; cbn [reach_step]; try split; apply sl_reach; auto.
Qed.

(** Data that differ in every cell. *)
Definition sl_data : gstate := fun x s g1 g2 => IZR (1 + x + g1 * g2).
Definition sl_state (L : layout) : fstate :=
  FState (fun r1 r2 => Arr 4 1 (n1g L r1) (n2g L r2)
     (fun x s i j => sl_data x s (off (blk1 L) r1 + i - ng1 L)%Z (off (blk2 L) r2 + j - ng2 L)%Z)) (fun _ _ _ => 0).
Lemma sl_shaped L src : shaped L (N_p (sl_cfg L src)) (N_species (sl_cfg L src)) (sf (sl_state L)).
Proof. intros r1 r2 _. cbn. auto. Qed.
Lemma sl_holds L src : holds (sl_cfg L src) (sf (sl_state L)) sl_data.
Proof.
  split; [apply sl_shaped|]. intros x s g1 g2 _ _ _ _. unfold gval, sl_state; cbn [sf el lay sl_cfg].
  f_equal; lia.
Qed.
Definition sl_start (L : layout) (e : em) : solver := Solver (sl_state L) e 0 0.

(** ** Momentum space: 2 x 5 x 1 momenta, forces 1 along p1 and 1/3 along p2. *)
Definition sp_cfg : cfg :=
  Cfg sl_one 3 2 5 1 1 0 8 0 4 1 1 [-1] [-5/2] [-1] [1] [1] [2]
    "ASL" "ASL" "ppm" "ppm" "cartesian" true false
    (fun _ _ _ _ p1 p2 _ => (p1, p2)) (fun _ _ _ _ p1 p2 _ => (p1, p2))
    (fun _ _ _ _ _ _ _ _ _ _ _ _ _ => (1, 1/3, 0)) (fun _ _ _ _ _ _ _ _ _ _ _ _ _ => (1, 1/3, 0))
    (fun _ _ _ _ _ _ => 0)
    (fun _ => "periodic"%string) (fun _ _ _ _ f => f) 0 0
    (in_cells spline) 0.
Lemma sp_wf : wf_cfg sp_cfg PPM PPM.
Proof. unfold wf_cfg. cbn. repeat split; lia. Qed.

(** ** Two species with grids of their own, [np2] cells along p2, no force. *)
Definition ss_cfg (np2 : Z) : cfg :=
  Cfg sl_one 3 2 np2 1 2 0 8 0 4 1 1 [-1; -2] [-1; -2] [-1; -2] [1; 2] [1; 2] [2; 4]
    "ASL" "ASL" "ppm" "ppm" "cartesian" true false
    (fun _ _ _ _ p1 p2 _ => (p1, p2)) (fun _ _ _ _ p1 p2 _ => (p1, p2))
    (fun _ _ _ _ _ _ _ _ _ _ _ _ _ => (0, 0, 0)) (fun _ _ _ _ _ _ _ _ _ _ _ _ _ => (0, 0, 0))
    (fun _ _ _ _ _ _ => 0)
    (fun _ => "periodic"%string) (fun _ _ _ _ f => f) 0 0
    (in_cells spline) 0.
Definition ss (np2 : Z) : params :=
  Params (ss_cfg np2) (sl_em sl_one) "electrostatic" [1; -1] nonrel_moments 0 1 false mean_inst spline.
Lemma ss_wf np2 : (0 < np2)%Z -> wf_cfg (ss_cfg np2) PPM PPM.
Proof. intros. unfold wf_cfg. cbn. repeat split; lia. Qed.
