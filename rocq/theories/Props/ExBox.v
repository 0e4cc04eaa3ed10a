(** Example boxes: a 4 x 4 grid, 2 x 2 x 1 momenta symmetric about zero, two
    species, C_q = (p1, p2); on 2 x 1 ranks or on one. *)
From Coq Require Import ZArith Reals Lra Lia String List Bool.
From Verif Require Import Base.Prelude Base.ZSum Model.Af Model.Petsc Model.Config Model.Fvm
  Spec.Domain Spec.Lattice Spec.Mirror Spec.FvmProblem Spec.FvmRun Spec.Walls Spec.Box.
Import ListNotations.
Local Open Scope R_scope.

Definition bx_two : layout := Layout 4 4 [2;2]%Z [4]%Z 2 2 PGhosted PGhosted.
Definition bx_one : layout := Layout 4 4 [4]%Z [4]%Z 2 2 PGhosted PGhosted.
Definition bx_channel : layout := Layout 4 4 [2;2]%Z [4]%Z 2 2 PGhosted PPeriodic.

Definition all_mirrors (_ : edge) : string := "mirror".
(** A channel along q2 with mirrors at left and right. *)
Definition channel (e : edge) : string := match e with ELeft | ERight => "mirror" | _ => "periodic" end.
(** Particles enter from the left. *)
Definition emitter (e : edge) : string := match e with ELeft => "mirror+dirichlet" | _ => "mirror" end.

Definition bx_inflow : inflow_values := fun _ _ x s _ _ => IZR (x + 2 * s).

Definition bx_cfg (L : layout) (nm : edge -> string) (rc : string) (src : bool) : cfg :=
  Cfg L 2 2 2 1 2 0 4 0 4 1 1 [-1; -2] [-1; -2] [-1; -2] [1; 2] [1; 2] [2; 4]
    "FVM" "FVM" rc "minmod" "cartesian" src src
    (fun _ _ _ _ p1 p2 _ => (p1, p2)) (fun _ _ _ _ p1 p2 _ => (p1, p2))
    (fun _ _ _ _ _ _ _ E1 E2 E3 _ _ _ => (E1, E2, E3)) (fun _ _ _ _ _ _ _ E1 E2 E3 _ _ _ => (E1, E2, E3))
    (fun _ _ _ w x s => if Z.eqb x 0 then w 1%Z s else if Z.eqb x 1 then - w 1%Z s else 0)
    nm (fun _ _ _ _ f => amap (fun _ => 0) f) (3/2) 1
    (fun v _ _ _ _ => v) 0.

(** The same, prescribing [bx_inflow]. *)
Definition bx_open (L : layout) (rc : string) : cfg :=
  Cfg L 2 2 2 1 2 0 4 0 4 1 1 [-1; -2] [-1; -2] [-1; -2] [1; 2] [1; 2] [2; 4]
    "FVM" "FVM" rc "minmod" "cartesian" false false
    (fun _ _ _ _ p1 p2 _ => (p1, p2)) (fun _ _ _ _ p1 p2 _ => (p1, p2))
    (fun _ _ _ _ _ _ _ E1 E2 E3 _ _ _ => (E1, E2, E3)) (fun _ _ _ _ _ _ _ E1 E2 E3 _ _ _ => (E1, E2, E3))
    (fun _ _ _ _ _ _ => 0)
    emitter (fun _ _ _ _ f => Arr (d0 f) (d1 f) (d2 f) (d3 f) (fun x s _ _ => IZR (x + 2 * s))) (3/2) 1
    (fun v _ _ _ _ => v) 0.

Definition bx_state (L : layout) : fstate :=
  FState (fun r1 r2 => Arr 4 2 (n1g L r1) (n2g L r2)
    (fun x s i j => IZR (x + 2 * s + (off (blk1 L) r1 + i) * (off (blk2 L) r2 + j)))) (fun _ _ _ => 0).

Lemma bx_wf L nm rc src k : scheme_of_name rc = Some k -> wf_cfg (bx_cfg L nm rc src) k MC.
Proof.
  intros H. unfold wf_cfg. cbn -[scheme_of_name]. repeat split; try lia; auto.
  intros; rewrite H0; auto. all: unfold inb; lia.
Qed.
Lemma bo_wf L rc k : scheme_of_name rc = Some k -> wf_cfg (bx_open L rc) k MC.
Proof. intros H. unfold wf_cfg. cbn -[scheme_of_name]. repeat split; try lia; auto. Qed.

Lemma bx_shaped L nm rc src : shaped L (N_p (bx_cfg L nm rc src)) (N_species (bx_cfg L nm rc src)) (sf (bx_state L)).
Proof. intros r1 r2 _. cbn. auto. Qed.
Lemma bo_shaped L rc : shaped L (N_p (bx_open L rc)) (N_species (bx_open L rc)) (sf (bx_state L)).
Proof. intros r1 r2 _. cbn. auto. Qed.

Ltac bx_tac sd1 sd2 :=
  unfold box_fvm, tiles; cbn -[radius sides];
  split; [reflexivity|]; split; [repeat split; repeat constructor; lia|]; split; [repeat split; repeat constructor; lia|];
  split; [reflexivity|]; split; [reflexivity|]; split; [assumption|];
  split; [repeat constructor; lia|]; split; [repeat constructor; lia|];
  split; [sd1|]; split; [sd2|]; left; reflexivity.
Ltac sd_wall := right; unfold wall; cbn; auto.
Ltac sd_per := left; cbn; auto.

Lemma mirrors_box L rc src k : L = bx_two \/ L = bx_one -> scheme_of_name rc = Some k -> (radius k < 2)%Z ->
  box_fvm (bx_cfg L all_mirrors rc src) k.
Proof. intros HL H HR. destruct HL as [-> | ->]; bx_tac sd_wall sd_wall. Qed.
Lemma channel_box rc src k : scheme_of_name rc = Some k -> (radius k < 2)%Z ->
  box_fvm (bx_cfg bx_channel channel rc src) k.
Proof. intros H HR. bx_tac sd_wall sd_per. Qed.
Lemma emitter_box L rc k : L = bx_two \/ L = bx_one -> scheme_of_name rc = Some k -> (radius k < 2)%Z ->
  box_fvm (bx_open L rc) k.
Proof. intros HL H HR. destruct HL as [-> | ->]; bx_tac sd_wall sd_wall. Qed.
Lemma emitter_prescribes L rc : prescribes (bx_open L rc) bx_inflow.
Proof. intros e t r1 r2 f _ _ D. cbn. split; [exact D|]. intros. reflexivity. Qed.

Lemma bx_symmetric L nm rc src : symmetric_grid (bx_cfg L nm rc src).
Proof.
  split; [reflexivity|]. split; intros _ s Hs; cbn in Hs; unfold inb in Hs;
  assert (E : s = 0%Z \/ s = 1%Z) by lia; destruct E as [-> | ->];
  cbn [Z.to_nat Pos.to_nat Pos.iter_op nth p1_start p2_start dp1 dp2 N_p1 N_p2 bx_cfg]; try change (Pos.to_nat 1) with 1%nat; cbv iota beta; lra.
Qed.
Lemma bx_odd L nm rc src : velocity_odd (bx_cfg L nm rc src).
Proof. intros s t q1 q2 p1 p2 p3. cbn. auto. Qed.
Lemma bx_source L nm rc src : source_conserves (bx_cfg L nm rc src).
Proof. right. intros. cbv -[Rplus Rmult Ropp IZR]. lra. Qed.

Lemma two_species s : inb 2 s -> s = 0%Z \/ s = 1%Z.
Proof. unfold inb. lia. Qed.
Lemma four_momenta x : inb 4 x -> x = 0%Z \/ x = 1%Z \/ x = 2%Z \/ x = 3%Z.
Proof. unfold inb. lia. Qed.

Lemma bo_speeds L rc : speed_reflects (bx_open L rc).
Proof.
  intros e t x s q1 q2 Hx Hs _. change (inb 4 x) in Hx. change (inb 2 s) in Hs.
  assert (A : forall a b : R, a = - b \/ a = b -> Rabs a = Rabs b) by (intros a b [-> | ->]; auto using Rabs_Ropp).
  assert (R : forall e, (e = ELeft \/ e = ERight) \/ (e = EBottom \/ e = ETop)) by (intros []; auto).
  destruct (four_momenta x Hx) as [-> |[-> |[-> | ->]]]; destruct (two_species s Hs) as [-> | ->];
    destruct (R e) as [[-> | ->]|[-> | ->]]; split; apply A;
    cbv -[Rplus Rmult Ropp Rdiv Rinv IZR]; lra.
Qed.
Lemma bo_uniform L rc : velocity_uniform (bx_open L rc).
Proof. repeat intro. reflexivity. Qed.
(** The prescribed inflow lies between 0 and 5. *)
Lemma bo_bounds L rc : bounds_fit (bx_open L rc) bx_inflow (fun _ _ => 0) (fun _ _ => 5).
Proof.
  intros e x s Hx Hs _. split; [reflexivity|]. split; [reflexivity|]. intros _ t g1 g2.
  change (inb 4 x) in Hx. change (inb 2 s) in Hs. unfold bx_inflow, inb in *. split; apply IZR_le; lia.
Qed.

(** Electrons with unit speed on a polar momentum grid: one radius, four angles. *)
Definition bx_polar : cfg :=
  Cfg bx_two 2 1 4 1 1 0 4 0 4 1 1 [1/2] [- PI] [-1] [1] [PI / 2] [2]
    "FVM" "FVM" "minmod" "minmod" "polar2D" false false
    (fun _ _ _ _ p1 p2 _ => (p1 * cos p2, p1 * sin p2)) (fun _ _ _ _ p1 p2 _ => (p1 * cos p2, p1 * sin p2))
    (fun _ _ _ _ _ _ _ E1 E2 E3 _ _ _ => (E1, E2, E3)) (fun _ _ _ _ _ _ _ E1 E2 E3 _ _ _ => (E1, E2, E3))
    (fun _ _ _ _ _ _ => 0)
    all_mirrors (fun _ _ _ _ f => f) 0 0 (fun v _ _ _ _ => v) 0.
Lemma polar_wf : wf_cfg bx_polar MC MC.
Proof. unfold wf_cfg. cbn. repeat split; try lia; auto. Qed.
Lemma polar_box : box_fvm bx_polar MC.
Proof.
  unfold box_fvm, tiles; cbn -[radius sides].
  split; [reflexivity|]; split; [repeat split; repeat constructor; lia|]; split; [repeat split; repeat constructor; lia|];
  split; [reflexivity|]; split; [reflexivity|]; split; [reflexivity|];
  split; [repeat constructor; lia|]; split; [repeat constructor; lia|];
  split; [sd_wall|]; split; [sd_wall|]; right; auto.
Qed.
Lemma polar_full : polar_circle bx_polar (fun _ p => p).
Proof.
  split; [reflexivity|]. split; [|reflexivity]. intros s Hs. change (inb 1 s) in Hs.
  assert (s = 0%Z) as -> by (unfold inb in Hs; lia). cbn [Z.to_nat nth p2_start dp2 N_p2 bx_polar]. split; [reflexivity|].
  field.
Qed.
