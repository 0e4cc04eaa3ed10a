(** Example boxes with mirror walls for the field solver. *)
From Coq Require Import ZArith Reals Lra Lia String List Bool.
From Verif Require Import Base.Prelude Base.ZSum Model.Af Model.Petsc Model.Config Model.Boundaries Model.Fvm Model.Em
  Spec.Domain Spec.Mirror Spec.Yee Spec.EmRun Spec.InitFields Spec.FieldWalls Proofs.AfLemmas Proofs.EmLemmas Proofs.EmStep Proofs.EmGrids Proofs.EmInit
  Proofs.EmProps Proofs.VmProps Proofs.FieldWalls Proofs.FieldBox Proofs.FieldImages Proofs.FieldBoxRun Props.ExFvm Props.ExEm.
Import ListNotations.
Local Open Scope R_scope.

Definition box_names (w1 w2 : bool) (e : edge) : string :=
  match e with
  | ELeft | ERight => if w1 then "mirror" else "periodic"
  | EBottom | ETop => if w2 then "mirror" else "periodic"
  end%string.
Definition box_em (L : layout) (w1 w2 : bool) (E B : R -> R -> R * R * R) : fcfg :=
  FCfg L 3 0 0 1 (1/2) 2 1 (box_names w1 w2) (fun _ _ _ _ _ a => a)
    "fdtd" "user-defined" "FVM" false (Some E) None (Some B) None None.

(** 4 x 3 cells on one rank, 8 x 3 cells on two. *)
Definition lay_one : layout := Layout 4 3 [4]%Z [3]%Z 3 3 PPeriodic PPeriodic.
Definition lay_long : layout := Layout 8 3 [5;3]%Z [3]%Z 3 3 PPeriodic PPeriodic.

Lemma lays : Forall (fun L => periodic_layout L /\ ng1 L = 3%Z /\ ng2 L = 3%Z) [ex_lay; lay_one; lay_long].
Proof. repeat constructor; cbn; try lia. Qed.
Lemma lay_in L : In L [ex_lay; lay_one; lay_long] -> periodic_layout L /\ ng1 L = 3%Z /\ ng2 L = 3%Z.
Proof. intros H. exact (proj1 (Forall_forall _ _) lays L H). Qed.

Lemma box_em_boxed L w1 w2 E B : In L [ex_lay; lay_one; lay_long] -> boxed (box_em L w1 w2 E B) w1 w2.
Proof.
  intros H. destruct (lay_in L H) as (PL&G1&G2). unfold boxed, box_em; cbn [flay fN_g fin_q mu eps fdq1 fdq2].
  split; [exact PL|]. split; [auto|]. split; [auto|]. split; [intros e; destruct e; reflexivity|]. repeat split; lra.
Qed.
Lemma box_em_defines L w1 w2 E B : defines_EB (box_em L w1 w2 E B) E B.
Proof. repeat split. Qed.

(** A current that varies over the cells of the grid, one species. *)
Definition flow (L : layout) (a : R) : dist R := fun r1 r2 =>
  Arr 1 1 (n1g L r1) (n2g L r2) (fun _ _ i j =>
    a * IZR ((off (blk1 L) r1 + i - ng1 L) mod gN1 L) * IZR ((off (blk2 L) r2 + j - ng2 L) mod gN2 L)).
Lemma flow_at L a : periodic_layout L -> forall i j,
  grid_of L (dmap asum1 (flow L a)) i j = a * IZR (i mod gN1 L) * IZR (j mod gN2 L).
Proof.
  intros PL. unfold grid_of. apply grid_ind; auto.
  - intros g1 g2 m1 m2. destruct PL as ((N1&_)&(N2&_)&_). rewrite !Z.mod_add by lia. reflexivity.
  - intros r1 r2 i j RK Hi Hj. unfold dmap, asum1, flow; cbn [el d1]. rewrite zsum_1. reflexivity.
Qed.

Definition box_hist (L : layout) : list event :=
  [GetFields; Evolve (flow L 1) (flow L 2) (flow L 3) (1/10); CheckDivE; Evolve (flow L (-1)) (flow L 0) (flow L 5) (1/20)].

Lemma flow_none L : periodic_layout L -> no_current L (flow L 0).
Proof. intros PL i j. rewrite flow_at by auto. ring. Qed.

Lemma box_currents L L' : periodic_layout L -> periodic_layout L' -> gN1 L' = gN1 L -> gN2 L' = gN2 L ->
  same_steps (currents_of L' (box_hist L')) (currents_of L (box_hist L)).
Proof.
  intros P P' Q1 Q2. unfold box_hist; cbn [currents_of].
  repeat constructor; intros i j; rewrite ?(flow_at L _ P), ?(flow_at L' _ P'), ?Q1, ?Q2; reflexivity.
Qed.

(** E and B that are their own mirror images in walls at q1 = 0 and q1 = 4. *)
Definition still (x y : R) : R * R * R := (0, 0, 0).
Definition hump (x y : R) : R * R * R := (0, 0, (x - 4) ^ 2).
Definition twist (x y : R) : R * R * R := (0, x * (x - 4) * (x - 8), 0).

Lemma starts_at c F Y : (0 < gN1 (flay c))%Z -> (0 < gN2 (flay c))%Z ->
  same_on (gN1 (flay c)) (gN2 (flay c)) (view (flay c) F) Y -> forall i j,
  let x := (i mod gN1 (flay c))%Z in let y := (j mod gN2 (flay c))%Z in
  E1 (view (flay c) F) i j = E1 Y x y /\ E2 (view (flay c) F) i j = E2 Y x y /\ E3 (view (flay c) F) i j = E3 Y x y
  /\ B1 (view (flay c) F) i j = B1 Y x y /\ B2 (view (flay c) F) i j = B2 Y x y /\ B3 (view (flay c) F) i j = B3 Y x y.
Proof.
  intros N1 N2 H i j x y.
  assert (P : forall k, gper (flay c) F k 0 i j = gper (flay c) F k 0 x y)
    by (intros k; unfold gper, x, y; rewrite !Z.mod_mod by lia; reflexivity).
  destruct (H x y ltac:(unfold inb, x; apply Z.mod_pos_bound; auto) ltac:(unfold inb, y; apply Z.mod_pos_bound; auto)) as (a&b&d&e&f&g).
  cbn [view E1 E2 E3 B1 B2 B3] in *. rewrite !P. auto 10.
Qed.

Lemma box_start L w1 w2 E B : In L [ex_lay; lay_one; lay_long] ->
  let c := box_em L w1 w2 E B in
  exists s0, fields_solver_init c (flow L 0) = Ok s0
  /\ forall i j, let x := (i mod gN1 L)%Z in let y := (j mod gN2 L)%Z in let Y := on_shifted_grid c E B in let V := view L (yee_val s0) in
     E1 V i j = E1 Y x y /\ E2 V i j = E2 Y x y /\ E3 V i j = E3 Y x y
     /\ B1 V i j = B1 Y x y /\ B2 V i j = B2 Y x y /\ B3 V i j = B3 Y x y.
Proof.
  intros H c. destruct (lay_in L H) as (PL&_). destruct PL as ((N1&_)&(N2&_)&_).
  destruct (box_initial c w1 w2 (flow L 0) E B (box_em_boxed L w1 w2 E B H) (box_em_defines L w1 w2 E B)) as (s0&H0&V&_).
  exists s0. split; [exact H0|]. exact (starts_at c (yee_val s0) _ N1 N2 V).
Qed.

(** Initial fields in the small box and in one twice as long. *)
Lemma images_start L : In L [ex_lay; lay_one] -> forall s0 s0',
  (forall i j, let x := (i mod gN1 L)%Z in let y := (j mod gN2 L)%Z in let Y := on_shifted_grid (box_em L true false hump twist) hump twist in let V := view L (yee_val s0) in
     E1 V i j = E1 Y x y /\ E2 V i j = E2 Y x y /\ E3 V i j = E3 Y x y
     /\ B1 V i j = B1 Y x y /\ B2 V i j = B2 Y x y /\ B3 V i j = B3 Y x y) ->
  (forall i j, let x := (i mod gN1 lay_long)%Z in let y := (j mod gN2 lay_long)%Z in let Y := on_shifted_grid (box_em lay_long false false hump twist) hump twist in let V := view lay_long (yee_val s0') in
     E1 V i j = E1 Y x y /\ E2 V i j = E2 Y x y /\ E3 V i j = E3 Y x y
     /\ B1 V i j = B1 Y x y /\ B2 V i j = B2 Y x y /\ B3 V i j = B3 Y x y) ->
  quiet1 4 (view L (yee_val s0)) /\ same (view lay_long (yee_val s0')) (images1 4 (view L (yee_val s0))).
Proof.
  intros HL s0 s0' H H'. assert (N1 : gN1 L = 4%Z) by (destruct HL as [<-|[<-|[]]]; reflexivity).
  assert (N2 : gN2 L = 3%Z) by (destruct HL as [<-|[<-|[]]]; reflexivity). rewrite N1, N2 in H.
  change (gN1 lay_long) with 8%Z in H'. change (gN2 lay_long) with 3%Z in H'.
  unfold on_shifted_grid, on_yee_grid, placed, hump, twist, box_em in H, H'; cbn [E1 E2 E3 B1 B2 B3 fst snd fq1_start fq2_start fdq1 fdq2] in H, H'.
  split.
  - intros i j HI. destruct (H i j) as (->&_&_&_&->&->). rewrite HI. repeat split; ring.
  - unfold same, images1; cbn [E1 E2 E3 B1 B2 B3]. unfold odd1, even1; cbv zeta. change (2 * 4)%Z with 8%Z.
    assert (M : forall i, (i mod 8 <? 4)%Z = true -> ((i mod 8) mod 4 = i mod 8)%Z).
    { intros i X. apply Z.ltb_lt in X. pose proof (Z.mod_pos_bound i 8). apply Z.mod_small. lia. }
    assert (M2 : forall i, (i mod 8 <? 4)%Z = false -> ((8 - 1 - i mod 8) mod 4 = 8 - 1 - i mod 8)%Z).
    { intros i X. apply Z.ltb_ge in X. pose proof (Z.mod_pos_bound i 8). apply Z.mod_small. lia. }
    assert (M3 : forall i, (i mod 8 <? 4)%Z = false -> ((8 - i mod 8) mod 4 = if i mod 8 =? 4 then 0 else 8 - i mod 8)%Z).
    { intros i X. apply Z.ltb_ge in X. pose proof (Z.mod_pos_bound i 8). destruct (Z.eqb_spec (i mod 8) 4) as [->|]; [reflexivity|]. apply Z.mod_small. lia. }
    repeat split; intros i j; destruct (H' i j) as (a&b&d&e&f&g);
      first [rewrite a|rewrite b|rewrite d|rewrite e|rewrite f|rewrite g];
      destruct (i mod 8 <? 4)%Z eqn:X;
    repeat match goal with
      | |- context [E1 (view L ?F) ?x ?y] => rewrite (proj1 (H x y))
      | |- context [E2 (view L ?F) ?x ?y] => rewrite (proj1 (proj2 (H x y)))
      | |- context [E3 (view L ?F) ?x ?y] => rewrite (proj1 (proj2 (proj2 (H x y))))
      | |- context [B1 (view L ?F) ?x ?y] => rewrite (proj1 (proj2 (proj2 (proj2 (H x y)))))
      | |- context [B2 (view L ?F) ?x ?y] => rewrite (proj1 (proj2 (proj2 (proj2 (proj2 (H x y))))))
      | |- context [B3 (view L ?F) ?x ?y] => rewrite (proj2 (proj2 (proj2 (proj2 (proj2 (H x y))))))
      end; try ring;
    try (rewrite (M i X); ring); try (rewrite (M2 i X), !minus_IZR; field).
    rewrite (M3 i X). destruct (Z.eqb_spec (i mod 8) 4) as [->|]; [ring|rewrite minus_IZR; ring].
Qed.

(** Vacuum steps and their images. *)
Definition vac (L : layout) : list event :=
  [GetFields; Evolve (flow L 0) (flow L 0) (flow L 0) (1/10); CheckDivE; Evolve (flow L 0) (flow L 0) (flow L 0) (1/10)].
Lemma vac_events L : periodic_layout L -> Forall (vacuum_event L (1/10)) (vac L).
Proof. intros PL. pose proof (flow_none L PL). repeat constructor; auto. Qed.
Lemma vac_images L : In L [ex_lay; lay_one] ->
  no_crossing1 4 (currents_of L (vac L)) /\ same_steps (currents_of lay_long (vac lay_long)) (step_images1 4 (currents_of L (vac L))).
Proof.
  intros H. assert (HL : In L [ex_lay; lay_one; lay_long]) by (cbn in *; tauto).
  pose proof (proj1 (lay_in L HL)) as PL. pose proof (proj1 (lay_in lay_long ltac:(cbn; tauto))) as PL'.
  assert (Z0 : forall i j, grid_of L (dmap asum1 (flow L 0)) i j = 0) by (intros; apply (flow_none L PL)).
  assert (Z1 : forall i j, grid_of lay_long (dmap asum1 (flow lay_long 0)) i j = 0) by (intros; apply (flow_none lay_long PL')).
  split; unfold vac; cbn [currents_of].
  - repeat constructor; intros; apply Z0.
  - unfold step_images1; cbn [map]. repeat constructor; intros i j; rewrite Z1; unfold odd1, even1; cbv zeta; rewrite !Z0; destruct (_ <? _)%Z; ring.
Qed.
