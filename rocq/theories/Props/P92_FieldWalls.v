(** Boundary conditions of the fields: C92-C96. *)
From Coq Require Import ZArith Reals Lra Lia String List Bool.
From Verif Require Import Base.Prelude Base.ZSum Model.Af Model.Petsc Model.Config Model.Boundaries Model.Fvm Model.Em
  Spec.Domain Spec.Mirror Spec.Yee Spec.EmRun Spec.InitFields Spec.FieldWalls Proofs.AfLemmas Proofs.EmLemmas Proofs.EmStep Proofs.EmProps
  Proofs.FieldWalls Proofs.FieldBox Proofs.FieldBoxRun Proofs.FieldWitness Props.ExFvm Props.ExEm Props.ExFieldWalls.
Import ListNotations.
Local Open Scope R_scope.

(** C92.  Cells behind no wall keep their values; a cell behind one wall gets what
    the name of that wall says ([field_value], Spec/FieldWalls.v): the user's value
    v, or, for a mirrored component, the value of the cell at the same distance in
    front of the wall. *)
Theorem C92_named_condition : forall c (on_yee : bool) s s' r1 r2,
  let a := (if on_yee then yee_val s else cc_val s) r1 r2 in
  let a' := (if on_yee then yee_val s' else cc_val s') r1 r2 in
  let g := fN_g c in let n1 := n1g (flay c) r1 in let n2 := n2g (flay c) r2 in
  rank_ok (flay c) r1 r2 -> shaped (flay c) 6 1 (if on_yee then yee_val s else cc_val s) ->
  (0 < g)%Z -> (3 * g <= n1)%Z -> (3 * g <= n2)%Z ->
  (forall e k h, same_dims (em_bc c r1 r2 e k (ftime s) h) h) ->
  apply_bcs_fields c on_yee s = Ok s' ->
  forall k i j, inb 6 k -> inb n1 i -> inb n2 j ->
  ((forall e, touches (flay c) r1 r2 e = true -> in_slab e g n1 n2 i j = false) -> el a' k 0 i j = el a k 0 i j)
  /\ (forall e v, touches (flay c) r1 r2 e = true -> in_slab e g n1 n2 i j = true ->
      (forall e', e' <> e -> touches (flay c) r1 r2 e' = true -> in_slab e' g n1 n2 i j = false) ->
      (forall h, same_dims h (row k a) -> el (em_bc c r1 r2 e k (ftime s) h) 0 0 i j = v) ->
      el a' k 0 i j = field_value (fin_q c e) (reflects on_yee e k)
        (el a k 0 (fst (mirror_cell e g n1 n2 i j)) (snd (mirror_cell e g n1 n2 i j))) v (el a k 0 i j)).
Proof. exact named_all. Qed.
Print Assumptions C92_named_condition.

(** The conditions can be applied exactly when all four names are usable ... *)
Theorem C92_usable_names : forall c on_yee s, tiles (gN1 (flay c)) (blk1 (flay c)) -> tiles (gN2 (flay c)) (blk2 (flay c)) ->
  (forall e, In (fin_q c e) usable_names) <-> exists s', apply_bcs_fields c on_yee s = Ok s'.
Proof. exact apply_bcs_usable. Qed.
Print Assumptions C92_usable_names.

(** ... an unknown name is refused, on every process grid ... *)
Theorem C92_unknown_name : forall c on_yee s e, tiles (gN1 (flay c)) (blk1 (flay c)) -> tiles (gN2 (flay c)) (blk2 (flay c)) ->
  ~ In (fin_q c e) usable_names -> fin_q c e <> "shearing-box"%string ->
  (forall e', In (fin_q c e') usable_names \/ fin_q c e' = fin_q c e) ->
  apply_bcs_fields c on_yee s = Err NotImplementedError.
Proof. exact unknown_fails. Qed.
Print Assumptions C92_unknown_name.

(** ... but so is the documented name 'shearing-box': the field solver lacks the
    attributes its code reads, and no electrodynamic step is possible. *)
Theorem C92_shearing_box_refuted : forall c J1 J2 J3 dt s e,
  tiles (gN1 (flay c)) (blk1 (flay c)) -> tiles (gN2 (flay c)) (blk2 (flay c)) ->
  fin_q c e = "shearing-box"%string ->
  (forall e', In (fin_q c e') usable_names \/ fin_q c e' = "shearing-box"%string) ->
  evolve_electrodynamic_fields c J1 J2 J3 dt s = Err AttributeError.
Proof. exact shearing_evolve. Qed.
Print Assumptions C92_shearing_box_refuted.

Definition ex_bcs (l r b t : string) : fcfg :=
  FCfg lay_one 3 0 0 1 (1/2) 2 1 (fun e => match e with ELeft => l | ERight => r | EBottom => b | ETop => t end)
    (fun _ _ e k t h => amap (fun _ => 7 + IZR k) h) "fdtd" "user-defined" "FVM" false (Some still) None (Some still) None None.
Definition ex_fields : em :=
  Em (fun _ _ _ => Arr 6 1 10 9 (fun k _ i j => IZR (100 * k + 10 * i + j))) 4 0 3 1 2 true (fun _ _ _ => 0) 0.
Example C92_applies : exists s',
  apply_bcs_fields (ex_bcs "mirror" "dirichlet" "periodic" "periodic") true ex_fields = Ok s'
  /\ el (yee_val s' 0%nat 0%nat) 1 0 0 4 = 154 /\ el (yee_val s' 0%nat 0%nat) 0 0 0 4 = 4
  /\ el (yee_val s' 0%nat 0%nat) 1 0 8 4 = 8 /\ el (yee_val s' 0%nat 0%nat) 1 0 5 4 = 154.
Proof.
  destruct (proj1 (C92_usable_names (ex_bcs "mirror" "dirichlet" "periodic" "periodic") true ex_fields
    ltac:(unfold tiles; cbn; repeat split; try lia; repeat constructor; lia) ltac:(unfold tiles; cbn; repeat split; try lia; repeat constructor; lia)))
    as (s'&H); [intros []; cbn; tauto|].
  exists s'. split; [exact H|].
  assert (RK : rank_ok lay_one 0 0) by (split; cbn; lia).
  assert (SH : shaped lay_one 6 1 (yee_val ex_fields)).
  { intros r1 r2 (A&B). cbn in A, B. assert (r1 = 0%nat) by lia. assert (r2 = 0%nat) by lia. subst. repeat split. }
  pose proof (fun k i j Hk Hi Hj => C92_named_condition (ex_bcs "mirror" "dirichlet" "periodic" "periodic") true ex_fields s' 0 0 RK SH ltac:(cbn; lia) ltac:(cbn; lia) ltac:(cbn; lia)
      ltac:(intros; repeat split) H k i j Hk Hi Hj) as Q.
  change (n1g (flay (ex_bcs "mirror" "dirichlet" "periodic" "periodic")) 0) with 10%Z in Q.
  change (n2g (flay (ex_bcs "mirror" "dirichlet" "periodic" "periodic")) 0) with 9%Z in Q.
  unfold inb in Q.
  destruct (Q 1%Z 0%Z 4%Z ltac:(lia) ltac:(lia) ltac:(lia)) as (_&A).
  destruct (Q 0%Z 0%Z 4%Z ltac:(lia) ltac:(lia) ltac:(lia)) as (_&B).
  destruct (Q 1%Z 8%Z 4%Z ltac:(lia) ltac:(lia) ltac:(lia)) as (_&C).
  destruct (Q 1%Z 5%Z 4%Z ltac:(lia) ltac:(lia) ltac:(lia)) as (D&_).
  split; [|split; [|split]].
  - etransitivity; [apply (A ELeft (7 + 1)); try reflexivity; intros [] X; try congruence; reflexivity|reflexivity].
  - etransitivity; [apply (B ELeft (7 + 0)); try reflexivity; intros [] X; try congruence; reflexivity|reflexivity].
  - etransitivity; [apply (C ERight (7 + 1)); try reflexivity; intros [] X; try congruence; reflexivity|cbn; lra].
  - apply D. intros []; reflexivity.
Qed.
Example C92_shearing : forall J s, evolve_electrodynamic_fields (ex_bcs "shearing-box" "shearing-box" "periodic" "periodic") J J J (1/10) s = Err AttributeError.
Proof.
  intros J s. apply (C92_shearing_box_refuted _ J J J (1/10) s ELeft); try reflexivity;
    try (unfold tiles; cbn; repeat split; try lia; repeat constructor; lia).
  intros []; cbn; tauto.
Qed.
Example C92_unknown : forall s, apply_bcs_fields (ex_bcs "mirror" "open" "periodic" "none") false s = Err NotImplementedError.
Proof.
  intros s. apply (C92_unknown_name _ false s ERight); try (cbn; intuition discriminate);
    try (unfold tiles; cbn; repeat split; try lia; repeat constructor; lia).
  intros []; cbn; tauto.
Qed.

(** C93.  In a box with mirror walls every history of steps succeeds, on every process
    grid, and the fields follow the Yee scheme in which the electric field behind a
    mirror is that in front of it. *)
Theorem C93_yee_scheme_with_mirrors : forall c w1 w2 rho hist s0, boxed c w1 w2 -> hybrid c = false -> fields_solver_init c rho = Ok s0 ->
  exists s', do_events c hist s0 = Ok s'
  /\ same (view (flay c) (yee_val s'))
       (wall_run w1 w2 (gN1 (flay c)) (gN2 (flay c)) (fdq1 c) (fdq2 c) (eps c) (mu c)
          (currents_of (flay c) hist) (view (flay c) (yee_val s0))).
Proof.
  intros c w1 w2 rho hist s0 BX HY H. destruct (box_history c w1 w2 rho hist s0 BX HY H) as (s'&A&_&_&B). exists s'. auto.
Qed.
Print Assumptions C93_yee_scheme_with_mirrors.

Theorem C93_any_process_grid : forall c c' w1 w2 rho rho' hist hist' s0 s0', boxed c w1 w2 -> boxed c' w1 w2 -> same_box c c' ->
  hybrid c = false -> hybrid c' = false ->
  fields_solver_init c rho = Ok s0 -> fields_solver_init c' rho' = Ok s0' ->
  same (view (flay c') (yee_val s0')) (view (flay c) (yee_val s0)) ->
  same_steps (currents_of (flay c') hist') (currents_of (flay c) hist) ->
  exists s s', do_events c hist s0 = Ok s /\ do_events c' hist' s0' = Ok s'
  /\ same (view (flay c') (yee_val s')) (view (flay c) (yee_val s)).
Proof. exact box_grids. Qed.
Print Assumptions C93_any_process_grid.

(** Gauss's law, as the solver checks it, in every cell; div B in every cell that does
    not touch a mirror. *)
Theorem C93_gauss_residual : forall c w1 w2 rho_init rho hist s0 s', boxed c w1 w2 -> hybrid c = false ->
  fields_solver_init c rho_init = Ok s0 -> do_events c hist s0 = Ok s' ->
  forall i j, inb (gN1 (flay c)) i -> inb (gN2 (flay c)) j ->
  eps c * gval (flay c) (fst (compute_divE c s')) 0 0 i j
    - charge_after (fdq1 c) (fdq2 c) rho (steps_of (flay c) hist) i j
  = eps c * gval (flay c) (fst (compute_divE c s0)) 0 0 i j - rho i j.
Proof. exact box_gauss. Qed.
Print Assumptions C93_gauss_residual.
Theorem C93_divB_off_walls : forall c w1 w2 rho hist s0 s', boxed c w1 w2 -> hybrid c = false ->
  fields_solver_init c rho = Ok s0 -> do_events c hist s0 = Ok s' ->
  forall i j, (w1 = true -> i mod gN1 (flay c) <> 0)%Z -> (w2 = true -> j mod gN2 (flay c) <> 0)%Z ->
  div_B (fdq1 c) (fdq2 c) (view (flay c) (yee_val s')) i j = div_B (fdq1 c) (fdq2 c) (view (flay c) (yee_val s0)) i j.
Proof. exact box_divB. Qed.
Print Assumptions C93_divB_off_walls.

(** Four ranks and one, mirrors all round, fields and currents that vary. *)
Example C93_applies : let E := fun x y => (x, x * y, y) in let B := fun x y => (y, x, x * y) in
  let c := box_em ex_lay true true E B in let c' := box_em lay_one true true E B in
  exists s0 s0' s s', fields_solver_init c (flow ex_lay 0) = Ok s0 /\ fields_solver_init c' (flow lay_one 0) = Ok s0'
  /\ do_events c (box_hist ex_lay) s0 = Ok s /\ do_events c' (box_hist lay_one) s0' = Ok s'
  /\ same (view lay_one (yee_val s')) (view ex_lay (yee_val s))
  /\ E2 (view ex_lay (yee_val s0)) 3%Z 2%Z = 7/2.
Proof.
  intros E B c c'.
  destruct (box_start ex_lay true true E B ltac:(cbn; tauto)) as (s0&H0&V).
  destruct (box_start lay_one true true E B ltac:(cbn; tauto)) as (s0'&H0'&V').
  destruct (C93_any_process_grid c c' true true (flow ex_lay 0) (flow lay_one 0) (box_hist ex_lay) (box_hist lay_one) s0 s0') as (s&s'&X&X'&S); auto.
  - apply box_em_boxed; cbn; tauto.
  - apply box_em_boxed; cbn; tauto.
  - repeat split.
  - repeat split; intros i j; destruct (V i j) as (a&b&d&e&f&g), (V' i j) as (a'&b'&d'&e'&f'&g');
      [exact (eq_trans a' (eq_sym a))|exact (eq_trans b' (eq_sym b))|exact (eq_trans d' (eq_sym d))
      |exact (eq_trans e' (eq_sym e))|exact (eq_trans f' (eq_sym f))|exact (eq_trans g' (eq_sym g))].
  - apply box_currents; try reflexivity; apply lay_in; cbn; tauto.
  - exists s0, s0', s, s'. repeat (split; [assumption|]).
    destruct (V 3%Z 2%Z) as (_&->&_). unfold E. cbn. lra.
Qed.

(** C94.  The comments in the mirror code say that the magnetic field components that
    sit on a wall do not change there.  Proved for the component along the wall in the
    plane.  Missing: B3. *)
Theorem C94_wall_field_partial : forall c w1 w2 rho hist s0 s', boxed c w1 w2 -> hybrid c = false ->
  fields_solver_init c rho = Ok s0 -> do_events c hist s0 = Ok s' ->
  (w1 = true -> forall j, inb (gN2 (flay c)) j -> gval (flay c) (yee_val s') 4 0 0 j = gval (flay c) (yee_val s0) 4 0 0 j)
  /\ (w2 = true -> forall i, inb (gN1 (flay c)) i -> gval (flay c) (yee_val s') 3 0 i 0 = gval (flay c) (yee_val s0) 3 0 i 0).
Proof. exact box_frozen. Qed.
Print Assumptions C94_wall_field_partial.
(** If the normal electric field, B3 and the current through the wall are zero at the
    start they stay zero, and B3 with them. *)
Theorem C94_quiet_walls_partial : forall c w1 w2 rho hist s0 s', boxed c w1 w2 -> hybrid c = false ->
  fields_solver_init c rho = Ok s0 -> do_events c hist s0 = Ok s' ->
  quiet_walls w1 w2 (gN1 (flay c)) (gN2 (flay c)) (view (flay c) (yee_val s0)) ->
  (w1 = true -> no_crossing1 (gN1 (flay c)) (currents_of (flay c) hist)) ->
  (w2 = true -> no_crossing2 (gN2 (flay c)) (currents_of (flay c) hist)) ->
  quiet_walls w1 w2 (gN1 (flay c)) (gN2 (flay c)) (view (flay c) (yee_val s')).
Proof. exact box_quiet. Qed.
Print Assumptions C94_quiet_walls_partial.
(** With E1 = q2 one step of 1/10 without currents changes B3 on the wall. *)
Theorem C94_B3_on_wall_refuted : exists c s0 s', boxed c true false /\ hybrid c = false
  /\ fields_solver_init c (flow ex_lay 0) = Ok s0
  /\ evolve_electrodynamic_fields c (flow ex_lay 0) (flow ex_lay 0) (flow ex_lay 0) (1/10) s0 = Ok s'
  /\ gval (flay c) (yee_val s0) 5 0 0 1 = 0 /\ gval (flay c) (yee_val s') 5 0 0 1 = 1/10.
Proof.
  set (E := fun x y : R => (y, 0, 0)). set (c := box_em ex_lay true false E still).
  assert (HL : In ex_lay [ex_lay; lay_one; lay_long]) by (cbn; tauto).
  destruct (box_start ex_lay true false E still HL) as (s0&H0&V).
  assert (BX : boxed c true false) by (apply box_em_boxed; exact HL).
  assert (ZB : forall i j, B3 (view (flay c) (yee_val s0)) i j = 0).
  { intros i j. destruct (V i j) as (_&_&_&_&_&X). exact X. }
  destruct (wall_B3 c false (flow ex_lay 0) (flow ex_lay 0) (flow ex_lay 0) (1/10) s0 BX eq_refl (proj1 (init_any c _ s0 H0))
     (flow_none ex_lay (proj1 (lay_in _ HL))) ZB) as (s'&E'&G).
  exists c, s0, s'. repeat (split; [first [assumption|reflexivity]|]). split.
  - exact (ZB 0%Z 1%Z).
  - rewrite G by (cbn; lia). destruct (V 0%Z 1%Z) as (X1&_). destruct (V 0%Z 0%Z) as (X0&_).
    cbn [view E1] in X1, X0. change (gper ex_lay (yee_val s0) 0 0 0 1) with (gval (flay c) (yee_val s0) 0 0 0 1) in X1.
    change (gper ex_lay (yee_val s0) 0 0 0 0) with (gval (flay c) (yee_val s0) 0 0 0 (1 - 1)) in X0. rewrite X0, X1. cbn. lra.
Qed.
Print Assumptions C94_B3_on_wall_refuted.
Example C94_applies : exists s0 s', let c := box_em ex_lay true false hump twist in
  fields_solver_init c (flow ex_lay 0) = Ok s0 /\ do_events c (vac ex_lay) s0 = Ok s'
  /\ quiet_walls true false 4 3 (view ex_lay (yee_val s0)) /\ no_crossing1 4 (currents_of ex_lay (vac ex_lay))
  /\ E3 (view ex_lay (yee_val s0)) 0%Z 0%Z = 49/4.
Proof.
  assert (HL : In ex_lay [ex_lay; lay_one; lay_long]) by (cbn; tauto).
  destruct (box_start ex_lay true false hump twist HL) as (s0&H0&V).
  destruct (C93_yee_scheme_with_mirrors _ _ _ _ (vac ex_lay) s0 (box_em_boxed ex_lay true false hump twist HL) eq_refl H0) as (s'&E&_).
  destruct (box_start lay_long false false hump twist ltac:(cbn; tauto)) as (s1&_&V1).
  destruct (images_start ex_lay ltac:(cbn; tauto) s0 s1 V V1) as (Q&_).
  exists s0, s'. split; [exact H0|]. split; [exact E|]. split; [split; [intros _; exact Q|discriminate]|].
  split; [apply vac_images; cbn; tauto|]. destruct (V 0%Z 0%Z) as (_&_&->&_). cbn. lra.
Qed.

(** C95.  Method of images: a box between mirrors is half of a periodic box twice as
    long in which fields and currents are continued by their mirror images; with
    mirrors all round, a quarter (use both). *)
Theorem C95_method_of_images : forall c c' w2 rho rho' hist hist' s0 s0', boxed c true w2 -> boxed c' false w2 -> doubled1 c c' ->
  hybrid c = false -> hybrid c' = false ->
  fields_solver_init c rho = Ok s0 -> fields_solver_init c' rho' = Ok s0' ->
  quiet1 (gN1 (flay c)) (view (flay c) (yee_val s0)) -> no_crossing1 (gN1 (flay c)) (currents_of (flay c) hist) ->
  same (view (flay c') (yee_val s0')) (images1 (gN1 (flay c)) (view (flay c) (yee_val s0))) ->
  same_steps (currents_of (flay c') hist') (step_images1 (gN1 (flay c)) (currents_of (flay c) hist)) ->
  exists s s', do_events c hist s0 = Ok s /\ do_events c' hist' s0' = Ok s'
  /\ same (view (flay c') (yee_val s')) (images1 (gN1 (flay c)) (view (flay c) (yee_val s))).
Proof. exact box_images1. Qed.
Print Assumptions C95_method_of_images.
Theorem C95_method_of_images_q2 : forall c c' w1 rho rho' hist hist' s0 s0', boxed c w1 true -> boxed c' w1 false -> doubled2 c c' ->
  hybrid c = false -> hybrid c' = false ->
  fields_solver_init c rho = Ok s0 -> fields_solver_init c' rho' = Ok s0' ->
  quiet2 (gN2 (flay c)) (view (flay c) (yee_val s0)) -> no_crossing2 (gN2 (flay c)) (currents_of (flay c) hist) ->
  same (view (flay c') (yee_val s0')) (images2 (gN2 (flay c)) (view (flay c) (yee_val s0))) ->
  same_steps (currents_of (flay c') hist') (step_images2 (gN2 (flay c)) (currents_of (flay c) hist)) ->
  exists s s', do_events c hist s0 = Ok s /\ do_events c' hist' s0' = Ok s'
  /\ same (view (flay c') (yee_val s')) (images2 (gN2 (flay c)) (view (flay c) (yee_val s))).
Proof. exact box_images2. Qed.
Print Assumptions C95_method_of_images_q2.
(** A wave on four ranks between mirrors, and on two ranks in a box of 8 x 3 cells. *)
Example C95_applies : let c := box_em ex_lay true false hump twist in let c' := box_em lay_long false false hump twist in
  exists s0 s0' s s', fields_solver_init c (flow ex_lay 0) = Ok s0 /\ fields_solver_init c' (flow lay_long 0) = Ok s0'
  /\ do_events c (vac ex_lay) s0 = Ok s /\ do_events c' (vac lay_long) s0' = Ok s'
  /\ same (view lay_long (yee_val s')) (images1 4 (view ex_lay (yee_val s))).
Proof.
  intros c c'. assert (HL : In ex_lay [ex_lay; lay_one; lay_long]) by (cbn; tauto).
  assert (HL' : In lay_long [ex_lay; lay_one; lay_long]) by (cbn; tauto).
  destruct (box_start ex_lay true false hump twist HL) as (s0&H0&V).
  destruct (box_start lay_long false false hump twist HL') as (s0'&H0'&V').
  destruct (images_start ex_lay ltac:(cbn; tauto) s0 s0' V V') as (Q&S).
  destruct (vac_images ex_lay ltac:(cbn; tauto)) as (NC&SS).
  destruct (C95_method_of_images c c' false (flow ex_lay 0) (flow lay_long 0) (vac ex_lay) (vac lay_long) s0 s0'
    (box_em_boxed _ _ _ _ _ HL) (box_em_boxed _ _ _ _ _ HL') ltac:(repeat split) eq_refl eq_refl H0 H0' Q NC S SS) as (s&s'&X&X'&R).
  exists s0, s0', s, s'. auto 10.
Qed.

(** C96.  A cavity closed by mirrors keeps the electromagnetic energy, and below the
    Courant limit the fields stay bounded, if the walls are quiet at the start.
    Missing: fields that do not vanish on the walls. *)
Theorem C96_cavity_energy_partial : forall c w1 w2, boxed c w1 w2 -> forall rho hist dt s0 s, hybrid c = false ->
  fields_solver_init c rho = Ok s0 ->
  Forall (vacuum_event (flay c) dt) hist -> do_events c hist s0 = Ok s ->
  quiet_walls w1 w2 (gN1 (flay c)) (gN2 (flay c)) (view (flay c) (yee_val s0)) ->
  forall J1 J2 J3, no_current (flay c) J1 -> no_current (flay c) J2 -> no_current (flay c) J3 ->
  exists s1 s1',
    evolve_electrodynamic_fields c J1 J2 J3 dt s0 = Ok s1
    /\ evolve_electrodynamic_fields c J1 J2 J3 dt s = Ok s1'
    /\ energy (gN1 (flay c)) (gN2 (flay c)) (eps c) (mu c) (view (flay c) (yee_val s)) (view (flay c) (yee_val s1'))
       = energy (gN1 (flay c)) (gN2 (flay c)) (eps c) (mu c) (view (flay c) (yee_val s0)) (view (flay c) (yee_val s1))
    /\ (0 < eps c -> 0 < mu c -> courant2 (fdq1 c) (fdq2 c) (eps c) (mu c) dt < 1 ->
        field_norm2 (gN1 (flay c)) (gN2 (flay c)) (eps c) (mu c) (view (flay c) (yee_val s1'))
        <= 2 / (1 - courant2 (fdq1 c) (fdq2 c) (eps c) (mu c) dt)
           * energy (gN1 (flay c)) (gN2 (flay c)) (eps c) (mu c) (view (flay c) (yee_val s0)) (view (flay c) (yee_val s1))).
Proof. exact cavity_energy. Qed.
Print Assumptions C96_cavity_energy_partial.
(** In general the mirrors at the two ends of an axis are one: in every box, E2 next to
    the right wall is driven by B3 at the left wall. *)
Theorem C96_mirrors_leak : forall c w2 J1 J2 J3 dt s s', boxed c true w2 -> hybrid c = false -> wf_em c s -> wf_em c s' ->
  forall j, inb (gN2 (flay c)) j ->
  gval (flay c) (yee_val s') 1 0 (gN1 (flay c) - 1) j = gval (flay c) (yee_val s) 1 0 (gN1 (flay c) - 1) j ->
  gval (flay c) (yee_val s') 5 0 (gN1 (flay c) - 1) j = gval (flay c) (yee_val s) 5 0 (gN1 (flay c) - 1) j ->
  exists r r', evolve_electrodynamic_fields c J1 J2 J3 dt s = Ok r
  /\ evolve_electrodynamic_fields c J1 J2 J3 dt s' = Ok r'
  /\ gval (flay c) (yee_val r') 1 0 (gN1 (flay c) - 1) j
     = gval (flay c) (yee_val r) 1 0 (gN1 (flay c) - 1) j
       - dt / (fdq1 c * mu c * eps c) * (gval (flay c) (yee_val s') 5 0 0 j - gval (flay c) (yee_val s) 5 0 0 j).
Proof. exact box_leak. Qed.
Print Assumptions C96_mirrors_leak.
(** Two boxes closed all round whose initial fields differ only in B3 in the first
    column of cells differ in E2 in the last column after one step. *)
Definition bump (x y : R) : R * R * R := (0, 0, (x - 1) * (x - 2) * (x - 3)).
Theorem C96_isolated_refuted : let c := box_em ex_lay true true still still in let c' := box_em ex_lay true true still bump in
  exists s0 s0' s s', boxed c true true /\ boxed c' true true
  /\ fields_solver_init c (flow ex_lay 0) = Ok s0 /\ fields_solver_init c' (flow ex_lay 0) = Ok s0'
  /\ (forall i j, inb 4 i -> inb 3 j -> forall k, inb 6 k -> (k <> 5 \/ i <> 0)%Z ->
      gval ex_lay (yee_val s0') k 0 i j = gval ex_lay (yee_val s0) k 0 i j)
  /\ evolve_electrodynamic_fields c (flow ex_lay 0) (flow ex_lay 0) (flow ex_lay 0) (1/10) s0 = Ok s
  /\ evolve_electrodynamic_fields c' (flow ex_lay 0) (flow ex_lay 0) (flow ex_lay 0) (1/10) s0' = Ok s'
  /\ forall j, inb 3 j -> gval ex_lay (yee_val s') 1 0 3 j = gval ex_lay (yee_val s) 1 0 3 j + 3/10.
Proof.
  intros c c'. assert (HL : In ex_lay [ex_lay; lay_one; lay_long]) by (cbn; tauto).
  destruct (box_start ex_lay true true still still HL) as (s0&H0&V).
  destruct (box_start ex_lay true true still bump HL) as (s0'&H0'&V').
  assert (G : forall (s : em) k i j, inb 4 i -> inb 3 j -> gper ex_lay (yee_val s) k 0 i j = gval ex_lay (yee_val s) k 0 i j).
  { intros s k i j Hi Hj. unfold gper. cbn [gN1 gN2 ex_lay]. rewrite !Z.mod_small by (unfold inb in *; lia). reflexivity. }
  assert (A : forall i j, inb 4 i -> inb 3 j -> forall k, inb 6 k -> (k <> 5 \/ i <> 0)%Z ->
      gval ex_lay (yee_val s0') k 0 i j = gval ex_lay (yee_val s0) k 0 i j).
  { intros i j Hi Hj k Hk N. rewrite <- !G by auto.
    destruct (V i j) as (a&b&d&e&f&g), (V' i j) as (a'&b'&d'&e'&f'&g').
    cbn [view E1 E2 E3 B1 B2 B3] in *. unfold inb in Hk.
    assert (K : (k = 0 \/ k = 1 \/ k = 2 \/ k = 3 \/ k = 4 \/ k = 5)%Z) by lia.
    destruct K as [->|[->|[->|[->|[->| ->]]]]];
      [rewrite a, a'|rewrite b, b'|rewrite d, d'|rewrite e, e'|rewrite f, f'|rewrite g, g']; try reflexivity.
    unfold inb in Hi. cbn [gN1 gN2 ex_lay]. rewrite (Z.mod_small i 4) by lia.
    unfold on_shifted_grid, on_yee_grid, placed, bump, still; cbn [B3 snd].
    assert (I : (i = 1 \/ i = 2 \/ i = 3)%Z) by lia. destruct I as [->|[->| ->]]; cbn; ring. }
  destruct (C93_yee_scheme_with_mirrors c true true _ [Evolve (flow ex_lay 0) (flow ex_lay 0) (flow ex_lay 0) (1/10)] s0
     (box_em_boxed _ _ _ _ _ HL) eq_refl H0) as (s&E&(_&W&_)).
  destruct (C93_yee_scheme_with_mirrors c' true true _ [Evolve (flow ex_lay 0) (flow ex_lay 0) (flow ex_lay 0) (1/10)] s0'
     (box_em_boxed _ _ _ _ _ HL) eq_refl H0') as (s'&E'&(_&W'&_)).
  exists s0, s0', s, s'. split; [apply box_em_boxed; exact HL|]. split; [apply box_em_boxed; exact HL|].
  split; [exact H0|]. split; [exact H0'|]. split; [exact A|].
  cbn [do_events do_event] in E, E'.
  split; [destruct (evolve_electrodynamic_fields c _ _ _ _ s0) in *; cbn [rbind] in E; congruence|].
  split; [destruct (evolve_electrodynamic_fields c' _ _ _ _ s0') in *; cbn [rbind] in E'; congruence|].
  intros j Hj. specialize (W 3%Z j). specialize (W' 3%Z j).
  cbn [view E2] in W, W'. change (flay c) with ex_lay in W. change (flay c') with ex_lay in W'.
  rewrite G in W, W' by (auto; unfold inb; lia). rewrite W, W'.
  cbn [currents_of wall_run wall_step faraday_walls ampere E2]. unfold fwd1. change (3 + 1)%Z with 4%Z.
  destruct (V 3%Z j) as (_&->&_&_&_&X3). destruct (V' 3%Z j) as (_&->&_&_&_&X3').
  destruct (V 4%Z j) as (_&_&_&_&_&X4). destruct (V' 4%Z j) as (_&_&_&_&_&X4').
  change (view (flay c) (yee_val s0)) with (view ex_lay (yee_val s0)).
  change (view (flay c') (yee_val s0')) with (view ex_lay (yee_val s0')).
  rewrite X3, X3', X4, X4'.
  pose proof (flow_none ex_lay (proj1 (lay_in _ HL)) 3%Z j) as J0.
  change (grid_of (flay c) (dmap asum1 (flow ex_lay 0)) 3%Z j) with (grid_of ex_lay (dmap asum1 (flow ex_lay 0)) 3%Z j).
  change (grid_of (flay c') (dmap asum1 (flow ex_lay 0)) 3%Z j) with (grid_of ex_lay (dmap asum1 (flow ex_lay 0)) 3%Z j).
  rewrite J0. cbn. lra.
Qed.
Print Assumptions C96_isolated_refuted.
Example C96_applies : let c := box_em ex_lay true false hump twist in
  exists s0 s, fields_solver_init c (flow ex_lay 0) = Ok s0 /\ do_events c (vac ex_lay) s0 = Ok s
  /\ Forall (vacuum_event ex_lay (1/10)) (vac ex_lay) /\ quiet_walls true false 4 3 (view ex_lay (yee_val s0))
  /\ no_current ex_lay (flow ex_lay 0) /\ courant2 (fdq1 c) (fdq2 c) (eps c) (mu c) (1/10) < 1.
Proof.
  intros c. destruct C94_applies as (s0&s'&A&B&C&_&_). assert (PL := proj1 (lay_in ex_lay ltac:(cbn; tauto))).
  exists s0, s'. split; [exact A|]. split; [exact B|]. split; [apply vac_events; exact PL|]. split; [exact C|].
  split; [apply flow_none; exact PL|]. unfold courant2; cbn. lra.
Qed.
