(** Boundary conditions of the fields, and FDTD between mirror walls. *)
From Coq Require Import ZArith Reals Lia Lra String List Bool.
From Verif Require Import Base.Prelude Base.ZSum Model.Af Model.Grid Model.Petsc Model.Config
  Model.Boundaries Model.Fvm Model.Fft Model.Em Spec.Domain Spec.Mirror Spec.Walls Spec.Yee Spec.EmRun Spec.FieldWalls
  Proofs.AfLemmas Proofs.PetscLemmas Proofs.BoundaryLemmas Proofs.BoundaryRun Proofs.EmLemmas Proofs.EmStep Proofs.EmGrids Proofs.EmInit.
Import ListNotations.
Local Open Scope R_scope.

(** ** Extents *)
Lemma mirror_row_dims c e k a : same_dims (mirror_row c e k a) a.
Proof. repeat split. Qed.

Lemma same_dims_trans {A} (a b d : arr A) : same_dims a b -> same_dims b d -> same_dims a d.
Proof. intros (A0&A1&A2&A3) (B0&B1&B2&B3). repeat split; congruence. Qed.
Lemma same_dims_refl {A} (a : arr A) : same_dims a a. Proof. repeat split. Qed.

Lemma mirror_fields_dims c b e a : same_dims (mirror_fields c b e a) a.
Proof. unfold mirror_fields. destruct b; [destruct e; repeat split|apply set_ghost_dims]. Qed.

Lemma dirichlet_fields_dims c r1 r2 t e a : same_dims (dirichlet_fields c r1 r2 t e a) a.
Proof. apply set_ghost_dims. Qed.

Lemma edge_fields_dims c b r1 r2 t e a a' : edge_fields c b r1 r2 t e a = Ok a' -> same_dims a' a.
Proof.
  unfold edge_fields.
  repeat match goal with |- (if ?x then _ else _) = _ -> _ => destruct x end; intros H; inversion H; subst.
  - apply dirichlet_fields_dims.
  - apply mirror_fields_dims.
  - eapply same_dims_trans; [apply dirichlet_fields_dims|apply mirror_fields_dims].
  - apply same_dims_refl.
Qed.

Lemma maybe_edge_fields_dims c b r1 r2 t e a a' : maybe_edge_fields c b r1 r2 t e a = Ok a' -> same_dims a' a.
Proof.
  unfold maybe_edge_fields. destruct (touches _ _ _ _); [apply edge_fields_dims|].
  intros H; inversion H; apply same_dims_refl.
Qed.

Lemma bcs_fields_dims c b t r1 r2 a a' : bcs_fields_rank c b t r1 r2 a = Ok a' -> same_dims a' a.
Proof.
  unfold bcs_fields_rank. intros H.
  destruct (maybe_edge_fields c b r1 r2 t ELeft a) as [a1|] eqn:H1; cbn [rbind] in H; [|discriminate].
  destruct (maybe_edge_fields c b r1 r2 t ERight a1) as [a2|] eqn:H2; cbn [rbind] in H; [|discriminate].
  destruct (maybe_edge_fields c b r1 r2 t EBottom a2) as [a3|] eqn:H3; cbn [rbind] in H; [|discriminate].
  apply maybe_edge_fields_dims in H, H1, H2, H3.
  eapply same_dims_trans; [exact H|]. eapply same_dims_trans; [exact H3|].
  eapply same_dims_trans; [exact H2|]. exact H1.
Qed.

Lemma shaped_bcs c b t (F G : dist R) :
  all_ranks (flay c) (fun r1 r2 => bcs_fields_rank c b t r1 r2 (F r1 r2)) = Ok G ->
  shaped (flay c) 6 1 F -> shaped (flay c) 6 1 G.
Proof.
  intros H SH r1 r2 RK. pose proof (all_ranks_Ok _ _ _ H r1 r2 RK) as X. cbv beta in X.
  destruct (bcs_fields_dims _ _ _ _ _ _ _ X) as (A&B&C&D). destruct (SH r1 r2 RK) as (A'&B'&C'&D').
  repeat split; congruence.
Qed.

Lemma wf_bcs c b s s' : wf_em c s -> apply_bcs_fields c b s = Ok s' -> wf_em c s'.
Proof.
  intros W H. unfold apply_bcs_fields in H.
  match type of H with rbind ?x _ = _ => destruct x as [G|] eqn:E; cbn [rbind] in H; [|discriminate] end.
  injection H as <-. apply wf_write; auto.
  eapply shaped_bcs; [exact E|]. destruct b; [apply shaped_yee|apply shaped_cc]; auto.
Qed.

(** ** The field solver's constructor, whatever the walls *)
Lemma wf_electrostatic_any c rho s s' : wf_em c s -> electrostatic_update c rho s = Ok s' -> wf_em c s'.
Proof.
  intros W H. unfold electrostatic_update, fft_poisson in H.
  destruct (negb (comm_size c =? 1)%nat); cbn [rbind] in H; [discriminate H|].
  eapply wf_bcs; [|exact H]. apply wf_comm, wf_write; auto.
  apply shaped_dmap2; [|apply shaped_cc; auto].
  intros g a. destruct (fft_poisson_E _ _ _ _ _) as (x&y). repeat split.
Qed.

Lemma initialize_any c rho s : initialize_fields c rho = Ok s -> wf_em c s /\ aliased s.
Proof.
  intros H. unfold initialize_fields in H.
  match type of H with rbind ?x _ = _ => destruct x as [s1|e] eqn:E1; cbn [rbind] in H; [|discriminate H] end.
  assert (W1 : wf_em c s1).
  { destruct (String.eqb (fields_initialize c) "fft"); [|destruct (String.eqb (fields_initialize c) "user-defined");
      [|destruct (String.eqb (fields_initialize c) "fft + user-defined magnetic fields")]].
    - destruct (electrostatic_update c rho (fresh c)) as [s2|e] eqn:E2; cbn [rbind] in E1; [|discriminate E1].
      injection E1 as <-. apply wf_c2y. eapply wf_electrostatic_any; eauto. apply wf_fresh.
    - destruct (initialize_electric_fields c (fresh c)) as [s2|e] eqn:E2; cbn [rbind] in E1; [|discriminate E1].
      destruct (initialize_magnetic_fields c s2) as [s3|e] eqn:E3; cbn [rbind] in E1; [|discriminate E1].
      injection E1 as <-. apply wf_y2c. eapply wf_set_joined; [|exact E3].
      eapply wf_set_joined; [|exact E2]. apply wf_fresh.
    - destruct (electrostatic_update c rho (fresh c)) as [s2|e] eqn:E2; cbn [rbind] in E1; [|discriminate E1].
      assert (W2 : wf_em c s2) by (eapply wf_electrostatic_any; eauto; apply wf_fresh).
      revert E1. set (s3 := cell_centered_grid_to_yee_grid OnlyE s2). intros E1.
      destruct (initialize_magnetic_fields c s3) as [s4|e] eqn:E3; cbn [rbind] in E1; [|discriminate E1].
      injection E1 as <-. apply wf_y2c. eapply wf_set_joined; [|exact E3]. apply wf_c2y; auto.
    - discriminate E1. }
  injection H as <-. split; [|split; reflexivity].
  destruct W1 as ((A1&A2&A3&A4)&(B1&B2&B3)&C).
  unfold wf_em; cbn [cc yee cc_n cc_nh next mem]. repeat split; auto; apply C; auto.
Qed.

Lemma init_any c rho s : fields_solver_init c rho = Ok s -> wf_em c s /\ aliased s.
Proof.
  intros H. unfold fields_solver_init in H.
  destruct (initialize_fields c (dmap asum1 rho)) as [s1|e] eqn:E1; cbn [rbind] in H; [|discriminate H].
  destruct (initialize_any c _ s1 E1) as (W&A).
  assert (Hs : s = communicate_fields c true s1) by (injection H as <-; reflexivity).
  rewrite Hs. split; [apply wf_comm; auto|exact A].
Qed.

(** ** One wall, cell by cell *)
Lemma set_row_el k v a x s i j :
  el (set_row k v a) x s i j = if (x =? k)%Z then el v 0 s i j else el a x s i j.
Proof. reflexivity. Qed.

Lemma reflect_el e g (a : arr R) x s i j : (0 < g)%Z -> inb (d2 a) i -> inb (d3 a) j -> roomy e g (d2 a) (d3 a) ->
  el (set_ghost e g a (flip_normal e (get_inner e g a))) x s i j
  = if in_slab e g (d2 a) (d3 a) i j
    then el a x s (fst (mirror_cell e g (d2 a) (d3 a) i j)) (snd (mirror_cell e g (d2 a) (d3 a) i j))
    else el a x s i j.
Proof.
  intros Hg Hi Hj RM. rewrite set_ghost_el by auto.
  destruct (in_slab e g (d2 a) (d3 a) i j) eqn:SL; auto. unfold inb in *.
  destruct e; rewrite get_inner_el by (auto; lia); cbn [mirror_cell fst snd]; f_equal; lia.
Qed.

Lemma mirror_row_el c e k a x s i j : (0 < fN_g c)%Z -> inb (d2 a) i -> inb (d3 a) j -> roomy e (fN_g c) (d2 a) (d3 a) ->
  el (mirror_row c e k a) x s i j
  = if ((x =? k)%Z && in_slab e (fN_g c) (d2 a) (d3 a) i j)%bool
    then el a k s (fst (mirror_cell e (fN_g c) (d2 a) (d3 a) i j)) (snd (mirror_cell e (fN_g c) (d2 a) (d3 a) i j))
    else el a x s i j.
Proof.
  intros Hg Hi Hj RM. unfold mirror_row. rewrite set_row_el.
  destruct (Z.eqb_spec x k); cbn [andb]; auto. subst x.
  rewrite (reflect_el e (fN_g c) (row k a)) by auto. reflexivity.
Qed.

Lemma mirror_fields_el c b e a x s i j : (0 < fN_g c)%Z -> inb (d2 a) i -> inb (d3 a) j -> roomy e (fN_g c) (d2 a) (d3 a) ->
  el (mirror_fields c b e a) x s i j
  = if (reflects b e x && in_slab e (fN_g c) (d2 a) (d3 a) i j)%bool
    then el a x s (fst (mirror_cell e (fN_g c) (d2 a) (d3 a) i j)) (snd (mirror_cell e (fN_g c) (d2 a) (d3 a) i j))
    else el a x s i j.
Proof.
  intros Hg Hi Hj RM. destruct b.
  - assert (T : forall k1 k2, k1 <> k2 -> el (mirror_row c e k2 (mirror_row c e k1 a)) x s i j
      = if (((x =? k1) || (x =? k2))%Z && in_slab e (fN_g c) (d2 a) (d3 a) i j)%bool
        then el a x s (fst (mirror_cell e (fN_g c) (d2 a) (d3 a) i j)) (snd (mirror_cell e (fN_g c) (d2 a) (d3 a) i j))
        else el a x s i j).
    { intros k1 k2 NE. rewrite mirror_row_el by auto. cbn [d2 d3 mirror_row set_row].
      destruct (Z.eqb_spec x k2); cbn [andb].
      - subst x. rewrite orb_true_r. cbn [andb].
        destruct (in_slab e (fN_g c) (d2 a) (d3 a) i j) eqn:SL.
        + unfold mirror_row. rewrite set_row_el. destruct (Z.eqb_spec k2 k1); [congruence|]. reflexivity.
        + unfold mirror_row. rewrite set_row_el. destruct (Z.eqb_spec k2 k1); [congruence|]. reflexivity.
      - rewrite orb_false_r. rewrite mirror_row_el by auto.
        destruct (Z.eqb_spec x k1); cbn [andb]; auto. subst; auto. }
    unfold mirror_fields, reflects. destruct e; apply T; discriminate.
  - cbn [mirror_fields reflects andb]. apply reflect_el; auto.
Qed.

(** What the user's functions return on the slab of edge [e], component [x]. *)
Lemma join6_el (v : Z -> arr R) x s i j : (forall k, d0 (v k) = 1%Z) -> inb 6 x ->
  el (join0 (join3 (v 0%Z) (v 1%Z) (v 2%Z)) (join3 (v 3%Z) (v 4%Z) (v 5%Z))) x s i j = el (v x) 0 s i j.
Proof.
  intros D Hx. unfold join3, join0; cbn [el d0]. rewrite !D.
  assert (K : (x = 0 \/ x = 1 \/ x = 2 \/ x = 3 \/ x = 4 \/ x = 5)%Z) by (unfold inb in Hx; lia).
  destruct K as [K|[K|[K|[K|[K|K]]]]]; subst x; reflexivity.
Qed.

Lemma get_ghost_d0 {A} e g (a : arr A) : d0 (get_ghost e g a) = d0 a.
Proof. destruct e; reflexivity. Qed.

Lemma dirichlet_fields_el c r1 r2 t e a x s i j : (0 < fN_g c)%Z -> inb (d2 a) i -> inb (d3 a) j ->
  roomy e (fN_g c) (d2 a) (d3 a) -> inb 6 x ->
  (forall k, same_dims (em_bc c r1 r2 e k t (row k a)) (row k a)) ->
  el (dirichlet_fields c r1 r2 t e a) x s i j
  = if in_slab e (fN_g c) (d2 a) (d3 a) i j then el (em_bc c r1 r2 e x t (row x a)) 0 s i j else el a x s i j.
Proof.
  intros Hg Hi Hj RM Hx SD. unfold dirichlet_fields. rewrite set_ghost_el by auto.
  destruct (in_slab e (fN_g c) (d2 a) (d3 a) i j) eqn:SL; auto.
  set (v := fun k => get_ghost e (fN_g c) (em_bc c r1 r2 e k t (row k a))).
  assert (D : forall k, d0 (v k) = 1%Z) by (intros k; unfold v; rewrite get_ghost_d0; apply (SD k)).
  assert (J : forall i j, el (join0 (join3 (v 0%Z) (v 1%Z) (v 2%Z)) (join3 (v 3%Z) (v 4%Z) (v 5%Z))) x s i j = el (v x) 0 s i j)
    by (intros; apply join6_el; auto).
  change (match e with
   | ELeft | EBottom => el (join0 (join3 (v 0%Z) (v 1%Z) (v 2%Z)) (join3 (v 3%Z) (v 4%Z) (v 5%Z))) x s i j
   | ERight => el (join0 (join3 (v 0%Z) (v 1%Z) (v 2%Z)) (join3 (v 3%Z) (v 4%Z) (v 5%Z))) x s (i - (d2 a - fN_g c)) j
   | ETop => el (join0 (join3 (v 0%Z) (v 1%Z) (v 2%Z)) (join3 (v 3%Z) (v 4%Z) (v 5%Z))) x s i (j - (d3 a - fN_g c))
   end = el (em_bc c r1 r2 e x t (row x a)) 0 s i j).
  destruct (SD x) as (_&_&S2&S3). cbn [row d2 d3] in S2, S3. unfold inb in *.
  destruct e; rewrite J; unfold v; rewrite get_ghost_el by (rewrite ?S2, ?S3; auto; lia); rewrite ?S2, ?S3; f_equal; lia.
Qed.

(** ** Named conditions *)
Section Named.
  Context (c : fcfg) (b : bool) (r1 r2 : nat) (t : R).
  Let g := fN_g c.
  Context (n1 n2 : Z) (G : (0 < g)%Z) (W1 : (3 * g <= n1)%Z) (W2 : (3 * g <= n2)%Z).
  Context (BC : forall e k h, same_dims (em_bc c r1 r2 e k t h) h).

  Definition sized (a : arr R) : Prop := d0 a = 6%Z /\ d1 a = 1%Z /\ d2 a = n1 /\ d3 a = n2.

  Lemma sized_same a a' : same_dims a' a -> sized a -> sized a'.
  Proof. intros (A&B&C&D) (A'&B'&C'&D'). repeat split; congruence. Qed.

  Lemma roomy_any e : roomy e g n1 n2.
  Proof. unfold roomy. destruct e; lia. Qed.

  Lemma outside_edge e a a' k i j : sized a -> inb 6 k -> inb n1 i -> inb n2 j ->
    maybe_edge_fields c b r1 r2 t e a = Ok a' ->
    (touches (flay c) r1 r2 e = true -> in_slab e g n1 n2 i j = false) ->
    el a' k 0 i j = el a k 0 i j.
  Proof.
    intros SZ Hk Hi Hj H NS. unfold maybe_edge_fields in H.
    destruct (touches (flay c) r1 r2 e); [|injection H as <-; reflexivity].
    specialize (NS eq_refl). pose proof (roomy_any e) as RM.
    assert (SZ' := SZ). destruct SZ' as (D0&D1&D2&D3).
    assert (M : el (mirror_fields c b e a) k 0 i j = el a k 0 i j).
    { rewrite mirror_fields_el by (fold g; rewrite ?D2, ?D3; auto). fold g. rewrite D2, D3, NS, andb_false_r. reflexivity. }
    assert (X : forall h, sized h -> el (dirichlet_fields c r1 r2 t e h) k 0 i j = el h k 0 i j).
    { intros h (X0&X1&X2&X3). rewrite dirichlet_fields_el by (fold g; rewrite ?X2, ?X3; auto). fold g. rewrite X2, X3, NS. reflexivity. }
    unfold edge_fields in H.
    repeat match type of H with (if ?x then _ else _) = _ => destruct x end; inversion H; subst; auto.
    rewrite X; auto. eapply sized_same; [apply mirror_fields_dims|exact SZ].
  Qed.

  Lemma inside_edge e a a' v k i j : sized a -> inb 6 k -> inb n1 i -> inb n2 j ->
    maybe_edge_fields c b r1 r2 t e a = Ok a' ->
    touches (flay c) r1 r2 e = true -> in_slab e g n1 n2 i j = true ->
    (forall h, same_dims h (row k a) -> el (em_bc c r1 r2 e k t h) 0 0 i j = v) ->
    el a' k 0 i j = field_value (fin_q c e) (reflects b e k)
        (el a k 0 (fst (mirror_cell e g n1 n2 i j)) (snd (mirror_cell e g n1 n2 i j))) v (el a k 0 i j).
  Proof.
    intros SZ Hk Hi Hj H TO SL HV. unfold maybe_edge_fields in H. rewrite TO in H.
    pose proof (roomy_any e) as RM.
    assert (SZ' := SZ). destruct SZ' as (D0&D1&D2&D3).
    assert (M : el (mirror_fields c b e a) k 0 i j
       = if reflects b e k then el a k 0 (fst (mirror_cell e g n1 n2 i j)) (snd (mirror_cell e g n1 n2 i j)) else el a k 0 i j).
    { rewrite mirror_fields_el by (fold g; rewrite ?D2, ?D3; auto). fold g. rewrite D2, D3, SL, andb_true_r. reflexivity. }
    assert (X : forall h, sized h -> el (dirichlet_fields c r1 r2 t e h) k 0 i j = v).
    { intros h (X0&X1&X2&X3). rewrite dirichlet_fields_el by (fold g; rewrite ?X2, ?X3; auto). fold g. rewrite X2, X3, SL.
      apply HV. repeat split; cbn; congruence. }
    assert (SM : sized (mirror_fields c b e a)) by (eapply sized_same; [apply mirror_fields_dims|exact SZ]).
    unfold edge_fields in H. unfold field_value.
    destruct (String.eqb (fin_q c e) "dirichlet"); [inversion H; subst; auto|].
    destruct (String.eqb (fin_q c e) "mirror"); [inversion H; subst; auto|].
    destruct (String.eqb (fin_q c e) "mirror+dirichlet"); [inversion H; subst; auto|].
    repeat match type of H with (if ?x then _ else _) = _ => destruct x end; inversion H; subst; auto.
  Qed.

  Lemma named_interior a a' k i j : sized a -> inb 6 k -> inb n1 i -> inb n2 j ->
    bcs_fields_rank c b t r1 r2 a = Ok a' ->
    (forall e, touches (flay c) r1 r2 e = true -> in_slab e g n1 n2 i j = false) ->
    el a' k 0 i j = el a k 0 i j.
  Proof.
    intros SZ Hk Hi Hj H NS. unfold bcs_fields_rank in H.
    destruct (maybe_edge_fields c b r1 r2 t ELeft a) as [a1|] eqn:H1; cbn [rbind] in H; [|discriminate].
    destruct (maybe_edge_fields c b r1 r2 t ERight a1) as [a2|] eqn:H2; cbn [rbind] in H; [|discriminate].
    destruct (maybe_edge_fields c b r1 r2 t EBottom a2) as [a3|] eqn:H3; cbn [rbind] in H; [|discriminate].
    assert (Z1 : sized a1) by (eapply sized_same; [eapply maybe_edge_fields_dims; exact H1|exact SZ]).
    assert (Z2 : sized a2) by (eapply sized_same; [eapply maybe_edge_fields_dims; exact H2|exact Z1]).
    assert (Z3 : sized a3) by (eapply sized_same; [eapply maybe_edge_fields_dims; exact H3|exact Z2]).
    rewrite (outside_edge ETop a3 a' k i j Z3) by auto.
    rewrite (outside_edge EBottom a2 a3 k i j Z2) by auto.
    rewrite (outside_edge ERight a1 a2 k i j Z1) by auto.
    apply (outside_edge ELeft a a1 k i j SZ); auto.
  Qed.

  Lemma named_slab e a a' v k i j : sized a -> inb 6 k -> inb n1 i -> inb n2 j ->
    bcs_fields_rank c b t r1 r2 a = Ok a' ->
    touches (flay c) r1 r2 e = true -> in_slab e g n1 n2 i j = true ->
    (forall e', e' <> e -> touches (flay c) r1 r2 e' = true -> in_slab e' g n1 n2 i j = false) ->
    (forall h, same_dims h (row k a) -> el (em_bc c r1 r2 e k t h) 0 0 i j = v) ->
    el a' k 0 i j = field_value (fin_q c e) (reflects b e k)
        (el a k 0 (fst (mirror_cell e g n1 n2 i j)) (snd (mirror_cell e g n1 n2 i j))) v (el a k 0 i j).
  Proof.
    intros SZ Hk Hi Hj H TO SL NS HV. unfold bcs_fields_rank in H.
    destruct (maybe_edge_fields c b r1 r2 t ELeft a) as [a1|] eqn:H1; cbn [rbind] in H; [|discriminate].
    destruct (maybe_edge_fields c b r1 r2 t ERight a1) as [a2|] eqn:H2; cbn [rbind] in H; [|discriminate].
    destruct (maybe_edge_fields c b r1 r2 t EBottom a2) as [a3|] eqn:H3; cbn [rbind] in H; [|discriminate].
    assert (Z1 : sized a1) by (eapply sized_same; [eapply maybe_edge_fields_dims; exact H1|exact SZ]).
    assert (Z2 : sized a2) by (eapply sized_same; [eapply maybe_edge_fields_dims; exact H2|exact Z1]).
    assert (Z3 : sized a3) by (eapply sized_same; [eapply maybe_edge_fields_dims; exact H3|exact Z2]).
    assert (HV' : forall a2, sized a2 -> forall h, same_dims h (row k a2) -> el (em_bc c r1 r2 e k t h) 0 0 i j = v).
    { intros x (X0&X1&X2&X3) h (Y0&Y1&Y2&Y3). apply HV. destruct SZ as (S0&S1&S2&S3).
      cbn [row d0 d1 d2 d3] in *. repeat split; cbn [row d0 d1 d2 d3]; congruence. }
    set (m := mirror_cell e g n1 n2 i j) in *.
    assert (MI : inb n1 (fst m) /\ inb n2 (snd m)).
    { unfold m, mirror_cell, in_slab, inb in *. destruct e; cbn [fst snd] in *; lia. }
    assert (MS : forall e', touches (flay c) r1 r2 e' = true -> in_slab e' g n1 n2 (fst m) (snd m) = false).
    { intros e' TE. unfold m, mirror_cell, inb in *.
      destruct e, e'; cbn [fst snd in_slab] in *; try lia;
        match goal with |- _ = false => idtac end;
        match goal with H : forall e', e' <> _ -> _ |- _ =>
          first [pose proof (H ELeft ltac:(discriminate)) as NL | idtac];
          first [pose proof (H ERight ltac:(discriminate)) as NR | idtac];
          first [pose proof (H EBottom ltac:(discriminate)) as NB | idtac];
          first [pose proof (H ETop ltac:(discriminate)) as NT | idtac] end;
        cbn [in_slab] in *;
        match goal with N : touches (flay c) r1 r2 ?x = true -> _ |- _ =>
          match type of TE with touches (flay c) r1 r2 x = true => exact (N TE) end end. }
    destruct MI as (MI1&MI2).
    destruct e.
    - rewrite (outside_edge ETop a3 a' k i j Z3) by (auto; apply NS; discriminate).
      rewrite (outside_edge EBottom a2 a3 k i j Z2) by (auto; apply NS; discriminate).
      rewrite (outside_edge ERight a1 a2 k i j Z1) by (auto; apply NS; discriminate).
      exact (inside_edge ELeft a a1 v k i j SZ Hk Hi Hj H1 TO SL HV).
    - rewrite (outside_edge ETop a3 a' k i j Z3) by (auto; apply NS; discriminate).
      rewrite (outside_edge EBottom a2 a3 k i j Z2) by (auto; apply NS; discriminate).
      rewrite (inside_edge ERight a1 a2 v k i j Z1 Hk Hi Hj H2 TO SL (HV' a1 Z1)). fold m.
      rewrite (outside_edge ELeft a a1 k i j SZ) by (auto; apply NS; discriminate).
      rewrite (outside_edge ELeft a a1 k (fst m) (snd m) SZ) by auto. reflexivity.
    - rewrite (outside_edge ETop a3 a' k i j Z3) by (auto; apply NS; discriminate).
      rewrite (inside_edge EBottom a2 a3 v k i j Z2 Hk Hi Hj H3 TO SL (HV' a2 Z2)). fold m.
      rewrite (outside_edge ERight a1 a2 k i j Z1) by (auto; apply NS; discriminate).
      rewrite (outside_edge ERight a1 a2 k (fst m) (snd m) Z1) by auto.
      rewrite (outside_edge ELeft a a1 k i j SZ) by (auto; apply NS; discriminate).
      rewrite (outside_edge ELeft a a1 k (fst m) (snd m) SZ) by auto. reflexivity.
    - rewrite (inside_edge ETop a3 a' v k i j Z3 Hk Hi Hj H TO SL (HV' a3 Z3)). fold m.
      rewrite (outside_edge EBottom a2 a3 k i j Z2) by (auto; apply NS; discriminate).
      rewrite (outside_edge EBottom a2 a3 k (fst m) (snd m) Z2) by auto.
      rewrite (outside_edge ERight a1 a2 k i j Z1) by (auto; apply NS; discriminate).
      rewrite (outside_edge ERight a1 a2 k (fst m) (snd m) Z1) by auto.
      rewrite (outside_edge ELeft a a1 k i j SZ) by (auto; apply NS; discriminate).
      rewrite (outside_edge ELeft a a1 k (fst m) (snd m) SZ) by auto. reflexivity.
  Qed.
End Named.

(** ** Which names can be carried out *)
Lemma usable_cases x : In x usable_names <->
  x = "dirichlet"%string \/ x = "mirror"%string \/ x = "mirror+dirichlet"%string \/ x = "periodic"%string \/ x = "none"%string.
Proof. unfold usable_names; cbn [In]. intuition. Qed.

Lemma edge_usable c b r1 r2 t e a : In (fin_q c e) usable_names <-> exists a', edge_fields c b r1 r2 t e a = Ok a'.
Proof.
  rewrite usable_cases. unfold edge_fields. split.
  - intros [H|[H|[H|[H|H]]]]; rewrite H; cbn; eauto.
  - intros (a'&H).
    destruct (String.eqb_spec (fin_q c e) "dirichlet"); [auto|].
    destruct (String.eqb_spec (fin_q c e) "mirror"); [auto|].
    destruct (String.eqb_spec (fin_q c e) "mirror+dirichlet"); [auto|].
    destruct (String.eqb_spec (fin_q c e) "periodic"); [auto|].
    destruct (String.eqb_spec (fin_q c e) "none"); [auto|]. cbn [orb] in H.
    destruct (String.eqb (fin_q c e) "shearing-box"); discriminate H.
Qed.

Lemma edge_shearing c b r1 r2 t e a : fin_q c e = "shearing-box"%string -> edge_fields c b r1 r2 t e a = Err AttributeError.
Proof. intros H. unfold edge_fields. rewrite H. reflexivity. Qed.
Lemma edge_unknown c b r1 r2 t e a : ~ In (fin_q c e) usable_names -> fin_q c e <> "shearing-box"%string ->
  edge_fields c b r1 r2 t e a = Err NotImplementedError.
Proof.
  intros NU NS. unfold edge_fields.
  destruct (String.eqb_spec (fin_q c e) "dirichlet") as [X|_]; [exfalso; apply NU, usable_cases; auto|].
  destruct (String.eqb_spec (fin_q c e) "mirror") as [X|_]; [exfalso; apply NU, usable_cases; auto|].
  destruct (String.eqb_spec (fin_q c e) "mirror+dirichlet") as [X|_]; [exfalso; apply NU, usable_cases; auto|].
  destruct (String.eqb_spec (fin_q c e) "periodic") as [X|_]; [exfalso; apply NU, usable_cases; auto|].
  destruct (String.eqb_spec (fin_q c e) "none") as [X|_]; [exfalso; apply NU, usable_cases; auto 6|]. cbn [orb].
  destruct (String.eqb_spec (fin_q c e) "shearing-box"); [contradiction|reflexivity].
Qed.

(** One failing rank stops the program, and nothing else does. *)
Lemma all_ranks_fails L (F : nat -> nat -> res (arr R)) x r1 r2 : rank_ok L r1 r2 -> F r1 r2 = Err x ->
  (forall r1 r2 y, F r1 r2 = Err y -> y = x) -> all_ranks L F = Err x.
Proof.
  intros (R1&R2) E U. assert (IN : In (r1, r2) (ranks L)) by (unfold ranks; apply in_prod; apply in_seq; lia).
  unfold all_ranks. revert IN. generalize (ranks L) as l. induction l as [|r l IH]; simpl; intros IN; [tauto|].
  destruct (F (fst r) (snd r)) eqn:Er.
  - destruct IN as [->|IN]; [cbn in Er; congruence|]. auto.
  - apply U in Er. subst. reflexivity.
Qed.

Lemma all_ranks_holds L (F : nat -> nat -> res (arr R)) :
  (forall r1 r2, rank_ok L r1 r2 -> exists a, F r1 r2 = Ok a) -> exists G, all_ranks L F = Ok G.
Proof.
  intros H. unfold all_ranks.
  assert (A : forall r, In r (ranks L) -> exists a, F (fst r) (snd r) = Ok a).
  { intros (r1&r2) IN. unfold ranks in IN. apply in_prod_iff in IN. rewrite !in_seq in IN. apply H. cbn [fst snd]. split; destruct IN as ((_&X)&(_&Y)); [exact X|exact Y]. }
  revert A. generalize (ranks L) as l. induction l as [|r l IH]; simpl; intros A; [eauto|].
  destruct (A r (or_introl eq_refl)) as (a&->). apply IH. intros; apply A; auto.
Qed.

Lemma bcs_rank_usable c b t r1 r2 a :
  (forall e, touches (flay c) r1 r2 e = true -> In (fin_q c e) usable_names) ->
  exists a', bcs_fields_rank c b t r1 r2 a = Ok a'.
Proof.
  intros H. assert (M : forall e a, exists a', maybe_edge_fields c b r1 r2 t e a = Ok a').
  { intros e x. unfold maybe_edge_fields. destruct (touches (flay c) r1 r2 e) eqn:T; [|eauto].
    apply edge_usable; auto. }
  unfold bcs_fields_rank.
  destruct (M ELeft a) as (a1&->); cbn [rbind]. destruct (M ERight a1) as (a2&->); cbn [rbind].
  destruct (M EBottom a2) as (a3&->); cbn [rbind]. apply M.
Qed.

Lemma bcs_rank_err c b t r1 r2 a x : bcs_fields_rank c b t r1 r2 a = Err x ->
  exists e a', touches (flay c) r1 r2 e = true /\ edge_fields c b r1 r2 t e a' = Err x.
Proof.
  assert (M : forall e a, maybe_edge_fields c b r1 r2 t e a = Err x ->
     exists e a', touches (flay c) r1 r2 e = true /\ edge_fields c b r1 r2 t e a' = Err x).
  { intros e y. unfold maybe_edge_fields. destruct (touches (flay c) r1 r2 e) eqn:T; [|discriminate]. eauto. }
  unfold bcs_fields_rank.
  destruct (maybe_edge_fields c b r1 r2 t ELeft a) as [a1|] eqn:H1; cbn [rbind]; [|intros X; inversion X; subst; eauto].
  destruct (maybe_edge_fields c b r1 r2 t ERight a1) as [a2|] eqn:H2; cbn [rbind]; [|intros X; inversion X; subst; eauto].
  destruct (maybe_edge_fields c b r1 r2 t EBottom a2) as [a3|] eqn:H3; cbn [rbind]; [|intros X; inversion X; subst; eauto].
  apply M.
Qed.

Lemma bcs_rank_ok_names c b t r1 r2 a a' e : bcs_fields_rank c b t r1 r2 a = Ok a' ->
  touches (flay c) r1 r2 e = true -> In (fin_q c e) usable_names.
Proof.
  intros H T. unfold bcs_fields_rank in H.
  destruct (maybe_edge_fields c b r1 r2 t ELeft a) as [a1|] eqn:H1; cbn [rbind] in H; [|discriminate].
  destruct (maybe_edge_fields c b r1 r2 t ERight a1) as [a2|] eqn:H2; cbn [rbind] in H; [|discriminate].
  destruct (maybe_edge_fields c b r1 r2 t EBottom a2) as [a3|] eqn:H3; cbn [rbind] in H; [|discriminate].
  unfold maybe_edge_fields in *.
  destruct e; rewrite T in *; eapply edge_usable; eauto.
Qed.

(** Every edge of the box belongs to some rank. *)
Lemma edge_has_rank L e : tiles (gN1 L) (blk1 L) -> tiles (gN2 L) (blk2 L) ->
  exists r1 r2, rank_ok L r1 r2 /\ touches L r1 r2 e = true.
Proof.
  intros T1 T2.
  assert (P1 : (0 < List.length (blk1 L))%nat) by (destruct T1 as (N&F&S); destruct (blk1 L); [cbn in S; lia|cbn; lia]).
  assert (P2 : (0 < List.length (blk2 L))%nat) by (destruct T2 as (N&F&S); destruct (blk2 L); [cbn in S; lia|cbn; lia]).
  assert (RK : rank_ok L 0 0) by (split; auto).
  assert (RE : rank_ok L (List.length (blk1 L) - 1) (List.length (blk2 L) - 1)) by (split; lia).
  destruct (touches_spec L 0 0 T1 T2 RK) as (A&_&B&_).
  destruct (touches_spec L _ _ T1 T2 RE) as (_&C&_&D).
  destruct e; [exists 0%nat, 0%nat|eexists; eexists|exists 0%nat, 0%nat|eexists; eexists]; (split; [eassumption|]).
  - apply A; auto.
  - apply C. lia.
  - apply B; auto.
  - apply D. lia.
Qed.

Lemma apply_bcs_usable c b s : tiles (gN1 (flay c)) (blk1 (flay c)) -> tiles (gN2 (flay c)) (blk2 (flay c)) ->
  (forall e, In (fin_q c e) usable_names) <-> exists s', apply_bcs_fields c b s = Ok s'.
Proof.
  intros T1 T2. unfold apply_bcs_fields. split.
  - intros H. destruct (all_ranks_holds (flay c) (fun r1 r2 => bcs_fields_rank c b (ftime s) r1 r2
      (mem s (if b then yee s else cc s) r1 r2))) as (G&->); [intros; apply bcs_rank_usable; auto|].
    cbn [rbind]. eauto.
  - intros (s'&H) e.
    match type of H with rbind ?x _ = _ => destruct x as [G|] eqn:E; cbn [rbind] in H; [|discriminate] end.
    destruct (edge_has_rank (flay c) e T1 T2) as (r1&r2&RK&TO).
    pose proof (all_ranks_Ok _ _ _ E r1 r2 RK) as X. cbv beta in X.
    eapply bcs_rank_ok_names; eauto.
Qed.

Lemma apply_bcs_error c b s e x : tiles (gN1 (flay c)) (blk1 (flay c)) -> tiles (gN2 (flay c)) (blk2 (flay c)) ->
  (forall r1 r2 t a, edge_fields c b r1 r2 t e a = Err x) ->
  (forall e', In (fin_q c e') usable_names \/ fin_q c e' = fin_q c e) ->
  apply_bcs_fields c b s = Err x.
Proof.
  intros T1 T2 HE HU. unfold apply_bcs_fields.
  destruct (edge_has_rank (flay c) e T1 T2) as (r1&r2&RK&TO).
  assert (U : forall r1 r2 t a y, bcs_fields_rank c b t r1 r2 a = Err y -> y = x).
  { intros q1 q2 t a y H. apply bcs_rank_err in H. destruct H as (e'&a'&T&H).
    destruct (HU e') as [I|I]; [apply (proj1 (edge_usable c b q1 q2 t e' a')) in I; destruct I as (z&I); congruence|].
    specialize (HE q1 q2 t a'). unfold edge_fields in H, HE. rewrite I in H.
    destruct (String.eqb (fin_q c e) "dirichlet"); [congruence|].
    destruct (String.eqb (fin_q c e) "mirror"); [congruence|].
    destruct (String.eqb (fin_q c e) "mirror+dirichlet"); [congruence|].
    destruct (String.eqb (fin_q c e) "periodic" || String.eqb (fin_q c e) "none"); [congruence|]. congruence. }
  rewrite (all_ranks_fails (flay c) _ x r1 r2 RK); [reflexivity| |intros; eapply U; eassumption].
  destruct (bcs_fields_rank c b (ftime s) r1 r2 (mem s (if b then yee s else cc s) r1 r2)) as [a'|y] eqn:E.
  - exfalso. apply (bcs_rank_ok_names _ _ _ _ _ _ _ e) in E; auto.
    apply (edge_usable c b r1 r2 0 e a') in E. destruct E as (z&E). rewrite HE in E. discriminate.
  - apply U in E. congruence.
Qed.

(** The array a state holds on the given grid. *)
Lemma apply_bcs_ranks c b s s' r1 r2 : rank_ok (flay c) r1 r2 -> apply_bcs_fields c b s = Ok s' ->
  bcs_fields_rank c b (ftime s) r1 r2 ((if b then yee_val s else cc_val s) r1 r2)
  = Ok ((if b then yee_val s' else cc_val s') r1 r2).
Proof.
  intros RK H. unfold apply_bcs_fields in H.
  match type of H with context [all_ranks ?L ?f] => destruct (all_ranks L f) as [F|] eqn:E end; cbn [rbind] in H; [|discriminate H].
  apply Ok_inj in H. subst s'. pose proof (all_ranks_Ok _ _ _ E r1 r2 RK) as X. cbv beta in X.
  unfold yee_val, cc_val. destruct b; cbn [write yee cc mem]; rewrite Nat.eqb_refl; exact X.
Qed.

Lemma named_all c (b : bool) s s' r1 r2 : let a := (if b then yee_val s else cc_val s) r1 r2 in
  let a' := (if b then yee_val s' else cc_val s') r1 r2 in
  let g := fN_g c in let n1 := n1g (flay c) r1 in let n2 := n2g (flay c) r2 in
  rank_ok (flay c) r1 r2 -> shaped (flay c) 6 1 (if b then yee_val s else cc_val s) ->
  (0 < g)%Z -> (3 * g <= n1)%Z -> (3 * g <= n2)%Z ->
  (forall e k h, same_dims (em_bc c r1 r2 e k (ftime s) h) h) ->
  apply_bcs_fields c b s = Ok s' ->
  forall k i j, inb 6 k -> inb n1 i -> inb n2 j ->
  ((forall e, touches (flay c) r1 r2 e = true -> in_slab e g n1 n2 i j = false) -> el a' k 0 i j = el a k 0 i j)
  /\ (forall e v, touches (flay c) r1 r2 e = true -> in_slab e g n1 n2 i j = true ->
      (forall e', e' <> e -> touches (flay c) r1 r2 e' = true -> in_slab e' g n1 n2 i j = false) ->
      (forall h, same_dims h (row k a) -> el (em_bc c r1 r2 e k (ftime s) h) 0 0 i j = v) ->
      el a' k 0 i j = field_value (fin_q c e) (reflects b e k)
        (el a k 0 (fst (mirror_cell e g n1 n2 i j)) (snd (mirror_cell e g n1 n2 i j))) v (el a k 0 i j)).
Proof.
  intros a a' g n1 n2 RK SH G W1 W2 BC H k i j Hk Hi Hj.
  pose proof (apply_bcs_ranks c b s s' r1 r2 RK H) as X. fold a a' in X.
  assert (SZ : sized n1 n2 a) by exact (SH r1 r2 RK).
  split.
  - intros O. exact (named_interior c b r1 r2 (ftime s) n1 n2 G W1 W2 BC a a' k i j SZ Hk Hi Hj X O).
  - intros e v T S O V. exact (named_slab c b r1 r2 (ftime s) n1 n2 G W1 W2 BC e a a' v k i j SZ Hk Hi Hj X T S O V).
Qed.

Lemma shearing_fails c b s e : tiles (gN1 (flay c)) (blk1 (flay c)) -> tiles (gN2 (flay c)) (blk2 (flay c)) ->
  fin_q c e = "shearing-box"%string ->
  (forall e', In (fin_q c e') usable_names \/ fin_q c e' = "shearing-box"%string) ->
  apply_bcs_fields c b s = Err AttributeError.
Proof.
  intros T1 T2 H O. apply (apply_bcs_error c b s e AttributeError T1 T2).
  - intros. apply edge_shearing; auto.
  - intros e'. rewrite H. apply O.
Qed.

Lemma shearing_evolve c J1 J2 J3 dt s e : tiles (gN1 (flay c)) (blk1 (flay c)) -> tiles (gN2 (flay c)) (blk2 (flay c)) ->
  fin_q c e = "shearing-box"%string ->
  (forall e', In (fin_q c e') usable_names \/ fin_q c e' = "shearing-box"%string) ->
  evolve_electrodynamic_fields c J1 J2 J3 dt s = Err AttributeError.
Proof.
  intros T1 T2 H O. unfold evolve_electrodynamic_fields, fdtd.
  rewrite (shearing_fails c true _ e T1 T2 H O). reflexivity.
Qed.

Lemma unknown_fails c b s e : tiles (gN1 (flay c)) (blk1 (flay c)) -> tiles (gN2 (flay c)) (blk2 (flay c)) ->
  ~ In (fin_q c e) usable_names -> fin_q c e <> "shearing-box"%string ->
  (forall e', In (fin_q c e') usable_names \/ fin_q c e' = fin_q c e) ->
  apply_bcs_fields c b s = Err NotImplementedError.
Proof.
  intros T1 T2 H O Q. apply (apply_bcs_error c b s e NotImplementedError T1 T2); auto.
  intros. apply edge_unknown; auto.
Qed.
