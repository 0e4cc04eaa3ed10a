(** C21-C23: array layouts and coordinates. *)
From Coq Require Import ZArith Reals Lra Lia String List Bool.
From Verif Require Import Base.Prelude Model.Af Model.Grid Model.Petsc Model.Config Model.Fvm
  Spec.Domain Spec.Lattice Spec.FvmProblem Spec.Cells
  Proofs.ConvLemmas Proofs.FvmLemmas Proofs.FvmMore Props.ExFvm.
Import ListNotations.
Local Open Scope R_scope.

(** C21 *)
Theorem C21_layouts_inverse : forall (A : Type) c r1 r2 (a b : arr A), pos_cfg c ->
  (0 < n1g (lay c) r1)%Z -> (0 < n2g (lay c) r2)%Z -> q_shaped c r1 r2 a -> p_shaped c r1 r2 b ->
  aeq (convert_to_q_expanded c r1 r2 (convert_to_p_expanded c r1 r2 a)) a
  /\ aeq (convert_to_p_expanded c r1 r2 (convert_to_q_expanded c r1 r2 b)) b
  /\ (forall i1 i2 i3 s i j, inb (N_p1 c) i1 -> inb (N_p2 c) i2 -> inb (N_p3 c) i3 ->
      inb (N_species c) s -> inb (n1g (lay c) r1) i -> inb (n2g (lay c) r2) j ->
      el (convert_to_p_expanded c r1 r2 a) i1 i2 i3 (s + N_species c * (i + n1g (lay c) r1 * j))
      = el a (i1 + N_p1 c * (i2 + N_p2 c * i3)) s i j).
Proof. exact layouts_inverse. Qed.
Print Assumptions C21_layouts_inverse.

(** ... and the momentum coordinate arrays use the same row order. *)
Theorem C21_same_order_as_coordinates : forall c k1 k2 i1 i2 i3 s i j, wf_cfg c k1 k2 ->
  inb (N_p1 c) i1 -> inb (N_p2 c) i2 -> inb (N_p3 c) i3 -> inb (N_species c) s ->
  let x := (i1 + N_p1 c * (i2 + N_p2 c * i3))%Z in
  let at_ l := nth (Z.to_nat s) l 0 in
  bel (p1_center c) x s i j = at_ (p1_start c) + (1/2 + IZR i1) * at_ (dp1 c)
  /\ bel (p2_center c) x s i j = at_ (p2_start c) + (1/2 + IZR i2) * at_ (dp2 c)
  /\ bel (p3_center c) x s i j = at_ (p3_start c) + (1/2 + IZR i3) * at_ (dp3 c).
Proof. exact coordinate_order. Qed.
Print Assumptions C21_same_order_as_coordinates.

Example C21_applies : pos_cfg (ex_cfg "ppm" true) /\ q_shaped (ex_cfg "ppm" true) 1 0 (sf (ex_state ex_lay) 1%nat 0%nat).
Proof. split; repeat split. Qed.

(** C22.  [pos1 c o g], [pos2 c o g]: global coordinate of cell g at offset o.
    The corner, the bottom face centre and the cell centre are placed correctly
    on every rank, ghosts included.  The left face "centre" gets the q2 of the
    corner. *)
Theorem C22_coordinates_partial : forall c r1 r2 x s i j, inb (n1g (lay c) r1) i -> inb (n2g (lay c) r2) j ->
  let g1 := (off (blk1 (lay c)) r1 + i - ng1 (lay c))%Z in
  let g2 := (off (blk2 (lay c)) r2 + j - ng2 (lay c))%Z in
  let q := qc c r1 r2 in
  bel (fst (q_left_bot q)) x s i j = pos1 c 0 g1 /\ bel (snd (q_left_bot q)) x s i j = pos2 c 0 g2
  /\ bel (fst (q_center_bot q)) x s i j = pos1 c (1/2) g1 /\ bel (snd (q_center_bot q)) x s i j = pos2 c 0 g2
  /\ bel (fst (q_left_center q)) x s i j = pos1 c 0 g1 /\ bel (snd (q_left_center q)) x s i j = pos2 c 0 g2
  /\ bel (fst (q_center q)) x s i j = pos1 c (1/2) g1 /\ bel (snd (q_center q)) x s i j = pos2 c (1/2) g2.
Proof. exact q_coords. Qed.
Print Assumptions C22_coordinates_partial.

(** The left face centre is wrong on every grid with dq2 <> 0. *)
Theorem C22_left_face_centre_refuted : forall c r1 r2 x s i j,
  inb (n1g (lay c) r1) i -> inb (n2g (lay c) r2) j -> dq2 c <> 0 ->
  bel (snd (q_left_center (qc c r1 r2))) x s i j
  <> pos2 c (1/2) (off (blk2 (lay c)) r2 + j - ng2 (lay c)).
Proof. exact left_face_wrong. Qed.
Print Assumptions C22_left_face_centre_refuted.

(** Ghost cell (0, 5) of rank (1, 0): global cell (-2, 2). *)
Example C22_applies : let c := ex_cfg "ppm" true in
  bel (fst (q_center (qc c 1 0))) 0 0 0 5 = -3/2 /\ bel (snd (q_center (qc c 1 0))) 0 0 0 5 = 5/2.
Proof.
  intros c. destruct (C22_coordinates_partial c 1 0 0 0 0 5) as (_&_&_&_&_&_&A&B); try (unfold inb; cbn; lia).
  rewrite A, B. unfold pos1, pos2. cbn. lra.
Qed.

(** C23 *)
Theorem C23_momentum_grid : forall c k1 k2 (e1 e2 e3 : list R) s, wf_cfg c k1 k2 -> inb (N_species c) s ->
  let at_ l := nth (Z.to_nat s) l 0 in
  at_ (p1_start c) < at_ e1 -> at_ (p2_start c) < at_ e2 -> at_ (p3_start c) < at_ e3 ->
  at_ (dp1 c) = (at_ e1 - at_ (p1_start c)) / IZR (N_p1 c) ->
  at_ (dp2 c) = (at_ e2 - at_ (p2_start c)) / IZR (N_p2 c) ->
  at_ (dp3 c) = (at_ e3 - at_ (p3_start c)) / IZR (N_p3 c) ->
  let row i1 i2 i3 := (i1 + N_p1 c * (i2 + N_p2 c * i3))%Z in
  (forall i2 i3, inb (N_p2 c) i2 -> inb (N_p3 c) i3 ->
     tile_interval (at_ (p1_start c)) (at_ e1) (N_p1 c)
       (fun i => bel (p1_left c) (row i i2 i3) s 0 0) (fun i => bel (p1_center c) (row i i2 i3) s 0 0))
  /\ (forall i1 i3, inb (N_p1 c) i1 -> inb (N_p3 c) i3 ->
     tile_interval (at_ (p2_start c)) (at_ e2) (N_p2 c)
       (fun i => bel (p2_bottom c) (row i1 i i3) s 0 0) (fun i => bel (p2_center c) (row i1 i i3) s 0 0))
  /\ (forall i1 i2, inb (N_p1 c) i1 -> inb (N_p2 c) i2 ->
     tile_interval (at_ (p3_start c)) (at_ e3) (N_p3 c)
       (fun i => bel (p3_back c) (row i1 i2 i) s 0 0) (fun i => bel (p3_center c) (row i1 i2 i) s 0 0)).
Proof. exact momentum_grid. Qed.
Print Assumptions C23_momentum_grid.

Example C23_applies : let c := ex_cfg "ppm" true in
  tile_interval (-2) 2 2 (fun i => bel (p1_left c) (i + 2 * (1 + 2 * 0))%Z 1 0 0)
    (fun i => bel (p1_center c) (i + 2 * (1 + 2 * 0))%Z 1 0 0).
Proof.
  intros c. apply (C23_momentum_grid c PPM PPM [1;2] [1;2] [1;2] 1 (ex_wf "ppm" _ PPM eq_refl));
  try (unfold inb; cbn; lia); change (Z.to_nat 1) with 1%nat; cbn; lra.
Qed.
