(** C13, C15-C17: boundary conditions of the distribution function. *)
From Coq Require Import ZArith Reals Lra Lia String List Bool.
From Verif Require Import Base.Prelude Model.Af Model.Grid Model.Petsc Model.Config Model.Boundaries
  Spec.Domain Spec.Lattice Spec.FvmProblem Spec.Mirror Spec.Walls
  Proofs.AfLemmas Proofs.ConvLemmas Proofs.BoundaryLemmas Proofs.BoundaryRun Proofs.BoundaryMore Props.ExWalls.
Import ListNotations.
Local Open Scope Z_scope.

(** C13.  [in_slab]: the ghost cells beyond edge e; [mirror_cell]: the cell at the
    same distance from the wall inside; [reverse_normal]: the row of the momentum
    with the normal index reversed. *)
Theorem C13_mirror : forall c r1 r2 e (f : arr R),
  let g := N_ghost c in let n1 := n1g (lay c) r1 in let n2 := n2g (lay c) r2 in
  let f' := apply_mirror_bcs_f_cartesian c r1 r2 e f in
  pos_cfg c -> 0 < g -> roomy e g n1 n2 -> q_shaped c r1 r2 f ->
  q_shaped c r1 r2 f'
  /\ (forall x s i j, inb (N_p c) x -> inb (N_species c) s -> inb n1 i -> inb n2 j ->
      el f' x s i j
      = if in_slab e g n1 n2 i j
        then el f (reverse_normal e (N_p1 c) (N_p2 c) x) s
               (fst (mirror_cell e g n1 n2 i j)) (snd (mirror_cell e g n1 n2 i j))
        else el f x s i j)
  /\ aeq (apply_mirror_bcs_f_cartesian c r1 r2 e f') f'.
Proof. exact mirror_all. Qed.
Print Assumptions C13_mirror.

(** On a polar momentum grid (p1 = |p|, p2 = angle, an even number of equal
    steps over one turn that starts at a multiple of pi) the ghost momentum is the specular
    reflection: the component normal to the wall changes sign, the tangential
    component and the radius do not. *)
Theorem C13_mirror_polar : forall c r1 r2 e (f : arr R) k1 k2,
  let g := N_ghost c in let n1 := n1g (lay c) r1 in let n2 := n2g (lay c) r2 in
  wf_cfg c k1 k2 -> Z.even (N_p2 c) = true -> 0 < g -> roomy e g n1 n2 -> q_shaped c r1 r2 f ->
  (forall s, inb (N_species c) s ->
     (exists n, nth (Z.to_nat s) (p2_start c) 0%R = (IZR n * PI)%R)
     /\ nth (Z.to_nat s) (dp2 c) 0%R = (2 * PI / IZR (N_p2 c))%R) ->
  forall x s i j, inb (N_p c) x -> inb (N_species c) s -> inb n1 i -> inb n2 j ->
  exists x', inb (N_p c) x'
  /\ el (apply_mirror_bcs_f_polar2D c r1 r2 e f) x s i j
     = (if in_slab e g n1 n2 i j
        then el f x' s (fst (mirror_cell e g n1 n2 i j)) (snd (mirror_cell e g n1 n2 i j))
        else el f x s i j)
  /\ mom1 c (1/2) x' s = mom1 c (1/2) x s /\ mom3 c (1/2) x' s = mom3 c (1/2) x s
  /\ (let th := mom2 c (1/2) x s in let th' := mom2 c (1/2) x' s in
      match e with
      | ELeft | ERight => cos th' = (- cos th)%R /\ sin th' = sin th
      | EBottom | ETop => cos th' = cos th /\ sin th' = (- sin th)%R
      end).
Proof. exact mirror_polar_all. Qed.
Print Assumptions C13_mirror_polar.

(** Ghost column 0 at the left wall shows column 3 with p1 reversed. *)
Example C13_applies : let c := wl_cfg "cartesian" 2 wl_names in
  (forall j, inb 8 j ->
   el (apply_mirror_bcs_f_cartesian c 0 0 ELeft wl_f) 2 1 0 j = el wl_f 3 1 3 j)
  /\ el wl_f 3 1 3 1 <> el wl_f 2 1 0 1.
Proof.
  intros c. split; [|cbn; apply not_eq_sym, Rlt_not_eq, IZR_lt; lia].
  intros j Hj.
  destruct (C13_mirror c 0 0 ELeft wl_f (wl_pos _ _ _) ltac:(cbn; lia) (wl_roomy ELeft) (proj1 (wl_shaped _ _ _))) as (_&H&_).
  exact (H 2 1 0 j ltac:(unfold inb; cbn; lia) ltac:(unfold inb; cbn; lia) ltac:(unfold inb; cbn; lia) Hj).
Qed.

(** C15.  [inflow e v]: v points from the wall into the domain; [bc_velocity]:
    the user's velocity at the centre of that (ghost) cell. *)
Theorem C15_dirichlet_inflow_only : forall c k1 k2 r1 r2 t e (f : arr R) x s i j,
  let g := N_ghost c in let n1 := n1g (lay c) r1 in let n2 := n2g (lay c) r2 in
  wf_cfg c k1 k2 -> 0 < g -> roomy e g n1 n2 -> q_shaped c r1 r2 f -> q_shaped c r1 r2 (prescribed c r1 r2 e t f) ->
  inb (N_p c) x -> inb (N_species c) s -> inb n1 i -> inb n2 j ->
  let v := bc_velocity c t x s (off (blk1 (lay c)) r1 + i - ng1 (lay c))
                               (off (blk2 (lay c)) r2 + j - ng2 (lay c)) in
  let f' := apply_dirichlet_bcs_f c r1 r2 t e f in
  (in_slab e g n1 n2 i j = true -> inflow e v -> el f' x s i j = el (prescribed c r1 r2 e t f) x s i j)
  /\ (in_slab e g n1 n2 i j = false -> el f' x s i j = el f x s i j)
  /\ (~ inflow e v -> el f' x s i j = el f x s i j).
Proof. exact dirichlet_all. Qed.
Print Assumptions C15_dirichlet_inflow_only.

Example C15_applies : let c := wl_cfg "cartesian" 2 wl_names in
  let f' := apply_dirichlet_bcs_f c 0 0 0%R ELeft wl_f in
  el f' 1 0 1 3 = 1%R /\ el f' 0 0 1 3 = 3%R /\ el f' 1 0 2 3 = 7%R.
Proof.
  intros c f'.
  assert (H := fun x i (Hx : inb 4 x) (Hi : inb 6 i) =>
    C15_dirichlet_inflow_only c MC MC 0 0 0%R ELeft wl_f x 0 i 3 (wl_wf _ _ _) ltac:(cbn; lia) (wl_roomy ELeft)
      (proj1 (wl_shaped _ _ _)) (proj2 (wl_shaped _ _ _)) Hx ltac:(unfold inb; cbn; lia) Hi ltac:(unfold inb; cbn; lia)).
  cbv zeta in H. fold f' in H. split; [|split].
  - rewrite (proj1 (H 1 1 ltac:(unfold inb; lia) ltac:(unfold inb; lia)) eq_refl); [reflexivity|].
    unfold inflow, bc_velocity, mom1. cbn. lra.
  - rewrite (proj2 (proj2 (H 0 1 ltac:(unfold inb; lia) ltac:(unfold inb; lia)))); [reflexivity|].
    unfold inflow, bc_velocity, mom1. cbn. lra.
  - rewrite (proj1 (proj2 (H 1 2 ltac:(unfold inb; lia) ltac:(unfold inb; lia))) eq_refl). reflexivity.
Qed.

(** With N_ghost = 0 (accepted by the constructors) the right and top conditions
    overwrite the whole domain, because the slice [-0:] is everything. *)
Theorem C15_no_ghosts_refuted : forall c k1 k2 r1 r2 t e (f : arr R) x s i j,
  let n1 := n1g (lay c) r1 in let n2 := n2g (lay c) r2 in
  wf_cfg c k1 k2 -> N_ghost c = 0 -> e = ERight \/ e = ETop ->
  q_shaped c r1 r2 f -> q_shaped c r1 r2 (prescribed c r1 r2 e t f) ->
  inb (N_p c) x -> inb (N_species c) s -> inb n1 i -> inb n2 j ->
  inflow e (bc_velocity c t x s (off (blk1 (lay c)) r1 + i - ng1 (lay c))
                                (off (blk2 (lay c)) r2 + j - ng2 (lay c))) ->
  el (apply_dirichlet_bcs_f c r1 r2 t e f) x s i j = el (prescribed c r1 r2 e t f) x s i j.
Proof. exact dirichlet_no_ghosts. Qed.
Print Assumptions C15_no_ghosts_refuted.

(** C16.  The loops end (for every large enough iteration budget the result is
    the same), and each coordinate is brought into the domain by whole periods;
    [loops_on c e] is the interval of the sheared axis. *)
Theorem C16_shear_wrap : forall c r1 r2 t e, (fst (loops_on c e) < snd (loops_on c e))%R ->
  exists y n0, (forall n, (n0 <= n)%nat -> wrapped_coordinates (with_fuel c n) r1 r2 t e = Some y)
  /\ same_dims y (sheared_coordinates c r1 r2 t e)
  /\ forall k l, inb (d2 y) k -> inb (d3 y) l ->
    (fst (loops_on c e) <= el y 0 0 k l <= snd (loops_on c e))%R
    /\ exists m : Z, el y 0 0 k l
         = (el (sheared_coordinates c r1 r2 t e) 0 0 k l + IZR m * (snd (loops_on c e) - fst (loops_on c e)))%R.
Proof. exact wrapped_spec. Qed.
Print Assumptions C16_shear_wrap.

Example C16_applies : let c := wl_cfg "cartesian" 2 wl_names in
  (fst (loops_on c ELeft) < snd (loops_on c ELeft))%R
  /\ (el (sheared_coordinates c 0 0 1%R ELeft) 0 0 0 2 < fst (loops_on c ELeft))%R.
Proof. split; cbn; lra. Qed.

(** C17 *)
Theorem C17_which_ranks : forall L r1 r2,
  tiles (gN1 L) (blk1 L) -> tiles (gN2 L) (blk2 L) -> rank_ok L r1 r2 ->
  (touches L r1 r2 ELeft = true <-> r1 = 0%nat)
  /\ (touches L r1 r2 ERight = true <-> S r1 = List.length (blk1 L))
  /\ (touches L r1 r2 EBottom = true <-> r2 = 0%nat)
  /\ (touches L r1 r2 ETop = true <-> S r2 = List.length (blk2 L)).
Proof. exact touches_spec. Qed.
Print Assumptions C17_which_ranks.

Theorem C17_interior_untouched : forall c r1 r2 t f f',
  let g := N_ghost c in let n1 := n1g (lay c) r1 in let n2 := n2g (lay c) r2 in
  0 < g -> (forall e, acts (in_q c e) = true -> roomy e g n1 n2) ->
  q_shaped c r1 r2 f -> apply_bcs_f c r1 r2 t f = Ok f' ->
  q_shaped c r1 r2 f' /\
  forall x s i j, inb n1 i -> inb n2 j ->
    (forall e, touches (lay c) r1 r2 e = true -> in_slab e g n1 n2 i j = false) ->
    el f' x s i j = el f x s i j.
Proof. exact bcs_interior'. Qed.
Print Assumptions C17_interior_untouched.

(** The ghost cells of a touched edge (outside the corners it shares with other
    touched edges) get the value the named condition stands for. *)
Theorem C17_named_condition : forall c k1 k2 r1 r2 t e f f' (b : R) x s i j,
  let g := N_ghost c in let n1 := n1g (lay c) r1 in let n2 := n2g (lay c) r2 in
  wf_cfg c k1 k2 -> grid_ok c -> 0 < g ->
  (forall e, acts (in_q c e) = true -> roomy e g n1 n2) ->
  in_q c e <> "shearing-box"%string ->
  q_shaped c r1 r2 f -> apply_bcs_f c r1 r2 t f = Ok f' -> touches (lay c) r1 r2 e = true ->
  (in_q c e = "dirichlet"%string \/ in_q c e = "mirror+dirichlet"%string ->
   forall h, q_shaped c r1 r2 h -> q_shaped c r1 r2 (prescribed c r1 r2 e t h) /\ el (prescribed c r1 r2 e t h) x s i j = b) ->
  inb (N_p c) x -> inb (N_species c) s -> inb n1 i -> inb n2 j ->
  in_slab e g n1 n2 i j = true -> clear_but c r1 r2 e i j ->
  3 * g <= (match e with ELeft | ERight => n1 | _ => n2 end) ->
  let m := mirror_cell e g n1 n2 i j in
  el f' x s i j
  = wall_value (in_q c e)
      (inflow_dec e (bc_velocity c t x s (off (blk1 (lay c)) r1 + i - ng1 (lay c))
                                         (off (blk2 (lay c)) r2 + j - ng2 (lay c))))
      (el f (reflected c e x) s (fst m) (snd m)) b (el f x s i j).
Proof. exact bcs_ghost. Qed.
Print Assumptions C17_named_condition.

(** Unknown names (and mirrors on unknown momentum grids) raise
    NotImplementedError exactly on the ranks that touch the edge. *)
Theorem C17_unknown_names : forall c r1 r2 t f,
  (forall e, touches (lay c) r1 r2 e = true -> in_q c e <> "shearing-box"%string) ->
  ((forall e, touches (lay c) r1 r2 e = true -> accepted c e) -> exists f', apply_bcs_f c r1 r2 t f = Ok f')
  /\ (forall e, touches (lay c) r1 r2 e = true -> ~ accepted c e ->
        apply_bcs_f c r1 r2 t f = Err NotImplementedError).
Proof. exact bcs_error. Qed.
Print Assumptions C17_unknown_names.

Example C17_applies : let c := wl_cfg "cartesian" 2 wl_names in
  exists f', apply_bcs_f c 0 0 0%R wl_f = Ok f' /\ el f' 1 0 3 3 = el wl_f 1 0 3 3
    /\ el f' 0 0 1 3 = el wl_f 1 0 2 3.
Proof.
  intros c. pose proof (C17_unknown_names c 0 0 0%R wl_f) as H.
  destruct H as [H _]. { intros e _. destruct e; discriminate. }
  destruct H as [f' E]. { intros e _. split; [destruct e; cbn; auto|]. intros _. left. reflexivity. }
  exists f'. split; [exact E|].
  assert (RM : forall e, acts (in_q c e) = true -> roomy e (N_ghost c) (n1g (lay c) 0) (n2g (lay c) 0))
    by (intros e _; apply wl_roomy).
  split.
  - destruct (C17_interior_untouched c 0 0 0%R wl_f f' ltac:(cbn; lia) RM (proj1 (wl_shaped _ _ _)) E) as [_ H].
    apply H; try (unfold inb; cbn; lia). intros e; destruct e; cbn; auto; discriminate.
  - pose proof (C17_named_condition c MC MC 0 0 0%R ELeft wl_f f' 0%R 0 0 1 3 (wl_wf _ _ _) (or_introl eq_refl)
      ltac:(cbn; lia) RM ltac:(discriminate) (proj1 (wl_shaped _ _ _)) E eq_refl) as H.
    apply H; try (unfold inb; cbn; lia); try reflexivity.
    + intros _ h _. split; [repeat split|reflexivity].
    + intros e N T. destruct e; cbn in *; try reflexivity; try discriminate; congruence.
Qed.

Example C17_rejects : apply_bcs_f (wl_cfg "cartesian" 2 (fun _ => "outflow"%string)) 0 0 0%R wl_f = Err NotImplementedError.
Proof. reflexivity. Qed.
