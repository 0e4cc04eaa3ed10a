(** Symmetries, domains of dependence and stability of finite-volume runs: C81-C86. *)
From Coq Require Import ZArith Reals Lra Lia String List Bool.
From Verif Require Import Base.Prelude Base.ZSum Model.Af Model.Petsc Model.Config Model.Fvm
  Spec.Domain Spec.Lattice Spec.FvmProblem Spec.FvmRun Spec.Symmetry
  Proofs.SymmetryRun Proofs.SymmetryMore Props.ExFvm Props.ExSymmetry.
Import ListNotations.
Local Open Scope R_scope.

(** C81.  Multiplying f by a constant multiplies every later f by it: the limiters
    and upwind choices do not depend on the units of f, nor on its sign. *)
Theorem C81_scaling : forall c k1 k2, wf_cfg c k1 k2 -> periodic_fvm c k1 ->
  forall l a s s' u, source_scales c ->
  holds c (sf s) u -> holds c (sf s') (fun x sp g1 g2 => a * u x sp g1 g2) ->
  exists r r' v, run_fvm c l s = Ok r /\ run_fvm c l s' = Ok r' /\ holds c (sf r) v
    /\ holds c (sf r') (fun x sp g1 g2 => a * v x sp g1 g2).
Proof. exact scaling. Qed.
Print Assumptions C81_scaling.

(** Forces and the relaxation source switched on; the factor is negative. *)
Example C81_scaling_applies : forall l, let c := ex_cfg "minmod" true in exists r r' v,
  run_fvm c l (state_of c sym_data) = Ok r
  /\ run_fvm c l (state_of c (fun x sp g1 g2 => (-3) * sym_data x sp g1 g2)) = Ok r'
  /\ holds c (sf r) v /\ holds c (sf r') (fun x sp g1 g2 => (-3) * v x sp g1 g2).
Proof.
  intros l c. apply (C81_scaling c MC PPM (ex_wf "minmod" true MC eq_refl) (ex_periodic _ _ _)) with (u := sym_data).
  - right. intros. unfold c; cbn [source ex_cfg]. rewrite zsum_scal. field.
  - apply state_of_holds.
  - apply state_of_holds.
Qed.

(** Without source and forces a constant may be added as well, a different one for
    each momentum and species. *)
Theorem C81_constants : forall c k1 k2, wf_cfg c k1 k2 -> periodic_fvm c k1 ->
  forall l a (b : Z -> Z -> R) s s' u, velocity_uniform c -> source_enabled c = false -> p_is_fvm c = false ->
  holds c (sf s) u -> holds c (sf s') (fun x sp g1 g2 => a * u x sp g1 g2 + b x sp) ->
  exists r r' v, run_fvm c l s = Ok r /\ run_fvm c l s' = Ok r' /\ holds c (sf r) v
    /\ holds c (sf r') (fun x sp g1 g2 => a * v x sp g1 g2 + b x sp).
Proof. exact shifting. Qed.
Print Assumptions C81_constants.

Example C81_constants_applies : forall l, let c := ex_cfg "ppm" false in exists r r' v,
  run_fvm c l (state_of c sym_data) = Ok r
  /\ run_fvm c l (state_of c (fun x sp g1 g2 => 2 * sym_data x sp g1 g2 + IZR (7 - x))) = Ok r'
  /\ holds c (sf r) v /\ holds c (sf r') (fun x sp g1 g2 => 2 * v x sp g1 g2 + IZR (7 - x)).
Proof.
  intros l c. apply (C81_constants c PPM PPM (ex_wf "ppm" false PPM eq_refl) (ex_periodic _ _ _) l 2 (fun x _ => IZR (7 - x)))
    with (u := sym_data); try reflexivity; try apply state_of_holds. apply ex_vel.
Qed.

(** C82.  Moving the initial data (and the fields) by any number of cells moves the
    result by as much: no cell, and no rank border, is special. *)
Theorem C82_translation : forall c k1 k2 d1 d2, wf_cfg c k1 k2 -> periodic_fvm c k1 ->
  velocity_uniform c -> same_everywhere c ->
  forall l l' s s' u, Forall2 (moved_call c d1 d2) l l' ->
  holds c (sf s) u -> holds c (sf s') (moved c d1 d2 u) ->
  exists r r' v, run_fvm c l s = Ok r /\ run_fvm c l' s' = Ok r' /\ holds c (sf r) v
    /\ holds c (sf r') (moved c d1 d2 v).
Proof. exact moving. Qed.
Print Assumptions C82_translation.

(** Two steps with varying fields, moved by (1, -2): data cross the rank borders. *)
Example C82_applies : let c := ex_cfg "ppm" true in
  let E := sym_fields in let E' := shift3 c 1 (-2) sym_fields in
  let l := [Call 0 1 (fields_of c E) (fields_of c E); Call 1 (1/2) (fields_of c E) (fields_of c E)] in
  let l' := [Call 0 1 (fields_of c E') (fields_of c E'); Call 1 (1/2) (fields_of c E') (fields_of c E')] in
  exists r r' v, run_fvm c l (state_of c sym_data) = Ok r
  /\ run_fvm c l' (state_of c (moved c 1 (-2) sym_data)) = Ok r'
  /\ holds c (sf r) v /\ holds c (sf r') (moved c 1 (-2) v).
Proof.
  intros c E E' l l'.
  apply (C82_translation c PPM PPM 1 (-2) (ex_wf "ppm" true PPM eq_refl) (ex_periodic _ _ _)) with (u := sym_data).
  - apply ex_vel.
  - split; intros; reflexivity.
  - assert (M : forall t dt, moved_call c 1 (-2) (Call t dt (fields_of c E) (fields_of c E)) (Call t dt (fields_of c E') (fields_of c E'))).
    { intros. split; [reflexivity|split; [reflexivity|]]. exists E, E, E', E'.
      repeat split; try apply fields_of_shows; apply shift3_moved. }
    repeat constructor; apply M.
  - apply state_of_holds.
  - apply state_of_holds.
Qed.

(** C83.  Reversing space along q1, q2 or both, together with the momenta, reverses
    the result: the scheme prefers no direction. *)
Theorem C83_reflection : forall c k1 k2, wf_cfg c k1 k2 -> periodic_fvm c k1 ->
  forall l b1 b2 rho s s' u, velocity_uniform c -> source_enabled c = false -> p_is_fvm c = false ->
  pairs_velocities c b1 b2 rho ->
  holds c (sf s) u -> holds c (sf s') (reflection c b1 b2 rho u) ->
  exists r r' v, run_fvm c l s = Ok r /\ run_fvm c l s' = Ok r' /\ holds c (sf r) v
    /\ holds c (sf r') (reflection c b1 b2 rho v).
Proof. exact reflecting. Qed.
Print Assumptions C83_reflection.

(** Reversal of q1 and p1 on ranks 1 and 3 cells wide. *)
Example C83_applies : forall l, let c := ex_cfg "minmod" false in exists r r' v,
  run_fvm c l (state_of c sym_data) = Ok r
  /\ run_fvm c l (state_of c (reflection c true false swap_p1 sym_data)) = Ok r'
  /\ holds c (sf r) v /\ holds c (sf r') (reflection c true false swap_p1 v).
Proof.
  intros l c. apply (C83_reflection c MC PPM (ex_wf "minmod" false MC eq_refl) (ex_periodic _ _ _)) with (u := sym_data);
    try reflexivity; try apply state_of_holds. apply ex_vel. apply swap_pairs.
Qed.

(** C84.  After n steps a cell depends only on the cells within 2 n (radius + 1)
    steps of it, for every state, velocity field, force and source. *)
Theorem C84_domain_of_dependence : forall c k1 k2 l s s' u u' g1 g2, wf_cfg c k1 k2 -> periodic_fvm c k1 ->
  inb (gN1 (lay c)) g1 -> inb (gN2 (lay c)) g2 -> holds c (sf s) u -> holds c (sf s') u' ->
  agree_near c (fun _ _ => True) (2 * Z.of_nat (List.length l) * (radius k1 + 1)) u u' g1 g2 ->
  exists r r', run_fvm c l s = Ok r /\ run_fvm c l s' = Ok r'
  /\ forall x sp, inb (N_p c) x -> inb (N_species c) sp ->
     gval (lay c) (sf r) x sp g1 g2 = gval (lay c) (sf r') x sp g1 g2.
Proof. exact near_all. Qed.
Print Assumptions C84_domain_of_dependence.

(** On 20 x 20 cells the value at (10, 10) is not affected, in one PPM step, by a
    change in the cells with q1-index 0. *)
Example C84_applies : forall k, let c := wide "ppm" true in exists r r',
  run_fvm c [k] (state_of c sym_data) = Ok r
  /\ run_fvm c [k] (state_of c (fun x s g1 g2 => if (g1 =? 0)%Z then 1000 else sym_data x s g1 g2)) = Ok r'
  /\ gval wide_lay (sf r) 3 1 10 10 = gval wide_lay (sf r') 3 1 10 10.
Proof.
  intros k c.
  destruct (C84_domain_of_dependence c PPM PPM [k] (state_of c sym_data)
    (state_of c (fun x s g1 g2 => if (g1 =? 0)%Z then 1000 else sym_data x s g1 g2))
    sym_data (fun x s g1 g2 => if (g1 =? 0)%Z then 1000 else sym_data x s g1 g2) 10 10) as (r&r'&R&R'&Q).
  - apply wide_wf; auto.
  - apply wide_periodic.
  - unfold inb; cbn; lia.
  - unfold inb; cbn; lia.
  - apply state_of_holds.
  - apply state_of_holds.
  - intros x s d1 d2 _ _ _ D. cbn [List.length Z.of_nat Pos.of_succ_nat radius] in D.
    change (gN1 (lay c)) with 20%Z. change (gN2 (lay c)) with 20%Z.
    rewrite (Z.mod_small (10 + d1)) by lia. destruct (Z.eqb_spec (10 + d1) 0); [lia|reflexivity].
  - exists r, r'. split; [exact R|split; [exact R'|]]. apply Q; unfold inb; cbn; lia.
Qed.

(** C85.  Without forces and source the particles of one momentum and species never
    feel the others. *)
Theorem C85_momenta_apart : forall c k1 k2 x sp l s s' u u' g1 g2, wf_cfg c k1 k2 -> periodic_fvm c k1 ->
  source_enabled c = false -> p_is_fvm c = false -> inb (N_p c) x -> inb (N_species c) sp ->
  inb (gN1 (lay c)) g1 -> inb (gN2 (lay c)) g2 -> holds c (sf s) u -> holds c (sf s') u' ->
  (forall h1 h2, inb (gN1 (lay c)) h1 -> inb (gN2 (lay c)) h2 -> u x sp h1 h2 = u' x sp h1 h2) ->
  exists r r', run_fvm c l s = Ok r /\ run_fvm c l s' = Ok r'
  /\ gval (lay c) (sf r) x sp g1 g2 = gval (lay c) (sf r') x sp g1 g2.
Proof. exact near_momentum. Qed.
Print Assumptions C85_momenta_apart.

(** With given forces, and a source that looks at its own species, one species never
    feels another: neither storage order nor the momentum sweeps mix them. *)
Theorem C85_species_apart : forall c k1 k2 sp l s s' u u' g1 g2, wf_cfg c k1 k2 -> periodic_fvm c k1 ->
  source_own_species c -> inb (N_species c) sp ->
  inb (gN1 (lay c)) g1 -> inb (gN2 (lay c)) g2 -> holds c (sf s) u -> holds c (sf s') u' ->
  (forall x h1 h2, inb (N_p c) x -> inb (gN1 (lay c)) h1 -> inb (gN2 (lay c)) h2 -> u x sp h1 h2 = u' x sp h1 h2) ->
  exists r r', run_fvm c l s = Ok r /\ run_fvm c l s' = Ok r'
  /\ forall x, inb (N_p c) x -> gval (lay c) (sf r) x sp g1 g2 = gval (lay c) (sf r') x sp g1 g2.
Proof. exact near_species. Qed.
Print Assumptions C85_species_apart.

(** Changing f at one momentum, then for one species. *)
Example C85_applies : forall l,
  (let c := ex_cfg "ppm" false in exists r r', run_fvm c l (state_of c sym_data) = Ok r
   /\ run_fvm c l (state_of c (fun x s g1 g2 => if (x =? 2)%Z then 5 else sym_data x s g1 g2)) = Ok r'
   /\ gval ex_lay (sf r) 3 0 2 1 = gval ex_lay (sf r') 3 0 2 1)
  /\ (let c := ex_cfg "ppm" true in exists r r', run_fvm c l (state_of c sym_data) = Ok r
   /\ run_fvm c l (state_of c (fun x s g1 g2 => if (s =? 0)%Z then 5 else sym_data x s g1 g2)) = Ok r'
   /\ gval ex_lay (sf r) 3 1 2 1 = gval ex_lay (sf r') 3 1 2 1).
Proof.
  intros l. split; intros c.
  - apply (C85_momenta_apart c PPM PPM 3 0 l (state_of c sym_data)
     (state_of c (fun x s g1 g2 => if (x =? 2)%Z then 5 else sym_data x s g1 g2))
     sym_data (fun x s g1 g2 => if (x =? 2)%Z then 5 else sym_data x s g1 g2) 2 1);
     try apply state_of_holds; try reflexivity; try (unfold inb; cbn; lia).
    apply ex_wf; auto. apply ex_periodic.
  - destruct (C85_species_apart c PPM PPM 1 l (state_of c sym_data)
     (state_of c (fun x s g1 g2 => if (s =? 0)%Z then 5 else sym_data x s g1 g2))
     sym_data (fun x s g1 g2 => if (s =? 0)%Z then 5 else sym_data x s g1 g2) 2 1) as (r&r'&R&R'&Q);
     try apply state_of_holds; try reflexivity; try (unfold inb; cbn; lia).
    + apply ex_wf; auto.
    + apply ex_periodic.
    + right. intros t q1 q2 w w' s Hs H x Hx. unfold c; cbn [source ex_cfg]. rewrite (H x Hx).
      rewrite (zsum_ext 4 (fun y => w y s) (fun y => w' y s)); [reflexivity|]. intros; apply H; auto.
    + exists r, r'. split; [exact R|split; [exact R'|]]. apply Q. unfold inb; cbn; lia.
Qed.

(** C86.  First order under the Courant condition: a smaller f stays smaller, and no
    convex measure of the difference of two runs grows - in particular not their L1
    distance, and (against zero) no entropy of a single run. *)
Theorem C86_order_kept : forall c k2, wf_cfg c FirstOrder k2 -> periodic_fvm c FirstOrder ->
  velocity_uniform c -> 0 < dq1 c -> 0 < dq2 c -> source_enabled c = false -> p_is_fvm c = false ->
  forall l s s' u v, (forall k, In k l -> cfl c (ct k) (cdt k)) ->
  holds c (sf s) u -> holds c (sf s') v ->
  (forall x sp g1 g2, inb (N_p c) x -> inb (N_species c) sp -> inb (gN1 (lay c)) g1 -> inb (gN2 (lay c)) g2 ->
     u x sp g1 g2 <= v x sp g1 g2) ->
  exists r r' u' v', run_fvm c l s = Ok r /\ run_fvm c l s' = Ok r' /\ holds c (sf r) u' /\ holds c (sf r') v'
  /\ (forall x sp g1 g2, inb (N_p c) x -> inb (N_species c) sp -> inb (gN1 (lay c)) g1 -> inb (gN2 (lay c)) g2 ->
     u' x sp g1 g2 <= v' x sp g1 g2).
Proof. exact order_kept. Qed.
Print Assumptions C86_order_kept.

Theorem C86_contraction : forall c k2, wf_cfg c FirstOrder k2 -> periodic_fvm c FirstOrder ->
  velocity_uniform c -> 0 < dq1 c -> 0 < dq2 c -> source_enabled c = false -> p_is_fvm c = false ->
  forall phi l s s' u v, convex phi -> (forall k, In k l -> cfl c (ct k) (cdt k)) ->
  holds c (sf s) u -> holds c (sf s') v ->
  exists r r' u' v', run_fvm c l s = Ok r /\ run_fvm c l s' = Ok r' /\ holds c (sf r) u' /\ holds c (sf r') v'
  /\ forall x sp, inb (N_p c) x -> inb (N_species c) sp -> distance c phi u' v' x sp <= distance c phi u v x sp.
Proof. exact contraction. Qed.
Print Assumptions C86_contraction.

Lemma ex_cfl t : cfl (ex_cfg "piecewise-constant" false) t (1/10).
Proof.
  split; [lra|]. intros x s q1 q2 Hx Hs. change (N_p (ex_cfg "piecewise-constant" false)) with 4%Z in Hx.
  change (N_species (ex_cfg "piecewise-constant" false)) with 2%Z in Hs. unfold inb in *.
  assert (X : (x = 0 \/ x = 1 \/ x = 2 \/ x = 3)%Z) by lia. assert (S : (s = 0 \/ s = 1)%Z) by lia.
  unfold velocity, mom1, mom2, mom3.
  cbn [C_q ex_cfg fst snd p1_start p2_start dp1 dp2 N_p1 N_p2 dq1 dq2].
  destruct X as [->|[->|[->| ->]]], S as [->| ->]; cbn -[Rabs]; change (Pos.to_nat 1) with 1%nat; cbn [nth]; unfold Rabs; repeat destruct (Rcase_abs _); lra.
Qed.
Lemma convex_abs : convex Rabs.
Proof.
  intros a x y [A B]. eapply Rle_trans; [apply Rabs_triang|]. rewrite !Rabs_mult.
  rewrite (Rabs_pos_eq a), (Rabs_pos_eq (1 - a)) by lra. apply Rle_refl.
Qed.

(** Three steps of length 1/10: the L1 distance of two runs, and the order of two runs. *)
Example C86_applies : forall E, let c := ex_cfg "piecewise-constant" false in
  let l := [Call 0 (1/10) E E; Call (1/10) (1/10) E E; Call (2/10) (1/10) E E] in
  let more := fun x s g1 g2 => sym_data x s g1 g2 + IZR (g1 * g2) in
  exists r r' u' v', run_fvm c l (state_of c sym_data) = Ok r /\ run_fvm c l (state_of c more) = Ok r'
  /\ holds c (sf r) u' /\ holds c (sf r') v'
  /\ distance c Rabs u' v' 2 1 <= distance c Rabs sym_data more 2 1
  /\ u' 3%Z 0%Z 2%Z 1%Z <= v' 3%Z 0%Z 2%Z 1%Z.
Proof.
  intros E c l more.
  assert (CF : forall k, In k l -> cfl c (ct k) (cdt k)) by (intros k [<-|[<-|[<-|[]]]]; apply ex_cfl).
  assert (WF : wf_cfg c FirstOrder PPM) by (apply ex_wf; reflexivity).
  assert (PF : periodic_fvm c FirstOrder) by apply ex_periodic.
  assert (VU : velocity_uniform c) by apply ex_vel.
  destruct (C86_contraction c PPM WF PF VU) with (phi := Rabs) (l := l) (s := state_of c sym_data) (s' := state_of c more)
    (u := sym_data) (v := more) as (r&r'&u'&v'&R&R'&U&V&Q); try apply state_of_holds; try reflexivity; auto;
    try apply convex_abs; try (cbn; lra).
  destruct (C86_order_kept c PPM WF PF VU) with (l := l) (s := state_of c sym_data) (s' := state_of c more)
    (u := sym_data) (v := more) as (r1&r1'&u1&v1&R1&R1'&U1&V1&Q1); try apply state_of_holds; try reflexivity; auto;
    try (cbn; lra).
  - intros x sp g1 g2 _ _ H1 H2. unfold more. change (0 <= g1 < 4)%Z in H1. change (0 <= g2 < 3)%Z in H2.
    assert (P : (0 <= g1 * g2)%Z) by (apply Z.mul_nonneg_nonneg; lia). apply IZR_le in P. lra.
  - exists r, r', u', v'. split; [exact R|split; [exact R'|split; [exact U|split; [exact V|]]]].
    rewrite R in R1. rewrite R' in R1'. injection R1 as <-. injection R1' as <-.
    assert (I : forall a b, (0 <= a < b)%Z -> inb b a) by (unfold inb; lia).
    split; [apply Q; apply I; cbn; lia|].
    destruct U as [_ U], V as [_ V], U1 as [_ U1], V1 as [_ V1].
    assert (J1 : inb (N_p c) 3) by (apply I; cbn; lia). assert (J2 : inb (N_species c) 0) by (apply I; cbn; lia).
    assert (J3 : inb (gN1 (lay c)) 2) by (apply I; cbn; lia). assert (J4 : inb (gN2 (lay c)) 1) by (apply I; cbn; lia).
    rewrite <- (U 3 0 2 1)%Z, <- (V 3 0 2 1)%Z by auto. rewrite (U1 3 0 2 1)%Z, (V1 3 0 2 1)%Z by auto. apply Q1; auto.
Qed.
