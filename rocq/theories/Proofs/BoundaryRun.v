(** The four boundary blocks in sequence; loops of the shearing box. *)
From Coq Require Import ZArith Reals Lra Lia Psatz String List Bool.
From Verif Require Import Base.Prelude Model.Af Model.Grid Model.Petsc Model.Config Model.Boundaries
  Spec.Mirror Spec.Domain Spec.FvmProblem Spec.Walls Proofs.AfLemmas Proofs.PetscLemmas Proofs.ConvLemmas Proofs.FvmLemmas Proofs.BoundaryLemmas.
Import ListNotations.
Local Open Scope Z_scope.

Section Edges.
Variables (c : cfg) (r1 r2 : nat) (t : R).
Let g := N_ghost c.
Let n1 := n1g (lay c) r1.
Let n2 := n2g (lay c) r2.
Hypothesis GP : 0 < g.
Hypothesis RM : forall e, acts (in_q c e) = true -> roomy e g n1 n2.

(** [f'] differs from [f] at most in the slab of [e]. *)
Definition only_slab (e : edge) (f f' : arr R) : Prop :=
  q_shaped c r1 r2 f' /\
  forall x s i j, inb n1 i -> inb n2 j -> in_slab e g n1 n2 i j = false -> el f' x s i j = el f x s i j.

Lemma only_refl e f : q_shaped c r1 r2 f -> only_slab e f f.
Proof. split; auto. Qed.

Lemma only_set e f v : roomy e g n1 n2 -> q_shaped c r1 r2 f -> only_slab e f (set_ghost e g f v).
Proof using GP.
  intros R (D0&D1&D2&D3). split.
  - destruct (set_ghost_dims e g f v) as (S0&S1&S2&S3). repeat split; congruence.
  - intros x s i j Hi Hj SL. fold n1 in D2. fold n2 in D3.
    rewrite set_ghost_el by (rewrite ?D2, ?D3; auto). rewrite D2, D3, SL. reflexivity.
Qed.

Lemma only_trans e f f' f'' : only_slab e f f' -> only_slab e f' f'' -> only_slab e f f''.
Proof. intros [D H] [D' H']. split; auto. intros. rewrite H', H; auto. Qed.

Lemma only_mirror e f f' : roomy e g n1 n2 -> q_shaped c r1 r2 f ->
  apply_mirror c r1 r2 e f = Ok f' -> only_slab e f f'.
Proof using GP.
  intros R D. unfold apply_mirror.
  destruct (String.eqb (p_space_grid c) "cartesian"); [|destruct (String.eqb (p_space_grid c) "polar2D"); [|discriminate]];
  intros [= <-].
  - unfold apply_mirror_bcs_f_cartesian. fold g. eapply only_trans; [apply only_set; auto|].
    apply only_set; auto. destruct (set_ghost_dims e g f (flip_normal e (get_inner e g f))) as (S0&S1&S2&S3).
    destruct D as (D0&D1&D2&D3). repeat split; congruence.
  - unfold apply_mirror_bcs_f_polar2D. fold g. eapply only_trans; [apply only_set; auto|].
    apply only_set; auto. destruct (set_ghost_dims e g f (flip_normal e (get_inner e g f))) as (S0&S1&S2&S3).
    destruct D as (D0&D1&D2&D3). repeat split; congruence.
Qed.

Lemma only_edge e f f' : q_shaped c r1 r2 f -> apply_edge c r1 r2 t e f = Ok f' -> only_slab e f f'.
Proof using GP RM.
  intros D. unfold apply_edge. specialize (RM e). unfold acts in RM.
  destruct (String.eqb (in_q c e) "dirichlet").
  { intros [= <-]. apply only_set; auto. }
  destruct (String.eqb (in_q c e) "mirror").
  { apply only_mirror; auto. }
  destruct (String.eqb (in_q c e) "mirror+dirichlet").
  { destruct (apply_mirror c r1 r2 e f) as [f1|] eqn:E; cbn [rbind]; [|discriminate].
    intros [= <-]. assert (O := only_mirror e f f1 (RM eq_refl) D E).
    eapply only_trans; [exact O|]. apply only_set; [auto|apply O]. }
  destruct (String.eqb (in_q c e) "periodic" || String.eqb (in_q c e) "none")%bool.
  { intros [= <-]. apply only_refl; auto. }
  destruct (String.eqb (in_q c e) "shearing-box"); [|discriminate].
  unfold apply_shearing_box_bcs_f.
  destruct (q_center (qc c r1 r2)) as [q1 q2].
  destruct (wrapped_coordinates c r1 r2 t e); [|discriminate].
  lazymatch goal with |- (let '(_, _) := ?m in _) = _ -> _ => destruct m as [u v] end.
  intros [= <-]. apply only_set; auto.
Qed.

Lemma only_maybe e f f' : q_shaped c r1 r2 f -> maybe_edge c r1 r2 t e f = Ok f' ->
  only_slab e f f' /\ (touches (lay c) r1 r2 e = false -> f' = f).
Proof using GP RM.
  intros D. unfold maybe_edge. destruct (touches (lay c) r1 r2 e).
  - intros H. split; [apply only_edge; auto|discriminate].
  - intros [= <-]. split; auto. apply only_refl; auto.
Qed.

(** Steps of the sequence. *)
Lemma chain f f' : apply_bcs_f c r1 r2 t f = Ok f' ->
  exists fa fb fc, maybe_edge c r1 r2 t ELeft f = Ok fa /\ maybe_edge c r1 r2 t ERight fa = Ok fb
  /\ maybe_edge c r1 r2 t EBottom fb = Ok fc /\ maybe_edge c r1 r2 t ETop fc = Ok f'.
Proof.
  unfold apply_bcs_f.
  destruct (maybe_edge c r1 r2 t ELeft f) as [fa|]; cbn [rbind]; [|discriminate].
  destruct (maybe_edge c r1 r2 t ERight fa) as [fb|] eqn:B; cbn [rbind]; [|discriminate].
  destruct (maybe_edge c r1 r2 t EBottom fb) as [fc|] eqn:C; cbn [rbind]; [|discriminate].
  intros H. exists fa, fb, fc. auto.
Qed.

(** Agreement away from the slabs of the touched edges other than [e]. *)
Definition clear_but (e : edge) (i j : Z) : Prop :=
  forall e', e' <> e -> touches (lay c) r1 r2 e' = true -> in_slab e' g n1 n2 i j = false.
Definition agree_but (e : edge) (f f' : arr R) : Prop :=
  forall x s i j, inb n1 i -> inb n2 j -> clear_but e i j -> el f' x s i j = el f x s i j.

Lemma agree_step e e' f f' : e' <> e -> q_shaped c r1 r2 f -> maybe_edge c r1 r2 t e' f = Ok f' ->
  agree_but e f f' /\ q_shaped c r1 r2 f'.
Proof using GP RM.
  intros N D H. destruct (only_maybe e' f f' D H) as [[D' O] T]. split; auto.
  intros x s i j Hi Hj CL. destruct (touches (lay c) r1 r2 e') eqn:E; [|rewrite T; auto].
  apply O; auto.
Qed.

Lemma agree_trans e f f' f'' : agree_but e f f' -> agree_but e f' f'' -> agree_but e f f''.
Proof. intros A B x s i j Hi Hj C. rewrite B, A; auto. Qed.
Lemma agree_refl e f : agree_but e f f.
Proof. intros x s i j _ _ _. reflexivity. Qed.

(** What happens at edge [e]: its block runs on an array that agrees with [f]
    away from the other slabs, and the later blocks leave the result alone there. *)
Lemma at_edge e f f' : q_shaped c r1 r2 f -> apply_bcs_f c r1 r2 t f = Ok f' ->
  exists F F', maybe_edge c r1 r2 t e F = Ok F' /\ q_shaped c r1 r2 F
    /\ agree_but e f F /\ agree_but e F' f' /\ q_shaped c r1 r2 f'.
Proof using GP RM.
  intros D H. destruct (chain f f' H) as (fa&fb&fc&Ha&Hb&Hc&Hd).
  assert (Da := proj1 (proj1 (only_maybe _ _ _ D Ha))).
  assert (Db := proj1 (proj1 (only_maybe _ _ _ Da Hb))).
  assert (Dc := proj1 (proj1 (only_maybe _ _ _ Db Hc))).
  assert (Dd := proj1 (proj1 (only_maybe _ _ _ Dc Hd))).
  assert (ST := agree_step e).
  assert (TR := agree_trans e).
  destruct e.
  - exists f, fa. split; [exact Ha|split; [exact D|split; [apply agree_refl|split; [|exact Dd]]]].
    apply (TR fa fb); [|apply (TR fb fc)].
    + apply (ST ERight); auto; discriminate.
    + apply (ST EBottom); auto; discriminate.
    + apply (ST ETop); auto; discriminate.
  - exists fa, fb. split; [exact Hb|split; [exact Da|split; [|split; [|exact Dd]]]].
    + apply (ST ELeft); auto; discriminate.
    + apply (TR fb fc); [apply (ST EBottom)|apply (ST ETop)]; auto; discriminate.
  - exists fb, fc. split; [exact Hc|split; [exact Db|split; [|split; [|exact Dd]]]].
    + apply (TR f fa); [apply (ST ELeft)|apply (ST ERight)]; auto; discriminate.
    + apply (ST ETop); auto; discriminate.
  - exists fc, f'. split; [exact Hd|split; [exact Dc|split; [|split; [apply agree_refl|exact Dd]]]].
    apply (TR f fa); [|apply (TR fa fb)].
    + apply (ST ELeft); auto; discriminate.
    + apply (ST ERight); auto; discriminate.
    + apply (ST EBottom); auto; discriminate.
Qed.

(** Cells outside all touched slabs are unchanged. *)
Lemma bcs_interior f f' : q_shaped c r1 r2 f -> apply_bcs_f c r1 r2 t f = Ok f' ->
  q_shaped c r1 r2 f' /\
  forall x s i j, inb n1 i -> inb n2 j ->
    (forall e, touches (lay c) r1 r2 e = true -> in_slab e g n1 n2 i j = false) ->
    el f' x s i j = el f x s i j.
Proof using GP RM.
  intros D H. destruct (at_edge ELeft f f' D H) as (F&F'&M&DF&A1&A2&D'). split; auto.
  intros x s i j Hi Hj CL. rewrite A2 by (auto; intros e' _; apply CL).
  destruct (only_maybe _ _ _ DF M) as [[_ O] T].
  destruct (touches (lay c) r1 r2 ELeft) eqn:E.
  - rewrite O by auto. apply A1; auto. intros e' _; apply CL.
  - rewrite T by auto. apply A1; auto. intros e' _; apply CL.
Qed.

(** The mirrored cell is clear of the other slabs when the ghost cell is. *)
Lemma mirror_clear e i j : inb n1 i -> inb n2 j -> in_slab e g n1 n2 i j = true -> clear_but e i j ->
  3 * g <= (match e with ELeft | ERight => n1 | _ => n2 end) ->
  let m := mirror_cell e g n1 n2 i j in
  inb n1 (fst m) /\ inb n2 (snd m) /\ clear_but e (fst m) (snd m) /\ in_slab e g n1 n2 (fst m) (snd m) = false.
Proof using GP.
  intros Hi Hj SL CL W. unfold clear_but in *. unfold inb in *.
  destruct e; cbn [mirror_cell fst snd in_slab] in *; rewrite ?Z.ltb_lt, ?Z.leb_le in SL;
  (split; [lia|split; [lia|split]]).
  all: try (rewrite ?Z.ltb_ge, ?Z.leb_gt; lia).
  all: intros e' N T; specialize (CL e' N T); destruct e'; try congruence; cbn [in_slab] in *;
    rewrite ?Z.ltb_ge, ?Z.leb_gt in *; lia.
Qed.
End Edges.

(** ** Ghost values by name *)
Lemma velocity_at_spec c k1 k2 r1 r2 t x s i j : wf_cfg c k1 k2 -> inb (N_p c) x -> inb (N_species c) s ->
  inb (n1g (lay c) r1) i -> inb (n2g (lay c) r2) j ->
  velocity_at c r1 r2 t x s i j
  = bc_velocity c t x s (off (blk1 (lay c)) r1 + i - ng1 (lay c)) (off (blk2 (lay c)) r2 + j - ng2 (lay c)).
Proof.
  intros W Hx Hs Hi Hj. unfold velocity_at, bc_velocity.
  destruct (q_coords c r1 r2 x s i j Hi Hj) as (_&_&_&_&_&_&A&B).
  destruct (p_centers c k1 k2 x s i j W Hx Hs) as (C1&C2&C3&_).
  rewrite A, B, C1, C2, C3. reflexivity.
Qed.

Definition grid_ok (c : cfg) : Prop :=
  p_space_grid c = "cartesian"%string \/ (p_space_grid c = "polar2D"%string /\ Z.even (N_p2 c) = true).

Lemma apply_mirror_el c r1 r2 e (f : arr R) :
  let g := N_ghost c in let n1 := n1g (lay c) r1 in let n2 := n2g (lay c) r2 in
  pos_cfg c -> grid_ok c -> 0 < g -> roomy e g n1 n2 -> q_shaped c r1 r2 f ->
  exists f', apply_mirror c r1 r2 e f = Ok f' /\ q_shaped c r1 r2 f' /\
  forall x s i j, inb (N_p c) x -> inb (N_species c) s -> inb n1 i -> inb n2 j ->
  el f' x s i j
  = if in_slab e g n1 n2 i j
    then el f (reflected c e x) s (fst (mirror_cell e g n1 n2 i j)) (snd (mirror_cell e g n1 n2 i j))
    else el f x s i j.
Proof.
  intros g n1 n2 PC GO Hg RM D. unfold apply_mirror, reflected.
  destruct GO as [E|[E EV]]; rewrite E; cbn [String.eqb Ascii.eqb Bool.eqb].
  - eexists; split; [reflexivity|]. split; [apply mirror_dims; auto|]. intros; apply mirror_el; auto.
  - eexists; split; [reflexivity|]. split.
    { destruct D as (A&B&C&DD). destruct e; repeat split; assumption. }
    intros; apply mirror_polar_el; auto.
Qed.

Lemma bcs_ghost c k1 k2 r1 r2 t e f f' (b : R) x s i j :
  let g := N_ghost c in let n1 := n1g (lay c) r1 in let n2 := n2g (lay c) r2 in
  wf_cfg c k1 k2 -> grid_ok c -> 0 < g ->
  (forall e, acts (in_q c e) = true -> roomy e g n1 n2) ->
  in_q c e <> "shearing-box"%string ->
  q_shaped c r1 r2 f -> apply_bcs_f c r1 r2 t f = Ok f' -> touches (lay c) r1 r2 e = true ->
  (in_q c e = "dirichlet"%string \/ in_q c e = "mirror+dirichlet"%string ->
   forall h, q_shaped c r1 r2 h -> q_shaped c r1 r2 (prescribed c r1 r2 e t h) /\ el (prescribed c r1 r2 e t h) x s i j = b) ->
  inb (N_p c) x -> inb (N_species c) s -> inb n1 i -> inb n2 j ->
  in_slab e g n1 n2 i j = true -> clear_but c r1 r2 e i j ->
  3 * g <= (match e with ELeft | ERight => n1 | _ => n2 end) ->
  let m := mirror_cell e g n1 n2 i j in
  el f' x s i j
  = wall_value (in_q c e)
      (inflow_dec e (bc_velocity c t x s (off (blk1 (lay c)) r1 + i - ng1 (lay c))
                                         (off (blk2 (lay c)) r2 + j - ng2 (lay c))))
      (el f (reflected c e x) s (fst m) (snd m)) b (el f x s i j).
Proof.
  intros g n1 n2 W GO GP RM NS D H T FB Hx Hs Hi Hj SL CL WD m.
  destruct (at_edge c r1 r2 t GP RM e f f' D H) as (F&F'&M&DF&A1&A2&D').
  rewrite A2 by auto. unfold maybe_edge in M. rewrite T in M.
  destruct (mirror_clear c r1 r2 GP e i j Hi Hj SL CL WD) as (I1&I2&CM&SM). fold g n1 n2 m in I1, I2, CM, SM.
  assert (EM : el f (reflected c e x) s (fst m) (snd m) = el F (reflected c e x) s (fst m) (snd m))
    by (symmetry; apply A1; auto).
  assert (EK : el f x s i j = el F x s i j) by (symmetry; apply A1; auto).
  rewrite EM, EK. rewrite <- (velocity_at_spec c k1 k2) by auto.
  unfold apply_edge in M. unfold wall_value. specialize (RM e). unfold acts in RM.
  destruct (String.eqb (in_q c e) "dirichlet") eqn:B1.
  { injection M as <-. apply String.eqb_eq in B1. specialize (FB (or_introl B1)).
    rewrite dirichlet_el by (auto; apply FB; auto).
    fold g n1 n2. rewrite SL. cbn [andb].
    destruct (inflow_dec _ _); auto. apply FB; auto. }
  destruct (String.eqb (in_q c e) "mirror") eqn:B2.
  { destruct (apply_mirror_el c r1 r2 e F) as (F1&Q&_&V); auto; [apply (wf_pos _ _ _ W)|].
    rewrite Q in M. injection M as <-. rewrite V by auto. fold g n1 n2. rewrite SL. reflexivity. }
  destruct (String.eqb (in_q c e) "mirror+dirichlet") eqn:B3.
  { destruct (apply_mirror_el c r1 r2 e F) as (F1&Q&D1&V); auto; [apply (wf_pos _ _ _ W)|].
    rewrite Q in M. cbn [rbind] in M. injection M as <-.
    apply String.eqb_eq in B3. specialize (FB (or_intror B3)).
    rewrite dirichlet_el by (auto; apply FB; auto). fold g n1 n2. rewrite SL. cbn [andb].
    destruct (inflow_dec _ _); [apply FB; auto|]. rewrite V by auto. fold g n1 n2. rewrite SL. reflexivity. }
  destruct (String.eqb (in_q c e) "periodic" || String.eqb (in_q c e) "none")%bool.
  { injection M as <-. reflexivity. }
  destruct (String.eqb_spec (in_q c e) "shearing-box"); [contradiction|discriminate].
Qed.

(** ** Errors *)
Lemma edge_ok c r1 r2 t e f : in_q c e <> "shearing-box"%string ->
  (accepted c e -> exists f', apply_edge c r1 r2 t e f = Ok f')
  /\ (~ accepted c e -> apply_edge c r1 r2 t e f = Err NotImplementedError).
Proof.
  intros NS. unfold apply_edge, accepted, known_names, apply_mirror.
  destruct (String.eqb_spec (in_q c e) "dirichlet") as [E|E1].
  { split; [eauto|]. intros A. exfalso. apply A. rewrite E. split; [simpl; auto|]. intros [X|X]; discriminate. }
  destruct (String.eqb_spec (in_q c e) "mirror") as [E|E2].
  { destruct (String.eqb_spec (p_space_grid c) "cartesian") as [G|G1].
    { split; [eauto|]. intros A. exfalso. apply A. rewrite E. split; [simpl; auto|]. auto. }
    destruct (String.eqb_spec (p_space_grid c) "polar2D") as [G|G2].
    { split; [eauto|]. intros A. exfalso. apply A. rewrite E. split; [simpl; auto|]. auto. }
    split; auto. intros [_ A]. destruct A; auto; contradiction. }
  destruct (String.eqb_spec (in_q c e) "mirror+dirichlet") as [E|E3].
  { destruct (String.eqb_spec (p_space_grid c) "cartesian") as [G|G1].
    { split; [cbn [rbind]; eauto|]. intros A. exfalso. apply A. rewrite E. split; [simpl; auto|]. auto. }
    destruct (String.eqb_spec (p_space_grid c) "polar2D") as [G|G2].
    { split; [cbn [rbind]; eauto|]. intros A. exfalso. apply A. rewrite E. split; [simpl; auto|]. auto. }
    split; auto. intros [_ A]. destruct A; auto; contradiction. }
  destruct (String.eqb_spec (in_q c e) "periodic") as [E|E4]; cbn [orb].
  { split; [eauto|]. intros A. exfalso. apply A. rewrite E. split; [simpl; tauto|]. intros [X|X]; discriminate. }
  destruct (String.eqb_spec (in_q c e) "none") as [E|E5]; cbn [orb].
  { split; [eauto|]. intros A. exfalso. apply A. rewrite E. split; [simpl; tauto|]. intros [X|X]; discriminate. }
  destruct (String.eqb_spec (in_q c e) "shearing-box"); [contradiction|].
  split; auto. intros [I _]. simpl in I. exfalso. firstorder congruence.
Qed.

Lemma accepted_dec c e : accepted c e \/ ~ accepted c e.
Proof.
  unfold accepted.
  destruct (in_dec string_dec (in_q c e) known_names), (string_dec (in_q c e) "mirror"),
    (string_dec (in_q c e) "mirror+dirichlet"), (string_dec (p_space_grid c) "cartesian"),
    (string_dec (p_space_grid c) "polar2D"); tauto.
Qed.

Lemma bcs_error c r1 r2 t f :
  (forall e, touches (lay c) r1 r2 e = true -> in_q c e <> "shearing-box"%string) ->
  ((forall e, touches (lay c) r1 r2 e = true -> accepted c e) -> exists f', apply_bcs_f c r1 r2 t f = Ok f')
  /\ (forall e, touches (lay c) r1 r2 e = true -> ~ accepted c e ->
        apply_bcs_f c r1 r2 t f = Err NotImplementedError).
Proof.
  intros NS.
  assert (OK : forall e h, (touches (lay c) r1 r2 e = true -> accepted c e) ->
     exists h', maybe_edge c r1 r2 t e h = Ok h').
  { intros e h A. unfold maybe_edge. destruct (touches (lay c) r1 r2 e) eqn:T; [|eauto].
    apply edge_ok; auto. }
  assert (DEC : forall e h, (exists h', maybe_edge c r1 r2 t e h = Ok h' /\ (touches (lay c) r1 r2 e = true -> accepted c e))
     \/ maybe_edge c r1 r2 t e h = Err NotImplementedError).
  { intros e h. unfold maybe_edge. destruct (touches (lay c) r1 r2 e) eqn:T; [|left; eexists; split; [reflexivity|discriminate]].
    destruct (edge_ok c r1 r2 t e h (NS e T)) as [P Q].
    destruct (apply_edge c r1 r2 t e h) eqn:E.
    - left. eexists; split; [reflexivity|]. intros _.
      assert (X : forall A : Prop, (~ A -> False) -> (A \/ ~ A) -> A) by tauto.
      apply X. { intros N. specialize (Q N). discriminate. }
      apply accepted_dec.
    - right. destruct e0; try reflexivity; exfalso.
      all: unfold apply_edge, apply_mirror in E; revert E;
        destruct (String.eqb (in_q c e) "dirichlet"); try discriminate;
        destruct (String.eqb (in_q c e) "mirror");
        try (destruct (String.eqb (p_space_grid c) "cartesian"); try discriminate;
             destruct (String.eqb (p_space_grid c) "polar2D"); discriminate);
        destruct (String.eqb (in_q c e) "mirror+dirichlet");
        try (destruct (String.eqb (p_space_grid c) "cartesian"); cbn [rbind]; try discriminate;
             destruct (String.eqb (p_space_grid c) "polar2D"); cbn [rbind]; discriminate);
        destruct (String.eqb (in_q c e) "periodic" || String.eqb (in_q c e) "none")%bool; try discriminate;
        destruct (String.eqb_spec (in_q c e) "shearing-box"); try discriminate; intros _; exact (NS e T e0). }
  split.
  - intros A. unfold apply_bcs_f.
    destruct (OK ELeft f (A ELeft)) as [fa ->]. cbn [rbind].
    destruct (OK ERight fa (A ERight)) as [fb ->]. cbn [rbind].
    destruct (OK EBottom fb (A EBottom)) as [fc ->]. cbn [rbind].
    apply OK. apply A.
  - intros e T NA. unfold apply_bcs_f.
    destruct (DEC ELeft f) as [(fa&->&Aa)| ->]; [cbn [rbind]|reflexivity].
    destruct (DEC ERight fa) as [(fb&->&Ab)| ->]; [cbn [rbind]|reflexivity].
    destruct (DEC EBottom fb) as [(fc&->&Ac)| ->]; [cbn [rbind]|reflexivity].
    destruct (DEC ETop fc) as [(fd&->&Ad)| ->]; [|reflexivity].
    exfalso. destruct e; auto.
Qed.

(** ** Which ranks touch which edge *)
Lemma touches_spec L r1 r2 : tiles (gN1 L) (blk1 L) -> tiles (gN2 L) (blk2 L) -> rank_ok L r1 r2 ->
  (touches L r1 r2 ELeft = true <-> r1 = 0%nat)
  /\ (touches L r1 r2 ERight = true <-> S r1 = List.length (blk1 L))
  /\ (touches L r1 r2 EBottom = true <-> r2 = 0%nat)
  /\ (touches L r1 r2 ETop = true <-> S r2 = List.length (blk2 L)).
Proof.
  intros (N1&F1&S1) (N2&F2&S2) [R1 R2].
  assert (FST : forall bl r, Forall (fun b => 0 < b) bl -> (r < List.length bl)%nat -> off bl r = 0 <-> r = 0%nat).
  { intros bl r F R. split; [|intros ->; reflexivity]. intros H. destruct r; auto. exfalso.
    rewrite off_S in H by lia. pose proof (off_nonneg bl r F). pose proof (bsize_pos bl r F ltac:(lia)). lia. }
  assert (LST : forall bl r, Forall (fun b => 0 < b) bl -> (r < List.length bl)%nat ->
     off bl r + bsize bl r = zlsum bl <-> S r = List.length bl).
  { intros bl r F R. rewrite <- off_S by auto. split.
    - intros H. destruct (Nat.eq_dec (S r) (List.length bl)); auto. exfalso.
      pose proof (off_end bl (S r) F ltac:(lia)). pose proof (bsize_pos bl (S r) F ltac:(lia)). lia.
    - intros H. unfold off. rewrite H, firstn_all. reflexivity. }
  unfold touches. rewrite !Z.eqb_eq. repeat split; intros H;
  try (apply (FST (blk1 L)); auto; fail); try (apply (FST (blk2 L)); auto; fail);
  try (apply (LST (blk1 L)); auto; lia); try (apply (LST (blk2 L)); auto; lia).
  - apply (LST (blk1 L)) in H; auto. lia.
  - apply (LST (blk2 L)) in H; auto. lia.
Qed.

(** ** The loops of the shearing box *)
Local Open Scope R_scope.

Lemma any_false P a : any P a = false ->
  forall k l, inb (d2 a) k -> inb (d3 a) l -> P (el a 0%Z 0%Z k l) = false.
Proof.
  intros H k l Hk Hl. destruct (P (el a 0%Z 0%Z k l)) eqn:E; auto. exfalso.
  assert (any P a = true); [|congruence]. unfold any. apply existsb_exists. exists k. split.
  - apply zrange_In. unfold inb in *. lia.
  - apply existsb_exists. exists l. split; auto. apply zrange_In. unfold inb in *. lia.
Qed.
Lemma any_none P a : (forall k l, inb (d2 a) k -> inb (d3 a) l -> P (el a 0%Z 0%Z k l) = false) -> any P a = false.
Proof.
  intros H. destruct (any P a) eqn:E; auto. exfalso. unfold any in E. apply existsb_exists in E.
  destruct E as (k&Hk&E). apply existsb_exists in E. destruct E as (l&Hl&E).
  apply zrange_In in Hk. apply zrange_In in Hl. rewrite H in E; [discriminate| |]; unfold inb; lia.
Qed.

Lemma Rgtb_true a b : Rgtb a b = true <-> b < a.
Proof. unfold Rgtb, Rltb. destruct (Rlt_dec b a); split; intros; auto; try discriminate; contradiction. Qed.
Lemma Rltb_true a b : Rltb a b = true <-> a < b.
Proof. unfold Rltb. destruct (Rlt_dec a b); split; intros; auto; try discriminate; contradiction. Qed.
Lemma Rgtb_false a b : Rgtb a b = false <-> a <= b.
Proof. unfold Rgtb, Rltb. destruct (Rlt_dec b a); split; intros; auto; try discriminate; lra. Qed.
Lemma Rltb_false a b : Rltb a b = false <-> b <= a.
Proof. unfold Rltb. destruct (Rlt_dec a b); split; intros; auto; try discriminate; lra. Qed.

(** Each value is moved down by whole lengths L, only as far as needed. *)
Lemma while_above_spec fuel E L x : 0 < L ->
  (forall k l, inb (d2 x) k -> inb (d3 x) l -> el x 0%Z 0%Z k l <= E + INR fuel * L) ->
  exists y, while_above fuel E L x = Some y /\ same_dims y x /\
  (forall n, (fuel <= n)%nat -> while_above n E L x = Some y) /\
  forall k l, inb (d2 x) k -> inb (d3 x) l ->
    el y 0%Z 0%Z k l <= E /\
    exists m : nat, el y 0%Z 0%Z k l = el x 0%Z 0%Z k l - INR m * L /\ (m <> 0%nat -> E - L < el y 0%Z 0%Z k l).
Proof.
  intros HL. revert x. induction fuel as [|fuel IH]; intros x B.
  - assert (A : any (fun v => Rgtb v E) x = false).
    { apply any_none. intros k l Hk Hl. apply Rgtb_false. specialize (B k l Hk Hl). simpl in B. lra. }
    exists x. cbn [while_above]. rewrite A. split; auto. split; [repeat split|]. split.
    { intros n _. destruct n; cbn [while_above]; rewrite A; reflexivity. }
    intros k l Hk Hl. pose proof (any_false _ _ A k l Hk Hl) as X. apply Rgtb_false in X. split; auto.
    exists 0%nat. simpl. split; [lra|congruence].
  - cbn [while_above]. destruct (any (fun v => Rgtb v E) x) eqn:A.
    + set (x' := amap (fun v => if Rgtb v E then v - L else v) x).
      destruct (IH x') as (y&Hy&(D0&D1&D2&D3)&ST&P).
      { intros k l Hk Hl. cbn in Hk, Hl. specialize (B k l Hk Hl). unfold x'; cbn [amap el].
        rewrite S_INR in B. pose proof (pos_INR fuel). destruct (Rgtb (el x 0%Z 0%Z k l) E) eqn:G.
        - lra.
        - apply Rgtb_false in G. nra. }
      exists y. split; auto. split; [repeat split; auto|]. split.
      { intros n Hn. destruct n; [lia|]. cbn [while_above]. rewrite A. apply ST. lia. }
      intros k l Hk Hl. destruct (P k l) as (U&m&Em&Hm); auto. split; auto.
      unfold x' in Em; cbn [amap el] in Em. destruct (Rgtb (el x 0%Z 0%Z k l) E) eqn:G.
      * exists (S m). rewrite S_INR. split; [lra|]. intros _. apply Rgtb_true in G.
        destruct (Nat.eq_dec m 0); [subst; simpl in Em; lra|auto].
      * exists m. split; auto.
    + exists x. split; auto. split; [repeat split|]. split.
      { intros n _. destruct n; cbn [while_above]; rewrite A; reflexivity. }
      intros k l Hk Hl. pose proof (any_false _ _ A k l Hk Hl) as X. apply Rgtb_false in X. split; auto.
      exists 0%nat. simpl. split; [lra|congruence].
Qed.

Lemma while_below_spec fuel S0 L x : 0 < L ->
  (forall k l, inb (d2 x) k -> inb (d3 x) l -> S0 - INR fuel * L <= el x 0%Z 0%Z k l) ->
  exists y, while_below fuel S0 L x = Some y /\ same_dims y x /\
  (forall n, (fuel <= n)%nat -> while_below n S0 L x = Some y) /\
  forall k l, inb (d2 x) k -> inb (d3 x) l ->
    S0 <= el y 0%Z 0%Z k l /\
    exists m : nat, el y 0%Z 0%Z k l = el x 0%Z 0%Z k l + INR m * L /\ (m <> 0%nat -> el y 0%Z 0%Z k l < S0 + L).
Proof.
  intros HL. revert x. induction fuel as [|fuel IH]; intros x B.
  - assert (A : any (fun v => Rltb v S0) x = false).
    { apply any_none. intros k l Hk Hl. apply Rltb_false. specialize (B k l Hk Hl). simpl in B. lra. }
    exists x. cbn [while_below]. rewrite A. split; auto. split; [repeat split|]. split.
    { intros n _. destruct n; cbn [while_below]; rewrite A; reflexivity. }
    intros k l Hk Hl. pose proof (any_false _ _ A k l Hk Hl) as X. apply Rltb_false in X. split; auto.
    exists 0%nat. simpl. split; [lra|congruence].
  - cbn [while_below]. destruct (any (fun v => Rltb v S0) x) eqn:A.
    + set (x' := amap (fun v => if Rltb v S0 then v + L else v) x).
      destruct (IH x') as (y&Hy&(D0&D1&D2&D3)&ST&P).
      { intros k l Hk Hl. cbn in Hk, Hl. specialize (B k l Hk Hl). unfold x'; cbn [amap el].
        rewrite S_INR in B. pose proof (pos_INR fuel). destruct (Rltb (el x 0%Z 0%Z k l) S0) eqn:G.
        - lra.
        - apply Rltb_false in G. nra. }
      exists y. split; auto. split; [repeat split; auto|]. split.
      { intros n Hn. destruct n; [lia|]. cbn [while_below]. rewrite A. apply ST. lia. }
      intros k l Hk Hl. destruct (P k l) as (U&m&Em&Hm); auto. split; auto.
      unfold x' in Em; cbn [amap el] in Em. destruct (Rltb (el x 0%Z 0%Z k l) S0) eqn:G.
      * exists (S m). rewrite S_INR. split; [lra|]. intros _. apply Rltb_true in G.
        destruct (Nat.eq_dec m 0); [subst; simpl in Em; lra|auto].
      * exists m. split; auto.
    + exists x. split; auto. split; [repeat split|]. split.
      { intros n _. destruct n; cbn [while_below]; rewrite A; reflexivity. }
      intros k l Hk Hl. pose proof (any_false _ _ A k l Hk Hl) as X. apply Rltb_false in X. split; auto.
      exists 0%nat. simpl. split; [lra|congruence].
Qed.

(** A bound for finitely many values. *)
Lemma zbound (P : Z -> R -> Prop) n : (forall k, (0 <= k < n)%Z -> exists b, P k b) ->
  (forall k b b', P k b -> b <= b' -> P k b') -> exists b, forall k, (0 <= k < n)%Z -> P k b.
Proof.
  intros H M. destruct (Z_lt_le_dec n 0); [exists 0; lia|]. revert H.
  pattern n. apply natlike_ind; auto.
  - intros _. exists 0. lia.
  - intros m Hm IH H. destruct IH as [b Hb]; [intros; apply H; lia|].
    destruct (H m) as [b' Hb']; [lia|]. exists (Rmax b b'). intros k Hk.
    destruct (Z.eq_dec k m) as [->|]; [apply (M _ b'); auto; apply Rmax_r|].
    apply (M _ b); [apply Hb; lia|apply Rmax_l].
Qed.

Lemma arr_bound (x : arr R) : exists b, forall k l, inb (d2 x) k -> inb (d3 x) l -> Rabs (el x 0%Z 0%Z k l) <= b.
Proof.
  destruct (zbound (fun k b => forall l, (0 <= l < d3 x)%Z -> Rabs (el x 0%Z 0%Z k l) <= b) (d2 x)) as [b Hb].
  - intros k _. apply (zbound (fun l b => Rabs (el x 0%Z 0%Z k l) <= b)).
    + intros l _. exists (Rabs (el x 0%Z 0%Z k l)). lra.
    + intros; lra.
  - intros k b b' H Hb l Hl. specialize (H l Hl). lra.
  - exists b. intros k l Hk Hl. apply Hb; auto.
Qed.

Lemma archimed_mul L b : 0 < L -> exists n : nat, b <= INR n * L.
Proof.
  intros HL. exists (Z.to_nat (up (b / L))). destruct (archimed (b / L)) as [U _].
  destruct (Rle_dec b 0) as [N|N].
  - pose proof (pos_INR (Z.to_nat (up (b / L)))). nra.
  - assert (0 < b / L) by (apply Rdiv_lt_0_compat; lra).
    rewrite INR_IZR_INZ, Z2Nat.id by (apply le_IZR; lra).
    replace b with (b / L * L) at 1 by (field; lra). nra.
Qed.

Theorem wrap_spec S E x : S < E ->
  exists y n0, (forall n, (n0 <= n)%nat -> wrap_coordinates n S E (E - S) x = Some y) /\ same_dims y x /\
  forall k l, inb (d2 x) k -> inb (d3 x) l ->
    S <= el y 0%Z 0%Z k l <= E
    /\ (exists m : Z, el y 0%Z 0%Z k l = el x 0%Z 0%Z k l + IZR m * (E - S))
    /\ (S <= el x 0%Z 0%Z k l <= E -> el y 0%Z 0%Z k l = el x 0%Z 0%Z k l).
Proof.
  intros HSE. set (L := E - S). assert (HL : 0 < L) by (unfold L; lra).
  destruct (arr_bound x) as [b Hb].
  destruct (archimed_mul L (b - E) HL) as [na Ha].
  destruct (while_above_spec na E L x HL) as (y&Hy&Dy&STy&Py).
  { intros k l Hk Hl. specialize (Hb k l Hk Hl). pose proof (Rle_abs (el x 0%Z 0%Z k l)). lra. }
  destruct (arr_bound y) as [b' Hb'].
  destruct (archimed_mul L (b' + S) HL) as [nb Hnb].
  destruct (while_below_spec nb S L y HL) as (z&Hz&Dz&STz&Pz).
  { intros k l Hk Hl. specialize (Hb' k l Hk Hl). pose proof (Rle_abs (- el y 0%Z 0%Z k l)) as X.
    rewrite Rabs_Ropp in X. lra. }
  exists z, (Nat.max na nb). split.
  { intros n Hn. unfold wrap_coordinates. rewrite STy by lia. apply STz. lia. }
  destruct Dy as (A0&A1&A2&A3), Dz as (B0&B1&B2&B3). split; [repeat split; congruence|].
  intros k l Hk Hl. destruct (Py k l Hk Hl) as (Uy&m&Em&Cm).
  destruct (Pz k l) as (Uz&m'&Em'&Cm'); [rewrite A2; auto|rewrite A3; auto|].
  split; [split; auto|split].
  - destruct (Nat.eq_dec m' 0); [subst; simpl in Em'; lra|]. specialize (Cm' n). unfold L in Cm'. lra.
  - exists (Z.of_nat m' - Z.of_nat m)%Z. rewrite minus_IZR, <- !INR_IZR_INZ. rewrite Em', Em. ring.
  - intros [X1 X2].
    assert (m = 0%nat). { destruct (Nat.eq_dec m 0); auto. exfalso. specialize (Cm n).
      assert (1 <= INR m) by (apply (le_INR 1); lia). assert (1 * L <= INR m * L) by (apply Rmult_le_compat_r; lra). unfold L in *. lra. }
    subst m. simpl in Em. assert (m' = 0%nat). { destruct (Nat.eq_dec m' 0); auto. exfalso. specialize (Cm' n).
      assert (1 <= INR m') by (apply (le_INR 1); lia). assert (1 * L <= INR m' * L) by (apply Rmult_le_compat_r; lra). unfold L in *. lra. }
    subst m'. simpl in Em'. lra.
Qed.

(** ... for the four edges of the solver. *)
Definition loops_on (c : cfg) (e : edge) : R * R :=
  match e with ELeft | ERight => (q2_start c, q2_end c) | EBottom | ETop => (q1_start c, q1_end c) end.

Theorem wrapped_spec c r1 r2 t e : fst (loops_on c e) < snd (loops_on c e) ->
  exists y n0, (forall n, (n0 <= n)%nat -> wrapped_coordinates (with_fuel c n) r1 r2 t e = Some y)
  /\ same_dims y (sheared_coordinates c r1 r2 t e)
  /\ forall k l, inb (d2 y) k -> inb (d3 y) l ->
    fst (loops_on c e) <= el y 0%Z 0%Z k l <= snd (loops_on c e)
    /\ exists m : Z, el y 0%Z 0%Z k l
         = el (sheared_coordinates c r1 r2 t e) 0%Z 0%Z k l + IZR m * (snd (loops_on c e) - fst (loops_on c e)).
Proof.
  intros H. destruct (wrap_spec _ _ (sheared_coordinates c r1 r2 t e) H) as (y&n0&ST&D&P).
  exists y, n0. split; [|split; auto].
  - intros n Hn. specialize (ST n Hn). unfold wrapped_coordinates.
    change (sheared_coordinates (with_fuel c n) r1 r2 t e) with (sheared_coordinates c r1 r2 t e).
    destruct e; exact ST.
  - intros k l Hk Hl. destruct D as (D0&D1&D2&D3). rewrite D2 in Hk. rewrite D3 in Hl.
    destruct (P k l Hk Hl) as (A&B&_). auto.
Qed.
