(** Packaging of the boundary lemmas; the polar reflection is specular. *)
From Coq Require Import ZArith Reals Rtrigo_facts Lra Lia String List Bool.
From Verif Require Import Base.Prelude Model.Af Model.Grid Model.Petsc Model.Config Model.Boundaries
  Spec.Domain Spec.Lattice Spec.FvmProblem Spec.Mirror Spec.Walls
  Proofs.AfLemmas Proofs.ConvLemmas Proofs.FvmLemmas Proofs.BoundaryLemmas Proofs.BoundaryRun.
Import ListNotations.
Local Open Scope Z_scope.

Lemma mirror_all : forall c r1 r2 e (f : arr R),
  let g := N_ghost c in let n1 := n1g (lay c) r1 in let n2 := n2g (lay c) r2 in
  let f' := apply_mirror_bcs_f_cartesian c r1 r2 e f in
  pos_cfg c -> 0 < g -> roomy e g n1 n2 -> q_shaped c r1 r2 f ->
  q_shaped c r1 r2 f'
  /\ (forall x s i j, inb (N_p c) x -> inb (N_species c) s -> inb n1 i -> inb n2 j ->
      el f' x s i j
      = if in_slab e g n1 n2 i j
        then el f (reverse_normal e (N_p1 c) (N_p2 c) x) s
               (fst (mirror_cell e g n1 n2 i j)) (snd (mirror_cell e g n1 n2 i j))
        else el f x s i j)
  /\ aeq (apply_mirror_bcs_f_cartesian c r1 r2 e f') f'.
Proof.
  intros c r1 r2 e f g n1 n2 f' PC Hg RM D.
  assert (D' : q_shaped c r1 r2 f') by (apply mirror_dims; auto).
  assert (F : forall x s i j, inb (N_p c) x -> inb (N_species c) s -> inb n1 i -> inb n2 j ->
      el f' x s i j
      = if in_slab e g n1 n2 i j
        then el f (reverse_normal e (N_p1 c) (N_p2 c) x) s
               (fst (mirror_cell e g n1 n2 i j)) (snd (mirror_cell e g n1 n2 i j))
        else el f x s i j) by (intros; apply mirror_el; auto).
  split; [exact D'|split; [exact F|]].
  destruct D' as (A0&A1&A2&A3). destruct (mirror_dims c r1 r2 e f' (conj A0 (conj A1 (conj A2 A3)))) as (B0&B1&B2&B3).
  split; [repeat split; congruence|].
  intros x s i j (Hx&Hs&Hi&Hj). rewrite B0 in Hx. rewrite B1 in Hs. rewrite B2 in Hi. rewrite B3 in Hj.
  rewrite mirror_el by (auto; repeat split; auto). fold g n1 n2.
  destruct (in_slab e g n1 n2 i j) eqn:SL; [|reflexivity].
  assert (M : inb n1 (fst (mirror_cell e g n1 n2 i j)) /\ inb n2 (snd (mirror_cell e g n1 n2 i j))
     /\ in_slab e g n1 n2 (fst (mirror_cell e g n1 n2 i j)) (snd (mirror_cell e g n1 n2 i j)) = false).
  { fold n1 in Hi. fold n2 in Hj. unfold inb, roomy in *. destruct e; cbn [in_slab mirror_cell fst snd] in *;
      rewrite ?Z.ltb_lt, ?Z.leb_le in SL; rewrite ?Z.ltb_ge, ?Z.leb_gt; lia. }
  destruct M as (M1&M2&M3).
  rewrite F; auto; [|apply reverse_normal_bound; auto].
  rewrite M3. symmetry. rewrite F by auto. rewrite SL. reflexivity.
Qed.

Lemma dirichlet_all : forall c k1 k2 r1 r2 t e (f : arr R) x s i j,
  let g := N_ghost c in let n1 := n1g (lay c) r1 in let n2 := n2g (lay c) r2 in
  wf_cfg c k1 k2 -> 0 < g -> roomy e g n1 n2 -> q_shaped c r1 r2 f -> q_shaped c r1 r2 (prescribed c r1 r2 e t f) ->
  inb (N_p c) x -> inb (N_species c) s -> inb n1 i -> inb n2 j ->
  let v := bc_velocity c t x s (off (blk1 (lay c)) r1 + i - ng1 (lay c))
                               (off (blk2 (lay c)) r2 + j - ng2 (lay c)) in
  let f' := apply_dirichlet_bcs_f c r1 r2 t e f in
  (in_slab e g n1 n2 i j = true -> inflow e v -> el f' x s i j = el (prescribed c r1 r2 e t f) x s i j)
  /\ (in_slab e g n1 n2 i j = false -> el f' x s i j = el f x s i j)
  /\ (~ inflow e v -> el f' x s i j = el f x s i j).
Proof.
  intros c k1 k2 r1 r2 t e f x s i j g n1 n2 W Hg RM D DB Hx Hs Hi Hj v f'.
  unfold f'. rewrite dirichlet_el by auto. fold g n1 n2.
  rewrite (velocity_at_spec c k1 k2) by auto. fold v.
  destruct (in_slab e g n1 n2 i j), (inflow_dec e v); cbn [andb]; repeat split; intros; try discriminate; tauto || auto.
Qed.

Lemma bcs_interior' : forall c r1 r2 t f f',
  let g := N_ghost c in let n1 := n1g (lay c) r1 in let n2 := n2g (lay c) r2 in
  0 < g -> (forall e, acts (in_q c e) = true -> roomy e g n1 n2) ->
  q_shaped c r1 r2 f -> apply_bcs_f c r1 r2 t f = Ok f' ->
  q_shaped c r1 r2 f' /\
  forall x s i j, inb n1 i -> inb n2 j ->
    (forall e, touches (lay c) r1 r2 e = true -> in_slab e g n1 n2 i j = false) ->
    el f' x s i j = el f x s i j.
Proof. intros c r1 r2 t f f' g n1 n2 GP RM. apply bcs_interior; auto. Qed.

Lemma dirichlet_no_ghosts : forall c k1 k2 r1 r2 t e (f : arr R) x s i j,
  let n1 := n1g (lay c) r1 in let n2 := n2g (lay c) r2 in
  wf_cfg c k1 k2 -> N_ghost c = 0 -> e = ERight \/ e = ETop ->
  q_shaped c r1 r2 f -> q_shaped c r1 r2 (prescribed c r1 r2 e t f) ->
  inb (N_p c) x -> inb (N_species c) s -> inb n1 i -> inb n2 j ->
  inflow e (bc_velocity c t x s (off (blk1 (lay c)) r1 + i - ng1 (lay c))
                                (off (blk2 (lay c)) r2 + j - ng2 (lay c))) ->
  el (apply_dirichlet_bcs_f c r1 r2 t e f) x s i j = el (prescribed c r1 r2 e t f) x s i j.
Proof.
  intros c k1 k2 r1 r2 t e f x s i j n1 n2 W G0 HE (D0&D1&D2&D3) (B0&B1&B2&B3) Hx Hs Hi Hj IN.
  rewrite <- (velocity_at_spec c k1 k2) in IN by auto.
  assert (I2 := in_slice_all (d2 f) i). assert (I3 := in_slice_all (d3 f) j).
  rewrite D2, D3 in *. specialize (I2 Hi). specialize (I3 Hj). unfold inb in *.
  unfold apply_dirichlet_bcs_f. rewrite G0. cbv zeta. fold (prescribed c r1 r2 e t f).
  unfold velocity_at in IN.
  destruct (String.eqb (solver_method_in_q c) "FVM").
  all: destruct HE as [-> | ->]; unfold set_ghost, get_ghost; change (- 0) with 0.
  all: unfold set_slice23, slice23, aselect, amap, broadcast_qp; cbn [el d2 d3]; rewrite ?D2, ?D3, ?B2, ?B3.
  all: rewrite I2, I3; cbn [andb].
  all: rewrite !bound_0 by (unfold n1, n2 in *; lia).
  all: rewrite !Z.sub_0_r, !Z.add_0_l.
  all: match goal with |- (if ?b then _ else _) = _ => replace b with true; [reflexivity|] end.
  all: symmetry; unfold Rltb; destruct (Rlt_dec _ _) as [|N]; [reflexivity|exfalso; apply N; exact IN].
Qed.

(** ** Polar *)
Lemma cos_turns x n : cos (x + 2 * IZR n * PI) = cos x /\ sin (x + 2 * IZR n * PI) = sin x.
Proof.
  destruct (Z_le_gt_dec 0 n).
  - rewrite <- (Z2Nat.id n) by auto. rewrite <- INR_IZR_INZ. split; [apply cos_period|apply sin_period].
  - replace n with (- Z.of_nat (Z.to_nat (- n))) by lia. rewrite opp_IZR, <- INR_IZR_INZ.
    set (k := Z.to_nat (- n)).
    split; [rewrite <- (cos_period _ k)|rewrite <- (sin_period _ k)]; f_equal; ring.
Qed.

Lemma mirror_polar_all : forall c r1 r2 e (f : arr R) k1 k2,
  let g := N_ghost c in let n1 := n1g (lay c) r1 in let n2 := n2g (lay c) r2 in
  wf_cfg c k1 k2 -> Z.even (N_p2 c) = true -> 0 < g -> roomy e g n1 n2 -> q_shaped c r1 r2 f ->
  (forall s, inb (N_species c) s ->
     (exists n, nth (Z.to_nat s) (p2_start c) 0%R = (IZR n * PI)%R)
     /\ nth (Z.to_nat s) (dp2 c) 0%R = (2 * PI / IZR (N_p2 c))%R) ->
  forall x s i j, inb (N_p c) x -> inb (N_species c) s -> inb n1 i -> inb n2 j ->
  exists x', inb (N_p c) x'
  /\ el (apply_mirror_bcs_f_polar2D c r1 r2 e f) x s i j
     = (if in_slab e g n1 n2 i j
        then el f x' s (fst (mirror_cell e g n1 n2 i j)) (snd (mirror_cell e g n1 n2 i j))
        else el f x s i j)
  /\ mom1 c (1/2) x' s = mom1 c (1/2) x s /\ mom3 c (1/2) x' s = mom3 c (1/2) x s
  /\ (let th := mom2 c (1/2) x s in let th' := mom2 c (1/2) x' s in
      match e with
      | ELeft | ERight => cos th' = (- cos th)%R /\ sin th' = sin th
      | EBottom | ETop => cos th' = cos th /\ sin th' = (- sin th)%R
      end).
Proof.
  intros c r1 r2 e f k1 k2 g n1 n2 W EV Hg RM D TH x s i j Hx Hs Hi Hj.
  assert (PC : pos_cfg c) by (apply (wf_pos _ _ _ W)). assert (PC' := PC). destruct PC' as (P1&P2&P3&PS).
  destruct (row_split (N_p1 c) (N_p2 c) (N_p3 c) x) as (E&B1&B2&B3); auto.
  apply Z.even_spec in EV. destruct EV as [m Hm]. assert (Hh : N_p2 c / 2 = m) by (rewrite Hm, Z.mul_comm; apply Z.div_mul; lia).
  assert (M2 : inb (N_p2 c) ((m - 1 - (x / N_p1 c) mod N_p2 c) mod N_p2 c)) by (apply Z.mod_pos_bound; lia).
  destruct (TH s Hs) as [[n T1] T2].
  assert (NZ : IZR (N_p2 c) <> 0%R) by (apply not_0_IZR; lia).
  exists (reflect_angle e (N_p1 c) (N_p2 c) x).
  assert (SPL : reflect_angle e (N_p1 c) (N_p2 c) x mod N_p1 c = x mod N_p1 c
     /\ (reflect_angle e (N_p1 c) (N_p2 c) x / N_p1 c) mod N_p2 c
        = match e with ELeft | ERight => (m - 1 - (x / N_p1 c) mod N_p2 c) mod N_p2 c
                     | _ => N_p2 c - 1 - (x / N_p1 c) mod N_p2 c end
     /\ reflect_angle e (N_p1 c) (N_p2 c) x / N_p1 c / N_p2 c = x / N_p1 c / N_p2 c).
  { unfold reflect_angle, prow. rewrite Hh. destruct e; apply pidx_split; auto; unfold inb in *; lia. }
  split.
  { unfold reflect_angle, prow. rewrite Hh. destruct e; apply pidx_bound; auto; unfold inb in *; lia. }
  split.
  { apply mirror_polar_el; auto. apply Z.even_spec. exists m. exact Hm. }
  destruct SPL as (S1&S2&S3).
  unfold mom1, mom2, mom3. rewrite S1, S2, S3. split; [reflexivity|split; [reflexivity|]].
  cbv zeta. rewrite T1, T2. clear TH T1 T2. set (k := (x / N_p1 c) mod N_p2 c) in *.
  destruct e.
  1,2: assert (X : exists q, IZR ((m - 1 - k) mod N_p2 c) = (IZR (N_p2 c) / 2 - 1 - IZR k + IZR q * IZR (N_p2 c))%R);
    [exists (- ((m - 1 - k) / N_p2 c)); rewrite (Z.mod_eq (m - 1 - k) (N_p2 c)) by lia;
     rewrite !minus_IZR, mult_IZR, opp_IZR; replace (IZR (N_p2 c) / 2)%R with (IZR m)
       by (rewrite Hm, mult_IZR; field); ring|];
    destruct X as [q ->];
    replace (IZR n * PI + (1 / 2 + (IZR (N_p2 c) / 2 - 1 - IZR k + IZR q * IZR (N_p2 c))) * (2 * PI / IZR (N_p2 c)))%R
      with (PI - (IZR n * PI + (1 / 2 + IZR k) * (2 * PI / IZR (N_p2 c))) + 2 * IZR (n + q) * PI)%R
      by (rewrite plus_IZR; field; auto);
    destruct (cos_turns (PI - (IZR n * PI + (1 / 2 + IZR k) * (2 * PI / IZR (N_p2 c)))) (n + q)) as [-> ->];
    rewrite Rtrigo_facts.cos_pi_minus, Rtrigo_facts.sin_pi_minus; auto.
  1,2: rewrite !minus_IZR;
    replace (IZR n * PI + (1 / 2 + (IZR (N_p2 c) - 1 - IZR k)) * (2 * PI / IZR (N_p2 c)))%R
      with (- (IZR n * PI + (1 / 2 + IZR k) * (2 * PI / IZR (N_p2 c))) + 2 * IZR (n + 1) * PI)%R
      by (rewrite plus_IZR; field; auto);
    destruct (cos_turns (- (IZR n * PI + (1 / 2 + IZR k) * (2 * PI / IZR (N_p2 c)))) (n + 1)) as [-> ->];
    rewrite cos_neg, sin_neg; auto.
Qed.
