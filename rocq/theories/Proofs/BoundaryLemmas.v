(** Boundary conditions, cell by cell. *)
From Coq Require Import ZArith Reals Lra Lia Psatz String List Bool.
From Verif Require Import Base.Prelude Model.Af Model.Grid Model.Petsc Model.Config Model.Boundaries
  Spec.Mirror Spec.Walls Proofs.AfLemmas Proofs.ConvLemmas.
Import ListNotations.
Local Open Scope Z_scope.

Ltac noif t := lazymatch t with context [if _ then _ else _] => fail | _ => idtac end.
Ltac zcase := repeat match goal with
  | |- context [Z.ltb ?a ?b] => noif a; noif b; destruct (Z.ltb_spec a b)
  | |- context [Z.leb ?a ?b] => noif a; noif b; destruct (Z.leb_spec a b)
  end.

Lemma in_slice_all n i : inb n i -> in_slice n 0 n i = true.
Proof. unfold inb, in_slice, slice_bound. intros. zcase; cbn [andb]; try reflexivity; try lia. Qed.
Lemma bound_0 n : 0 <= n -> slice_bound n 0 = 0.
Proof. unfold slice_bound. intros. zcase; lia. Qed.

Lemma set_ghost_dims {A} e g (a v : arr A) : same_dims (set_ghost e g a v) a.
Proof. destruct e; repeat split. Qed.

(** Extents along the two axes.  [2 g <= n] holds as soon as the axis has ghost
    zones: n = local cells + 2 g. *)
Definition roomy (e : edge) (g : Z) (n1 n2 : Z) : Prop :=
  match e with ELeft | ERight => 2 * g <= n1 | EBottom | ETop => 2 * g <= n2 end.

Lemma set_ghost_el {A} e g (a v : arr A) x s i j : 0 < g -> inb (d2 a) i -> inb (d3 a) j ->
  roomy e g (d2 a) (d3 a) ->
  el (set_ghost e g a v) x s i j
  = if in_slab e g (d2 a) (d3 a) i j
    then match e with
         | ELeft | EBottom => el v x s i j
         | ERight => el v x s (i - (d2 a - g)) j
         | ETop => el v x s i (j - (d3 a - g))
         end
    else el a x s i j.
Proof.
  unfold roomy. intros Hg Hi Hj G. unfold inb in *. destruct e; unfold set_ghost, set_slice23; cbn [el];
  rewrite ?in_slice_all, ?bound_0 by (unfold inb; lia); rewrite ?andb_true_r; cbn [andb];
  unfold in_slice, slice_bound, in_slab; zcase; cbn [andb]; try lia; try reflexivity; f_equal; lia.
Qed.

Lemma get_ghost_el {A} e g (a : arr A) x s i j : 0 < g -> roomy e g (d2 a) (d3 a) ->
  0 <= d2 a -> 0 <= d3 a ->
  el (get_ghost e g a) x s i j
  = match e with
    | ELeft | EBottom => el a x s i j
    | ERight => el a x s (d2 a - g + i) j
    | ETop => el a x s i (d3 a - g + j)
    end.
Proof.
  unfold roomy. intros Hg G P2 P3. destruct e; unfold get_ghost, slice23; cbn [el]; rewrite ?bound_0 by lia;
  try reflexivity; f_equal; unfold slice_bound; zcase; lia.
Qed.

Lemma get_inner_el {A} e g (a : arr A) x s i j : 0 < g -> roomy e g (d2 a) (d3 a) ->
  0 <= d2 a -> 0 <= d3 a ->
  el (flip_normal e (get_inner e g a)) x s i j
  = match e with
    | ELeft => el a x s (2 * g - 1 - i) j
    | ERight => el a x s (d2 a - g - 1 - i) j
    | EBottom => el a x s i (2 * g - 1 - j)
    | ETop => el a x s i (d3 a - g - 1 - j)
    end.
Proof.
  unfold roomy. intros Hg G P2 P3. destruct e; unfold get_inner, flip_normal, flip2, flip3, slice23, slice_len; cbn [el d2 d3];
  rewrite ?bound_0 by lia; unfold slice_bound; f_equal; zcase; lia.
Qed.

(** Momentum flip of a q-expanded array. *)
Lemma flip_cart_el {A} c r1 r2 e (a : arr A) x s i j : pos_cfg c -> q_shaped c r1 r2 a ->
  inb (N_p c) x -> inb (N_species c) s -> inb (n1g (lay c) r1) i -> inb (n2g (lay c) r2) j ->
  el (convert_to_q_expanded c r1 r2 (flip_p_cartesian e (convert_to_p_expanded c r1 r2 a))) x s i j
  = el a (reverse_normal e (N_p1 c) (N_p2 c) x) s i j.
Proof.
  intros PC D Hx Hs Hi Hj. assert (PC' := PC). destruct PC' as (P1&P2&P3&PS).
  destruct (row_split (N_p1 c) (N_p2 c) (N_p3 c) x) as (E&B1&B2&B3); auto.
  rewrite conv_q_el; auto.
  - unfold reverse_normal, prow. unfold inb in *.
    destruct e; cbn [flip_p_cartesian]; unfold flip0, flip1; cbn [el];
    rewrite conv_p_el by (auto; cbn; unfold inb; lia); reflexivity.
  - destruct e; repeat split.
Qed.

Lemma reverse_normal_bound c e x : pos_cfg c -> inb (N_p c) x ->
  inb (N_p c) (reverse_normal e (N_p1 c) (N_p2 c) x).
Proof.
  intros (P1&P2&P3&PS) Hx. destruct (row_split (N_p1 c) (N_p2 c) (N_p3 c) x) as (E&B1&B2&B3); auto.
  unfold reverse_normal, prow. destruct e; apply pidx_bound; auto; unfold inb in *; lia.
Qed.

Lemma reverse_normal_inv c e x : pos_cfg c -> inb (N_p c) x ->
  reverse_normal e (N_p1 c) (N_p2 c) (reverse_normal e (N_p1 c) (N_p2 c) x) = x.
Proof.
  intros (P1&P2&P3&PS) Hx. destruct (row_split (N_p1 c) (N_p2 c) (N_p3 c) x) as (E&B1&B2&B3); auto.
  unfold reverse_normal, prow.
  destruct e.
  1,2: destruct (pidx_split (N_p1 c) (N_p2 c) (N_p1 c - 1 - x mod N_p1 c) ((x / N_p1 c) mod N_p2 c) (x / N_p1 c / N_p2 c)) as (A1&A2&A3);
    [unfold inb in *; lia|auto|]; rewrite A1, A2, A3; etransitivity; [|symmetry; exact E]; lia.
  1,2: destruct (pidx_split (N_p1 c) (N_p2 c) (x mod N_p1 c) (N_p2 c - 1 - (x / N_p1 c) mod N_p2 c) (x / N_p1 c / N_p2 c)) as (A1&A2&A3);
    [auto|unfold inb in *; lia|]; rewrite A1, A2, A3; etransitivity; [|symmetry; exact E]; lia.
Qed.

(** Position of the slab in the array. *)
Lemma mirror_gen c r1 r2 e (f : arr R) (FL : arr R -> arr R) (rev : Z -> Z) x s i j :
  let g := N_ghost c in let n1 := n1g (lay c) r1 in let n2 := n2g (lay c) r2 in
  let h := set_ghost e g f (flip_normal e (get_inner e g f)) in
  0 < g -> roomy e g n1 n2 -> q_shaped c r1 r2 f ->
  (forall a, q_shaped c r1 r2 (FL a)) ->
  (forall a i j, q_shaped c r1 r2 a -> inb n1 i -> inb n2 j -> el (FL a) x s i j = el a (rev x) s i j) ->
  inb n1 i -> inb n2 j ->
  el (set_ghost e g h (get_ghost e g (FL h))) x s i j
  = if in_slab e g n1 n2 i j
    then el f (rev x) s (fst (mirror_cell e g n1 n2 i j)) (snd (mirror_cell e g n1 n2 i j))
    else el f x s i j.
Proof.
  intros g n1 n2 h Hg RM D DF HF Hi Hj. assert (D' := D). destruct D' as (D0&D1&D2&D3).
  assert (Dh : q_shaped c r1 r2 h).
  { destruct (set_ghost_dims e g f (flip_normal e (get_inner e g f))) as (S0&S1&S2&S3). fold h in S0, S1, S2, S3.
    repeat split; congruence. }
  assert (Dh' := Dh). destruct Dh' as (E0&E1&E2&E3). fold n1 in D2, E2. fold n2 in D3, E3.
  destruct (DF h) as (F0&F1&F2&F3). fold n1 in F2. fold n2 in F3. unfold inb in *.
  assert (HH : forall y i j, inb n1 i -> inb n2 j -> el h y s i j
    = if in_slab e g n1 n2 i j
      then el f y s (fst (mirror_cell e g n1 n2 i j)) (snd (mirror_cell e g n1 n2 i j)) else el f y s i j).
  { intros y a b Ha Hb. unfold h. rewrite set_ghost_el by (rewrite ?D2, ?D3; auto). rewrite D2, D3.
    destruct (in_slab e g n1 n2 a b) eqn:SL; auto. unfold inb in *.
    destruct e; rewrite get_inner_el by (rewrite ?D2, ?D3; auto; lia); rewrite ?D2, ?D3; cbn [mirror_cell fst snd]; f_equal; lia. }
  rewrite set_ghost_el by (rewrite ?E2, ?E3; auto). rewrite E2, E3.
  destruct (in_slab e g n1 n2 i j) eqn:SL.
  - assert (X : match e with
         | ELeft | EBottom => el (get_ghost e g (FL h)) x s i j
         | ERight => el (get_ghost e g (FL h)) x s (i - (n1 - g)) j
         | ETop => el (get_ghost e g (FL h)) x s i (j - (n2 - g))
         end = el (FL h) x s i j).
    { destruct e; rewrite get_ghost_el by (rewrite ?F2, ?F3; auto; lia); rewrite ?F2, ?F3; f_equal; lia. }
    rewrite X, HF by auto. rewrite HH by auto. rewrite SL. reflexivity.
  - rewrite HH by auto. rewrite SL. reflexivity.
Qed.

Lemma mirror_el c r1 r2 e (f : arr R) x s i j :
  let g := N_ghost c in let n1 := n1g (lay c) r1 in let n2 := n2g (lay c) r2 in
  pos_cfg c -> 0 < g -> roomy e g n1 n2 -> q_shaped c r1 r2 f ->
  inb (N_p c) x -> inb (N_species c) s -> inb n1 i -> inb n2 j ->
  el (apply_mirror_bcs_f_cartesian c r1 r2 e f) x s i j
  = if in_slab e g n1 n2 i j
    then el f (reverse_normal e (N_p1 c) (N_p2 c) x) s
           (fst (mirror_cell e g n1 n2 i j)) (snd (mirror_cell e g n1 n2 i j))
    else el f x s i j.
Proof.
  intros g n1 n2 PC Hg RM D Hx Hs Hi Hj. unfold apply_mirror_bcs_f_cartesian. fold g.
  apply (mirror_gen c r1 r2 e f
    (fun h => convert_to_q_expanded c r1 r2 (flip_p_cartesian e (convert_to_p_expanded c r1 r2 h)))
    (reverse_normal e (N_p1 c) (N_p2 c))); auto.
  - intros; apply conv_q_shaped.
  - intros. apply flip_cart_el; auto.
Qed.

Lemma mirror_dims c r1 r2 e f : q_shaped c r1 r2 f -> q_shaped c r1 r2 (apply_mirror_bcs_f_cartesian c r1 r2 e f).
Proof. intros (A&B&C&D). destruct e; repeat split; assumption. Qed.

(** ** Polar grids *)
Lemma flip_polar_el {A} c r1 r2 e (a : arr A) x s i j : pos_cfg c -> Z.even (N_p2 c) = true -> q_shaped c r1 r2 a ->
  inb (N_p c) x -> inb (N_species c) s -> inb (n1g (lay c) r1) i -> inb (n2g (lay c) r2) j ->
  el (convert_to_q_expanded c r1 r2 (flip_p_polar2D e (N_p2 c) (convert_to_p_expanded c r1 r2 a))) x s i j
  = el a (reflect_angle e (N_p1 c) (N_p2 c) x) s i j.
Proof.
  intros PC EV D Hx Hs Hi Hj. assert (PC' := PC). destruct PC' as (P1&P2&P3&PS).
  destruct (row_split (N_p1 c) (N_p2 c) (N_p3 c) x) as (E&B1&B2&B3); auto.
  apply Z.even_spec in EV. destruct EV as [m Hm]. assert (Hh : N_p2 c / 2 = m) by (rewrite Hm, Z.mul_comm; apply Z.div_mul; lia).
  assert (SL : forall b, 0 <= b <= N_p2 c -> slice_bound (N_p2 c) b = b) by (intros; unfold slice_bound; zcase; lia).
  assert (DS : p_shaped c r1 r2 (flip_p_polar2D e (N_p2 c) (convert_to_p_expanded c r1 r2 a))).
  { destruct e; repeat split; try reflexivity; cbn [flip_p_polar2D join1 flip1 slice1 d1];
      change (d1 (convert_to_p_expanded c r1 r2 a)) with (N_p2 c); unfold slice_len; rewrite Hh, !SL by lia; lia. }
  rewrite conv_q_el by auto. unfold reflect_angle, prow. unfold inb in *.
  destruct e; cbn [flip_p_polar2D]; unfold join1, flip1, slice1; cbn [el d1].
  1,2: change (d1 (convert_to_p_expanded c r1 r2 a)) with (N_p2 c); unfold slice_len; rewrite Hh, !SL by lia;
    replace (Z.max 0 (m - 0)) with m by lia; replace (Z.max 0 (N_p2 c - m)) with m by lia;
    destruct (Z.ltb_spec ((x / N_p1 c) mod N_p2 c) m).
  - rewrite conv_p_el by (auto; unfold inb; lia). f_equal. rewrite (Z.mod_small (m - 1 - (x / N_p1 c) mod N_p2 c)) by lia. lia.
  - rewrite conv_p_el by (auto; unfold inb; lia). f_equal.
    replace ((m - 1 - (x / N_p1 c) mod N_p2 c) mod N_p2 c) with (m - 1 - (x / N_p1 c) mod N_p2 c + N_p2 c)
      by (rewrite <- (mod_unique_small (N_p2 c) (m - 1 - (x / N_p1 c) mod N_p2 c + N_p2 c) (-1)) at 1 by lia; f_equal; lia).
    lia.
  - rewrite conv_p_el by (auto; unfold inb; lia). f_equal. rewrite (Z.mod_small (m - 1 - (x / N_p1 c) mod N_p2 c)) by lia. lia.
  - rewrite conv_p_el by (auto; unfold inb; lia). f_equal.
    replace ((m - 1 - (x / N_p1 c) mod N_p2 c) mod N_p2 c) with (m - 1 - (x / N_p1 c) mod N_p2 c + N_p2 c)
      by (rewrite <- (mod_unique_small (N_p2 c) (m - 1 - (x / N_p1 c) mod N_p2 c + N_p2 c) (-1)) at 1 by lia; f_equal; lia).
    lia.
  - rewrite conv_p_el by (auto; cbn; unfold inb; lia). reflexivity.
  - rewrite conv_p_el by (auto; cbn; unfold inb; lia). reflexivity.
Qed.

Lemma mirror_polar_el c r1 r2 e (f : arr R) x s i j :
  let g := N_ghost c in let n1 := n1g (lay c) r1 in let n2 := n2g (lay c) r2 in
  pos_cfg c -> Z.even (N_p2 c) = true -> 0 < g -> roomy e g n1 n2 -> q_shaped c r1 r2 f ->
  inb (N_p c) x -> inb (N_species c) s -> inb n1 i -> inb n2 j ->
  el (apply_mirror_bcs_f_polar2D c r1 r2 e f) x s i j
  = if in_slab e g n1 n2 i j
    then el f (reflect_angle e (N_p1 c) (N_p2 c) x) s
           (fst (mirror_cell e g n1 n2 i j)) (snd (mirror_cell e g n1 n2 i j))
    else el f x s i j.
Proof.
  intros g n1 n2 PC EV Hg RM D Hx Hs Hi Hj. unfold apply_mirror_bcs_f_polar2D. fold g.
  apply (mirror_gen c r1 r2 e f
    (fun h => convert_to_q_expanded c r1 r2 (flip_p_polar2D e (N_p2 c) (convert_to_p_expanded c r1 r2 h)))
    (reflect_angle e (N_p1 c) (N_p2 c))); auto.
  - intros; apply conv_q_shaped.
  - intros. apply flip_polar_el; auto.
Qed.

(** ** Dirichlet *)
Definition velocity_at (c : cfg) (r1 r2 : nat) (t : R) (x s i j : Z) : R * R :=
  (if String.eqb (solver_method_in_q c) "FVM" then C_q c s t else A_q c s t)
    (bel (fst (q_center (qc c r1 r2))) x s i j) (bel (snd (q_center (qc c r1 r2))) x s i j)
    (bel (p1_center c) x s i j) (bel (p2_center c) x s i j) (bel (p3_center c) x s i j).

Lemma dirichlet_el c r1 r2 t e (f : arr R) x s i j :
  let g := N_ghost c in let n1 := n1g (lay c) r1 in let n2 := n2g (lay c) r2 in
  0 < g -> roomy e g n1 n2 -> q_shaped c r1 r2 f -> q_shaped c r1 r2 (prescribed c r1 r2 e t f) ->
  inb n1 i -> inb n2 j ->
  el (apply_dirichlet_bcs_f c r1 r2 t e f) x s i j
  = if in_slab e g n1 n2 i j && (if inflow_dec e (velocity_at c r1 r2 t x s i j) then true else false)
    then el (prescribed c r1 r2 e t f) x s i j
    else el f x s i j.
Proof.
  intros g n1 n2 Hg RM (D0&D1&D2&D3) (B0&B1&B2&B3) Hi Hj. fold n1 in D2, B2. fold n2 in D3, B3. unfold inb in *.
  unfold apply_dirichlet_bcs_f. fold g. cbv zeta. fold (prescribed c r1 r2 e t f).
  rewrite set_ghost_el by (rewrite ?D2, ?D3; auto). rewrite D2, D3.
  destruct (in_slab e g n1 n2 i j) eqn:SL; cbn [andb]; auto.
  unfold velocity_at.
  destruct e; rewrite get_ghost_el by (cbn [aselect d2 d3]; rewrite ?B2, ?B3; auto; lia);
  cbn [aselect d2 d3 el amap broadcast_qp inflow_dec]; unfold Rgtb, Rltb; rewrite ?B2, ?B3;
  repeat replace (n1 - g + (i - (n1 - g))) with i by lia; repeat replace (n2 - g + (j - (n2 - g))) with j by lia;
  destruct (String.eqb (solver_method_in_q c) "FVM"); reflexivity.
Qed.

Lemma dirichlet_dims c r1 r2 t e f : q_shaped c r1 r2 f -> q_shaped c r1 r2 (apply_dirichlet_bcs_f c r1 r2 t e f).
Proof. intros (A&B&C&D). destruct e; repeat split; assumption. Qed.
