(** Symmetries of the reconstructions and fluxes: affine maps of the data,
    translations, reflections, locality. *)
From Coq Require Import ZArith Reals Lra Lia Psatz.
From Verif Require Import Spec.Limiters Spec.Lattice Proofs.FluxLemmas.
Local Open Scope R_scope.

Lemma Rmin_opp a b : Rmin (- a) (- b) = - Rmax a b.
Proof. unfold Rmin, Rmax. repeat destruct (Rle_dec _ _); lra. Qed.
Lemma Rmax_opp a b : Rmax (- a) (- b) = - Rmin a b.
Proof. unfold Rmin, Rmax. repeat destruct (Rle_dec _ _); lra. Qed.
Lemma Rmin_scale k a b : 0 < k -> Rmin (k * a) (k * b) = k * Rmin a b.
Proof. intros. unfold Rmin. repeat destruct (Rle_dec _ _); nra. Qed.
Lemma Rmax_scale k a b : 0 < k -> Rmax (k * a) (k * b) = k * Rmax a b.
Proof. intros. unfold Rmax. repeat destruct (Rle_dec _ _); nra. Qed.

(** ** Slopes *)
Lemma mc_add a b c k : mc_slope (a + k) (b + k) (c + k) = mc_slope a b c.
Proof.
  unfold mc_slope. repeat (destruct (Rlt_dec _ _); try lra); f_equal; try lra; f_equal; lra.
Qed.

Lemma mc_opp a b c : mc_slope (- a) (- b) (- c) = - mc_slope a b c.
Proof.
  unfold mc_slope. repeat (destruct (Rlt_dec _ _); try lra).
  - rewrite <- Rmin_opp, <- Rmin_opp. f_equal; [lra|f_equal; lra].
  - rewrite <- Rmax_opp, <- Rmax_opp. f_equal; [lra|f_equal; lra].
Qed.

Lemma mc_pos k a b c : 0 < k -> mc_slope (k * a) (k * b) (k * c) = k * mc_slope a b c.
Proof.
  intros K. unfold mc_slope. repeat (destruct (Rlt_dec _ _); try nra).
  - rewrite <- !Rmin_scale by auto. f_equal; [lra|f_equal; lra].
  - rewrite <- !Rmax_scale by auto. f_equal; [lra|f_equal; lra].
Qed.

Lemma mc_rev a b c : mc_slope c b a = - mc_slope a b c.
Proof.
  unfold mc_slope. repeat (destruct (Rlt_dec _ _); try lra).
  - rewrite <- Rmin_opp, <- Rmin_opp. f_equal; [lra|]. rewrite Rmin_comm. f_equal; lra.
  - rewrite <- Rmax_opp, <- Rmax_opp. f_equal; [lra|]. rewrite Rmax_comm. f_equal; lra.
Qed.

Lemma mc_affine k m a b c : mc_slope (k * a + m) (k * b + m) (k * c + m) = k * mc_slope a b c.
Proof.
  rewrite mc_add. destruct (Rtotal_order k 0) as [K|[K|K]].
  - replace (k * a) with (- ((- k) * a)) by ring. replace (k * b) with (- ((- k) * b)) by ring.
    replace (k * c) with (- ((- k) * c)) by ring. rewrite mc_opp, mc_pos by lra. ring.
  - subst. rewrite !Rmult_0_l. unfold mc_slope. repeat (destruct (Rlt_dec _ _); try lra).
  - apply mc_pos; auto.
Qed.

(** ** Parabolas *)
Lemma face_affine k m a b c d :
  cw_face (k * a + m) (k * b + m) (k * c + m) (k * d + m) = k * cw_face a b c d + m.
Proof. unfold cw_face. rewrite !mc_affine. field. Qed.

Lemma face_rev a b c d : cw_face d c b a = cw_face a b c d.
Proof. unfold cw_face. rewrite (mc_rev b c d), (mc_rev a b c). field. Qed.

Lemma limit_affine k m l a r :
  cw_limit (k * l + m) (k * a + m) (k * r + m)
  = (k * fst (cw_limit l a r) + m, k * snd (cw_limit l a r) + m).
Proof.
  unfold cw_limit.
  replace ((k * r + m - (k * a + m)) * (k * a + m - (k * l + m))) with (k * k * ((r - a) * (a - l))) by ring.
  replace ((k * r + m - (k * l + m)) ^ 2) with (k * k * (r - l) ^ 2) by ring.
  replace ((k * r + m - (k * l + m)) * (6 * (k * a + m - (k * l + m + (k * r + m)) / 2)))
    with (k * k * ((r - l) * (6 * (a - (l + r) / 2)))) by field.
  replace (- (k * k * (r - l) ^ 2)) with (k * k * (- (r - l) ^ 2)) by ring.
  set (A := (r - a) * (a - l)). set (B := (r - l) ^ 2). set (C := (r - l) * (6 * (a - (l + r) / 2))).
  destruct (Req_dec k 0) as [->|K].
  - destruct (Rle_dec (0 * 0 * A) 0); [|lra].
    repeat (destruct (Rle_dec _ _) || destruct (Rlt_dec _ _)); cbn [fst snd]; f_equal; ring.
  - assert (P : 0 < k * k) by nra.
    destruct (Rle_dec (k * k * A) 0), (Rle_dec A 0); try nra; [cbn [fst snd]; f_equal; ring|].
    destruct (Rlt_dec (k * k * B) (k * k * C)), (Rlt_dec B C); try nra; [cbn [fst snd]; f_equal; ring|].
    destruct (Rlt_dec (k * k * C) (k * k * - B)), (Rlt_dec C (- B)); try nra; cbn [fst snd]; f_equal; ring.
Qed.

Lemma limit_rev l a r : cw_limit r a l = (snd (cw_limit l a r), fst (cw_limit l a r)).
Proof.
  unfold cw_limit.
  replace ((l - a) * (a - r)) with ((r - a) * (a - l)) by ring.
  replace ((l - r) ^ 2) with ((r - l) ^ 2) by ring.
  replace ((l - r) * (6 * (a - (r + l) / 2))) with (- ((r - l) * (6 * (a - (l + r) / 2)))) by (rewrite (Rplus_comm r l); ring).
  pose proof (pow2_ge_0 (r - l)) as P.
  set (A := (r - a) * (a - l)) in *. set (B := (r - l) ^ 2) in *. set (C := (r - l) * (6 * (a - (l + r) / 2))) in *.
  destruct (Rle_dec A 0); [reflexivity|].
  destruct (Rlt_dec B (- C)), (Rlt_dec B C); try lra.
  - destruct (Rlt_dec C (- B)); [reflexivity|lra].
  - destruct (Rlt_dec (- C) (- B)); [reflexivity|lra].
  - destruct (Rlt_dec (- C) (- B)), (Rlt_dec C (- B)); try lra. reflexivity.
Qed.

(** ** Face values *)
Lemma faces_affine k (u v : Z -> R) a b i : (forall z, v z = a * u z + b) ->
  cell_faces k v i = (a * fst (cell_faces k u i) + b, a * snd (cell_faces k u i) + b).
Proof.
  intros H. destruct k; cbn [cell_faces fst snd]; rewrite !H.
  - reflexivity.
  - rewrite mc_affine. f_equal; field.
  - unfold cw_ppm. rewrite !face_affine. apply limit_affine.
Qed.

Lemma faces_rev k (u v : Z -> R) m i : (forall z, v z = u (m - z)%Z) ->
  cell_faces k v i = (snd (cell_faces k u (m - i)), fst (cell_faces k u (m - i))).
Proof.
  intros H. destruct k; cbn [cell_faces fst snd]; rewrite !H;
    try replace (m - (i - 1))%Z with (m - i + 1)%Z by ring; try replace (m - (i + 1))%Z with (m - i - 1)%Z by ring;
    try replace (m - (i - 2))%Z with (m - i + 2)%Z by ring; try replace (m - (i + 2))%Z with (m - i - 2)%Z by ring.
  - reflexivity.
  - rewrite mc_rev. f_equal; field.
  - unfold cw_ppm. rewrite (face_rev (u (m - i - 1)%Z)), (face_rev (u (m - i - 2)%Z)). apply limit_rev.
Qed.

Lemma faces_shift k (u v : Z -> R) d i : (forall z, v z = u (z + d)%Z) -> cell_faces k v i = cell_faces k u (i + d).
Proof.
  intros H. destruct k; cbn [cell_faces]; rewrite !H;
    try replace (i - 1 + d)%Z with (i + d - 1)%Z by ring; try replace (i + 1 + d)%Z with (i + d + 1)%Z by ring;
    try replace (i - 2 + d)%Z with (i + d - 2)%Z by ring; try replace (i + 2 + d)%Z with (i + d + 2)%Z by ring;
    reflexivity.
Qed.

Lemma faces_local k (u v : Z -> R) i :
  (forall z, (Z.abs (z - i) <= radius k)%Z -> u z = v z) -> cell_faces k u i = cell_faces k v i.
Proof.
  intros H. destruct k; cbn [cell_faces radius] in *; rewrite !H by lia; reflexivity.
Qed.

(** ** Flux differences *)
Lemma advect_scale k h v (u w : Z -> R) a i : (forall z, w z = a * u z) ->
  advect k h v w i = a * advect k h v u i.
Proof.
  intros H. assert (H' : forall z, w z = a * u z + 0) by (intros; rewrite H; ring).
  unfold advect, flux, upwind. rewrite !(faces_affine k u w a 0) by auto. cbn [fst snd].
  unfold Rdiv. repeat destruct (Rlt_dec _ _); ring.
Qed.

Lemma advect_affine k h v (u w : Z -> R) a b i : (forall z, w z = a * u z + b) -> v (i + 1)%Z = v i ->
  advect k h v w i = a * advect k h v u i.
Proof.
  intros H HV. unfold advect, flux, upwind. rewrite !(faces_affine k u w a b) by auto. cbn [fst snd].
  rewrite HV. unfold Rdiv. repeat destruct (Rlt_dec _ _); ring.
Qed.

Lemma advect_shift k h v v' (u u' : Z -> R) d i : (forall z, u' z = u (z + d)%Z) -> (forall z, v' z = v (z + d)%Z) ->
  advect k h v' u' i = advect k h v u (i + d).
Proof.
  intros H HV. unfold advect, flux, upwind. rewrite !(faces_shift k u u' d), !HV by auto.
  replace (i + 1 + d)%Z with (i + d + 1)%Z by ring. replace (i + 1 - 1 + d)%Z with (i + d + 1 - 1)%Z by ring.
  replace (i - 1 + d)%Z with (i + d - 1)%Z by ring. reflexivity.
Qed.

Lemma advect_rev k h v v' (u u' : Z -> R) m i : (forall z, u' z = u (m - z)%Z) ->
  (forall z, v' z = - v (m + 1 - z)%Z) ->
  advect k h v' u' i = advect k h v u (m - i).
Proof.
  intros H HV. unfold advect.
  assert (F : forall j, flux k v' u' j = - flux k v u (m + 1 - j)).
  { intros j. unfold flux, upwind. rewrite !(faces_rev k u u' m), HV by auto. cbn [fst snd].
    replace (m - (j - 1))%Z with (m + 1 - j)%Z by ring. replace (m + 1 - j - 1)%Z with (m - j)%Z by ring.
    destruct (Rlt_dec 0 (v (m + 1 - j)%Z)), (Rlt_dec 0 (- v (m + 1 - j)%Z)); try lra; try ring.
    replace (v (m + 1 - j)%Z) with 0 by lra. ring. }
  rewrite !F. replace (m + 1 - (i + 1))%Z with (m - i)%Z by ring. replace (m + 1 - i)%Z with (m - i + 1)%Z by ring.
  unfold Rdiv. ring.
Qed.

Lemma advect_local k h v (u u' : Z -> R) i :
  (forall z, (Z.abs (z - i) <= radius k + 1)%Z -> u z = u' z) -> advect k h v u i = advect k h v u' i.
Proof.
  intros H. unfold advect, flux, upwind.
  assert (0 <= radius k)%Z by (destruct k; cbn; lia).
  rewrite !(faces_local k u u'); [reflexivity| | | |]; intros z Hz; apply H; lia.
Qed.
