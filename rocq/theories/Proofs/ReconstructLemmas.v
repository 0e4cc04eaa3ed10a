(** Properties of the limiters. *)
From Coq Require Import ZArith Reals Lra Psatz String.
From Verif Require Import Base.Prelude Model.Af Model.Reconstruct Spec.Limiters Proofs.AfLemmas.
Local Open Scope R_scope.

Ltac rcases :=
  repeat match goal with
  | |- context [Rlt_dec ?a ?b] => destruct (Rlt_dec a b)
  | |- context [Rle_dec ?a ?b] => destruct (Rle_dec a b)
  end.

Lemma Rmin_cases a b : (a <= b /\ Rmin a b = a) \/ (b <= a /\ Rmin a b = b).
Proof. unfold Rmin; destruct (Rle_dec a b); [left|right]; split; lra. Qed.
Lemma Rmax_cases a b : (a <= b /\ Rmax a b = b) \/ (b <= a /\ Rmax a b = a).
Proof. unfold Rmax; destruct (Rle_dec a b); [left|right]; split; lra. Qed.
Lemma Rabs_cases a : (0 <= a /\ Rabs a = a) \/ (a <= 0 /\ Rabs a = - a).
Proof. unfold Rabs; destruct (Rcase_abs a); [right|left]; split; lra. Qed.

Ltac mcase1 L :=
  let H := fresh in let E := fresh in
  destruct L as [[H E]|[H E]]; rewrite !E in *; clear E.
Ltac mcases :=
  repeat match goal with
  | |- context [Rmin ?a ?b] => mcase1 (Rmin_cases a b)
  | |- context [Rmax ?a ?b] => mcase1 (Rmax_cases a b)
  | |- context [Rabs ?a] => mcase1 (Rabs_cases a)
  | G : context [Rmin ?a ?b] |- _ => mcase1 (Rmin_cases a b)
  | G : context [Rmax ?a ?b] |- _ => mcase1 (Rmax_cases a b)
  | G : context [Rabs ?a] |- _ => mcase1 (Rabs_cases a)
  end.

(** The code's minmod limiter is the MC limiter. *)
Lemma sgn_cases x : (x < 0 /\ 1 - 2 * af_sign x = -1) \/ (0 <= x /\ 1 - 2 * af_sign x = 1).
Proof. unfold af_sign, b2r, Rltb. destruct (Rlt_dec x 0); [left|right]; split; lra. Qed.

Lemma slope_minmod_mc a b c : slope_minmod a b c = mc_slope a b c.
Proof.
  unfold slope_minmod, minmod. cbv zeta.
  set (x := 2 * (b - a)). set (y := 0.5 * (b - a + (c - b))). set (z := 2 * (c - b)).
  assert (Ex : x = 2 * (b - a)) by reflexivity. assert (Ey : y = (c - a) / 2) by (unfold y; lra).
  assert (Ez : z = 2 * (c - b)) by reflexivity. clearbody x y z.
  destruct (sgn_cases x) as [[X Sx]|[X Sx]]; destruct (sgn_cases y) as [[Y Sy]|[Y Sy]];
  destruct (sgn_cases z) as [[Z Sz]|[Z Sz]]; rewrite Sx, Sy, Sz;
  repeat match goal with
  | |- context [Rabs (1 + 1)] => rewrite (Rabs_right (1 + 1)) by lra
  | |- context [Rabs (-1 + -1)] => rewrite (Rabs_left (-1 + -1)) by lra
  | |- context [Rabs (-1 + 1)] => replace (-1 + 1) with 0 by lra; rewrite Rabs_R0
  | |- context [Rabs (1 + -1)] => replace (1 + -1) with 0 by lra; rewrite Rabs_R0
  end;
  rewrite ?(Rabs_left x), ?(Rabs_left y), ?(Rabs_left z) by lra;
  rewrite ?(Rabs_right x), ?(Rabs_right y), ?(Rabs_right z) by lra;
  unfold mc_slope; rcases; try (exfalso; lra); mcases; lra.
Qed.

Lemma ppm_dq_mc a b c : ppm_dq (2 * (b - a)) (2 * (c - b)) (0.5 * (c - a)) = mc_slope a b c.
Proof.
  unfold ppm_dq, mc_slope, b2r, Rgtb, Rltb, Rleb.
  destruct (Rlt_dec a b) as [H1|H1]; [|destruct (Rlt_dec b a) as [H2|H2]];
  [destruct (Rlt_dec b c) as [H3|H3]|destruct (Rlt_dec c b) as [H3|H3]|].
  - destruct (Rle_dec (2 * (c - b) * (2 * (b - a))) 0) as [H4|H4]; [exfalso; nra|clear H4].
    destruct (Rlt_dec 0 (0.5 * (c - a))); [|lra].
    rewrite !Rabs_right by lra. replace (0.5 * (c - a)) with ((c - a) / 2) by lra. ring.
  - destruct (Rle_dec (2 * (c - b) * (2 * (b - a))) 0); [ring|exfalso; nra].
  - destruct (Rle_dec (2 * (c - b) * (2 * (b - a))) 0) as [H4|H4]; [exfalso; nra|clear H4].
    destruct (Rlt_dec 0 (0.5 * (c - a))); [lra|].
    rewrite !Rabs_left by lra. replace (0.5 * (c - a)) with ((c - a) / 2) by lra.
    mcases; lra.
  - destruct (Rle_dec (2 * (c - b) * (2 * (b - a))) 0); [ring|exfalso; nra].
  - destruct (Rle_dec (2 * (c - b) * (2 * (b - a))) 0); [ring|exfalso; assert (a = b) by lra; subst; lra].
Qed.

Lemma ppm_is_cw y0 y1 y2 y3 y4 : ppm y0 y1 y2 y3 y4 = cw_ppm y0 y1 y2 y3 y4.
Proof.
  unfold ppm, cw_ppm. cbv zeta. rewrite !ppm_dq_mc.
  replace (0.5 * (y2 + y1) - (mc_slope y1 y2 y3 - mc_slope y0 y1 y2) / 6)
    with (cw_face y0 y1 y2 y3) by (unfold cw_face; lra).
  replace (0.5 * (y3 + y2) - (mc_slope y2 y3 y4 - mc_slope y1 y2 y3) / 6)
    with (cw_face y1 y2 y3 y4) by (unfold cw_face; lra).
  set (l := cw_face y0 y1 y2 y3). set (r := cw_face y1 y2 y3 y4). set (m := y2).
  unfold cw_limit, b2r, Rleb, Rltb.
  replace (m - 0.5 * (r + l)) with (m - (l + r) / 2) by lra.
  set (e := 6 * (m - (l + r) / 2)).
  destruct (Rle_dec ((r - m) * (m - l)) 0) as [H|H].
  - destruct (Rlt_dec ((r - l) * (r - l - e)) 0); destruct (Rlt_dec ((r - l) * (r - l + e)) 0);
      apply f_equal2; ring.
  - destruct (Rlt_dec ((r - l) * (r - l - e)) 0) as [A|A];
    destruct (Rlt_dec ((r - l) ^ 2) ((r - l) * e)) as [B|B]; try (exfalso; nra).
    + destruct (Rlt_dec ((r - l) * (r - l + e)) 0); apply f_equal2; ring.
    + destruct (Rlt_dec ((r - l) * (r - l + e)) 0) as [C|C];
      destruct (Rlt_dec ((r - l) * e) (- (r - l) ^ 2)) as [D|D]; try (exfalso; nra);
      apply f_equal2; ring.
Qed.

Ltac mc_cases := unfold mc_slope; rcases; mcases.

(** Bounds on the MC slope. *)
Lemma mc_slope_up a b c : a <= b -> b <= c ->
  0 <= mc_slope a b c /\ mc_slope a b c <= 2 * (b - a) /\ mc_slope a b c <= 2 * (c - b).
Proof. intros. mc_cases; lra. Qed.
Lemma mc_slope_down a b c : b <= a -> c <= b ->
  mc_slope a b c <= 0 /\ 2 * (b - a) <= mc_slope a b c /\ 2 * (c - b) <= mc_slope a b c.
Proof. intros. mc_cases; lra. Qed.
Lemma mc_slope_extremum a b c : (b - a) * (c - b) <= 0 -> mc_slope a b c = 0.
Proof. intros. unfold mc_slope. rcases; auto; nra. Qed.

Lemma mc_face_bounds a b c :
  within3 a b c (b - mc_slope a b c / 2) /\ within3 a b c (b + mc_slope a b c / 2).
Proof. unfold within3, mc_slope. rcases; mcases; lra. Qed.

(** The interface value lies between the two adjacent averages. *)
Lemma mc_slope_sign a b c : 
  (b <= c -> 0 <= mc_slope a b c <= 2 * (c - b)) /\ (c <= b -> 2 * (c - b) <= mc_slope a b c <= 0).
Proof. mc_cases; lra. Qed.
Lemma mc_slope_sign' a b c : 
  (a <= b -> 0 <= mc_slope a b c <= 2 * (b - a)) /\ (b <= a -> 2 * (b - a) <= mc_slope a b c <= 0).
Proof. mc_cases; lra. Qed.

Lemma cw_face_between a b c d : between b c (cw_face a b c d).
Proof.
  unfold between, cw_face.
  destruct (mc_slope_sign' b c d) as [P1 P2]. destruct (mc_slope_sign a b c) as [Q1 Q2].
  set (s := mc_slope b c d) in *. set (t := mc_slope a b c) in *.
  destruct (Rle_dec b c) as [H|H].
  - specialize (P1 H). specialize (Q1 H). rewrite Rmin_left, Rmax_right by lra. lra.
  - assert (H' : c <= b) by lra. specialize (P2 H'). specialize (Q2 H').
    rewrite Rmin_right, Rmax_left by lra. lra.
Qed.

Lemma prod_pos_cases l m r : ~ (r - m) * (m - l) <= 0 -> (l < m /\ m < r) \/ (r < m /\ m < l).
Proof.
  intros H. destruct (Rtotal_order l m) as [A|[A|A]]; destruct (Rtotal_order m r) as [B|[B|B]];
  try (left; lra); try (right; lra); exfalso; apply H; subst; nra.
Qed.

(** After limiting, the edge values still lie between the original edge values'
    bounds. *)
Lemma cw_limit_bounds l m r a c :
  between a m l -> between m c r ->
  between a m (fst (cw_limit l m r)) /\ between m c (snd (cw_limit l m r)).
Proof.
  intros Hl Hr. unfold cw_limit.
  destruct (Rle_dec ((r - m) * (m - l)) 0) as [H|H].
  { cbn [fst snd]. unfold between. mcases; lra. }
  pose proof (prod_pos_cases l m r H) as MON.
  destruct (Rlt_dec ((r - l) ^ 2) ((r - l) * (6 * (m - (l + r) / 2)))) as [A|A]; cbn [fst snd].
  { split; [|exact Hr]. destruct MON as [[M1 M2]|[M1 M2]].
    - assert (r - l < 6 * (m - (l + r) / 2)) by nra.
      unfold between in *. revert Hl Hr. mcases; lra.
    - assert (r - l > 6 * (m - (l + r) / 2)) by nra.
      unfold between in *. revert Hl Hr. mcases; lra. }
  destruct (Rlt_dec ((r - l) * (6 * (m - (l + r) / 2))) (- (r - l) ^ 2)) as [B|B]; cbn [fst snd].
  { split; [exact Hl|]. destruct MON as [[M1 M2]|[M1 M2]].
    - assert (6 * (m - (l + r) / 2) < - (r - l)) by nra.
      unfold between in *. revert Hl Hr. mcases; lra.
    - assert (6 * (m - (l + r) / 2) > - (r - l)) by nra.
      unfold between in *. revert Hl Hr. mcases; lra. }
  split; assumption.
Qed.

Lemma between_comm a b x : between a b x -> between b a x.
Proof. unfold between. rewrite Rmin_comm, Rmax_comm. auto. Qed.

Lemma ppm_bounds y0 y1 y2 y3 y4 :
  between y1 y2 (ppm_left y0 y1 y2 y3 y4) /\ between y2 y3 (ppm_right y0 y1 y2 y3 y4).
Proof.
  unfold ppm_left, ppm_right. rewrite ppm_is_cw. unfold cw_ppm.
  apply cw_limit_bounds; apply cw_face_between.
Qed.

(** The limited parabola is monotone in the cell: it stays between its edges and
    moves in one direction. *)
Lemma parabola_monotone_cond l m r :
  (r - l) ^ 2 >= Rabs ((r - l) * (6 * (m - (l + r) / 2))) ->
  (l = r -> m = l) ->
  forall x y, 0 <= x -> x <= y -> y <= 1 ->
  0 <= (parabola l m r y - parabola l m r x) * (r - l).
Proof.
  intros H E x y Hx Hxy Hy. unfold parabola. set (e := 6 * (m - (l + r) / 2)) in *.
  replace ((l + y * (r - l + e * (1 - y)) - (l + x * (r - l + e * (1 - x)))) * (r - l))
    with ((y - x) * ((r - l) ^ 2 + (r - l) * e * (1 - x - y))) by ring.
  apply Rmult_le_pos; [lra|].
  destruct (Rabs_cases ((r - l) * e)) as [[A B]|[A B]]; rewrite B in H; nra.
Qed.

Lemma cw_limit_monotone l m r :
  let p := cw_limit l m r in
  (fst p - snd p) ^ 2 >= Rabs ((snd p - fst p) * (6 * (m - (fst p + snd p) / 2)))
  /\ (fst p = snd p -> m = fst p).
Proof.
  unfold cw_limit.
  destruct (Rle_dec ((r - m) * (m - l)) 0) as [H|H].
  { cbn [fst snd]. split; auto. replace ((m - m) * (6 * (m - (m + m) / 2))) with 0 by field.
    rewrite Rabs_R0. nra. }
  pose proof (prod_pos_cases l m r H) as MON.
  destruct (Rlt_dec ((r - l) ^ 2) ((r - l) * (6 * (m - (l + r) / 2)))) as [A|A]; cbn [fst snd].
  { split; [|lra]. replace (6 * (m - (3 * m - 2 * r + r) / 2)) with (3 * (r - m)) by field.
    replace (r - (3 * m - 2 * r)) with (3 * (r - m)) by ring.
    rewrite Rabs_right by nra. nra. }
  destruct (Rlt_dec ((r - l) * (6 * (m - (l + r) / 2))) (- (r - l) ^ 2)) as [B|B]; cbn [fst snd].
  { split; [|lra]. replace (6 * (m - (l + (3 * m - 2 * l)) / 2)) with (3 * (l - m)) by field.
    replace (3 * m - 2 * l - l) with (- 3 * (l - m)) by ring.
    rewrite Rabs_left1 by nra. nra. }
  split; [|nra].
  set (e := 6 * (m - (l + r) / 2)) in *. clearbody e.
  destruct (Rabs_cases ((r - l) * e)) as [[P Q]|[P Q]]; rewrite Q; nra.
Qed.

Lemma ppm_monotone y0 y1 y2 y3 y4 :
  let l := ppm_left y0 y1 y2 y3 y4 in
  let r := ppm_right y0 y1 y2 y3 y4 in
  forall x y, 0 <= x -> x <= y -> y <= 1 ->
  0 <= (parabola l y2 r y - parabola l y2 r x) * (r - l).
Proof.
  unfold ppm_left, ppm_right. rewrite ppm_is_cw. unfold cw_ppm.
  set (L := cw_face y0 y1 y2 y3). set (Rr := cw_face y1 y2 y3 y4).
  destruct (cw_limit_monotone L y2 Rr) as [A B]. cbv zeta in *.
  apply parabola_monotone_cond; auto.
  replace ((snd (cw_limit L y2 Rr) - fst (cw_limit L y2 Rr)) ^ 2)
    with ((fst (cw_limit L y2 Rr) - snd (cw_limit L y2 Rr)) ^ 2) by ring. exact A.
Qed.

Lemma ppm_extremum y0 y1 y2 y3 y4 : (y2 - y1) * (y3 - y2) <= 0 ->
  ppm y0 y1 y2 y3 y4 = (y2, y2).
Proof.
  intros H. rewrite ppm_is_cw. unfold cw_ppm, cw_limit.
  pose proof (cw_face_between y0 y1 y2 y3) as A. pose proof (cw_face_between y1 y2 y3 y4) as B.
  destruct (Rle_dec ((cw_face y1 y2 y3 y4 - y2) * (y2 - cw_face y0 y1 y2 y3)) 0) as [C|C]; auto.
  exfalso. apply C. clear C.
  set (l := cw_face y0 y1 y2 y3) in *. set (r := cw_face y1 y2 y3 y4) in *. clearbody l r.
  unfold between in *. revert A B. mcases; nra.
Qed.

Lemma mc_slope_linear a h : mc_slope a (a + h) (a + 2 * h) = h.
Proof. unfold mc_slope. rcases; mcases; lra. Qed.
Lemma mc_slope_linear' a b c h : b = a + h -> c = a + 2 * h -> mc_slope a b c = h.
Proof. intros -> ->. apply mc_slope_linear. Qed.

Lemma ppm_linear a h : ppm a (a + h) (a + 2 * h) (a + 3 * h) (a + 4 * h)
  = (a + 2 * h - h / 2, a + 2 * h + h / 2).
Proof.
  rewrite ppm_is_cw. unfold cw_ppm, cw_face.
  rewrite (mc_slope_linear' a) with (h := h) by ring.
  rewrite (mc_slope_linear' (a + h)) with (h := h) by ring.
  rewrite (mc_slope_linear' (a + 2 * h)) with (h := h) by ring.
  unfold cw_limit.
  destruct (Rle_dec _ 0) as [H|H].
  - assert (h = 0) by nra. subst h. f_equal; field.
  - destruct (Rlt_dec _ _) as [A|A]; [exfalso; nra|].
    destruct (Rlt_dec _ _) as [B|B]; [exfalso; nra|]. f_equal; field.
Qed.
