(** The reconstruction routines at the level of arrays. *)
From Coq Require Import ZArith Reals Lra Lia String List.
From Verif Require Import Base.Prelude Model.Af Model.Reconstruct Spec.Limiters Spec.Stencil
  Proofs.AfLemmas Proofs.ReconstructLemmas.
Local Open Scope R_scope.

Lemma shift_ax_el {A} (a : arr A) x s i j k l : inside a i j k l ->
  el (shift_ax a x s) i j k l = neigh a x (- s) i j k l.
Proof.
  intros (I&J&K&L'). unfold inb in *.
  destruct x; unfold shift_ax, shift, neigh; simpl;
  rewrite ?Z.sub_0_r, ?(Z.mod_small i), ?(Z.mod_small j), ?(Z.mod_small k), ?(Z.mod_small l) by lia;
  reflexivity.
Qed.

Lemma neigh_0 {A} (a : arr A) x i j k l : inside a i j k l -> neigh a x 0 i j k l = el a i j k l.
Proof.
  intros (I&J&K&L'). unfold inb in *.
  destruct x; unfold neigh; rewrite Z.add_0_r, Z.mod_small by lia; reflexivity.
Qed.

Lemma stencil3_el g a x i j k l : inside a i j k l ->
  el (stencil3 g a x) i j k l
  = g (neigh a x (-1) i j k l) (neigh a x 0 i j k l) (neigh a x 1 i j k l).
Proof. intros H. unfold stencil3; cbn [el]. rewrite !shift_ax_el, neigh_0 by auto. reflexivity. Qed.

Lemma stencil5_el g a x i j k l : inside a i j k l ->
  el (stencil5 g a x) i j k l
  = g (neigh a x (-2) i j k l) (neigh a x (-1) i j k l) (neigh a x 0 i j k l)
      (neigh a x 1 i j k l) (neigh a x 2 i j k l).
Proof. intros H. unfold stencil5; cbn [el]. rewrite !shift_ax_el, neigh_0 by auto. reflexivity. Qed.

Lemma minmod_api a x l r : reconstruct a x "minmod" = Ok (l, r) ->
  l = stencil3 minmod_left a x /\ r = stencil3 minmod_right a x.
Proof. unfold reconstruct. simpl. unfold reconstruct_minmod. intros H; injection H; auto. Qed.

Lemma ppm_api a x l r : reconstruct a x "ppm" = Ok (l, r) ->
  l = stencil5 ppm_left a x /\ r = stencil5 ppm_right a x.
Proof. unfold reconstruct. simpl. unfold reconstruct_ppm. intros H; injection H; auto. Qed.

Lemma minmod_left_mc a b c : minmod_left a b c = b - mc_slope a b c / 2.
Proof. unfold minmod_left. rewrite slope_minmod_mc. lra. Qed.
Lemma minmod_right_mc a b c : minmod_right a b c = b + mc_slope a b c / 2.
Proof. unfold minmod_right. rewrite slope_minmod_mc. lra. Qed.

Lemma minmod_thm a x l r : reconstruct a x "minmod" = Ok (l, r) ->
  forall i j k m, inside a i j k m ->
  let um := neigh a x (-1) i j k m in
  let u := el a i j k m in
  let up := neigh a x 1 i j k m in
  (within3 um u up (el l i j k m) /\ within3 um u up (el r i j k m))
  /\ el l i j k m + el r i j k m = 2 * u
  /\ el r i j k m - el l i j k m = mc_slope um u up
  /\ ((u - um) * (up - u) <= 0 -> el l i j k m = u /\ el r i j k m = u)
  /\ (forall h, um = u - h -> up = u + h -> el l i j k m = u - h / 2 /\ el r i j k m = u + h / 2).
Proof.
  intros E i j k m I um u up. destruct (minmod_api _ _ _ _ E) as [-> ->].
  rewrite !stencil3_el by auto. rewrite neigh_0 by auto. fold um u up.
  rewrite minmod_left_mc, minmod_right_mc.
  split; [apply mc_face_bounds|]. split; [lra|]. split; [lra|]. split.
  - intros H. rewrite mc_slope_extremum by auto. lra.
  - intros h E1 E2. rewrite (mc_slope_linear' um u up h) by lra. lra.
Qed.

Lemma ppm_thm a x l r : reconstruct a x "ppm" = Ok (l, r) ->
  forall i j k m, inside a i j k m ->
  let u d := neigh a x d i j k m in
  let u0 := el a i j k m in
  let vl := el l i j k m in
  let vr := el r i j k m in
  (between (u (-1)%Z) u0 vl /\ between u0 (u 1%Z) vr)
  /\ (vl, vr) = cw_ppm (u (-2)%Z) (u (-1)%Z) u0 (u 1%Z) (u 2%Z)
  /\ (forall y z, 0 <= y -> y <= z -> z <= 1 ->
        0 <= (parabola vl u0 vr z - parabola vl u0 vr y) * (vr - vl))
  /\ ((u0 - u (-1)%Z) * (u 1%Z - u0) <= 0 -> vl = u0 /\ vr = u0)
  /\ (forall h, u (-2)%Z = u0 - 2 * h -> u (-1)%Z = u0 - h -> u 1%Z = u0 + h -> u 2%Z = u0 + 2 * h ->
        vl = u0 - h / 2 /\ vr = u0 + h / 2).
Proof.
  intros E i j k m I u u0 vl vr. destruct (ppm_api _ _ _ _ E) as [-> ->].
  assert (Hl : vl = ppm_left (u (-2)%Z) (u (-1)%Z) u0 (u 1%Z) (u 2%Z)).
  { unfold vl. rewrite stencil5_el by auto. unfold u0. rewrite <- (neigh_0 a x) by auto. reflexivity. }
  assert (Hr : vr = ppm_right (u (-2)%Z) (u (-1)%Z) u0 (u 1%Z) (u 2%Z)).
  { unfold vr. rewrite stencil5_el by auto. unfold u0. rewrite <- (neigh_0 a x) by auto. reflexivity. }
  rewrite Hl, Hr. split; [apply ppm_bounds|]. split.
  { rewrite <- ppm_is_cw. unfold ppm_left, ppm_right. destruct (ppm _ _ _ _ _); reflexivity. }
  split; [apply ppm_monotone|]. split.
  - intros H. unfold ppm_left, ppm_right. rewrite ppm_extremum by auto. auto.
  - intros h E1 E2 E3 E4. unfold ppm_left, ppm_right. rewrite E1, E2, E3, E4.
    pose proof (ppm_linear (u0 - 2 * h) h) as P.
    replace (u0 - 2 * h + h) with (u0 - h) in P by lra.
    replace (u0 - 2 * h + 2 * h) with u0 in P by lra.
    replace (u0 - 2 * h + 3 * h) with (u0 + h) in P by lra.
    replace (u0 - 2 * h + 4 * h) with (u0 + 2 * h) in P by lra.
    rewrite P. cbn [fst snd]. auto.
Qed.

(** Dispatch *)
Lemma dispatch_thm a x (m : string) :
  (m = "piecewise-constant"%string -> reconstruct a x m = Ok (a, a))
  /\ (m = "minmod"%string -> reconstruct a x m = Ok (reconstruct_minmod a x))
  /\ (m = "ppm"%string -> reconstruct a x m = Ok (reconstruct_ppm a x))
  /\ (m = "weno5"%string -> reconstruct a x m = Err SystemExit)
  /\ (~ In m ("piecewise-constant" :: "minmod" :: "ppm" :: "weno5" :: nil)%string ->
        reconstruct a x m = Err NotImplementedError).
Proof.
  repeat split; try (intros ->; reflexivity). intros H. simpl in H. unfold reconstruct.
  repeat match goal with |- context [String.eqb m ?s] =>
    destruct (String.eqb_spec m s); [exfalso; subst; intuition|] end. reflexivity.
Qed.

(** WENO5 *)
Lemma weno_beta_pos a b c : 0 < weno_beta weno_eps a b c.
Proof.
  unfold weno_beta.
  replace (4/3*a*a - 19/3*a*b + 25/3*b*b + 11/3*a*c - 31/3*b*c + 10/3*c*c)
    with (13/12 * (a - 2*b + c)^2 + 1/4 * (a - 4*b + 3*c)^2) by field.
  assert (0 < weno_eps) by (unfold weno_eps; apply Rinv_0_lt_compat; lra).
  pose proof (Rabs_pos a). pose proof (Rabs_pos b). pose proof (Rabs_pos c).
  pose proof (pow2_ge_0 (a - 2*b + c)). pose proof (pow2_ge_0 (a - 4*b + 3*c)).
  assert (0 < weno_eps * (1 + Rabs a + Rabs b + Rabs c)) by (apply Rmult_lt_0_compat; lra).
  lra.
Qed.

Lemma weno_weights_pos y0 y1 y2 y3 y4 :
  let '(w1l, w2l, w3l, w1r, w2r, w3r) := weno5_w y0 y1 y2 y3 y4 in
  0 < w1l /\ 0 < w2l /\ 0 < w3l /\ 0 < w1r /\ 0 < w2r /\ 0 < w3r.
Proof.
  unfold weno5_w. pose proof (weno_beta_pos y0 y1 y2) as B1. pose proof (weno_beta_pos y1 y2 y3) as B2.
  pose proof (weno_beta_pos y2 y3 y4) as B3.
  set (b1 := weno_beta _ y0 y1 y2) in *. set (b2 := weno_beta _ y1 y2 y3) in *.
  set (b3 := weno_beta _ y2 y3 y4) in *.
  assert (H : forall c d b, 0 < c -> 0 < d -> 0 < b -> 0 < c / (d * b * b)).
  { intros. apply Rdiv_lt_0_compat; auto. repeat apply Rmult_lt_0_compat; auto. }
  repeat split; apply H; lra.
Qed.

(** The face values are the weighted average of three interpolants, each exact
    on quadratics. *)
Lemma weno_average w1 w2 w3 u1 u2 u3 : 0 < w1 -> 0 < w2 -> 0 < w3 ->
  Rmin u1 (Rmin u2 u3) <= (w1 * u1 + w2 * u2 + w3 * u3) / (w1 + w2 + w3) <= Rmax u1 (Rmax u2 u3).
Proof.
  intros. assert (0 < w1 + w2 + w3) by lra.
  set (lo := Rmin u1 (Rmin u2 u3)). set (hi := Rmax u1 (Rmax u2 u3)).
  assert (lo <= u1 /\ lo <= u2 /\ lo <= u3) as (A1&A2&A3) by (unfold lo; mcases; lra).
  assert (u1 <= hi /\ u2 <= hi /\ u3 <= hi) as (C1&C2&C3) by (unfold hi; mcases; lra).
  clearbody lo hi. split.
  - apply Rmult_le_reg_r with (w1 + w2 + w3); auto. unfold Rdiv. rewrite Rmult_assoc, Rinv_l by lra.
    nra.
  - apply Rmult_le_reg_r with (w1 + w2 + w3); auto. unfold Rdiv. rewrite Rmult_assoc, Rinv_l by lra.
    nra.
Qed.

Lemma weno_hull y0 y1 y2 y3 y4 :
  within3 (quad_through y0 y1 y2 1.5) (quad_through y1 y2 y3 0.5) (quad_through y2 y3 y4 (-0.5))
          (weno5_left y0 y1 y2 y3 y4)
  /\ within3 (quad_through y0 y1 y2 2.5) (quad_through y1 y2 y3 1.5) (quad_through y2 y3 y4 0.5)
             (weno5_right y0 y1 y2 y3 y4).
Proof.
  unfold weno5_left, weno5_right, weno5.
  pose proof (weno_weights_pos y0 y1 y2 y3 y4) as W.
  destruct (weno5_w y0 y1 y2 y3 y4) as [[[[[w1l w2l] w3l] w1r] w2r] w3r].
  destruct W as (A&B&C&D&E&F). cbn [fst snd]. unfold within3.
  replace (-0.125 * y0 + 0.75 * y1 + 0.375 * y2) with (quad_through y0 y1 y2 1.5) by (unfold quad_through; lra).
  replace (0.375 * y1 + 0.75 * y2 - 0.125 * y3) with (quad_through y1 y2 y3 0.5) by (unfold quad_through; lra).
  replace (1.875 * y2 - 1.25 * y3 + 0.375 * y4) with (quad_through y2 y3 y4 (-0.5)) by (unfold quad_through; lra).
  replace (0.375 * y0 - 1.25 * y1 + 1.875 * y2) with (quad_through y0 y1 y2 2.5) by (unfold quad_through; lra).
  replace (-0.125 * y1 + 0.75 * y2 + 0.375 * y3) with (quad_through y1 y2 y3 1.5) by (unfold quad_through; lra).
  replace (0.375 * y2 + 0.75 * y3 - 0.125 * y4) with (quad_through y2 y3 y4 0.5) by (unfold quad_through; lra).
  split; apply weno_average; auto.
Qed.

Lemma weno_quadratic c0 c1 c2 x h :
  let p y := c0 + c1 * y + c2 * y ^ 2 in
  weno5 (p (x - 2 * h)) (p (x - h)) (p x) (p (x + h)) (p (x + 2 * h))
  = (p (x - h / 2), p (x + h / 2)).
Proof.
  intros p. unfold weno5.
  set (y0 := p (x - 2 * h)). set (y1 := p (x - h)). set (y2 := p x). set (y3 := p (x + h)).
  set (y4 := p (x + 2 * h)).
  pose proof (weno_weights_pos y0 y1 y2 y3 y4) as W. destruct (weno5_w y0 y1 y2 y3 y4) as [[[[[w1l w2l] w3l] w1r] w2r] w3r].
  destruct W as (A&B&C&D&E&F).
  replace (-0.125 * y0 + 0.75 * y1 + 0.375 * y2) with (p (x - h / 2)) by (unfold y0, y1, y2, p; lra).
  replace (0.375 * y1 + 0.75 * y2 - 0.125 * y3) with (p (x - h / 2)) by (unfold y3, y1, y2, p; lra).
  replace (1.875 * y2 - 1.25 * y3 + 0.375 * y4) with (p (x - h / 2)) by (unfold y3, y4, y2, p; lra).
  replace (0.375 * y0 - 1.25 * y1 + 1.875 * y2) with (p (x + h / 2)) by (unfold y0, y1, y2, p; lra).
  replace (-0.125 * y1 + 0.75 * y2 + 0.375 * y3) with (p (x + h / 2)) by (unfold y3, y1, y2, p; lra).
  replace (0.375 * y2 + 0.75 * y3 - 0.125 * y4) with (p (x + h / 2)) by (unfold y3, y4, y2, p; lra).
  f_equal; field; lra.
Qed.

(** ** Reversing the data swaps the two face values *)
Lemma mc_slope_neg_rev a b c : mc_slope c b a = - mc_slope a b c.
Proof. unfold mc_slope. repeat destruct (Rlt_dec _ _); try (exfalso; lra); mcases; lra. Qed.

Lemma minmod_mirror a b c : minmod_left c b a = minmod_right a b c /\ minmod_right c b a = minmod_left a b c.
Proof. rewrite !minmod_left_mc, !minmod_right_mc, mc_slope_neg_rev. lra. Qed.

Lemma cw_face_rev a b c d : cw_face d c b a = cw_face a b c d.
Proof. unfold cw_face. rewrite (mc_slope_neg_rev a b c), (mc_slope_neg_rev b c d). lra. Qed.

Lemma cw_limit_rev l m r : cw_limit r m l = (snd (cw_limit l m r), fst (cw_limit l m r)).
Proof.
  unfold cw_limit.
  assert (P0 : (l - m) * (m - r) = (r - m) * (m - l)) by ring. rewrite P0.
  destruct (Rle_dec ((r - m) * (m - l)) 0) as [H|H]; [reflexivity|].
  assert (P1 : (l - r) * (6 * (m - (r + l) / 2)) = - ((r - l) * (6 * (m - (l + r) / 2)))) by field.
  assert (P2 : (l - r) ^ 2 = (r - l) ^ 2) by ring. rewrite P1, P2.
  pose proof (pow2_ge_0 (r - l)). set (q := (r - l) ^ 2) in *.
  set (e := (r - l) * (6 * (m - (l + r) / 2))) in *.
  repeat destruct (Rlt_dec _ _); cbn [fst snd]; try reflexivity; exfalso; lra.
Qed.

Lemma ppm_mirror y0 y1 y2 y3 y4 :
  ppm_left y4 y3 y2 y1 y0 = ppm_right y0 y1 y2 y3 y4 /\ ppm_right y4 y3 y2 y1 y0 = ppm_left y0 y1 y2 y3 y4.
Proof.
  unfold ppm_left, ppm_right. rewrite !ppm_is_cw. unfold cw_ppm.
  rewrite (cw_face_rev y0 y1 y2 y3), (cw_face_rev y1 y2 y3 y4), cw_limit_rev. auto.
Qed.

(** WENO5 is not symmetric: the smoothness indicators of the second and third
    sub-stencils are not the mirror images of those of the first two. *)
Lemma weno_mirror_fails : weno5_left 1 0 0 0 0 <> weno5_right 0 0 0 0 1.
Proof.
  unfold weno5_left, weno5_right, weno5, weno5_w, weno_beta. cbn [fst snd].
  rewrite Rabs_R0, Rabs_R1.
  set (e := weno_eps). assert (He : 0 < e) by (unfold e, weno_eps; apply Rinv_0_lt_compat; lra).
  set (b1 := 4/3*1*1 - 19/3*1*0 + 25/3*0*0 + 11/3*1*0 - 31/3*0*0 + 10/3*0*0 + e*(1+1+0+0)).
  set (b0 := 4/3*0*0 - 19/3*0*0 + 25/3*0*0 + 11/3*0*0 - 31/3*0*0 + 10/3*0*0 + e*(1+0+0+0)).
  set (b3 := 4/3*0*0 - 19/3*0*0 + 25/3*0*0 + 11/3*0*1 - 31/3*0*1 + 10/3*1*1 + e*(1+0+0+1)).
  assert (E1 : b1 = 4/3 + 2 * e) by (unfold b1; lra). assert (E0 : b0 = e) by (unfold b0; lra).
  assert (E3 : b3 = 10/3 + 2 * e) by (unfold b3; lra). clearbody b1 b0 b3.
  intros H.
  assert (P1 : 0 < b1) by lra. assert (P0 : 0 < b0) by lra. assert (P3 : 0 < b3) by lra.
  set (K := 11 / (16 * b0 * b0)). assert (HK : 0 < K).
  { apply Rdiv_lt_0_compat; [lra|]. repeat apply Rmult_lt_0_compat; lra. }
  set (x := 5 / (16 * b1 * b1)). set (y := 5 / (16 * b3 * b3)).
  assert (Hx : 0 < x) by (apply Rdiv_lt_0_compat; [lra|]; repeat apply Rmult_lt_0_compat; lra).
  assert (Hy : 0 < y) by (apply Rdiv_lt_0_compat; [lra|]; repeat apply Rmult_lt_0_compat; lra).
  assert (Hxy : y < x).
  { unfold x, y, Rdiv. apply Rmult_lt_compat_l; [lra|]. apply Rinv_lt_contravar.
    - repeat apply Rmult_lt_0_compat; lra.
    - nra. }
  assert (EL : 5 / (16 * b1 * b1) + 5 / (8 * b0 * b0) + 1 / (16 * b0 * b0) = x + K).
  { unfold x, K. field. lra. }
  assert (ER : 1 / (16 * b0 * b0) + 5 / (8 * b0 * b0) + 5 / (16 * b3 * b3) = y + K).
  { unfold y, K. field. lra. }
  rewrite EL, ER in H. fold x y in H.
  assert (Q : x * (y + K) = y * (x + K)).
  { match type of H with ?A / _ = ?B / _ =>
      assert (HA : A = - (1/8) * x) by (rewrite !Rmult_0_r; lra);
      assert (HB : B = - (1/8) * y) by (rewrite !Rmult_0_r; lra) end.
    rewrite HA, HB in H.
    assert (Q1 : - (1/8) * (x / (x + K)) = - (1/8) * (y / (y + K))).
    { etransitivity; [|etransitivity; [exact H|]]; field; lra. }
    assert (Q2 : x / (x + K) = y / (y + K)) by lra.
    apply (f_equal (fun z => z * (x + K) * (y + K))) in Q2.
    replace (x / (x + K) * (x + K) * (y + K)) with (x * (y + K)) in Q2 by (field; lra).
    replace (y / (y + K) * (x + K) * (y + K)) with (y * (x + K)) in Q2 by (field; lra).
    exact Q2. }
  nra.
Qed.
