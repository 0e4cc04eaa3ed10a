(** C05, C06, C07, C08, C61: reconstruction. *)
From Coq Require Import ZArith Reals String List Lra Lia.
From Verif Require Import Base.Prelude Model.Af Model.Reconstruct Spec.Limiters Spec.Stencil
  Proofs.AfLemmas Proofs.ReconstructLemmas Proofs.ReconstructApi.
Local Open Scope R_scope.

(** C05.  Along every axis and at every cell: both face values lie within the
    cell and its two neighbours, they are the MC-limited linear profile with the
    cell average as mean, extrema are flat, linear data are exact. *)
Theorem C05_minmod_bounds : forall a x l r,
  reconstruct a x "minmod" = Ok (l, r) ->
  forall i j k m, inside a i j k m ->
  let um := neigh a x (-1) i j k m in
  let u := el a i j k m in
  let up := neigh a x 1 i j k m in
  (within3 um u up (el l i j k m) /\ within3 um u up (el r i j k m))
  /\ el l i j k m + el r i j k m = 2 * u
  /\ el r i j k m - el l i j k m = mc_slope um u up
  /\ ((u - um) * (up - u) <= 0 -> el l i j k m = u /\ el r i j k m = u)
  /\ (forall h, um = u - h -> up = u + h ->
        el l i j k m = u - h / 2 /\ el r i j k m = u + h / 2).
Proof. exact minmod_thm. Qed.
Print Assumptions C05_minmod_bounds.

(** C06.  The same for PPM, with the Colella-Woodward scheme as reference and
    monotonicity of the parabola on the cell. *)
Theorem C06_ppm_bounds_monotone : forall a x l r,
  reconstruct a x "ppm" = Ok (l, r) ->
  forall i j k m, inside a i j k m ->
  let u d := neigh a x d i j k m in
  let u0 := el a i j k m in
  let vl := el l i j k m in
  let vr := el r i j k m in
  (between (u (-1)%Z) u0 vl /\ between u0 (u 1%Z) vr)
  /\ (vl, vr) = cw_ppm (u (-2)%Z) (u (-1)%Z) u0 (u 1%Z) (u 2%Z)
  /\ (forall y z, 0 <= y -> y <= z -> z <= 1 ->
        0 <= (parabola vl u0 vr z - parabola vl u0 vr y) * (vr - vl))
  /\ ((u0 - u (-1)%Z) * (u 1%Z - u0) <= 0 -> vl = u0 /\ vr = u0)
  /\ (forall h, u (-2)%Z = u0 - 2 * h -> u (-1)%Z = u0 - h ->
        u 1%Z = u0 + h -> u 2%Z = u0 + 2 * h ->
        vl = u0 - h / 2 /\ vr = u0 + h / 2).
Proof. exact ppm_thm. Qed.
Print Assumptions C06_ppm_bounds_monotone.

(** C07 *)
Theorem C07_reconstruct_dispatch : forall a x (m : string),
  (m = "piecewise-constant"%string -> reconstruct a x m = Ok (a, a))
  /\ (m = "minmod"%string -> reconstruct a x m = Ok (reconstruct_minmod a x))
  /\ (m = "ppm"%string -> reconstruct a x m = Ok (reconstruct_ppm a x))
  /\ (m = "weno5"%string -> reconstruct a x m = Err SystemExit)
  /\ (~ In m ("piecewise-constant" :: "minmod" :: "ppm" :: "weno5" :: nil)%string ->
        reconstruct a x m = Err NotImplementedError).
Proof. exact dispatch_thm. Qed.
Print Assumptions C07_reconstruct_dispatch.

(** C08.  On every stencil, each WENO5 face value is a convex combination of the
    three quadratics through three consecutive points, evaluated at the face ... *)
Theorem C08_weno5_convex : forall y0 y1 y2 y3 y4,
  within3 (quad_through y0 y1 y2 1.5) (quad_through y1 y2 y3 0.5) (quad_through y2 y3 y4 (-0.5))
          (weno5_left y0 y1 y2 y3 y4)
  /\ within3 (quad_through y0 y1 y2 2.5) (quad_through y1 y2 y3 1.5) (quad_through y2 y3 y4 0.5)
             (weno5_right y0 y1 y2 y3 y4).
Proof. exact weno_hull. Qed.
Print Assumptions C08_weno5_convex.

(** ... and quadratic point data (constants included) are reproduced exactly. *)
Theorem C08_weno5_quadratic_exact : forall c0 c1 c2 x h,
  let p y := c0 + c1 * y + c2 * y ^ 2 in
  weno5 (p (x - 2 * h)) (p (x - h)) (p x) (p (x + h)) (p (x + 2 * h))
  = (p (x - h / 2), p (x + h / 2)).
Proof. exact weno_quadratic. Qed.
Print Assumptions C08_weno5_quadratic_exact.

(** C61.  Reversing the stencil swaps the face values ... *)
Theorem C61_minmod_mirror : forall a b c,
  minmod_left c b a = minmod_right a b c /\ minmod_right c b a = minmod_left a b c.
Proof. exact minmod_mirror. Qed.
Print Assumptions C61_minmod_mirror.

Theorem C61_ppm_mirror : forall y0 y1 y2 y3 y4,
  ppm_left y4 y3 y2 y1 y0 = ppm_right y0 y1 y2 y3 y4
  /\ ppm_right y4 y3 y2 y1 y0 = ppm_left y0 y1 y2 y3 y4.
Proof. exact ppm_mirror. Qed.
Print Assumptions C61_ppm_mirror.

(** ... but not for WENO5. *)
Theorem C61_weno5_mirror_refuted :
  ~ (forall y0 y1 y2 y3 y4, weno5_left y4 y3 y2 y1 y0 = weno5_right y0 y1 y2 y3 y4).
Proof. intros H. exact (weno_mirror_fails (H 0 0 0 0 1)). Qed.
Print Assumptions C61_weno5_mirror_refuted.

(** Non-vacuity: squares along q1; at cell 3 the neighbours are 4, 9, 16. *)
Definition squares : arr R := Arr 1 1 8 1 (fun _ _ k _ => IZR (k * k)).
Example C05_case : exists l r, reconstruct squares Ax2 "minmod" = Ok (l, r)
  /\ inside squares 0 0 3 0 /\ el l 0 0 3 0 = 6 /\ el r 0 0 3 0 = 12.
Proof.
  eexists; eexists. split; [reflexivity|]. split; [unfold inside, inb; simpl; lia|].
  rewrite !stencil3_el by (unfold inside, inb; simpl; lia). rewrite minmod_left_mc, minmod_right_mc.
  unfold neigh. simpl. unfold mc_slope. repeat destruct (Rlt_dec _ _); try lra. mcases; lra.
Qed.
Example C06_case : exists l r, reconstruct squares Ax2 "ppm" = Ok (l, r)
  /\ inside squares 0 0 3 0 /\ el l 0 0 3 0 = 6 + 1/6 /\ el r 0 0 3 0 = 12 + 1/6.
Proof.
  eexists; eexists. split; [reflexivity|]. split; [unfold inside, inb; simpl; lia|].
  rewrite !stencil5_el by (unfold inside, inb; simpl; lia).
  unfold ppm_left, ppm_right. rewrite !ppm_is_cw. unfold neigh; simpl. unfold cw_ppm, cw_face.
  assert (A : mc_slope 1 4 9 = 4).
  { unfold mc_slope; repeat destruct (Rlt_dec _ _); try lra; mcases; lra. }
  assert (B : mc_slope 4 9 16 = 6).
  { unfold mc_slope; repeat destruct (Rlt_dec _ _); try lra; mcases; lra. }
  assert (C : mc_slope 9 16 25 = 8).
  { unfold mc_slope; repeat destruct (Rlt_dec _ _); try lra; mcases; lra. }
  rewrite A, B, C. unfold cw_limit.
  destruct (Rle_dec _ _); [lra|]. destruct (Rlt_dec _ _); [lra|]. destruct (Rlt_dec _ _); [lra|].
  cbn [fst snd]. lra.
Qed.
