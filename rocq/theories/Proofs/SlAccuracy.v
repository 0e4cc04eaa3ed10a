(** Stability and accuracy of semi-Lagrangian runs of free particles. *)
From Coq Require Import ZArith Reals Lra Lia Psatz String List Bool FunctionalExtensionality.
From Verif Require Import Base.Prelude Base.ZSum Model.Af Model.Grid Model.Petsc Model.Config
  Model.Timestep Model.Solver
  Spec.Lattice Spec.Domain Spec.FvmProblem Spec.FvmRun Spec.Clock Spec.Converge Spec.Interp Spec.SlAccuracy
  Proofs.InterpLemmas Proofs.SemiLagProps Proofs.SlSym Proofs.Converge.
Import ListNotations.
Local Open Scope R_scope.

(** ** One line of cells *)
Section Line.
Variables (n : Z) (g : Z -> R).
Context (Hn : (0 < n)%Z) (Pg : forall i, g (i mod n)%Z = g i).
Let r (k : Z) := zsum n (fun i => g i * g (i + k)%Z).

Lemma per_add i d : g (i mod n + d)%Z = g (i + d)%Z.
Proof using Pg. rewrite <- Pg, <- (Pg (i + d)%Z). rewrite Zplus_mod_idemp_l. reflexivity. Qed.
Lemma corr a k : zsum n (fun i => g (i + a)%Z * g (i + a + k)%Z) = r k.
Proof using Hn Pg.
  unfold r. apply (zsum_periodic n (fun i => g i * g (i + k)%Z) a Hn). intros i. rewrite Pg, per_add. reflexivity.
Qed.
Lemma line_square A B C D : zsum n (fun i => (A * g (i - 1)%Z + B * g i + C * g (i + 1)%Z + D * g (i + 2)%Z) ^ 2)
  = (A^2 + B^2 + C^2 + D^2) * r 0%Z + 2 * (A * B + B * C + C * D) * r 1%Z + 2 * (A * C + B * D) * r 2%Z + 2 * (A * D) * r 3%Z.
Proof using Hn Pg.
  transitivity (A^2 * r 0%Z + B^2 * r 0%Z + C^2 * r 0%Z + D^2 * r 0%Z + 2 * (A * B) * r 1%Z + 2 * (B * C) * r 1%Z + 2 * (C * D) * r 1%Z
    + 2 * (A * C) * r 2%Z + 2 * (B * D) * r 2%Z + 2 * (A * D) * r 3%Z); [|ring].
  rewrite <- (corr (-1) 0) at 1. rewrite <- (corr 0 0) at 1. rewrite <- (corr 1 0) at 1. rewrite <- (corr 2 0) at 1.
  rewrite <- (corr (-1) 1) at 1. rewrite <- (corr 0 1) at 1. rewrite <- (corr 1 1) at 1.
  rewrite <- (corr (-1) 2) at 1. rewrite <- (corr 0 2) at 1. rewrite <- (corr (-1) 3) at 1.
  rewrite <- !zsum_scal, <- !zsum_plus. apply zsum_ext; intros i _.
  replace (i + -1)%Z with (i - 1)%Z by lia. replace (i + 0)%Z with i by lia.
  replace (i - 1 + 0)%Z with (i - 1)%Z by lia. replace (i - 1 + 1)%Z with i by lia. replace (i - 1 + 2)%Z with (i + 1)%Z by lia.
  replace (i - 1 + 3)%Z with (i + 2)%Z by lia. replace (i + 1 + 0)%Z with (i + 1)%Z by lia. replace (i + 2 + 0)%Z with (i + 2)%Z by lia.
  replace (i + 1 + 1)%Z with (i + 2)%Z by lia. replace (i + 0)%Z with i by lia. ring.
Qed.

(** What one interpolation takes from the sum of squares. *)
Lemma line_loss h : let p := h * (1 - h) in
  zsum n (fun i => (catmull_rom h (-1)%Z * g (i - 1)%Z + catmull_rom h 0%Z * g i + catmull_rom h 1%Z * g (i + 1)%Z + catmull_rom h 2%Z * g (i + 2)%Z) ^ 2)
  + 3 / 4 * p ^ 2 * zsum n (fun i => (1 * g (i - 1)%Z + -2 * g i + 1 * g (i + 1)%Z + 0 * g (i + 2)%Z) ^ 2)
  + 1 / 4 * p ^ 3 * zsum n (fun i => (-1 * g (i - 1)%Z + 3 * g i + -3 * g (i + 1)%Z + 1 * g (i + 2)%Z) ^ 2)
  = zsum n (fun i => g i ^ 2).
Proof using Hn Pg.
  intros p. rewrite !line_square.
  replace (zsum n (fun i => g i ^ 2)) with (r 0%Z) by (unfold r; apply zsum_ext; intros; rewrite Z.add_0_r; ring).
  unfold p, catmull_rom. field.
Qed.
Lemma line_contracts h : 0 <= h <= 1 ->
  zsum n (fun i => (catmull_rom h (-1)%Z * g (i - 1)%Z + catmull_rom h 0%Z * g i + catmull_rom h 1%Z * g (i + 1)%Z + catmull_rom h 2%Z * g (i + 2)%Z) ^ 2)
  <= zsum n (fun i => g i ^ 2).
Proof using Hn Pg.
  intros H. rewrite <- (line_loss h). cbv zeta.
  assert (P : 0 <= h * (1 - h)) by (apply Rmult_le_pos; lra).
  match goal with |- _ <= _ + ?a * ?u + ?b * ?v => assert (0 <= a * u /\ 0 <= b * v); [|lra] end.
  split; (apply Rmult_le_pos; [apply Rmult_le_pos; [lra|apply pow_le, P]|apply zsum_nonneg; intros; apply pow2_ge_0]).
Qed.
End Line.

Lemma frac_bounds X : 0 <= frac_part X <= 1.
Proof. pose proof (Int_part_bounds X). unfold frac_part. lra. Qed.
Lemma interp1_line f m i : interp1 catmull_rom f (IZR i - m)
  = let g k := f (Int_part (- m) + k)%Z in let h := frac_part (- m) in
    catmull_rom h (-1)%Z * g (i - 1)%Z + catmull_rom h 0%Z * g i + catmull_rom h 1%Z * g (i + 1)%Z + catmull_rom h 2%Z * g (i + 2)%Z.
Proof.
  replace (IZR i - m) with (- m + IZR i) by ring. unfold interp1. rewrite Int_part_shift, frac_part_shift, zsum4. cbv zeta.
  set (h := frac_part _). set (q := Int_part _).
  change (0 - 1)%Z with (-1)%Z. change (1 - 1)%Z with 0%Z. change (2 - 1)%Z with 1%Z. change (3 - 1)%Z with 2%Z.
  replace (q + i + -1)%Z with (q + (i - 1))%Z by lia. replace (q + i + 0)%Z with (q + i)%Z by lia.
  replace (q + i + 1)%Z with (q + (i + 1))%Z by lia. replace (q + i + 2)%Z with (q + (i + 2))%Z by lia. reflexivity.
Qed.
Lemma interp1_contracts n f m : (0 < n)%Z -> (forall i, f (i mod n)%Z = f i) ->
  zsum n (fun i => interp1 catmull_rom f (IZR i - m) ^ 2) <= zsum n (fun i => f i ^ 2).
Proof.
  intros Hn Pf. rewrite (zsum_ext n _ _ (fun i _ => f_equal (fun z => z ^ 2) (interp1_line f m i))). cbv zeta.
  eapply Rle_trans; [apply (line_contracts n (fun k => f (Int_part (- m) + k)%Z)); auto using frac_bounds|].
  - intros i. rewrite <- Pf, <- (Pf (Int_part (- m) + i)%Z). rewrite Zplus_mod_idemp_r. reflexivity.
  - right. rewrite <- (zsum_periodic n (fun i => f i ^ 2) (Int_part (- m)) Hn) by (intros; rewrite Pf; reflexivity).
    apply zsum_ext; intros. f_equal. f_equal. lia.
Qed.

(** ** The mean square over the plane *)
Section Plane.
Variables (n1 n2 : Z).
Context (H1 : (0 < n1)%Z) (H2 : (0 < n2)%Z).
Let K := IZR n1 * IZR n2.
Definition per2 (V : Z -> Z -> R) : Prop := forall i j, V (i mod n1)%Z (j mod n2)%Z = V i j.
Definition dot (U V : Z -> Z -> R) : R := zsum n1 (fun i => zsum n2 (fun j => U i j * V i j)) / (IZR n1 * IZR n2).
Definition nrm (V : Z -> Z -> R) : R := sqrt (dot V V).
Lemma K_pos : 0 < IZR n1 * IZR n2.
Proof using H1 H2. apply Rmult_lt_0_compat; apply IZR_lt; lia. Qed.
Lemma dot_pos V : 0 <= dot V V.
Proof using H1 H2.
  unfold dot. apply Rmult_le_pos; [|left; apply Rinv_0_lt_compat, K_pos].
  apply zsum_nonneg; intros. apply zsum_nonneg; intros. apply Rle_0_sqr.
Qed.
Lemma dot_lin a b U V : dot (fun i j => a * U i j + b * V i j) (fun i j => a * U i j + b * V i j)
  = a * a * dot U U + 2 * a * b * dot U V + b * b * dot V V.
Proof using H1 H2.
  unfold dot. pose proof K_pos. replace (a * a * (zsum n1 (fun i => zsum n2 (fun j => U i j * U i j)) / (IZR n1 * IZR n2))
    + 2 * a * b * (zsum n1 (fun i => zsum n2 (fun j => U i j * V i j)) / (IZR n1 * IZR n2))
    + b * b * (zsum n1 (fun i => zsum n2 (fun j => V i j * V i j)) / (IZR n1 * IZR n2)))
  with ((a * a * zsum n1 (fun i => zsum n2 (fun j => U i j * U i j)) + 2 * a * b * zsum n1 (fun i => zsum n2 (fun j => U i j * V i j))
    + b * b * zsum n1 (fun i => zsum n2 (fun j => V i j * V i j))) / (IZR n1 * IZR n2)) by (unfold Rdiv; ring).
  f_equal. rewrite <- !zsum_scal, <- !zsum_plus. apply zsum_ext; intros. rewrite <- !zsum_scal, <- !zsum_plus. apply zsum_ext; intros. ring.
Qed.
Lemma dot_schwarz U V : dot U V <= nrm U * nrm V.
Proof using H1 H2.
  assert (Q : forall a b, 0 <= a * a * dot U U + 2 * a * b * dot U V + b * b * dot V V) by (intros; rewrite <- dot_lin; apply dot_pos).
  pose proof (dot_pos U) as PU. pose proof (dot_pos V) as PV. unfold nrm. set (A := dot U U) in *. set (B := dot V V) in *. set (C := dot U V) in *.
  destruct (Rle_dec C 0) as [L|G]; [pose proof (Rmult_le_pos _ _ (sqrt_pos A) (sqrt_pos B)); lra|]. apply Rnot_le_lt in G.
  assert (S : C * C <= A * B).
  { destruct (Req_dec B 0) as [Z|Z].
    - exfalso. pose proof (Q 1 (- (A + 1) / C)) as X. rewrite Z in X.
      replace (1 * 1 * A + 2 * 1 * (- (A + 1) / C) * C + - (A + 1) / C * (- (A + 1) / C) * 0) with (- A - 2) in X by (field; lra). lra.
    - pose proof (Q B (- C)) as X. assert (BP : 0 < B) by lra.
      replace (B * B * A + 2 * B * - C * C + - C * - C * B) with (B * (A * B - C * C)) in X by ring.
      apply Rnot_lt_le. intros Y. assert (0 < B * (C * C - A * B)) by (apply Rmult_lt_0_compat; lra). lra. }
  rewrite <- sqrt_mult by auto. rewrite <- (sqrt_square C) by lra. apply sqrt_le_1_alt, S.
Qed.
Lemma nrm_triangle U V : nrm (fun i j => U i j + V i j) <= nrm U + nrm V.
Proof using H1 H2.
  assert (E : dot (fun i j => U i j + V i j) (fun i j => U i j + V i j) = dot U U + 2 * dot U V + dot V V).
  { pose proof (dot_lin 1 1 U V) as X. replace (dot U U + 2 * dot U V + dot V V) with (1 * 1 * dot U U + 2 * 1 * 1 * dot U V + 1 * 1 * dot V V) by ring.
    rewrite <- X. f_equal; extensionality i; extensionality j; ring. }
  assert (P : 0 <= nrm U + nrm V) by (apply Rplus_le_le_0_compat; apply sqrt_pos).
  unfold nrm at 1. rewrite E. rewrite <- (sqrt_square (nrm U + nrm V)) by exact P. apply sqrt_le_1_alt.
  pose proof (dot_schwarz U V). replace ((nrm U + nrm V) * (nrm U + nrm V)) with (nrm U * nrm U + 2 * (nrm U * nrm V) + nrm V * nrm V) by ring.
  unfold nrm at 1 2 5 6. rewrite !sqrt_sqrt by apply dot_pos. lra.
Qed.
Lemma nrm_scal a V : nrm (fun i j => a * V i j) = Rabs a * nrm V.
Proof using H1 H2.
  unfold nrm. assert (E : dot (fun i j => a * V i j) (fun i j => a * V i j) = a² * dot V V).
  { unfold dot. unfold Rsqr. unfold Rdiv. rewrite <- Rmult_assoc. f_equal. rewrite <- zsum_scal. apply zsum_ext; intros. rewrite <- zsum_scal. apply zsum_ext; intros. ring. }
  rewrite E, sqrt_mult by (auto using Rle_0_sqr, dot_pos). rewrite sqrt_Rsqr_abs. reflexivity.
Qed.
Lemma nrm_bound V e : 0 <= e -> (forall i j, Rabs (V i j) <= e) -> nrm V <= e.
Proof using H1 H2.
  intros He B. unfold nrm. rewrite <- (sqrt_square e) by auto. apply sqrt_le_1_alt. unfold dot.
  pose proof K_pos as KP. apply (Rmult_le_reg_r (IZR n1 * IZR n2)); [exact KP|]. unfold Rdiv. rewrite Rmult_assoc, Rinv_l, Rmult_1_r by lra.
  replace (e * e * (IZR n1 * IZR n2)) with (IZR n1 * (IZR n2 * (e * e))) by ring.
  rewrite <- (zsum_const n1) by lia. apply zsum_le; intros i _. rewrite <- (zsum_const n2) by lia. apply zsum_le; intros j _.
  rewrite <- (Rabs_right (V i j * V i j)) by (apply Rle_ge, Rle_0_sqr). rewrite Rabs_mult.
  apply Rmult_le_compat; auto using Rabs_pos.
Qed.
Lemma nrm_ext U V : (forall i j, U i j = V i j) -> nrm U = nrm V.
Proof using. intros E. f_equal. f_equal; extensionality i; extensionality j; apply E. Qed.

Definition sh1 (m : R) (V : Z -> Z -> R) : Z -> Z -> R := fun i j => interp1 catmull_rom (fun a => V a j) (IZR i - m).
Definition sh2 (m : R) (V : Z -> Z -> R) : Z -> Z -> R := fun i j => interp1 catmull_rom (fun b => V i b) (IZR j - m).
Definition sh (m1 m2 : R) (V : Z -> Z -> R) : Z -> Z -> R := fun i j => interp2 catmull_rom V (IZR i - m1) (IZR j - m2).
Lemma sh_split m1 m2 V i j : sh m1 m2 V i j = sh1 m1 (sh2 m2 V) i j.
Proof using. unfold sh, sh1, sh2. apply interp2_1. Qed.

Lemma per_1 V i j : per2 V -> V (i mod n1)%Z j = V i j.
Proof using H1 H2. intros P. rewrite <- P, <- (P i j). rewrite Z.mod_mod by lia. reflexivity. Qed.
Lemma per_2 V i j : per2 V -> V i (j mod n2)%Z = V i j.
Proof using H1 H2. intros P. rewrite <- P, <- (P i j). rewrite Z.mod_mod by lia. reflexivity. Qed.
Lemma interp1_per n f m i : (0 < n)%Z -> (forall i, f (i mod n)%Z = f i) ->
  interp1 catmull_rom f (IZR (i mod n) - m) = interp1 catmull_rom f (IZR i - m).
Proof using.
  intros Hn P. rewrite (Z.div_mod i n) at 2 by lia. rewrite plus_IZR.
  replace (IZR (n * (i / n)) + IZR (i mod n) - m) with (IZR (i mod n) - m + IZR (n * (i / n))) by ring. rewrite interp1_shift.
  apply interp1_ext; intros a. rewrite <- P, <- (P (a + _)%Z). rewrite (Z.mul_comm n), Z_mod_plus_full. reflexivity.
Qed.
Lemma sh1_per m V : per2 V -> per2 (sh1 m V).
Proof using H1 H2.
  intros P i j. unfold sh1. rewrite (interp1_per n1 (fun a => V a (j mod n2)%Z)) by (auto; intros; apply per_1, P).
  apply interp1_ext; intros. apply per_2, P.
Qed.
Lemma sh2_per m V : per2 V -> per2 (sh2 m V).
Proof using H1 H2.
  intros P i j. unfold sh2. rewrite (interp1_per n2 (fun b => V (i mod n1)%Z b)) by (auto; intros; apply per_2, P).
  apply interp1_ext; intros. apply per_1, P.
Qed.
Lemma sh_per m1 m2 V : per2 V -> per2 (sh m1 m2 V).
Proof using H1 H2. intros P i j. rewrite !sh_split. apply sh1_per, sh2_per, P. Qed.
Lemma sum_to_nrm U V : zsum n1 (fun i => zsum n2 (fun j => U i j ^ 2)) <= zsum n1 (fun i => zsum n2 (fun j => V i j ^ 2)) -> nrm U <= nrm V.
Proof using H1 H2.
  intros E. unfold nrm. apply sqrt_le_1_alt. unfold dot. apply Rmult_le_compat_r; [left; apply Rinv_0_lt_compat, K_pos|].
  assert (Q : forall W : Z -> Z -> R, zsum n1 (fun i => zsum n2 (fun j => W i j * W i j)) = zsum n1 (fun i => zsum n2 (fun j => W i j ^ 2)))
    by (intros; apply zsum_ext; intros; apply zsum_ext; intros; ring).
  rewrite !Q. exact E.
Qed.
Lemma sh1_nrm m V : per2 V -> nrm (sh1 m V) <= nrm V.
Proof using H1 H2.
  intros P. apply sum_to_nrm. rewrite (zsum_swap n1 n2 (fun i j => sh1 m V i j ^ 2)), (zsum_swap n1 n2 (fun i j => V i j ^ 2)).
  apply zsum_le; intros j _. unfold sh1. apply (interp1_contracts n1 (fun a => V a j)); [exact H1|]. intros; apply per_1, P.
Qed.
Lemma sh2_nrm m V : per2 V -> nrm (sh2 m V) <= nrm V.
Proof using H1 H2.
  intros P. apply sum_to_nrm. apply zsum_le; intros i _. unfold sh2. apply (interp1_contracts n2 (fun b => V i b)); [exact H2|]. intros; apply per_2, P.
Qed.
Lemma sh_nrm m1 m2 V : per2 V -> nrm (sh m1 m2 V) <= nrm V.
Proof using H1 H2.
  intros P. rewrite (nrm_ext _ _ (sh_split m1 m2 V)). eapply Rle_trans; [apply sh1_nrm, sh2_per, P|apply sh2_nrm, P].
Qed.
End Plane.

(** ** Error of one interpolation *)
Lemma cr_node h : 0 <= h <= 1 ->
  Rabs (catmull_rom h (-1)%Z) * Rabs (-1 - h) ^ 3 <= 1/2 /\ Rabs (catmull_rom h 0%Z) * Rabs (0 - h) ^ 3 <= 1/2
  /\ Rabs (catmull_rom h 1%Z) * Rabs (1 - h) ^ 3 <= 1/2 /\ Rabs (catmull_rom h 2%Z) * Rabs (2 - h) ^ 3 <= 1/2.
Proof.
  intros H. set (p := h * (1 - h)). assert (PB : 0 <= p <= 1/4).
  { unfold p. split; [apply Rmult_le_pos; lra|]. pose proof (pow2_ge_0 (h - 1/2)). lra. }
  assert (A : catmull_rom h (-1)%Z = - (p * (1 - h) / 2)) by (unfold catmull_rom, p; field).
  assert (B : catmull_rom h 0%Z = (1 - h) * (2 + 2 * h - 3 * h ^ 2) / 2) by (unfold catmull_rom; field).
  assert (C : catmull_rom h 1%Z = h * (1 + 4 * h - 3 * h ^ 2) / 2) by (unfold catmull_rom; field).
  assert (D : catmull_rom h 2%Z = - (p * h / 2)) by (unfold catmull_rom, p; field).
  assert (T : forall x, 0 <= x <= 1 -> x * (2 - x) ^ 3 <= 4 /\ 0 <= 2 + 2 * (1 - x) - 3 * (1 - x) ^ 2 <= 4).
  { intros x X. split; [|nra]. replace (x * (2 - x) ^ 3) with ((x * (2 - x)) * (2 - x) ^ 2) by ring.
    assert (0 <= x * (2 - x) <= 1) by nra. assert (0 <= (2 - x) ^ 2 <= 4) by nra. nra. }
  rewrite A, B, C, D, !Rabs_Ropp. rewrite (Rabs_left1 (-1 - h)), (Rabs_left1 (0 - h)), (Rabs_right (1 - h)), (Rabs_right (2 - h)) by lra.
  rewrite !Rabs_right.
  - destruct (T (1 - h) ltac:(lra)) as (T1&T2), (T h H) as (T3&T4).
    replace (1 - (1 - h)) with h in T2 by ring.
    replace (2 - (1 - h)) with (1 + h) in T1 by ring.
    repeat split.
    + replace (p * (1 - h) / 2 * (- (-1 - h)) ^ 3) with (p * ((1 - h) * (1 + h) ^ 3) / 2) by field.
      assert (0 <= (1 - h) * (1 + h) ^ 3) by (apply Rmult_le_pos; [lra|apply pow_le; lra]). nra.
    + replace ((1 - h) * (2 + 2 * h - 3 * h ^ 2) / 2 * (- (0 - h)) ^ 3) with (p * (h ^ 2 * (2 + 2 * h - 3 * h ^ 2)) / 2) by (unfold p; field).
      assert (0 <= h ^ 2 <= 1) by nra. assert (0 <= h ^ 2 * (2 + 2 * h - 3 * h ^ 2) <= 4) by nra. nra.
    + replace (h * (1 + 4 * h - 3 * h ^ 2) / 2 * (1 - h) ^ 3) with (p * ((1 - h) ^ 2 * (2 + 2 * (1 - h) - 3 * (1 - h) ^ 2)) / 2) by (unfold p; field).
      assert (0 <= (1 - h) ^ 2 <= 1) by nra. assert (0 <= (1 - h) ^ 2 * (2 + 2 * (1 - h) - 3 * (1 - h) ^ 2) <= 4) by nra. nra.
    + replace (p * h / 2 * (2 - h) ^ 3) with (p * (h * (2 - h) ^ 3) / 2) by field.
      assert (0 <= h * (2 - h) ^ 3) by (apply Rmult_le_pos; [lra|apply pow_le; lra]). nra.
  - apply Rle_ge. unfold Rdiv. repeat apply Rmult_le_pos; lra.
  - apply Rle_ge. unfold Rdiv. repeat apply Rmult_le_pos; nra.
  - apply Rle_ge. unfold Rdiv. repeat apply Rmult_le_pos; nra.
  - apply Rle_ge. unfold Rdiv. repeat apply Rmult_le_pos; lra.
Qed.
Lemma interp1_error (phi g2 h2 : R -> R) M X0 d X : 0 <= M ->
  (forall x a, Rabs (phi (x + a) - phi x - a * g2 x - a ^ 2 * h2 x) <= M * Rabs a ^ 3) ->
  Rabs (interp1 catmull_rom (fun a => phi (X0 + IZR a * d)) X - phi (X0 + X * d)) <= 2 * M * Rabs d ^ 3.
Proof.
  intros HM S. unfold interp1. rewrite zsum4. pose proof (frac_bounds X) as F.
  assert (EX : X = IZR (Int_part X) + frac_part X) by (unfold frac_part; ring).
  set (h := frac_part X) in *. set (m := Int_part X) in *. set (x := X0 + X * d).
  change (0 - 1)%Z with (-1)%Z. change (1 - 1)%Z with 0%Z. change (2 - 1)%Z with 1%Z. change (3 - 1)%Z with 2%Z.
  set (e := fun k : R => phi (x + (k - h) * d) - phi x - (k - h) * d * g2 x - ((k - h) * d) ^ 2 * h2 x).
  assert (N : forall k : Z, phi (X0 + IZR (m + k) * d) = e (IZR k) + phi x + (IZR k - h) * d * g2 x + ((IZR k - h) * d) ^ 2 * h2 x).
  { intros k. unfold e. replace (X0 + IZR (m + k) * d) with (x + (IZR k - h) * d) by (unfold x; rewrite plus_IZR, EX; ring). ring. }
  rewrite !N.
  assert (B : forall w k, Rabs w * Rabs (k - h) ^ 3 <= 1/2 -> Rabs (w * e k) <= 1/2 * (M * Rabs d ^ 3)).
  { intros w k W. rewrite Rabs_mult. eapply Rle_trans; [apply Rmult_le_compat_l; [apply Rabs_pos|apply (S x ((k - h) * d))]|].
    rewrite Rabs_mult, Rpow_mult_distr. replace (Rabs w * (M * (Rabs (k - h) ^ 3 * Rabs d ^ 3))) with ((Rabs w * Rabs (k - h) ^ 3) * (M * Rabs d ^ 3)) by ring.
    apply Rmult_le_compat_r; [|exact W]. apply Rmult_le_pos; [exact HM|apply pow_le, Rabs_pos]. }
  destruct (cr_node h F) as (C1&C2&C3&C4). apply B in C1, C2, C3, C4.
  match goal with |- Rabs ?z <= _ => replace z with (catmull_rom h (-1)%Z * e (-1) + catmull_rom h 0%Z * e 0 + catmull_rom h 1%Z * e 1 + catmull_rom h 2%Z * e 2)
    by (unfold catmull_rom; field) end.
  eapply Rle_trans; [apply Rabs_triang|]. eapply Rle_trans; [apply Rplus_le_compat_r, Rabs_triang|].
  eapply Rle_trans; [apply Rplus_le_compat_r, Rplus_le_compat_r, Rabs_triang|]. lra.
Qed.

(** ** Runs *)
Definition wrap (c : cfg) (u : gstate) (x s : Z) : Z -> Z -> R := fun i j => u x s (i mod gN1 (lay c))%Z (j mod gN2 (lay c))%Z.
Section Run.
Variables (P : params) (x s : Z).
Let c := pc P.
Let n1 := gN1 (lay c). Let n2 := gN2 (lay c).
Context (Q : quiet P) (SM : streams c) (H1 : (0 < n1)%Z) (H2 : (0 < n2)%Z).

Lemma wrap_per u : per2 n1 n2 (wrap c u x s).
Proof using H1 H2. intros i j. unfold wrap. fold n1 n2. rewrite !Z.mod_mod by lia. reflexivity. Qed.
Lemma wrap_char t dt u i j : wrap c (characteristics c catmull_rom t dt u) x s i j
  = sh (moved1 c t dt x s 0 0) (moved2 c t dt x s 0 0) (wrap c u x s) i j.
Proof using SM H1 H2.
  unfold wrap, characteristics, sh. fold n1 n2. 
  assert (M1 : forall a b, moved1 c t dt x s a b = moved1 c t dt x s 0 0).
  { intros. unfold moved1, velocity_a. rewrite (SM s t _ _ (pos1 c (1/2) 0) (pos2 c (1/2) 0)). reflexivity. }
  assert (M2 : forall a b, moved2 c t dt x s a b = moved2 c t dt x s 0 0).
  { intros. unfold moved2, velocity_a. rewrite (SM s t _ _ (pos1 c (1/2) 0) (pos2 c (1/2) 0)). reflexivity. }
  rewrite M1, M2. apply (interp2_periodic catmull_rom (u x s)); assumption.
Qed.
Lemma wrap_nrm u : nrm n1 n2 (wrap c u x s) = rms c u x s.
Proof using.
  unfold nrm, rms, dot. fold n1 n2. f_equal. f_equal. apply zsum_ext; intros i Hi. apply zsum_ext; intros j Hj.
  unfold wrap. fold n1 n2. rewrite !Z.mod_small by lia. ring.
Qed.
Lemma char_rms t dt u : rms c (characteristics c catmull_rom t dt u) x s <= rms c u x s.
Proof using SM H1 H2.
  rewrite <- !wrap_nrm. rewrite (nrm_ext n1 n2 _ _ (wrap_char t dt u)). apply sh_nrm; auto using wrap_per.
Qed.
Lemma rms_ext u v : (forall i j, u x s i j = v x s i j) -> rms c u x s = rms c v x s.
Proof using. intros E. unfold rms. f_equal. f_equal. apply zsum_ext; intros. apply zsum_ext; intros. rewrite E. reflexivity. Qed.
Lemma compose_quiet m t dt u i j :
  let T := characteristics c catmull_rom t in
  compose m T (collide P t) dt u x s i j
  = match m with
    | Strang => T (1/2 * dt) (T (1/2 * dt) u) x s i j
    | Jia => 2/3 * T (1/2 * dt) (T (1/2 * dt) u) x s i j + 1/3 * T dt u x s i j
    | _ => T dt u x s i j
    end.
Proof using Q.
  assert (C : forall d v, collide P t d v = v) by (intros; apply collide_quiet, Q).
  intros T. destruct m; unfold compose; rewrite ?C; try reflexivity; field.
Qed.
Lemma nrm_mix U V e1 e2 : nrm n1 n2 U <= e1 -> nrm n1 n2 V <= e2 -> nrm n1 n2 (fun i j => 2/3 * U i j + 1/3 * V i j) <= 2/3 * e1 + 1/3 * e2.
Proof using H1 H2.
  intros A B. eapply Rle_trans; [apply nrm_triangle; assumption|]. rewrite !nrm_scal by assumption.
  rewrite !Rabs_pos_eq by lra. lra.
Qed.
Lemma transport_rms h t u : rms c (transport P catmull_rom t h u) x s <= rms c u x s.
Proof using Q SM H1 H2.
  revert t u. induction h as [|(m&dt) h IH]; intros t u; cbn [transport]; [lra|].
  eapply Rle_trans; [apply IH|]. change (pc P) with c. pose proof (compose_quiet m t dt u) as E. cbv zeta in E.
  rewrite (rms_ext _ (fun x s i j => match m with
    | Strang => characteristics c catmull_rom t (1/2 * dt) (characteristics c catmull_rom t (1/2 * dt) u) x s i j
    | Jia => 2/3 * characteristics c catmull_rom t (1/2 * dt) (characteristics c catmull_rom t (1/2 * dt) u) x s i j
             + 1/3 * characteristics c catmull_rom t dt u x s i j
    | _ => characteristics c catmull_rom t dt u x s i j end) E). clear E.
  assert (TW : rms c (characteristics c catmull_rom t (1/2 * dt) (characteristics c catmull_rom t (1/2 * dt) u)) x s <= rms c u x s)
    by (eapply Rle_trans; apply char_rms).
  destruct m; try apply char_rms; [exact TW|].
  replace (rms c u x s) with (2/3 * rms c u x s + 1/3 * rms c u x s) by field.
  rewrite <- wrap_nrm in TW. pose proof (char_rms t dt u) as ON. rewrite <- wrap_nrm in ON.
  rewrite <- wrap_nrm. exact (nrm_mix _ _ _ _ TW ON).
Qed.

(** Error after each step. *)
Variables (v1 v2 : Z -> Z -> R) (phi : Z -> Z -> R -> R -> R) (M1 M2 : R).
Context (HM1 : 0 <= M1) (HM2 : 0 <= M2) (D1 : 0 < dq1 c) (D2 : 0 < dq2 c)
  (FW : forall t g1 g2, velocity_a c t x s g1 g2 = (v1 x s, v2 x s))
  (S3 : smooth3 M1 M2 (phi x s)) (FT : Converge.fits c (phi x s)).
Let ex (T : R) : Z -> Z -> R := fun i j => carried c v1 v2 phi T x s i j.
Let one := 2 * (M1 * dq1 c ^ 3 + M2 * dq2 c ^ 3).
Lemma one_pos : 0 <= one.
Proof using HM1 HM2 D1 D2.
  unfold one. apply Rmult_le_pos; [lra|]. apply Rplus_le_le_0_compat; apply Rmult_le_pos; auto; apply pow_le; lra.
Qed.
Lemma ex_per T : per2 n1 n2 (ex T).
Proof using H1 H2 FT.
  intros i j. unfold ex. pose proof (carried_wrap c v1 v2 phi T x s i j 0 0 H1 H2 FT) as E.
  rewrite !Z.add_0_r in E. unfold n1, n2. rewrite E. unfold carried. f_equal; ring.
Qed.
Lemma sh_exact t dt T : nrm n1 n2 (fun i j => sh (moved1 c t dt x s 0 0) (moved2 c t dt x s 0 0) (ex T) i j - ex (T + dt) i j) <= one.
Proof using HM1 HM2 D1 D2 FW S3 FT H1 H2.
  set (m1 := moved1 c t dt x s 0 0). set (m2 := moved2 c t dt x s 0 0).
  assert (E1 : m1 = v1 x s * dt / dq1 c) by (unfold m1, moved1; rewrite FW; reflexivity).
  assert (E2 : m2 = v2 x s * dt / dq2 c) by (unfold m2, moved2; rewrite FW; reflexivity).
  destruct S3 as ((ga&ha&SA)&(gb&hb&SB)).
  set (H := fun i j : Z => phi x s (pos1 c (1/2) i - v1 x s * T) (pos2 c (1/2) j - v2 x s * (T + dt))).
  assert (PH : per2 n1 n2 H).
  { intros i j. pose proof (ex_per T i j) as A. clear A.
    pose proof (carried_wrap c (fun _ _ => v1 x s * T) (fun _ _ => v2 x s * (T + dt)) phi 1 x s i j 0 0 H1 H2 FT) as E.
    rewrite !Z.add_0_r in E. unfold carried in E. unfold H, n1, n2.
    rewrite !Rmult_1_r in E. rewrite E. f_equal; ring. }
  assert (B2 : forall i j, Rabs (sh2 m2 (ex T) i j - H i j) <= 2 * M2 * dq2 c ^ 3).
  { intros i j. unfold sh2, ex, carried, H.
    pose proof (interp1_error (fun q => phi x s (pos1 c (1/2) i - v1 x s * T) q) (gb (pos1 c (1/2) i - v1 x s * T)) (hb (pos1 c (1/2) i - v1 x s * T))
      M2 (q2_start c + 1/2 * dq2 c - v2 x s * T) (dq2 c) (IZR j - m2) HM2 (SB _)) as E.
    rewrite (Rabs_right (dq2 c)) in E by lra.
    rewrite (interp1_ext catmull_rom _ (fun b => phi x s (pos1 c (1/2) i - v1 x s * T) (q2_start c + 1/2 * dq2 c - v2 x s * T + IZR b * dq2 c)))
      by (intros; f_equal; unfold pos2; ring).
    replace (pos2 c (1/2) j - v2 x s * (T + dt)) with (q2_start c + 1/2 * dq2 c - v2 x s * T + (IZR j - m2) * dq2 c)
      by (rewrite E2; unfold pos2; field; lra). exact E. }
  assert (B1 : forall i j, Rabs (sh1 m1 H i j - ex (T + dt) i j) <= 2 * M1 * dq1 c ^ 3).
  { intros i j. unfold sh1, ex, carried, H. set (y := pos2 c (1/2) j - v2 x s * (T + dt)).
    pose proof (interp1_error (fun q => phi x s q y) (fun q => ga q y) (fun q => ha q y)
      M1 (q1_start c + 1/2 * dq1 c - v1 x s * T) (dq1 c) (IZR i - m1) HM1 (fun z => SA z y)) as E.
    rewrite (Rabs_right (dq1 c)) in E by lra.
    rewrite (interp1_ext catmull_rom _ (fun b => phi x s (q1_start c + 1/2 * dq1 c - v1 x s * T + IZR b * dq1 c) y))
      by (intros; f_equal; unfold pos1; ring).
    replace (pos1 c (1/2) i - v1 x s * (T + dt)) with (q1_start c + 1/2 * dq1 c - v1 x s * T + (IZR i - m1) * dq1 c)
      by (rewrite E1; unfold pos1; field; lra). exact E. }
  assert (PM : forall M d, 0 <= M -> 0 < d -> 0 <= 2 * M * d ^ 3) by (intros; apply Rmult_le_pos; [lra|apply pow_le; lra]).
  rewrite (nrm_ext n1 n2 _ (fun i j => sh1 m1 (fun a b => sh2 m2 (ex T) a b - H a b) i j + (sh1 m1 H i j - ex (T + dt) i j))).
  - eapply Rle_trans; [apply nrm_triangle; assumption|]. unfold one.
    replace (2 * (M1 * dq1 c ^ 3 + M2 * dq2 c ^ 3)) with (2 * M2 * dq2 c ^ 3 + 2 * M1 * dq1 c ^ 3) by ring.
    apply Rplus_le_compat.
    + eapply Rle_trans; [apply sh1_nrm; try assumption|].
      * intros i j. rewrite (PH i j). f_equal. apply (sh2_per n1 n2 H1 H2 m2 (ex T) (ex_per T)).
      * apply nrm_bound; auto.
    + apply nrm_bound; auto.
  - intros i j. rewrite sh_split. unfold sh1. unfold interp1. rewrite !zsum4. ring.
Qed.
Lemma char_error t dt T e u : nrm n1 n2 (fun i j => wrap c u x s i j - ex T i j) <= e ->
  nrm n1 n2 (fun i j => wrap c (characteristics c catmull_rom t dt u) x s i j - ex (T + dt) i j) <= e + one.
Proof using SM HM1 HM2 D1 D2 FW S3 FT H1 H2.
  intros E. set (m1 := moved1 c t dt x s 0 0). set (m2 := moved2 c t dt x s 0 0).
  rewrite (nrm_ext n1 n2 _ (fun i j => sh m1 m2 (fun a b => wrap c u x s a b - ex T a b) i j + (sh m1 m2 (ex T) i j - ex (T + dt) i j))).
  - eapply Rle_trans; [apply nrm_triangle; assumption|]. apply Rplus_le_compat; [|apply sh_exact].
    eapply Rle_trans; [apply sh_nrm; try assumption|exact E].
    intros i j. rewrite (wrap_per u i j), (ex_per T i j). reflexivity.
  - intros i j. rewrite wrap_char. fold m1 m2.
    pose proof (interp2_lin catmull_rom (IZR i - m1) (IZR j - m2) (wrap c u x s) (ex T) 1 (-1)) as L.
    unfold sh. replace (fun a b => wrap c u x s a b - ex T a b) with (fun a b => 1 * wrap c u x s a b + -1 * ex T a b)
      by (extensionality a; extensionality b; ring). rewrite L. ring.
Qed.
Lemma transport_error h t u T e :
  nrm n1 n2 (fun i j => wrap c u x s i j - ex T i j) <= e ->
  nrm n1 n2 (fun i j => wrap c (transport P catmull_rom t h u) x s i j - ex (T + elapsed h) i j) <= e + hops h * one.
Proof using Q SM HM1 HM2 D1 D2 FW S3 FT H1 H2.
  revert t u T e. induction h as [|(m&dt) h IH]; intros t u T e E; cbn [transport elapsed].
  - unfold hops; cbn [fold_right]. rewrite Rmult_0_l, !Rplus_0_r. exact E.
  - pose proof (compose_quiet m t dt u) as C. cbv zeta in C.
    replace (T + (dt + elapsed h)) with (T + dt + elapsed h) by ring.
    set (k := match m with Strang | Jia => 2 | _ => 1 end).
    replace (e + hops ((m, dt) :: h) * one) with (e + k * one + hops h * one) by (unfold hops; cbn [fold_right fst]; fold (hops h); fold k; ring).
    change (pc P) with c. apply IH.
    assert (ON := char_error t dt T e u E).
    assert (TW := char_error t (1/2 * dt) (T + 1/2 * dt) _ _ (char_error t (1/2 * dt) T e u E)).
    replace (T + 1/2 * dt + 1/2 * dt) with (T + dt) in TW by field.
    pose proof one_pos as OP.
    destruct m; cbv beta iota in C; unfold k.
    + rewrite Rmult_1_l. rewrite (nrm_ext n1 n2 _ (fun i j => wrap c (characteristics c catmull_rom t dt u) x s i j - ex (T + dt) i j)) by (intros i j; unfold wrap; rewrite C; reflexivity). exact ON.
    + replace (e + 2 * one) with (e + one + one) by ring.
      rewrite (nrm_ext n1 n2 _ (fun i j => wrap c (characteristics c catmull_rom t (1/2 * dt) (characteristics c catmull_rom t (1/2 * dt) u)) x s i j - ex (T + dt) i j)) by (intros i j; unfold wrap; rewrite C; reflexivity). exact TW.
    + rewrite Rmult_1_l. rewrite (nrm_ext n1 n2 _ (fun i j => wrap c (characteristics c catmull_rom t dt u) x s i j - ex (T + dt) i j)) by (intros i j; unfold wrap; rewrite C; reflexivity). exact ON.
    + apply Rle_trans with (2/3 * (e + one + one) + 1/3 * (e + one)); [|lra].
      eapply Rle_trans; [|exact (nrm_mix _ _ _ _ TW ON)]. right. apply nrm_ext. intros i j. unfold wrap at 1. rewrite C. unfold wrap. field.
Qed.
End Run.

Lemma sl_contracts P k1 k2 ap h s u : streaming P -> quiet P -> wf_cfg (pc P) k1 k2 -> interpolates catmull_rom ap -> uses (pc P) ap ->
  streams (pc P) -> reach_run (pc P) (time_elapsed s) h -> holds (pc P) (f_of s) u ->
  exists r v, run_steps (solver_stepper P) h s = Ok (r, None) /\ holds (pc P) (f_of r) v
  /\ forall x sp, inb (N_p (pc P)) x -> inb (N_species (pc P)) sp -> rms (pc P) v x sp <= rms (pc P) u x sp.
Proof.
  intros ST Q W IT US SM RE H. destruct (st_layout P ST) as ((N1&_)&(N2&_)&_).
  destruct (streaming_run P k1 k2 catmull_rom ap h s u ST W IT US H RE) as (r&R1&V1&_).
  exists r, (transport P catmull_rom (time_elapsed s) h u). split; [exact R1|]. split; [exact V1|].
  intros x sp _ _. apply transport_rms; auto.
Qed.

Lemma sl_converges P k1 k2 ap h s v1 v2 phi M1 M2 : streaming P -> quiet P -> wf_cfg (pc P) k1 k2 -> interpolates catmull_rom ap -> uses (pc P) ap ->
  streams (pc P) -> 0 < dq1 (pc P) -> 0 < dq2 (pc P) -> 0 <= M1 -> 0 <= M2 -> flies_with (pc P) v1 v2 ->
  (forall x sp, inb (N_p (pc P)) x -> inb (N_species (pc P)) sp -> smooth3 M1 M2 (phi x sp) /\ Converge.fits (pc P) (phi x sp)) ->
  reach_run (pc P) (time_elapsed s) h -> holds (pc P) (f_of s) (carried (pc P) v1 v2 phi 0) ->
  exists r v, run_steps (solver_stepper P) h s = Ok (r, None) /\ holds (pc P) (f_of r) v
  /\ forall x sp, inb (N_p (pc P)) x -> inb (N_species (pc P)) sp ->
     rms (pc P) (fun x sp i j => v x sp i j - carried (pc P) v1 v2 phi (elapsed h) x sp i j) x sp
     <= 2 * hops h * (M1 * dq1 (pc P) ^ 3 + M2 * dq2 (pc P) ^ 3).
Proof.
  intros ST Q W IT US SM D1 D2 HM1 HM2 FW SF RE H. destruct (st_layout P ST) as ((N1&_)&(N2&_)&_).
  destruct (streaming_run P k1 k2 catmull_rom ap h s _ ST W IT US H RE) as (r&R1&V1&_).
  exists r, (transport P catmull_rom (time_elapsed s) h (carried (pc P) v1 v2 phi 0)). split; [exact R1|]. split; [exact V1|].
  intros x sp Hx Hs. destruct (SF x sp Hx Hs) as (S3&FT).
  rewrite <- (wrap_nrm P x sp).
  pose proof (transport_error P x sp Q SM N1 N2 v1 v2 phi M1 M2 HM1 HM2 D1 D2 (fun t g1 g2 => FW t x sp g1 g2 Hx Hs) S3 FT h (time_elapsed s)
    (carried (pc P) v1 v2 phi 0) 0 0) as E.
  replace (2 * hops h * (M1 * dq1 (pc P) ^ 3 + M2 * dq2 (pc P) ^ 3)) with (0 + hops h * (2 * (M1 * dq1 (pc P) ^ 3 + M2 * dq2 (pc P) ^ 3))) by ring.
  rewrite Rplus_0_l in E.
  pose proof (ex_per P x sp N1 N2 v1 v2 phi FT) as PE.
  rewrite (nrm_ext _ _ _ (fun i j => wrap (pc P) (transport P catmull_rom (time_elapsed s) h (carried (pc P) v1 v2 phi 0)) x sp i j - carried (pc P) v1 v2 phi (elapsed h) x sp i j)).
  - apply E. apply nrm_bound; auto; [lra|]. intros i j. unfold wrap. rewrite (PE 0 i j). rewrite Rminus_diag_eq by reflexivity. rewrite Rabs_R0. lra.
  - intros i j. unfold wrap. rewrite (PE (elapsed h) i j). reflexivity.
Qed.
