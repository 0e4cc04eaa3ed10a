(** Finite sums of reals over integer ranges [0 <= i < n]. *)
From Coq Require Import ZArith Reals Lia Lra.
Local Open Scope R_scope.

Fixpoint nsum (n : nat) (f : Z -> R) : R :=
  match n with
  | O => 0
  | S k => nsum k f + f (Z.of_nat k)
  end.

(** [zsum n f] is f(0)+...+f(n-1). *)
Definition zsum (n : Z) (f : Z -> R) : R := nsum (Z.to_nat n) f.

Lemma nsum_ext n f g : (forall i, (0 <= i < Z.of_nat n)%Z -> f i = g i) -> nsum n f = nsum n g.
Proof.
  induction n; intros H; simpl; auto.
  rewrite IHn; [rewrite H; auto; lia|]. intros; apply H; lia.
Qed.

Lemma zsum_ext n f g : (forall i, (0 <= i < n)%Z -> f i = g i) -> zsum n f = zsum n g.
Proof. intros H; apply nsum_ext; intros; apply H; lia. Qed.

Lemma zsum_0 f n : (n <= 0)%Z -> zsum n f = 0.
Proof. intros H. unfold zsum. replace (Z.to_nat n) with O by lia. reflexivity. Qed.

Lemma zsum_succ n f : (0 <= n)%Z -> zsum (n + 1) f = zsum n f + f n.
Proof.
  intros H. unfold zsum. replace (Z.to_nat (n + 1)) with (S (Z.to_nat n)) by lia.
  simpl. rewrite Z2Nat.id by lia. reflexivity.
Qed.

Lemma zsum_1 f : zsum 1 f = f 0%Z.
Proof. replace 1%Z with (0 + 1)%Z by lia. rewrite zsum_succ by lia. rewrite zsum_0 by lia. ring. Qed.

(** Induction over non-negative bounds. *)
Lemma zsum_ind (P : Z -> Prop) :
  P 0%Z -> (forall n, (0 <= n)%Z -> P n -> P (n + 1)%Z) -> forall n, (0 <= n)%Z -> P n.
Proof.
  intros H0 HS n Hn. pattern n. apply natlike_ind; auto.
Qed.

Lemma zsum_plus n f g : zsum n (fun i => f i + g i) = zsum n f + zsum n g.
Proof. unfold zsum. induction (Z.to_nat n); simpl; [ring|]. rewrite IHn0. ring. Qed.

Lemma zsum_minus n f g : zsum n (fun i => f i - g i) = zsum n f - zsum n g.
Proof. unfold zsum. induction (Z.to_nat n); simpl; [ring|]. rewrite IHn0. ring. Qed.

Lemma zsum_scal n c f : zsum n (fun i => c * f i) = c * zsum n f.
Proof. unfold zsum. induction (Z.to_nat n); simpl; [ring|]. rewrite IHn0. ring. Qed.

Lemma zsum_scal_r n c f : zsum n (fun i => f i * c) = zsum n f * c.
Proof. unfold zsum. induction (Z.to_nat n); simpl; [ring|]. rewrite IHn0. ring. Qed.

Lemma zsum_opp n f : zsum n (fun i => - f i) = - zsum n f.
Proof. unfold zsum. induction (Z.to_nat n); simpl; [ring|]. rewrite IHn0. ring. Qed.

Lemma zsum_zero n : zsum n (fun _ => 0) = 0.
Proof. unfold zsum. induction (Z.to_nat n); simpl; [ring|]. rewrite IHn0. ring. Qed.

Lemma zsum_const n c : (0 <= n)%Z -> zsum n (fun _ => c) = IZR n * c.
Proof.
  intros H. revert H. revert n. apply (zsum_ind (fun n => zsum n (fun _ => c) = IZR n * c)).
  - rewrite zsum_0 by lia. ring.
  - intros n Hn IH. rewrite zsum_succ by lia. rewrite IH, plus_IZR. ring.
Qed.

Lemma zsum_le n f g : (forall i, (0 <= i < n)%Z -> f i <= g i) -> zsum n f <= zsum n g.
Proof.
  intros H. destruct (Z.le_gt_cases 0 n) as [Hn|Hn].
  - revert n Hn H.
    apply (zsum_ind (fun n => (forall i, (0 <= i < n)%Z -> f i <= g i) -> zsum n f <= zsum n g)).
    + intros _. rewrite !zsum_0 by lia. lra.
    + intros n Hn IH H. rewrite !zsum_succ by lia.
      apply Rplus_le_compat; [apply IH; intros; apply H; lia|apply H; lia].
  - rewrite !zsum_0 by lia. lra.
Qed.

Lemma zsum_nonneg n f : (forall i, (0 <= i < n)%Z -> 0 <= f i) -> 0 <= zsum n f.
Proof. intros H. rewrite <- (zsum_zero n). apply zsum_le; auto. Qed.

Lemma zsum_pos n f : (0 < n)%Z -> (forall i, (0 <= i < n)%Z -> 0 < f i) -> 0 < zsum n f.
Proof.
  intros Hn H. replace n with ((n - 1) + 1)%Z by lia. rewrite zsum_succ by lia.
  assert (0 <= zsum (n-1) f) by (apply zsum_nonneg; intros; left; apply H; lia).
  assert (0 < f (n-1)%Z) by (apply H; lia). lra.
Qed.

(** Splitting off and concatenating ranges. *)
Lemma zsum_app n m f : (0 <= n)%Z -> (0 <= m)%Z ->
  zsum (n + m) f = zsum n f + zsum m (fun i => f (n + i)%Z).
Proof.
  intros Hn Hm. revert m Hm.
  apply (zsum_ind (fun m => zsum (n + m) f = zsum n f + zsum m (fun i => f (n + i)%Z))).
  - rewrite Z.add_0_r. rewrite (zsum_0 _ 0) by lia. ring.
  - intros m Hm IH. rewrite Z.add_assoc. rewrite !zsum_succ by lia. rewrite IH. ring.
Qed.

Lemma zsum_first n f : (0 < n)%Z -> zsum n f = f 0%Z + zsum (n - 1) (fun i => f (i + 1)%Z).
Proof.
  intros H. replace n with (1 + (n - 1))%Z at 1 by lia.
  rewrite zsum_app by lia. rewrite zsum_1. f_equal. apply zsum_ext; intros; f_equal; lia.
Qed.

(** Reversal. *)
Lemma zsum_rev n f : (0 <= n)%Z -> zsum n (fun i => f (n - 1 - i)%Z) = zsum n f.
Proof.
  intros H. revert H. revert n.
  apply (zsum_ind (fun n => zsum n (fun i => f (n - 1 - i)%Z) = zsum n f)).
  - rewrite !zsum_0 by lia. reflexivity.
  - intros n Hn IH. rewrite (zsum_succ n f) by lia. rewrite <- IH.
    rewrite zsum_first by lia. rewrite Rplus_comm.
    replace (n + 1 - 1 - 0)%Z with n by lia. f_equal.
    replace (n + 1 - 1)%Z with n by lia. apply zsum_ext; intros; f_equal; lia.
Qed.

(** Exchange of sums. *)
Lemma zsum_swap n m (f : Z -> Z -> R) :
  zsum n (fun i => zsum m (fun j => f i j)) = zsum m (fun j => zsum n (fun i => f i j)).
Proof.
  destruct (Z.le_gt_cases 0 n) as [Hn|Hn].
  - revert n Hn.
    apply (zsum_ind (fun n => zsum n (fun i => zsum m (fun j => f i j)) = zsum m (fun j => zsum n (fun i => f i j)))).
    + rewrite zsum_0 by lia. rewrite (zsum_ext m _ (fun _ => 0)).
      symmetry; apply zsum_zero. intros; apply zsum_0; lia.
    + intros n Hn IH. rewrite zsum_succ by lia. rewrite IH.
      rewrite <- zsum_plus. apply zsum_ext; intros. rewrite zsum_succ by lia. reflexivity.
  - rewrite zsum_0 by lia. rewrite (zsum_ext m _ (fun _ => 0)).
    symmetry; apply zsum_zero. intros; apply zsum_0; lia.
Qed.

(** A periodic shift permutes the range. *)
Lemma zsum_shift1 n f : (0 < n)%Z -> zsum n (fun i => f ((i + 1) mod n)%Z) = zsum n f.
Proof.
  intros H. replace n with ((n - 1) + 1)%Z at 1 by lia.
  rewrite zsum_succ by lia. rewrite (zsum_first n f) by lia.
  replace (n - 1 + 1)%Z with n by lia. rewrite Z_mod_same_full. rewrite Rplus_comm. f_equal.
  apply zsum_ext; intros. f_equal. apply Z.mod_small; lia.
Qed.

Lemma zsum_shift_nat n f (k : nat) : (0 < n)%Z ->
  zsum n (fun i => f ((i + Z.of_nat k) mod n)%Z) = zsum n f.
Proof.
  intros H. induction k.
  - apply zsum_ext; intros. f_equal. rewrite Z.add_0_r. apply Z.mod_small; lia.
  - rewrite <- IHk. rewrite <- (zsum_shift1 n (fun i => f ((i + Z.of_nat k) mod n)%Z)) by lia.
    apply zsum_ext; intros. f_equal. rewrite Zplus_mod_idemp_l. f_equal. lia.
Qed.

Lemma zsum_shift n f d : (0 < n)%Z -> zsum n (fun i => f ((i + d) mod n)%Z) = zsum n f.
Proof.
  intros H.
  rewrite <- (zsum_shift_nat n f (Z.to_nat (d mod n))) by lia.
  apply zsum_ext; intros. f_equal.
  pose proof (Z.mod_pos_bound d n H). rewrite Z2Nat.id by lia.
  rewrite Zplus_mod_idemp_r. reflexivity.
Qed.

Lemma zsum_shift_sub n f d : (0 < n)%Z -> zsum n (fun i => f ((i - d) mod n)%Z) = zsum n f.
Proof. intros H. exact (zsum_shift n f (- d) H). Qed.

(** For a function periodic with period n, any window of length n has the same sum. *)
Lemma zsum_periodic n f d : (0 < n)%Z -> (forall i, f (i mod n)%Z = f i) ->
  zsum n (fun i => f (i + d)%Z) = zsum n f.
Proof.
  intros H P. rewrite <- (zsum_shift n f d H). apply zsum_ext; intros. symmetry. apply P.
Qed.

Lemma zsum_telescope n f : (0 <= n)%Z -> zsum n (fun i => f (i + 1)%Z - f i) = f n - f 0%Z.
Proof.
  intros H. revert H. revert n. apply (zsum_ind (fun n => zsum n (fun i => f (i + 1)%Z - f i) = f n - f 0%Z)).
  - rewrite zsum_0 by lia. ring.
  - intros n Hn IH. rewrite zsum_succ by lia. rewrite IH. ring.
Qed.

Lemma zsum_single n k f : (0 <= k < n)%Z -> (forall i, (0 <= i < n)%Z -> i <> k -> f i = 0) -> zsum n f = f k.
Proof.
  intros Hk H. replace n with (k + (1 + (n - k - 1)))%Z by lia.
  rewrite zsum_app by lia. rewrite zsum_app by lia. rewrite zsum_1.
  rewrite (zsum_ext k f (fun _ => 0)) by (intros; apply H; lia).
  rewrite (zsum_ext (n-k-1) _ (fun _ => 0)) by (intros; apply H; lia).
  rewrite !zsum_zero. rewrite Z.add_0_r. ring.
Qed.

(** Mixed radix: one sum over n*m is a double sum. *)
Lemma zsum_mul n m f : (0 <= n)%Z -> (0 <= m)%Z ->
  zsum (n * m) f = zsum m (fun j => zsum n (fun i => f (i + n * j)%Z)).
Proof.
  intros Hn Hm. revert m Hm.
  apply (zsum_ind (fun m => zsum (n * m) f = zsum m (fun j => zsum n (fun i => f (i + n * j)%Z)))).
  - rewrite Z.mul_0_r. rewrite !zsum_0 by lia. reflexivity.
  - intros m Hm IH. replace (n * (m + 1))%Z with (n * m + n)%Z by lia.
    rewrite zsum_app by lia. rewrite zsum_succ by lia. rewrite IH. f_equal.
    apply zsum_ext; intros; f_equal; lia.
Qed.

(** Cauchy-Schwarz for weighted finite sums. *)
Lemma zsum_cauchy_schwarz n (w a b : Z -> R) :
  (forall i, (0 <= i < n)%Z -> 0 <= w i) ->
  (zsum n (fun i => w i * a i * b i)) ^ 2
  <= zsum n (fun i => w i * a i ^ 2) * zsum n (fun i => w i * b i ^ 2).
Proof.
  intros Hw.
  set (A := zsum n (fun i => w i * a i ^ 2)).
  set (B := zsum n (fun i => w i * b i ^ 2)).
  set (C := zsum n (fun i => w i * a i * b i)).
  assert (HA : 0 <= A) by (apply zsum_nonneg; intros; apply Rmult_le_pos; [auto|apply pow2_ge_0]).
  assert (HB : 0 <= B) by (apply zsum_nonneg; intros; apply Rmult_le_pos; [auto|apply pow2_ge_0]).
  assert (Q : forall s t, 0 <= s * s * A + 2 * s * t * C + t * t * B).
  { intros s t.
    assert (E : s * s * A + 2 * s * t * C + t * t * B
                = zsum n (fun i => w i * (s * a i + t * b i) ^ 2)).
    { unfold A, B, C. rewrite <- !zsum_scal, <- !zsum_plus. apply zsum_ext; intros; ring. }
    rewrite E. apply zsum_nonneg; intros. apply Rmult_le_pos; [auto|apply pow2_ge_0]. }
  destruct (Req_dec B 0) as [E|E].
  - (* B = 0 forces C = 0 *)
    assert (C = 0).
    { destruct (Rtotal_order C 0) as [L|[L|L]]; auto.
      - pose proof (Q 1 ((A + 1) / (- 2 * C))). rewrite E in H.
        replace (1 * 1 * A + 2 * 1 * ((A + 1) / (-2 * C)) * C
                 + (A + 1) / (-2 * C) * ((A + 1) / (-2 * C)) * 0)
          with (-1) in H by (field; lra). lra.
      - pose proof (Q 1 ((A + 1) / (- 2 * C))). rewrite E in H.
        replace (1 * 1 * A + 2 * 1 * ((A + 1) / (-2 * C)) * C
                 + (A + 1) / (-2 * C) * ((A + 1) / (-2 * C)) * 0)
          with (-1) in H by (field; lra). lra. }
    rewrite H, E. nra.
  - pose proof (Q B (- C)).
    replace (B * B * A + 2 * B * - C * C + - C * - C * B) with (B * (A * B - C * C)) in H by ring.
    assert (0 < B) by lra.
    assert (0 <= A * B - C * C).
    { apply Rmult_le_reg_l with B; auto. lra. }
    replace (C ^ 2) with (C * C) by ring. lra.
Qed.
