(** Energy and stability of the Yee scheme on a periodic lattice. *)
From Coq Require Import ZArith Reals Lia Lra.
From Verif Require Import Base.ZSum Spec.Yee.
Local Open Scope R_scope.

Definition per (n1 n2 : Z) (u : grid) : Prop :=
  (forall i j, u (i mod n1)%Z j = u i j) /\ (forall i j, u i (j mod n2)%Z = u i j).
Definition per_lat (n1 n2 : Z) (Y : lattice) : Prop :=
  per n1 n2 (E1 Y) /\ per n1 n2 (E2 Y) /\ per n1 n2 (E3 Y)
  /\ per n1 n2 (B1 Y) /\ per n1 n2 (B2 Y) /\ per n1 n2 (B3 Y).

Section Totals.
Context (n1 n2 : Z) (P1 : (0 < n1)%Z) (P2 : (0 < n2)%Z).

Lemma total_ext u v : (forall i j, u i j = v i j) -> total n1 n2 u = total n1 n2 v.
Proof. intros H. unfold total. apply zsum_ext; intros. apply zsum_ext; intros. apply H. Qed.
Lemma total_plus u v : total n1 n2 (fun i j => u i j + v i j) = total n1 n2 u + total n1 n2 v.
Proof. unfold total. rewrite <- zsum_plus. apply zsum_ext; intros. apply zsum_plus. Qed.
Lemma total_minus u v : total n1 n2 (fun i j => u i j - v i j) = total n1 n2 u - total n1 n2 v.
Proof. unfold total. rewrite <- zsum_minus. apply zsum_ext; intros. apply zsum_minus. Qed.
Lemma total_scal a u : total n1 n2 (fun i j => a * u i j) = a * total n1 n2 u.
Proof. unfold total. rewrite <- zsum_scal. apply zsum_ext; intros. apply zsum_scal. Qed.
Lemma total_zero : total n1 n2 (fun _ _ => 0) = 0.
Proof. unfold total. rewrite (zsum_ext n1 _ (fun _ => 0)); [apply zsum_zero|]. intros. apply zsum_zero. Qed.
Lemma total_le u v : (forall i j, u i j <= v i j) -> total n1 n2 u <= total n1 n2 v.
Proof. intros H. unfold total. apply zsum_le; intros. apply zsum_le; intros. apply H. Qed.
Lemma total_nonneg u : (forall i j, 0 <= u i j) -> 0 <= total n1 n2 u.
Proof. intros H. rewrite <- total_zero. apply total_le; auto. Qed.

Lemma total_shift1 d u : per n1 n2 u -> total n1 n2 (fun i j => u (i + d)%Z j) = total n1 n2 u.
Proof.
  intros (A&_). unfold total.
  apply (zsum_periodic n1 (fun i => zsum n2 (fun j => u i j)) d P1).
  intros i. apply zsum_ext; intros. apply A.
Qed.
Lemma total_shift2 d u : per n1 n2 u -> total n1 n2 (fun i j => u i (j + d)%Z) = total n1 n2 u.
Proof.
  intros (_&A). unfold total. apply zsum_ext; intros i _.
  apply (zsum_periodic n2 (fun j => u i j) d P2). intros. apply A.
Qed.

Lemma per_mul u v : per n1 n2 u -> per n1 n2 v -> per n1 n2 (fun i j => u i j * v i j).
Proof. intros (A&B) (C&D). split; intros; [rewrite A, C|rewrite B, D]; reflexivity. Qed.
Lemma per_add u v : per n1 n2 u -> per n1 n2 v -> per n1 n2 (fun i j => u i j + v i j).
Proof. intros (A&B) (C&D). split; intros; [rewrite A, C|rewrite B, D]; reflexivity. Qed.
Lemma per_sub1 u d : per n1 n2 u -> per n1 n2 (fun i j => u (i - d)%Z j).
Proof.
  intros (A&B). split; intros; [|apply B].
  rewrite <- (A (i - d)%Z), <- (A (i mod n1 - d)%Z). f_equal.
  rewrite Zminus_mod_idemp_l. reflexivity.
Qed.
Lemma per_sub2 u d : per n1 n2 u -> per n1 n2 (fun i j => u i (j - d)%Z).
Proof.
  intros (A&B). split; intros; [apply A|].
  rewrite <- (B i (j - d)%Z), <- (B i (j mod n2 - d)%Z). f_equal.
  rewrite Zminus_mod_idemp_l. reflexivity.
Qed.
Lemma per_sq u : per n1 n2 u -> per n1 n2 (fun i j => u i j ^ 2).
Proof. intros (A&B). split; intros; [rewrite A|rewrite B]; reflexivity. Qed.

Lemma total_diff1 u : per n1 n2 u -> total n1 n2 (fun i j => u (i + 1)%Z j - u i j) = 0.
Proof. intros H. rewrite (total_minus (fun i j => u (i + 1)%Z j) u), total_shift1 by auto. ring. Qed.
Lemma total_diff2 u : per n1 n2 u -> total n1 n2 (fun i j => u i (j + 1)%Z - u i j) = 0.
Proof. intros H. rewrite (total_minus (fun i j => u i (j + 1)%Z) u), total_shift2 by auto. ring. Qed.

(** The discrete Poynting theorem without currents. *)
Lemma energy_conserved h1 h2 e m dt J1 J2 J3 Y0 Y1 Y2 :
  h1 <> 0 -> h2 <> 0 -> e <> 0 -> m <> 0 ->
  (forall i j, J1 i j = 0) -> (forall i j, J2 i j = 0) -> (forall i j, J3 i j = 0) ->
  per_lat n1 n2 Y1 -> per_lat n1 n2 Y2 ->
  same Y1 (yee_step h1 h2 e m dt J1 J2 J3 Y0) -> same Y2 (yee_step h1 h2 e m dt J1 J2 J3 Y1) ->
  energy n1 n2 e m Y1 Y2 = energy n1 n2 e m Y0 Y1.
Proof.
  intros H1 H2 He Hm Z1 Z2 Z3 Q1 Q2 (S1&S2&S3&S4&S5&S6) (T1&T2&T3&T4&T5&T6).
  cbn [yee_step faraday ampere E1 E2 E3 B1 B2 B3] in S1, S2, S3, S4, S5, S6, T1, T2, T3, T4, T5, T6.
  assert (D1 : forall i j, B1 Y0 i j = B1 Y1 i j + dt * bwd2 h2 (E3 Y1) i j).
  { intros. rewrite S4. unfold bwd2. rewrite !S3. ring. }
  assert (D2 : forall i j, B2 Y0 i j = B2 Y1 i j - dt * bwd1 h1 (E3 Y1) i j).
  { intros. rewrite S5. unfold bwd1. rewrite !S3. ring. }
  assert (D3 : forall i j, B3 Y0 i j = B3 Y1 i j + dt * (bwd1 h1 (E2 Y1) i j - bwd2 h2 (E1 Y1) i j)).
  { intros. rewrite S6. unfold bwd1, bwd2. rewrite !S1, !S2. ring. }
  assert (F1 : forall i j, B1 Y2 i j = B1 Y1 i j - dt * bwd2 h2 (E3 Y2) i j).
  { intros. rewrite T4. unfold bwd2. rewrite !T3. ring. }
  assert (F2 : forall i j, B2 Y2 i j = B2 Y1 i j + dt * bwd1 h1 (E3 Y2) i j).
  { intros. rewrite T5. unfold bwd1. rewrite !T3. ring. }
  assert (F3 : forall i j, B3 Y2 i j = B3 Y1 i j - dt * (bwd1 h1 (E2 Y2) i j - bwd2 h2 (E1 Y2) i j)).
  { intros. rewrite T6. unfold bwd1, bwd2. rewrite !T1, !T2. ring. }
  assert (G1 : forall i j, E1 Y2 i j = E1 Y1 i j + dt * (fwd2 h2 (B3 Y1) i j / (m * e))).
  { intros. rewrite T1, Z1. field; auto. }
  assert (G2 : forall i j, E2 Y2 i j = E2 Y1 i j + dt * (- fwd1 h1 (B3 Y1) i j / (m * e))).
  { intros. rewrite T2, Z2. field; auto. }
  assert (G3 : forall i j, E3 Y2 i j = E3 Y1 i j + dt * ((fwd1 h1 (B2 Y1) i j - fwd2 h2 (B1 Y1) i j) / (m * e))).
  { intros. rewrite T3, Z3. field; auto. }
  clear S1 S2 S3 S4 S5 S6 T1 T2 T3 T4 T5 T6.
  destruct Q1 as (QE1&QE2&QE3&QB1&QB2&QB3). destruct Q2 as (RE1&RE2&RE3&_).
  apply Rminus_diag_uniq. unfold energy. rewrite <- total_minus.
  set (g1 := fun i j => B3 Y1 i j * (E1 Y1 i (j - 1)%Z + E1 Y2 i (j - 1)%Z)).
  set (g2 := fun i j => B3 Y1 i j * (E2 Y1 (i - 1)%Z j + E2 Y2 (i - 1)%Z j)).
  set (g3 := fun i j => B2 Y1 i j * (E3 Y1 (i - 1)%Z j + E3 Y2 (i - 1)%Z j)).
  set (g4 := fun i j => B1 Y1 i j * (E3 Y1 i (j - 1)%Z + E3 Y2 i (j - 1)%Z)).
  rewrite (total_ext _ (fun i j =>
     (dt / m / h2 * (g1 i (j + 1)%Z - g1 i j) + - (dt / m / h1) * (g2 (i + 1)%Z j - g2 i j))
     + (dt / m / h1 * (g3 (i + 1)%Z j - g3 i j) + - (dt / m / h2) * (g4 i (j + 1)%Z - g4 i j)))).
  - rewrite (total_plus
       (fun i j => dt / m / h2 * (g1 i (j + 1)%Z - g1 i j) + - (dt / m / h1) * (g2 (i + 1)%Z j - g2 i j))
       (fun i j => dt / m / h1 * (g3 (i + 1)%Z j - g3 i j) + - (dt / m / h2) * (g4 i (j + 1)%Z - g4 i j))).
    rewrite (total_plus (fun i j => dt / m / h2 * (g1 i (j + 1)%Z - g1 i j))
       (fun i j => - (dt / m / h1) * (g2 (i + 1)%Z j - g2 i j))).
    rewrite (total_plus (fun i j => dt / m / h1 * (g3 (i + 1)%Z j - g3 i j))
       (fun i j => - (dt / m / h2) * (g4 i (j + 1)%Z - g4 i j))).
    rewrite (total_scal _ (fun i j => g1 i (j + 1)%Z - g1 i j)).
    rewrite (total_scal _ (fun i j => g2 (i + 1)%Z j - g2 i j)).
    rewrite (total_scal _ (fun i j => g3 (i + 1)%Z j - g3 i j)).
    rewrite (total_scal _ (fun i j => g4 i (j + 1)%Z - g4 i j)).
    rewrite (total_diff2 g1), (total_diff1 g2), (total_diff1 g3), (total_diff2 g4); [ring| | | |];
      (apply per_mul; [assumption|apply per_add; (apply per_sub1 || apply per_sub2); assumption]).
  - intros i j. subst g1 g2 g3 g4. cbv beta.
    replace (i + 1 - 1)%Z with i by lia. replace (j + 1 - 1)%Z with j by lia.
    rewrite !D1, !D2, !D3, !F1, !F2, !F3.
    set (b1 := B1 Y1) in *. set (b2 := B2 Y1) in *. set (b3 := B3 Y1) in *.
    assert (K : e * (E1 Y2 i j ^ 2 + E2 Y2 i j ^ 2 + E3 Y2 i j ^ 2) - e * (E1 Y1 i j ^ 2 + E2 Y1 i j ^ 2 + E3 Y1 i j ^ 2)
      = dt / m * (fwd2 h2 b3 i j * (E1 Y1 i j + E1 Y2 i j) - fwd1 h1 b3 i j * (E2 Y1 i j + E2 Y2 i j)
                  + (fwd1 h1 b2 i j - fwd2 h2 b1 i j) * (E3 Y1 i j + E3 Y2 i j))).
    { rewrite G1, G2, G3. field; auto. }
    apply (Rplus_eq_reg_r (- (e * (E1 Y2 i j ^ 2 + E2 Y2 i j ^ 2 + E3 Y2 i j ^ 2) - e * (E1 Y1 i j ^ 2 + E2 Y1 i j ^ 2 + E3 Y1 i j ^ 2)))).
    rewrite K at 2. unfold fwd1, fwd2, bwd1, bwd2. field; auto.
Qed.

(** The norm at any time is bounded by the conserved energy when
    c dt sqrt(1/h1^2 + 1/h2^2) < 1. *)
Lemma young a b l : 0 < l -> - (l / 2 * a ^ 2 + / (2 * l) * b ^ 2) <= a * b.
Proof.
  intros H. assert (0 <= / (2 * l) * (l * a + b) ^ 2).
  { apply Rmult_le_pos; [left; apply Rinv_0_lt_compat; lra|apply pow2_ge_0]. }
  replace (/ (2 * l) * (l * a + b) ^ 2) with (l / 2 * a ^ 2 + / (2 * l) * b ^ 2 + a * b) in H0
    by (field; lra). lra.
Qed.

Lemma energy_bound h1 h2 e m dt J1 J2 J3 Y0 Y1 :
  h1 <> 0 -> h2 <> 0 -> 0 < e -> 0 < m -> courant2 h1 h2 e m dt < 1 ->
  per_lat n1 n2 Y1 -> same Y1 (yee_step h1 h2 e m dt J1 J2 J3 Y0) ->
  (1 - courant2 h1 h2 e m dt) / 2 * field_norm2 n1 n2 e m Y1 <= energy n1 n2 e m Y0 Y1.
Proof.
  intros H1 H2 He Hm Hnu Q1 (S1&S2&S3&S4&S5&S6).
  set (nu := courant2 h1 h2 e m dt) in *.
  cbn [yee_step faraday ampere E1 E2 E3 B1 B2 B3] in S1, S2, S3, S4, S5, S6.
  assert (D1 : forall i j, B1 Y0 i j = B1 Y1 i j + dt * bwd2 h2 (E3 Y1) i j).
  { intros. rewrite S4. unfold bwd2. rewrite !S3. ring. }
  assert (D2 : forall i j, B2 Y0 i j = B2 Y1 i j - dt * bwd1 h1 (E3 Y1) i j).
  { intros. rewrite S5. unfold bwd1. rewrite !S3. ring. }
  assert (D3 : forall i j, B3 Y0 i j = B3 Y1 i j + dt * (bwd1 h1 (E2 Y1) i j - bwd2 h2 (E1 Y1) i j)).
  { intros. rewrite S6. unfold bwd1, bwd2. rewrite !S1, !S2. ring. }
  clear S1 S2 S3 S4 S5 S6.
  destruct Q1 as (QE1&QE2&QE3&QB1&QB2&QB3).
  assert (I1 : 0 < / h1 ^ 2) by (apply Rinv_0_lt_compat; rewrite <- Rsqr_pow2; apply Rsqr_pos_lt; auto).
  assert (I2 : 0 < / h2 ^ 2) by (apply Rinv_0_lt_compat; rewrite <- Rsqr_pow2; apply Rsqr_pos_lt; auto).
  assert (Ime : 0 < / (m * e)) by (apply Rinv_0_lt_compat, Rmult_lt_0_compat; lra).
  assert (Hnu0 : 0 <= nu).
  { unfold nu, courant2, Rdiv. apply Rmult_le_pos; [|lra]. apply Rmult_le_pos; [apply pow2_ge_0|lra]. }
  set (K := / h1 ^ 2 + / h2 ^ 2) in *.
  set (e1 := fun i j => E1 Y1 i j ^ 2). set (e2 := fun i j => E2 Y1 i j ^ 2). set (e3 := fun i j => E3 Y1 i j ^ 2).
  set (bb := fun i j => B1 Y1 i j ^ 2 + B2 Y1 i j ^ 2 + B3 Y1 i j ^ 2).
  set (q := dt ^ 2 / (2 * (1 + nu))).
  set (cc := fun i j => (2 * / h2 ^ 2) * (e3 i j + e3 i (j - 1)%Z) + (2 * / h1 ^ 2) * (e3 i j + e3 (i - 1)%Z j)
       + (2 * K) * ((e2 i j + e2 (i - 1)%Z j) + (e1 i j + e1 i (j - 1)%Z))).
  set (w := fun i j => e * (e1 i j + e2 i j + e3 i j)).
  assert (Q0 : 0 <= q).
  { unfold q, Rdiv. apply Rmult_le_pos; [apply pow2_ge_0|]. left. apply Rinv_0_lt_compat. lra. }
  assert (LOW : total n1 n2 (fun i j => (w i j + (1 - nu) / 2 / m * bb i j) - q / m * cc i j)
                <= energy n1 n2 e m Y0 Y1).
  { unfold energy. apply total_le. intros i j. rewrite D1, D2, D3.
    unfold w, bb, cc, e1, e2, e3, bwd1, bwd2.
    set (x3 := E3 Y1 i j). set (x3j := E3 Y1 i (j - 1)%Z). set (x3i := E3 Y1 (i - 1)%Z j).
    set (x2 := E2 Y1 i j). set (x2i := E2 Y1 (i - 1)%Z j). set (x1 := E1 Y1 i j). set (x1j := E1 Y1 i (j - 1)%Z).
    set (b1 := B1 Y1 i j). set (b2 := B2 Y1 i j). set (b3 := B3 Y1 i j).
    assert (HL : 0 < 1 + nu) by lra.
    pose proof (young b1 (dt * ((x3 - x3j) / h2)) (1 + nu) HL) as Y1'.
    pose proof (young b2 (- (dt * ((x3 - x3i) / h1))) (1 + nu) HL) as Y2'.
    pose proof (young b3 (dt * ((x2 - x2i) / h1 - (x1 - x1j) / h2)) (1 + nu) HL) as Y3'.
    assert (C1 : ((x3 - x3j) / h2) ^ 2 <= 2 * / h2 ^ 2 * (x3 ^ 2 + x3j ^ 2)).
    { replace (((x3 - x3j) / h2) ^ 2) with (/ h2 ^ 2 * (x3 - x3j) ^ 2) by (field; auto).
      replace (2 * / h2 ^ 2 * (x3 ^ 2 + x3j ^ 2)) with (/ h2 ^ 2 * (2 * (x3 ^ 2 + x3j ^ 2))) by ring.
      apply Rmult_le_compat_l; [lra|]. pose proof (pow2_ge_0 (x3 + x3j)). lra. }
    assert (C2 : ((x3 - x3i) / h1) ^ 2 <= 2 * / h1 ^ 2 * (x3 ^ 2 + x3i ^ 2)).
    { replace (((x3 - x3i) / h1) ^ 2) with (/ h1 ^ 2 * (x3 - x3i) ^ 2) by (field; auto).
      replace (2 * / h1 ^ 2 * (x3 ^ 2 + x3i ^ 2)) with (/ h1 ^ 2 * (2 * (x3 ^ 2 + x3i ^ 2))) by ring.
      apply Rmult_le_compat_l; [lra|]. pose proof (pow2_ge_0 (x3 + x3i)). lra. }
    assert (C3 : ((x2 - x2i) / h1 - (x1 - x1j) / h2) ^ 2 <= 2 * K * ((x2 ^ 2 + x2i ^ 2) + (x1 ^ 2 + x1j ^ 2))).
    { apply Rle_trans with (K * ((x2 - x2i) ^ 2 + (x1 - x1j) ^ 2)).
      - unfold K. set (u := x2 - x2i). set (v := x1 - x1j).
        apply Rminus_le.
        replace ((u / h1 - v / h2) ^ 2 - (/ h1 ^ 2 + / h2 ^ 2) * (u ^ 2 + v ^ 2)) with (- (u / h2 + v / h1) ^ 2)
          by (field; auto).
        pose proof (pow2_ge_0 (u / h2 + v / h1)). lra.
      - replace (2 * K * (x2 ^ 2 + x2i ^ 2 + (x1 ^ 2 + x1j ^ 2))) with (K * (2 * (x2 ^ 2 + x2i ^ 2 + (x1 ^ 2 + x1j ^ 2)))) by ring.
        apply Rmult_le_compat_l; [unfold K; lra|].
        pose proof (pow2_ge_0 (x2 + x2i)). pose proof (pow2_ge_0 (x1 + x1j)). lra. }
    set (c1 := (x3 - x3j) / h2) in *. set (c2 := (x3 - x3i) / h1) in *.
    set (c3 := (x2 - x2i) / h1 - (x1 - x1j) / h2) in *.
    replace (/ (2 * (1 + nu)) * (dt * c1) ^ 2) with (q * c1 ^ 2) in Y1' by (unfold q; field; lra).
    replace (/ (2 * (1 + nu)) * (- (dt * c2)) ^ 2) with (q * c2 ^ 2) in Y2' by (unfold q; field; lra).
    replace (/ (2 * (1 + nu)) * (dt * c3) ^ 2) with (q * c3 ^ 2) in Y3' by (unfold q; field; lra).
    assert (C1q := Rmult_le_compat_l q _ _ Q0 C1). assert (C2q := Rmult_le_compat_l q _ _ Q0 C2).
    assert (C3q := Rmult_le_compat_l q _ _ Q0 C3).
    assert (Im : 0 < / m) by (apply Rinv_0_lt_compat; lra).
    assert (KEY : (1 - nu) / 2 * (b1 ^ 2 + b2 ^ 2 + b3 ^ 2)
        - q * (2 * / h2 ^ 2 * (x3 ^ 2 + x3j ^ 2) + 2 * / h1 ^ 2 * (x3 ^ 2 + x3i ^ 2)
               + 2 * K * (x2 ^ 2 + x2i ^ 2 + (x1 ^ 2 + x1j ^ 2)))
        <= (b1 + dt * c1) * b1 + (b2 - dt * c2) * b2 + (b3 + dt * c3) * b3) by lra.
    apply (Rmult_le_compat_l (/ m)) in KEY; [|lra].
    unfold Rdiv in *. lra. }
  eapply Rle_trans; [|exact LOW].
  assert (TE1 : forall u, per n1 n2 u -> total n1 n2 (fun i j => u i j + u (i - 1)%Z j) = 2 * total n1 n2 u).
  { intros u Hu. rewrite (total_plus u (fun i j => u (i - 1)%Z j)).
    change (fun i j => u (i - 1)%Z j) with (fun i j => u (i + -1)%Z j). rewrite total_shift1 by auto. ring. }
  assert (TE2 : forall u, per n1 n2 u -> total n1 n2 (fun i j => u i j + u i (j - 1)%Z) = 2 * total n1 n2 u).
  { intros u Hu. rewrite (total_plus u (fun i j => u i (j - 1)%Z)).
    change (fun i j => u i (j - 1)%Z) with (fun i j => u i (j + -1)%Z). rewrite total_shift2 by auto. ring. }
  assert (TC : total n1 n2 cc = 4 * K * (total n1 n2 e1 + total n1 n2 e2 + total n1 n2 e3)).
  { unfold cc.
    rewrite (total_plus (fun i j => (2 * / h2 ^ 2) * (e3 i j + e3 i (j - 1)%Z) + (2 * / h1 ^ 2) * (e3 i j + e3 (i - 1)%Z j))
        (fun i j => (2 * K) * ((e2 i j + e2 (i - 1)%Z j) + (e1 i j + e1 i (j - 1)%Z)))).
    rewrite (total_plus (fun i j => (2 * / h2 ^ 2) * (e3 i j + e3 i (j - 1)%Z)) (fun i j => (2 * / h1 ^ 2) * (e3 i j + e3 (i - 1)%Z j))).
    rewrite (total_scal _ (fun i j => e3 i j + e3 i (j - 1)%Z)), (total_scal _ (fun i j => e3 i j + e3 (i - 1)%Z j)).
    rewrite (total_scal _ (fun i j => (e2 i j + e2 (i - 1)%Z j) + (e1 i j + e1 i (j - 1)%Z))).
    rewrite (total_plus (fun i j => e2 i j + e2 (i - 1)%Z j) (fun i j => e1 i j + e1 i (j - 1)%Z)).
    rewrite !TE1, !TE2 by (apply per_sq; auto). unfold K. ring. }
  assert (TW : total n1 n2 w = e * (total n1 n2 e1 + total n1 n2 e2 + total n1 n2 e3)).
  { unfold w. rewrite (total_scal _ (fun i j => e1 i j + e2 i j + e3 i j)).
    rewrite (total_plus (fun i j => e1 i j + e2 i j) e3), (total_plus e1 e2). reflexivity. }
  rewrite (total_minus (fun i j => w i j + (1 - nu) / 2 / m * bb i j) (fun i j => q / m * cc i j)).
  rewrite (total_plus w (fun i j => (1 - nu) / 2 / m * bb i j)), !total_scal, TC, TW.
  assert (NN : field_norm2 n1 n2 e m Y1 = e * (total n1 n2 e1 + total n1 n2 e2 + total n1 n2 e3) + / m * total n1 n2 bb).
  { rewrite <- TW, <- total_scal, <- (total_plus w (fun i j => / m * bb i j)).
    unfold field_norm2. apply total_ext. intros. unfold w, bb, e1, e2, e3, Rdiv. ring. }
  rewrite NN.
  assert (TP : 0 <= total n1 n2 e1 + total n1 n2 e2 + total n1 n2 e3).
  { assert (0 <= total n1 n2 e1) by (apply total_nonneg; intros; apply pow2_ge_0).
    assert (0 <= total n1 n2 e2) by (apply total_nonneg; intros; apply pow2_ge_0).
    assert (0 <= total n1 n2 e3) by (apply total_nonneg; intros; apply pow2_ge_0). lra. }
  set (T := total n1 n2 e1 + total n1 n2 e2 + total n1 n2 e3) in *.
  assert (QK : q / m * (4 * K * T) = 2 * nu / (1 + nu) * (e * T)).
  { unfold q, nu, courant2. fold K. set (nn := 1 + dt ^ 2 * K / (m * e)).
    replace (1 + dt ^ 2 * K / (m * e)) with nn by reflexivity.
    assert (nn <> 0) by (unfold nn; change (dt ^ 2 * K / (m * e)) with nu; lra).
    field. repeat split; lra. }
  rewrite QK.
  assert (FR : (1 - nu) / 2 <= 1 - 2 * nu / (1 + nu)).
  { apply Rminus_le. replace ((1 - nu) / 2 - (1 - 2 * nu / (1 + nu))) with (- ((1 - nu) ^ 2 / (2 * (1 + nu)))) by (field; lra).
    assert (0 <= (1 - nu) ^ 2 / (2 * (1 + nu))); [|lra].
    apply Rmult_le_pos; [apply pow2_ge_0|left; apply Rinv_0_lt_compat; lra]. }
  assert (ET : 0 <= e * T) by (apply Rmult_le_pos; lra).
  pose proof (Rmult_le_compat_r (e * T) _ _ ET FR). unfold Rdiv in *. lra.
Qed.
End Totals.
