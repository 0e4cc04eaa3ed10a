(** Second-order convergence of the field solver. *)
From Coq Require Import ZArith Reals Lia Lra String List Bool.
From Verif Require Import Base.Prelude Base.ZSum Model.Af Model.Petsc Model.Config Model.Em Spec.Domain Spec.Yee Spec.EmRun
  Spec.InitFields Spec.Light Spec.MaxwellLimit Proofs.EmLemmas Proofs.EmStep Proofs.EmGrids Proofs.EmInit Proofs.EmVector
  Proofs.EmEnergy Proofs.EmProps Proofs.EmWitness Proofs.EnergyField Proofs.InitFields Proofs.Light.
Import ListNotations.
Local Open Scope R_scope.

Lemma abs_two x a : Rabs x <= a -> - a <= x <= a.
Proof. intros H. assert (A := Rle_abs x). assert (B := Rle_abs (- x)). rewrite Rabs_Ropp in B. lra. Qed.

(** Centred differences. *)
Lemma centred_difference M u u' x s : smooth1 M u u' -> 0 <= s -> Rabs (u (x + s) - u (x - s) - 2 * s * u' x) <= M * s ^ 3 / 3.
Proof.
  intros (D&B) S0. set (phi := fun s => u (x + s) - u (x - s) - 2 * s * u' x).
  assert (P : forall s, derivable_pt_lim phi s (u' (x + s) + u' (x - s) - 2 * u' x)).
  { intros r. unfold phi.
    assert (A : derivable_pt_lim (fun s => u (x + s)) r (u' (x + r) * (0 + 1))).
    { apply (derivable_pt_lim_comp (fun s => x + s) u r); [|apply D].
      apply (derivable_pt_lim_plus (fun _ => x) (fun s => s) r); [apply derivable_pt_lim_const|apply derivable_pt_lim_id]. }
    assert (A' : derivable_pt_lim (fun s => u (x - s)) r (u' (x - r) * (0 - 1))).
    { apply (derivable_pt_lim_comp (fun s => x - s) u r); [|apply D].
      apply (derivable_pt_lim_minus (fun _ => x) (fun s => s) r); [apply derivable_pt_lim_const|apply derivable_pt_lim_id]. }
    assert (C : derivable_pt_lim (fun s => 2 * s * u' x) r ((0 * r + 2 * 1) * u' x + 2 * r * 0)).
    { apply (derivable_pt_lim_mult (fun s => 2 * s) (fun _ => u' x) r); [|apply derivable_pt_lim_const].
      apply (derivable_pt_lim_mult (fun _ => 2) (fun s => s) r); [apply derivable_pt_lim_const|apply derivable_pt_lim_id]. }
    replace (u' (x + r) + u' (x - r) - 2 * u' x) with ((u' (x + r) * (0 + 1) - u' (x - r) * (0 - 1)) - ((0 * r + 2 * 1) * u' x + 2 * r * 0)) by ring.
    apply (derivable_pt_lim_minus (fun s => u (x + s) - u (x - s)) (fun s => 2 * s * u' x) r); [|exact C].
    apply (derivable_pt_lim_minus (fun s => u (x + s)) (fun s => u (x - s)) r); assumption. }
  assert (Q : forall s, derivable_pt_lim (fun s => M / 3 * s ^ 3) s (M * s ^ 2)).
  { intros r. replace (M * r ^ 2) with (0 * r ^ 3 + M / 3 * (INR 3 * r ^ pred 3)) by (cbn [INR pred]; field).
    apply (derivable_pt_lim_mult (fun _ => M / 3) (fun s => s ^ 3) r); [apply derivable_pt_lim_const|apply derivable_pt_lim_pow]. }
  assert (Z : phi 0 = 0) by (unfold phi; rewrite Rplus_0_r, Rminus_0_r; ring).
  assert (G : forall f f', (forall s, derivable_pt_lim f s (f' s)) -> (forall s, 0 <= f' s) -> f 0 <= f s).
  { intros f f' DF PF. assert (pr : derivable f) by (intros r; exists (f' r); apply DF).
    apply (nonneg_derivative_1 f pr); [|exact S0]. intros r. rewrite (derive_pt_eq_0 f r (f' r) (pr r) (DF r)). apply PF. }
  assert (U : 0 <= M / 3 * s ^ 3 - phi s).
  { replace 0 with (M / 3 * 0 ^ 3 - phi 0) by (rewrite Z; ring).
    apply (G (fun s => M / 3 * s ^ 3 - phi s) (fun s => M * s ^ 2 - (u' (x + s) + u' (x - s) - 2 * u' x))).
    - intros r. apply (derivable_pt_lim_minus (fun s => M / 3 * s ^ 3) phi r); auto.
    - intros r. specialize (B x r). assert (X := Rle_abs (u' (x + r) + u' (x - r) - 2 * u' x)). lra. }
  assert (V : 0 <= M / 3 * s ^ 3 + phi s).
  { replace 0 with (M / 3 * 0 ^ 3 + phi 0) by (rewrite Z; ring).
    apply (G (fun s => M / 3 * s ^ 3 + phi s) (fun s => M * s ^ 2 + (u' (x + s) + u' (x - s) - 2 * u' x))).
    - intros r. apply (derivable_pt_lim_plus (fun s => M / 3 * s ^ 3) phi r); auto.
    - intros r. specialize (B x r). assert (X := Rle_abs (- (u' (x + r) + u' (x - r) - 2 * u' x))). rewrite Rabs_Ropp in X. lra. }
  fold (phi s). apply Rabs_le. lra.
Qed.

Lemma quotient M u u' x h : smooth1 M u u' -> h <> 0 -> Rabs ((u (x + h / 2) - u (x - h / 2)) / h - u' x) <= M / 24 * h ^ 2.
Proof.
  intros SM H.
  assert (P : forall k, 0 < k -> Rabs ((u (x + k / 2) - u (x - k / 2)) / k - u' x) <= M / 24 * k ^ 2).
  { intros k K. assert (C := centred_difference M u u' x (k / 2) SM ltac:(lra)).
    replace ((u (x + k / 2) - u (x - k / 2)) / k - u' x) with ((u (x + k / 2) - u (x - k / 2) - 2 * (k / 2) * u' x) * / k) by (field; lra).
    rewrite Rabs_mult, (Rabs_right (/ k)) by (apply Rle_ge; left; apply Rinv_0_lt_compat, K).
    apply (Rmult_le_reg_r k); [exact K|]. rewrite Rmult_assoc, Rinv_l, Rmult_1_r by lra.
    eapply Rle_trans; [exact C|]. right. field. }
  destruct (Rdichotomy h 0 H) as [N|N]; [|apply P; lra].
  specialize (P (- h) ltac:(lra)). replace (x + - h / 2) with (x - h / 2) in P by lra. replace (x - - h / 2) with (x + h / 2) in P by lra.
  replace ((u (x - h / 2) - u (x + h / 2)) / - h) with ((u (x + h / 2) - u (x - h / 2)) / h) in P by (field; lra).
  replace ((- h) ^ 2) with (h ^ 2) in P by ring. exact P.
Qed.

(** Sums over the cells of the box. *)
Lemma total_le_in n1 n2 u v : (forall i j, inb n1 i -> inb n2 j -> u i j <= v i j) -> total n1 n2 u <= total n1 n2 v.
Proof. intros H. unfold total. apply zsum_le; intros. apply zsum_le; intros. apply H; assumption. Qed.

Lemma total_const n1 n2 a : (0 <= n1)%Z -> (0 <= n2)%Z -> total n1 n2 (fun _ _ => a) = IZR n1 * IZR n2 * a.
Proof. intros. unfold total. rewrite (zsum_ext n1 _ (fun _ => IZR n2 * a)); [rewrite zsum_const by lia; ring|]. intros. apply zsum_const; lia. Qed.

Section Norm.
  Variables (n1 n2 : Z) (h1 h2 e m dt : R).
  Hypotheses (P1 : (0 < n1)%Z) (P2 : (0 < n2)%Z) (H1 : h1 <> 0) (H2 : h2 <> 0) (He : 0 < e) (Hm : 0 < m) (Hd : 0 < dt).

  Definition comb (a b : R) (Y Z : lattice) : lattice :=
    Lattice (fun i j => a * E1 Y i j + b * E1 Z i j) (fun i j => a * E2 Y i j + b * E2 Z i j) (fun i j => a * E3 Y i j + b * E3 Z i j)
            (fun i j => a * B1 Y i j + b * B1 Z i j) (fun i j => a * B2 Y i j + b * B2 Z i j) (fun i j => a * B3 Y i j + b * B3 Z i j).

  Lemma per_lin a b u v : per n1 n2 u -> per n1 n2 v -> per n1 n2 (fun i j => a * u i j + b * v i j).
  Proof using. intros (A&B) (C&D). split; intros; [rewrite A, C|rewrite B, D]; reflexivity. Qed.
  Lemma per_comb a b Y Z : per_lat n1 n2 Y -> per_lat n1 n2 Z -> per_lat n1 n2 (comb a b Y Z).
  Proof using. intros (A1&A2&A3&A4&A5&A6) (C1&C2&C3&C4&C5&C6). repeat split; cbn [comb E1 E2 E3 B1 B2 B3]; apply per_lin; assumption. Qed.

  Definition gd (Y : lattice) (i j : Z) : R :=
    e * (E1 Y i j ^ 2 + E2 Y i j ^ 2 + E3 Y i j ^ 2)
    + (B1 Y i j * (B1 Y i j + dt * bwd2 h2 (E3 Y) i j) + B2 Y i j * (B2 Y i j - dt * bwd1 h1 (E3 Y) i j)
       + B3 Y i j * (B3 Y i j + dt * (bwd1 h1 (E2 Y) i j - bwd2 h2 (E1 Y) i j))) / m.
  Definition G (Y : lattice) : R := total n1 n2 (gd Y).
  Definition N2 (Y : lattice) : R := field_norm2 n1 n2 e m Y.
  Definition none : grid := fun _ _ => 0.
  Definition S0 (Y : lattice) : lattice := yee_step h1 h2 e m dt none none none Y.

  Lemma per_bwd1 u : per n1 n2 u -> per n1 n2 (bwd1 h1 u).
  Proof using.
    intros H. pose proof (per_sub1 n1 n2 u 1 H) as (X&X'). destruct H as (Y0&Y1).
    split; intros; unfold bwd1; [specialize (X i j)|specialize (X' i j)]; cbv beta in *; rewrite ?X, ?X', ?Y0, ?Y1; reflexivity.
  Qed.
  Lemma per_bwd2 u : per n1 n2 u -> per n1 n2 (bwd2 h2 u).
  Proof using.
    intros H. pose proof (per_sub2 n1 n2 u 1 H) as (X&X'). destruct H as (Y0&Y1).
    split; intros; unfold bwd2; [specialize (X i j)|specialize (X' i j)]; cbv beta in *; rewrite ?X, ?X', ?Y0, ?Y1; reflexivity.
  Qed.
  Lemma per_none : per n1 n2 none. Proof using. split; reflexivity. Qed.

  (** The state one step before. *)
  Definition before (Y : lattice) : lattice :=
    let c1 := fun i j => B1 Y i j + dt * bwd2 h2 (E3 Y) i j in let c2 := fun i j => B2 Y i j - dt * bwd1 h1 (E3 Y) i j in
    let c3 := fun i j => B3 Y i j + dt * (bwd1 h1 (E2 Y) i j - bwd2 h2 (E1 Y) i j) in
    Lattice (fun i j => E1 Y i j - dt * (fwd2 h2 c3 i j / (m * e))) (fun i j => E2 Y i j - dt * (- fwd1 h1 c3 i j / (m * e)))
            (fun i j => E3 Y i j - dt * ((fwd1 h1 c2 i j - fwd2 h2 c1 i j) / (m * e))) c1 c2 c3.

  Lemma before_step Y : same Y (S0 (before Y)).
  Proof using He.
    unfold S0, yee_step, faraday, ampere, before, none. cbv zeta. repeat split; intros i j; cbn [E1 E2 E3 B1 B2 B3]; unfold Rdiv at 1; try (unfold Rdiv; ring).
    - unfold bwd2; cbn. unfold Rdiv. ring.
    - unfold bwd1; cbn. unfold Rdiv. ring.
    - unfold bwd1, bwd2; cbn. unfold Rdiv. ring.
  Qed.

  Lemma G_step Y : per_lat n1 n2 Y -> G (S0 Y) = G Y.
  Proof using P1 P2 H1 H2 He Hm.
    intros PY.
    assert (PS : per_lat n1 n2 (S0 Y)) by (apply yee_step_per; auto using per_none).
    assert (X : energy n1 n2 e m Y (S0 Y) = energy n1 n2 e m (before Y) Y).
    { apply (energy_conserved n1 n2 P1 P2 h1 h2 e m dt none none none); auto; try lra; try reflexivity.
      - apply before_step.
      - apply same_refl. }
    transitivity (energy n1 n2 e m Y (S0 Y)); [|rewrite X]; unfold G, energy; apply total_ext; intros i j; unfold gd.
    - f_equal. f_equal. unfold S0, yee_step, faraday; cbn [E1 E2 E3 B1 B2 B3 ampere]. ring.
    - f_equal. f_equal. unfold before; cbn [B1 B2 B3]. ring.
  Qed.

  Lemma two_sided a b l : 0 < l -> Rabs (a * b) <= l * a ^ 2 + / (4 * l) * b ^ 2.
  Proof using.
    intros L.
    assert (A : 0 <= / (4 * l) * (2 * l * a + b) ^ 2) by (apply Rmult_le_pos; [left; apply Rinv_0_lt_compat; lra|apply pow2_ge_0]).
    assert (B : 0 <= / (4 * l) * (2 * l * a - b) ^ 2) by (apply Rmult_le_pos; [left; apply Rinv_0_lt_compat; lra|apply pow2_ge_0]).
    replace (/ (4 * l) * (2 * l * a + b) ^ 2) with (l * a ^ 2 + / (4 * l) * b ^ 2 + a * b) in A by (field; lra).
    replace (/ (4 * l) * (2 * l * a - b) ^ 2) with (l * a ^ 2 + / (4 * l) * b ^ 2 - a * b) in B by (field; lra).
    apply Rabs_le. lra.
  Qed.

  Definition kappa : R := sqrt (courant2 h1 h2 e m dt).

  Lemma inv2_pos h : h <> 0 -> 0 < / h ^ 2.
  Proof using. intros H. apply Rinv_0_lt_compat. assert (Z := pow2_ge_0 h). assert (h ^ 2 <> 0) by (apply pow_nonzero, H). lra. Qed.

  Lemma kappa_pos : 0 < kappa /\ kappa ^ 2 = courant2 h1 h2 e m dt.
  Proof using H1 H2 He Hm Hd.
    assert (C : 0 < courant2 h1 h2 e m dt).
    { unfold courant2. apply Rdiv_lt_0_compat; [|nra]. assert (A := inv2_pos h1 H1). assert (B := inv2_pos h2 H2).
      apply Rmult_lt_0_compat; [nra|lra]. }
    split; [apply sqrt_lt_R0, C|]. unfold kappa. apply pow2_sqrt. lra.
  Qed.

  (** The cross terms. *)
  Lemma cross Y : per_lat n1 n2 Y -> Rabs (G Y - N2 Y) <= kappa * N2 Y.
  Proof using P1 P2 H1 H2 He Hm Hd.
    intros (A1&A2&A3&_&_&_). destruct kappa_pos as (K0&KK).
    assert (I1 := inv2_pos h1 H1). assert (I2 := inv2_pos h2 H2).
    assert (KE : dt ^ 2 * (/ h1 ^ 2 + / h2 ^ 2) / (4 * kappa * m) = kappa * e / 4).
    { unfold courant2 in KK. replace (dt ^ 2 * (/ h1 ^ 2 + / h2 ^ 2) / (4 * kappa * m))
        with ((dt ^ 2 * (/ h1 ^ 2 + / h2 ^ 2) / (m * e)) * e / (4 * kappa)) by (field; repeat split; lra).
      rewrite <- KK. field. lra. }
    set (l := kappa / m). assert (L0 : 0 < l) by (apply Rdiv_lt_0_compat; lra).
    set (q := dt ^ 2 / (4 * kappa * m)).
    assert (Q0 : 0 < q) by (unfold q; apply Rdiv_lt_0_compat; [apply pow_lt, Hd|apply Rmult_lt_0_compat; lra]).
    assert (QE : q * (/ h1 ^ 2 + / h2 ^ 2) = kappa * e / 4) by (rewrite <- KE; unfold q; field; repeat split; lra).
    (* pointwise *)
    set (bound := fun i j => l * (B1 Y i j ^ 2 + B2 Y i j ^ 2 + B3 Y i j ^ 2)
      + 2 * (q * / h2 ^ 2) * (E3 Y i j ^ 2 + E3 Y i (j - 1)%Z ^ 2) + 2 * (q * / h1 ^ 2) * (E3 Y i j ^ 2 + E3 Y (i - 1)%Z j ^ 2)
      + kappa * e / 2 * (E2 Y i j ^ 2 + E2 Y (i - 1)%Z j ^ 2 + (E1 Y i j ^ 2 + E1 Y i (j - 1)%Z ^ 2))).
    assert (PW : forall i j, Rabs (gd Y i j - (e * (E1 Y i j ^ 2 + E2 Y i j ^ 2 + E3 Y i j ^ 2)
        + (B1 Y i j ^ 2 + B2 Y i j ^ 2 + B3 Y i j ^ 2) / m)) <= bound i j).
    { intros i j. unfold gd, bound, bwd1, bwd2.
      assert (YG : forall b x, Rabs (dt / m * (b * x)) <= l * b ^ 2 + q * x ^ 2).
      { intros b x. replace (dt / m * (b * x)) with (b * (dt / m * x)) by ring. eapply Rle_trans; [apply (two_sided _ _ l L0)|].
        right. unfold l, q. field. split; lra. }
      assert (SQ : forall x y, (x - y) ^ 2 <= 2 * (x ^ 2 + y ^ 2)) by (intros x y; assert (Z := pow2_ge_0 (x + y)); nra).
      set (b1 := B1 Y i j). set (b2 := B2 Y i j). set (b3 := B3 Y i j).
      set (x := E3 Y i j). set (x1 := E3 Y (i - 1)%Z j). set (x2 := E3 Y i (j - 1)%Z).
      set (y := E2 Y i j). set (y1 := E2 Y (i - 1)%Z j). set (z := E1 Y i j). set (z2 := E1 Y i (j - 1)%Z).
      assert (T1 := YG b1 ((x - x2) / h2)). assert (T2 := YG b2 ((x - x1) / h1)). assert (T3 := YG b3 ((y - y1) / h1 - (z - z2) / h2)).
      assert (W1 : q * ((x - x2) / h2) ^ 2 <= 2 * (q * / h2 ^ 2) * (x ^ 2 + x2 ^ 2)).
      { replace (((x - x2) / h2) ^ 2) with (/ h2 ^ 2 * (x - x2) ^ 2) by (field; assumption).
        replace (2 * (q * / h2 ^ 2) * (x ^ 2 + x2 ^ 2)) with (q * / h2 ^ 2 * (2 * (x ^ 2 + x2 ^ 2))) by ring.
        rewrite <- Rmult_assoc. apply Rmult_le_compat_l; [apply Rmult_le_pos; lra|apply SQ]. }
      assert (W2 : q * ((x - x1) / h1) ^ 2 <= 2 * (q * / h1 ^ 2) * (x ^ 2 + x1 ^ 2)).
      { replace (((x - x1) / h1) ^ 2) with (/ h1 ^ 2 * (x - x1) ^ 2) by (field; assumption).
        replace (2 * (q * / h1 ^ 2) * (x ^ 2 + x1 ^ 2)) with (q * / h1 ^ 2 * (2 * (x ^ 2 + x1 ^ 2))) by ring.
        rewrite <- Rmult_assoc. apply Rmult_le_compat_l; [apply Rmult_le_pos; lra|apply SQ]. }
      assert (W3 : q * ((y - y1) / h1 - (z - z2) / h2) ^ 2 <= kappa * e / 2 * (y ^ 2 + y1 ^ 2 + (z ^ 2 + z2 ^ 2))).
      { apply Rle_trans with (q * ((/ h1 ^ 2 + / h2 ^ 2) * ((y - y1) ^ 2 + (z - z2) ^ 2))).
        - apply Rmult_le_compat_l; [lra|].
          assert (Z : 0 <= ((y - y1) / h2 + (z - z2) / h1) ^ 2) by apply pow2_ge_0.
          replace ((/ h1 ^ 2 + / h2 ^ 2) * ((y - y1) ^ 2 + (z - z2) ^ 2))
            with (((y - y1) / h1 - (z - z2) / h2) ^ 2 + ((y - y1) / h2 + (z - z2) / h1) ^ 2) by (field; split; assumption). lra.
        - rewrite <- Rmult_assoc, QE. replace (kappa * e / 2 * (y ^ 2 + y1 ^ 2 + (z ^ 2 + z2 ^ 2)))
            with (kappa * e / 4 * (2 * (y ^ 2 + y1 ^ 2) + 2 * (z ^ 2 + z2 ^ 2))) by field.
          apply Rmult_le_compat_l; [nra|]. assert (U1 := SQ y y1). assert (U2 := SQ z z2). lra. }
      replace (e * (z ^ 2 + y ^ 2 + x ^ 2)
        + (b1 * (b1 + dt * ((x - x2) / h2)) + b2 * (b2 - dt * ((x - x1) / h1)) + b3 * (b3 + dt * ((y - y1) / h1 - (z - z2) / h2))) / m
        - (e * (z ^ 2 + y ^ 2 + x ^ 2) + (b1 ^ 2 + b2 ^ 2 + b3 ^ 2) / m))
        with (dt / m * (b1 * ((x - x2) / h2)) - dt / m * (b2 * ((x - x1) / h1)) + dt / m * (b3 * ((y - y1) / h1 - (z - z2) / h2)))
        by (unfold Rdiv; ring).
      apply abs_two in T1. apply abs_two in T2. apply abs_two in T3. apply Rabs_le. lra. }
    assert (TB : total n1 n2 bound = kappa * N2 Y).
    { unfold bound, N2, field_norm2.
      assert (SH1 : forall u, per n1 n2 u -> total n1 n2 (fun i j => u (i - 1)%Z j) = total n1 n2 u).
      { intros u PU. apply (total_shift1 n1 n2 P1 (-1) u PU). }
      assert (SH2 : forall u, per n1 n2 u -> total n1 n2 (fun i j => u i (j - 1)%Z) = total n1 n2 u).
      { intros u PU. apply (total_shift2 n1 n2 P2 (-1) u PU). }
      rewrite (total_ext n1 n2 _ (fun i j =>
        (l * (B1 Y i j ^ 2 + B2 Y i j ^ 2 + B3 Y i j ^ 2)
         + (2 * (q * / h2 ^ 2) * E3 Y i j ^ 2 + 2 * (q * / h1 ^ 2) * E3 Y i j ^ 2 + kappa * e / 2 * (E2 Y i j ^ 2 + E1 Y i j ^ 2)))
        + (2 * (q * / h2 ^ 2) * (fun i j => E3 Y i j ^ 2) i (j - 1)%Z + 2 * (q * / h1 ^ 2) * (fun i j => E3 Y i j ^ 2) (i - 1)%Z j
           + (kappa * e / 2 * (fun i j => E2 Y i j ^ 2) (i - 1)%Z j + kappa * e / 2 * (fun i j => E1 Y i j ^ 2) i (j - 1)%Z))))
        by (intros; cbv beta; ring).
      rewrite !total_plus, !total_scal.
      rewrite (SH2 (fun i j => E3 Y i j ^ 2)), (SH1 (fun i j => E3 Y i j ^ 2)), (SH1 (fun i j => E2 Y i j ^ 2)), (SH2 (fun i j => E1 Y i j ^ 2))
        by (apply per_sq; assumption).
      rewrite <- !total_scal, <- !total_plus. rewrite <- total_scal. apply total_ext. intros i j.
      replace (2 * (q * / h2 ^ 2) * E3 Y i j ^ 2) with (2 * (q * (/ h1 ^ 2 + / h2 ^ 2)) * E3 Y i j ^ 2 - 2 * (q * / h1 ^ 2) * E3 Y i j ^ 2) by ring.
      rewrite QE. unfold l. field. lra. }
    rewrite <- TB. unfold G, N2, field_norm2. rewrite <- total_minus.
    apply Rabs_le. split.
    - replace (- total n1 n2 bound) with (total n1 n2 (fun i j => -1 * bound i j)) by (rewrite total_scal; ring).
      apply total_le. intros i j. specialize (PW i j). apply abs_two in PW. lra.
    - apply total_le. intros i j. specialize (PW i j). apply abs_two in PW. lra.
  Qed.

  Hypothesis (CO : courant2 h1 h2 e m dt < 1).

  Lemma kappa_lt : kappa < 1.
  Proof using CO H1 H2 He Hm Hd. destruct kappa_pos as (K0&KK). nra. Qed.

  Lemma N2_nonneg Y : 0 <= N2 Y.
  Proof using He Hm.
    unfold N2, field_norm2. apply total_nonneg. intros i j.
    assert (A := pow2_ge_0 (E1 Y i j)). assert (B := pow2_ge_0 (E2 Y i j)). assert (C := pow2_ge_0 (E3 Y i j)).
    assert (A' := pow2_ge_0 (B1 Y i j)). assert (B' := pow2_ge_0 (B2 Y i j)). assert (C' := pow2_ge_0 (B3 Y i j)).
    apply Rplus_le_le_0_compat; [nra|]. unfold Rdiv. apply Rmult_le_pos; [lra|]. left. apply Rinv_0_lt_compat, Hm.
  Qed.

  Lemma G_between Y : per_lat n1 n2 Y -> (1 - kappa) * N2 Y <= G Y <= (1 + kappa) * N2 Y.
  Proof using P1 P2 H1 H2 He Hm Hd. intros PY. assert (C := abs_two _ _ (cross Y PY)). lra. Qed.
  Lemma G_nonneg Y : per_lat n1 n2 Y -> 0 <= G Y.
  Proof using CO P1 P2 H1 H2 He Hm Hd.
    intros PY. assert (C := G_between Y PY). assert (K := kappa_lt). assert (N := N2_nonneg Y). nra.
  Qed.

  Lemma G_same Y Z : same Y Z -> G Y = G Z.
  Proof using.
    intros (A1&A2&A3&A4&A5&A6). unfold G. apply total_ext. intros i j. unfold gd, bwd1, bwd2.
    rewrite !A1, !A2, !A3, !A4, !A5, !A6. reflexivity.
  Qed.

  Lemma sqrt_sum x a b : 0 <= a -> 0 <= b -> 0 <= x -> (forall s, 0 < s -> x <= (1 + s) * a ^ 2 + (1 + / s) * b ^ 2) -> sqrt x <= a + b.
  Proof using.
    intros A B X H. apply le_epsilon. intros eta ET. set (n := eta / 2). assert (N : 0 < n) by (unfold n; lra).
    set (s := (b + n) / (a + n)). assert (S : 0 < s) by (apply Rdiv_lt_0_compat; lra).
    rewrite <- (sqrt_pow2 (a + b + eta)) by lra. apply sqrt_le_1_alt. eapply Rle_trans; [apply (H s S)|].
    apply Rle_trans with ((1 + s) * (a + n) ^ 2 + (1 + / s) * (b + n) ^ 2).
    - assert (I := Rinv_0_lt_compat s S). apply Rplus_le_compat; apply Rmult_le_compat_l; try lra; apply pow_incr; lra.
    - right. unfold s, n. field. split; lra.
  Qed.

  Lemma triangle Y Z X : per_lat n1 n2 Y -> per_lat n1 n2 Z -> same X (comb 1 1 Y Z) -> sqrt (G X) <= sqrt (G Y) + sqrt (G Z).
  Proof using CO P1 P2 H1 H2 He Hm Hd.
    intros PY PZ SX. rewrite (G_same _ _ SX).
    assert (GY := G_nonneg Y PY). assert (GZ := G_nonneg Z PZ). assert (GX := G_nonneg _ (per_comb 1 1 _ _ PY PZ)).
    apply sqrt_sum; try apply sqrt_pos; auto. intros s S. rewrite !pow2_sqrt by assumption.
    set (r := sqrt s). assert (R0 : 0 < r) by (apply sqrt_lt_R0, S). assert (RS : r * r = s) by (apply sqrt_sqrt; lra).
    assert (GD := G_nonneg _ (per_comb r (- / r) _ _ PY PZ)).
    assert (X0 : G (comb r (- / r) Y Z) = (1 + s) * G Y + (1 + / s) * G Z - G (comb 1 1 Y Z)).
    { unfold G. rewrite <- !total_scal, <- total_plus, <- total_minus. apply total_ext. intros i j.
      unfold gd, bwd1, bwd2, comb; cbn [E1 E2 E3 B1 B2 B3]. rewrite <- RS. field. repeat split; try assumption; lra. }
    lra.
  Qed.

  (** What a step makes of an error, and the error it adds. *)
  Lemma error_step D D' tE tB : per_lat n1 n2 D -> per_lat n1 n2 D' -> 0 <= tE -> 0 <= tB ->
    let S := S0 D in
    let f1 := fun i j => E1 D' i j - E1 S i j in let f2 := fun i j => E2 D' i j - E2 S i j in let f3 := fun i j => E3 D' i j - E3 S i j in
    (forall i j, inb n1 i -> inb n2 j -> Rabs (f1 i j) <= tE /\ Rabs (f2 i j) <= tE /\ Rabs (f3 i j) <= tE
      /\ Rabs (B1 D' i j - B1 S i j + dt * bwd2 h2 f3 i j) <= tB /\ Rabs (B2 D' i j - B2 S i j - dt * bwd1 h1 f3 i j) <= tB
      /\ Rabs (B3 D' i j - B3 S i j + dt * (bwd1 h1 f2 i j - bwd2 h2 f1 i j)) <= tB) ->
    sqrt (G D') <= sqrt (G D) + sqrt (3 * (IZR n1 * IZR n2)) * (sqrt e * tE + tB / sqrt m).
  Proof using CO P1 P2 H1 H2 He Hm Hd.
    intros PD PD' TE TB S f1 f2 f3 H.
    assert (PS : per_lat n1 n2 S) by (apply yee_step_per; auto using per_none).
    assert (PF : forall k, per_lat n1 n2 k -> per_lat n1 n2 k) by auto.
    destruct PD' as (A1&A2&A3&A4&A5&A6) eqn:EA. clear EA. destruct PS as (C1&C2&C3&C4&C5&C6) eqn:EC. clear EC.
    assert (F1 : per n1 n2 f1) by (destruct A1 as (X&X'), C1 as (V&V'); split; intros; unfold f1; rewrite ?X, ?X', ?V, ?V'; reflexivity).
    assert (F2 : per n1 n2 f2) by (destruct A2 as (X&X'), C2 as (V&V'); split; intros; unfold f2; rewrite ?X, ?X', ?V, ?V'; reflexivity).
    assert (F3 : per n1 n2 f3) by (destruct A3 as (X&X'), C3 as (V&V'); split; intros; unfold f3; rewrite ?X, ?X', ?V, ?V'; reflexivity).
    set (U := Lattice f1 f2 f3 (fun i j => - (dt * bwd2 h2 f3 i j)) (fun i j => dt * bwd1 h1 f3 i j)
                (fun i j => - (dt * (bwd1 h1 f2 i j - bwd2 h2 f1 i j)))).
    set (V := Lattice none none none (fun i j => B1 D' i j - B1 S i j + dt * bwd2 h2 f3 i j)
                (fun i j => B2 D' i j - B2 S i j - dt * bwd1 h1 f3 i j)
                (fun i j => B3 D' i j - B3 S i j + dt * (bwd1 h1 f2 i j - bwd2 h2 f1 i j))).
    assert (PU : per_lat n1 n2 U).
    { destruct (per_bwd2 f3 F3) as (a&a'), (per_bwd1 f3 F3) as (b&b'), (per_bwd1 f2 F2) as (d&d'), (per_bwd2 f1 F1) as (g&g').
      unfold U, per_lat; cbn [E1 E2 E3 B1 B2 B3]. split; [exact F1|]. split; [exact F2|]. split; [exact F3|].
      repeat split; intros; rewrite ?a, ?a', ?b, ?b', ?d, ?d', ?g, ?g'; reflexivity. }
    assert (PV : per_lat n1 n2 V).
    { destruct (per_bwd2 f3 F3) as (a&a'), (per_bwd1 f3 F3) as (b&b'), (per_bwd1 f2 F2) as (d&d'), (per_bwd2 f1 F1) as (g&g').
      destruct A4 as (x4&y4), A5 as (x5&y5), A6 as (x6&y6), C4 as (z4&w4), C5 as (z5&w5), C6 as (z6&w6).
      unfold V, per_lat; cbn [E1 E2 E3 B1 B2 B3].
      repeat split; intros; rewrite ?a, ?a', ?b, ?b', ?d, ?d', ?g, ?g', ?x4, ?x5, ?x6, ?y4, ?y5, ?y6, ?z4, ?z5, ?z6, ?w4, ?w5, ?w6; reflexivity. }
    assert (T1 : sqrt (G D') <= sqrt (G (comb 1 1 S U)) + sqrt (G V)).
    { apply triangle; [apply per_comb; assumption|assumption|].
      unfold U, V, none. repeat split; intros i j; cbn [comb E1 E2 E3 B1 B2 B3]; unfold f1, f2, f3; ring. }
    assert (T2 : sqrt (G (comb 1 1 S U)) <= sqrt (G S) + sqrt (G U)) by (apply triangle; [assumption|assumption|apply same_refl]).
    assert (GS : G S = G D) by (apply G_step; exact PD).
    assert (NP : 0 <= IZR n1 * IZR n2) by (apply Rmult_le_pos; apply IZR_le; lia).
    assert (SQ : forall x t, Rabs x <= t -> x ^ 2 <= t ^ 2).
    { intros x t X. rewrite <- (pow2_abs x). apply pow_incr. split; [apply Rabs_pos|exact X]. }
    assert (GU : G U <= 3 * (IZR n1 * IZR n2) * (e * tE ^ 2)).
    { unfold G. apply Rle_trans with (total n1 n2 (fun _ _ => 3 * (e * tE ^ 2))); [|rewrite total_const by lia; right; ring].
      apply total_le_in. intros i j I J. destruct (H i j I J) as (X1&X2&X3&_).
      apply SQ in X1. apply SQ in X2. apply SQ in X3.
      unfold gd, U; cbn [E1 E2 E3 B1 B2 B3].
      match goal with |- ?a + ?b / m <= _ => replace (b / m) with 0 by (unfold Rdiv; ring) end. nra. }
    assert (GV : G V <= 3 * (IZR n1 * IZR n2) * (tB ^ 2 / m)).
    { unfold G. apply Rle_trans with (total n1 n2 (fun _ _ => 3 * (tB ^ 2 / m))); [|rewrite total_const by lia; right; ring].
      apply total_le_in. intros i j I J. destruct (H i j I J) as (_&_&_&X1&X2&X3).
      apply SQ in X1. apply SQ in X2. apply SQ in X3.
      unfold gd, V; cbn [E1 E2 E3 B1 B2 B3].
      set (x := B1 D' i j - B1 S i j + dt * bwd2 h2 f3 i j) in *. set (y := B2 D' i j - B2 S i j - dt * bwd1 h1 f3 i j) in *.
      set (z := B3 D' i j - B3 S i j + dt * (bwd1 h1 f2 i j - bwd2 h2 f1 i j)) in *.
      replace (e * (none i j ^ 2 + none i j ^ 2 + none i j ^ 2) + (x * (x + dt * bwd2 h2 none i j) + y * (y - dt * bwd1 h1 none i j)
        + z * (z + dt * (bwd1 h1 none i j - bwd2 h2 none i j))) / m) with ((x ^ 2 + y ^ 2 + z ^ 2) * / m)
        by (unfold none, bwd1, bwd2, Rdiv; ring).
      replace (3 * (tB ^ 2 / m)) with ((tB ^ 2 + tB ^ 2 + tB ^ 2) * / m) by (unfold Rdiv; ring).
      apply Rmult_le_compat_r; [left; apply Rinv_0_lt_compat, Hm|lra]. }
    assert (SU : sqrt (G U) <= sqrt (3 * (IZR n1 * IZR n2)) * (sqrt e * tE)).
    { eapply Rle_trans; [apply sqrt_le_1_alt, GU|]. right.
      rewrite sqrt_mult; [|lra|apply Rmult_le_pos; [lra|apply pow2_ge_0]].
      rewrite (sqrt_mult e); [|lra|apply pow2_ge_0]. rewrite sqrt_pow2 by exact TE. reflexivity. }
    assert (SV : sqrt (G V) <= sqrt (3 * (IZR n1 * IZR n2)) * (tB / sqrt m)).
    { eapply Rle_trans; [apply sqrt_le_1_alt, GV|]. right.
      rewrite sqrt_mult; [|lra|unfold Rdiv; apply Rmult_le_pos; [apply pow2_ge_0|left; apply Rinv_0_lt_compat, Hm]].
      rewrite sqrt_div_alt by exact Hm. rewrite sqrt_pow2 by exact TB. reflexivity. }
    rewrite GS in T2. lra.
  Qed.
End Norm.

(** A step of the exact solution. *)
Section Exact.
  Variables (c : fcfg) (dt M : R) (H : history).
  Hypotheses (RG : regular c) (He : 0 < eps c) (Hm : 0 < mu c) (Hd : 0 < dt)
    (CO : courant2 (fdq1 c) (fdq2 c) (eps c) (mu c) dt < 1)
    (MX : obeys_maxwell (eps c) (mu c) M H) (BX : boxed c H).
  Local Notation n1 := (gN1 (flay c)).
  Local Notation n2 := (gN2 (flay c)).
  Local Notation h1 := (fdq1 c).
  Local Notation h2 := (fdq2 c).

  Lemma sizes : (0 < n1)%Z /\ (0 < n2)%Z /\ h1 <> 0 /\ h2 <> 0.
  Proof using RG. destruct RG as ((((P1&_)&(P2&_)&_)&_)&_&_&A&B). repeat split; auto; lia. Qed.

  Lemma placed_per o1 o2 g : periodic_potential c g -> per n1 n2 (placed c o1 o2 g).
  Proof using RG.
    intros PG. destruct sizes as (P1&P2&_).
    assert (T1 : forall (k : Z) x y, g (x + IZR k * (IZR n1 * h1)) y = g x y).
    { assert (N : forall (k : nat) x y, g (x + INR k * (IZR n1 * h1)) y = g x y).
      { induction k as [|k IH]; intros x y; [rewrite Rmult_0_l, Rplus_0_r; reflexivity|].
        rewrite S_INR. replace (x + (INR k + 1) * (IZR n1 * h1)) with (x + INR k * (IZR n1 * h1) + IZR n1 * h1) by ring.
        rewrite (proj1 (PG _ _)). apply IH. }
      intros k x y. destruct (Z_le_gt_dec 0 k) as [K|K].
      - rewrite <- (Z2Nat.id k K), <- INR_IZR_INZ. apply N.
      - rewrite <- (N (Z.to_nat (- k)) (x + IZR k * (IZR n1 * h1)) y). rewrite INR_IZR_INZ, Z2Nat.id, opp_IZR by lia. f_equal. ring. }
    assert (T2 : forall (k : Z) x y, g x (y + IZR k * (IZR n2 * h2)) = g x y).
    { assert (N : forall (k : nat) x y, g x (y + INR k * (IZR n2 * h2)) = g x y).
      { induction k as [|k IH]; intros x y; [rewrite Rmult_0_l, Rplus_0_r; reflexivity|].
        rewrite S_INR. replace (y + (INR k + 1) * (IZR n2 * h2)) with (y + INR k * (IZR n2 * h2) + IZR n2 * h2) by ring.
        rewrite (proj2 (PG _ _)). apply IH. }
      intros k x y. destruct (Z_le_gt_dec 0 k) as [K|K].
      - rewrite <- (Z2Nat.id k K), <- INR_IZR_INZ. apply N.
      - rewrite <- (N (Z.to_nat (- k)) x (y + IZR k * (IZR n2 * h2))). rewrite INR_IZR_INZ, Z2Nat.id, opp_IZR by lia. f_equal. ring. }
    split; intros i j; unfold placed.
    - rewrite <- (T1 (i / n1)%Z). f_equal. pose proof (Z.div_mod i n1) as D. apply (f_equal IZR) in D; [|lia].
      rewrite plus_IZR, mult_IZR in D. rewrite D. ring.
    - rewrite <- (T2 (j / n2)%Z). f_equal. pose proof (Z.div_mod j n2) as D. apply (f_equal IZR) in D; [|lia].
      rewrite plus_IZR, mult_IZR in D. rewrite D. ring.
  Qed.

  Lemma sampled_per t : per_lat n1 n2 (sampled c dt t H).
  Proof using RG BX.
    destruct (BX t) as (A1&A2&A3&_). destruct (BX (t + dt / 2)) as (_&_&_&A4&A5&A6).
    unfold sampled, leapfrog, on_yee_grid, per_lat; cbn [E1 E2 E3 B1 B2 B3 fst snd].
    repeat match goal with |- _ /\ _ => split end; apply placed_per; assumption.
  Qed.

  Lemma quot_x u u' o i j t : diff_x M u u' ->
    Rabs (fwd1 h1 (placed c 0 o (u t)) i j - placed c (1/2) o (u' t) i j) <= M / 24 * h1 ^ 2
    /\ Rabs (bwd1 h1 (placed c (1/2) o (u t)) i j - placed c 0 o (u' t) i j) <= M / 24 * h1 ^ 2.
  Proof using RG.
    intros DX. destruct sizes as (_&_&A&_). unfold fwd1, bwd1, placed. rewrite plus_IZR, minus_IZR. set (y := fq2_start c + (IZR j + o) * h2). split.
    - set (x := fq1_start c + (IZR i + 1/2) * h1).
      replace (fq1_start c + (IZR i + 1 + 0) * h1) with (x + h1 / 2) by (unfold x; lra).
      replace (fq1_start c + (IZR i + 0) * h1) with (x - h1 / 2) by (unfold x; lra).
      exact (quotient M _ _ x h1 (DX t y) A).
    - set (x := fq1_start c + (IZR i + 0) * h1).
      replace (fq1_start c + (IZR i + 1 / 2) * h1) with (x + h1 / 2) by (unfold x; lra).
      replace (fq1_start c + (IZR i - 1 + 1 / 2) * h1) with (x - h1 / 2) by (unfold x; lra).
      exact (quotient M _ _ x h1 (DX t y) A).
  Qed.
  Lemma quot_y u u' o i j t : diff_y M u u' ->
    Rabs (fwd2 h2 (placed c o 0 (u t)) i j - placed c o (1/2) (u' t) i j) <= M / 24 * h2 ^ 2
    /\ Rabs (bwd2 h2 (placed c o (1/2) (u t)) i j - placed c o 0 (u' t) i j) <= M / 24 * h2 ^ 2.
  Proof using RG.
    intros DY. destruct sizes as (_&_&_&A). unfold fwd2, bwd2, placed. rewrite plus_IZR, minus_IZR. set (x := fq1_start c + (IZR i + o) * h1). split.
    - set (y := fq2_start c + (IZR j + 1/2) * h2).
      replace (fq2_start c + (IZR j + 1 + 0) * h2) with (y + h2 / 2) by (unfold y; lra).
      replace (fq2_start c + (IZR j + 0) * h2) with (y - h2 / 2) by (unfold y; lra).
      exact (quotient M _ _ y h2 (DY t x) A).
    - set (y := fq2_start c + (IZR j + 0) * h2).
      replace (fq2_start c + (IZR j + 1 / 2) * h2) with (y + h2 / 2) by (unfold y; lra).
      replace (fq2_start c + (IZR j - 1 + 1 / 2) * h2) with (y - h2 / 2) by (unfold y; lra).
      exact (quotient M _ _ y h2 (DY t x) A).
  Qed.
  Lemma quot_t u u' o1 o2 i j t : diff_t M u u' ->
    Rabs (placed c o1 o2 (u (t + dt)) i j - placed c o1 o2 (u t) i j - dt * placed c o1 o2 (u' (t + dt / 2)) i j) <= dt * (M / 24 * dt ^ 2).
  Proof using Hd.
    intros DT. unfold placed. set (x := fq1_start c + _). set (y := fq2_start c + _).
    assert (Q := quotient M _ _ (t + dt / 2) dt (DT x y) ltac:(lra)). cbv beta in Q.
    replace (t + dt / 2 + dt / 2) with (t + dt) in Q by lra. replace (t + dt / 2 - dt / 2) with t in Q by lra.
    replace (u (t + dt) x y - u t x y - dt * u' (t + dt / 2) x y) with (dt * ((u (t + dt) x y - u t x y) / dt - u' (t + dt / 2) x y)) by (field; lra).
    rewrite Rabs_mult, (Rabs_right dt) by lra. apply Rmult_le_compat_l; [lra|exact Q].
  Qed.

  Definition tE : R := dt * (M / 24 * (dt ^ 2 + (h1 ^ 2 + h2 ^ 2) / (mu c * eps c))).
  Definition tB : R := dt * (M / 24 * (dt ^ 2 + h1 ^ 2 + h2 ^ 2)).

  Lemma M_nonneg : 0 <= M.
  Proof using MX.
    destruct MX as (e1t&_&_&_&_&_&_&_&_&_&_&_&_&_&D&_). destruct (D 0 0) as (_&B). specialize (B 0 1).
    assert (Z := Rabs_pos (e1t (0 + 1) 0 0 + e1t (0 - 1) 0 0 - 2 * e1t 0 0 0)). lra.
  Qed.

  Lemma add_up x x' F d jj q a b g : 0 <= dt -> 0 <= q -> Rabs (x' - x - dt * (d * q - jj)) <= a -> Rabs (F - d) <= b ->
    a + dt * (b * q) <= g -> Rabs (x + dt * (F * q - jj) - x') <= g.
  Proof using Hd.
    intros D Q A B G. apply abs_two in A. apply abs_two in B.
    assert (Q1 : dt * ((F - d) * q) <= dt * (b * q)) by (apply Rmult_le_compat_l; [lra|]; apply Rmult_le_compat_r; lra).
    assert (Q2 : dt * (- b * q) <= dt * ((F - d) * q)) by (apply Rmult_le_compat_l; [lra|]; apply Rmult_le_compat_r; lra).
    apply Rabs_le. lra.
  Qed.
  Lemma opp_up F d b : Rabs (F - d) <= b -> Rabs (- F - - d) <= b.
  Proof using. intros A. apply abs_two in A. apply Rabs_le. lra. Qed.
  Lemma sub_up F d b F' d' b' : Rabs (F - d) <= b -> Rabs (F' - d') <= b' -> Rabs (F - F' - (d - d')) <= b + b'.
  Proof using. intros A B. apply abs_two in A. apply abs_two in B. apply Rabs_le. lra. Qed.
  Lemma change1 x x' k F : x - x' - k * F = x + k * (- F * 1 - 0) - x'. Proof using. ring. Qed.
  Lemma change2 x x' k F : x - x' + k * F = x + k * (F * 1 - 0) - x'. Proof using. ring. Qed.

  (** The residual of the solution in one step. *)
  Lemma residual t J1 J2 J3 i j :
    J1 i j = placed c 0 (1/2) (hj1 H (t + dt / 2)) i j -> J2 i j = placed c (1/2) 0 (hj2 H (t + dt / 2)) i j ->
    J3 i j = placed c (1/2) (1/2) (hj3 H (t + dt / 2)) i j ->
    let X := sampled c dt t H in let X' := sampled c dt (t + dt) H in
    let A := ampere h1 h2 (eps c) (mu c) dt J1 J2 J3 X in
    Rabs (E1 A i j - E1 X' i j) <= tE /\ Rabs (E2 A i j - E2 X' i j) <= tE /\ Rabs (E3 A i j - E3 X' i j) <= tE
    /\ Rabs (B1 X i j - B1 X' i j - dt * bwd2 h2 (E3 X') i j) <= tB
    /\ Rabs (B2 X i j - B2 X' i j + dt * bwd1 h1 (E3 X') i j) <= tB
    /\ Rabs (B3 X i j - B3 X' i j - dt * (bwd1 h1 (E2 X') i j - bwd2 h2 (E1 X') i j)) <= tB.
  Proof using RG He Hm Hd MX.
    intros Z1 Z2 Z3 X X' A. assert (M0 := M_nonneg).
    assert (ME : 0 < / (mu c * eps c)) by (apply Rinv_0_lt_compat, Rmult_lt_0_compat; assumption).
    destruct MX as (e1t&e1y&e2t&e2x&e3t&e3x&e3y&b1t&b1y&b2t&b2x&b3t&b3x&b3y&T1&Y1&T2&X2&T3&X3&Y3&U1&V1&U2&V2&U3&V3&W3&EQ).
    unfold A, X, X', sampled, leapfrog, on_yee_grid, ampere; cbn [E1 E2 E3 B1 B2 B3 fst snd]. rewrite Z1, Z2, Z3.
    assert (S1 : 0 <= M / 24 * h1 ^ 2) by (apply Rmult_le_pos; [lra|apply pow2_ge_0]).
    assert (S2 : 0 <= M / 24 * h2 ^ 2) by (apply Rmult_le_pos; [lra|apply pow2_ge_0]).
    assert (SE : tE = dt * (M / 24 * dt ^ 2) + dt * ((M / 24 * h1 ^ 2 + M / 24 * h2 ^ 2) * / (mu c * eps c))).
    { unfold tE, Rdiv. ring. }
    assert (SB : tB = dt * (M / 24 * dt ^ 2) + dt * (M / 24 * h1 ^ 2 + M / 24 * h2 ^ 2)) by (unfold tB; ring).
    assert (D0 : 0 <= dt) by lra.
    assert (SE' : forall k, 0 <= k <= M / 24 * h1 ^ 2 + M / 24 * h2 ^ 2 -> dt * (M / 24 * dt ^ 2) + dt * (k * / (mu c * eps c)) <= tE).
    { intros k K. rewrite SE. apply Rplus_le_compat_l, Rmult_le_compat_l; [lra|]. apply Rmult_le_compat_r; lra. }
    assert (SB' : forall k, 0 <= k <= M / 24 * h1 ^ 2 + M / 24 * h2 ^ 2 -> dt * (M / 24 * dt ^ 2) + dt * (k * 1) <= tB).
    { intros k K. rewrite SB. apply Rplus_le_compat_l, Rmult_le_compat_l; lra. }
    replace (t + dt + dt / 2) with (t + dt / 2 + dt) by ring. set (th := t + dt / 2).
    assert (TH : th + dt / 2 = t + dt) by (unfold th; lra).
    split; [|split; [|split; [|split; [|split]]]].
    - assert (P := quot_t _ _ 0 (1/2) i j t T1). fold th in P.
      assert (Q := proj1 (quot_y _ _ 0 i j th W3)).
      assert (EQ' : placed c 0 (1/2) (e1t th) i j = placed c 0 (1/2) (b3y th) i j / (mu c * eps c) - placed c 0 (1/2) (hj1 H th) i j / eps c)
        by (unfold placed; apply EQ).
      rewrite EQ' in P. refine (add_up _ _ _ _ _ _ _ _ _ D0 (Rlt_le _ _ ME) P Q (SE' _ _)). lra.
    - assert (P := quot_t _ _ (1/2) 0 i j t T2). fold th in P.
      assert (Q := opp_up _ _ _ (proj1 (quot_x _ _ 0 i j th V3))).
      assert (EQ' : placed c (1/2) 0 (e2t th) i j = - placed c (1/2) 0 (b3x th) i j / (mu c * eps c) - placed c (1/2) 0 (hj2 H th) i j / eps c)
        by (unfold placed; apply EQ).
      rewrite EQ' in P. refine (add_up _ _ _ _ _ _ _ _ _ D0 (Rlt_le _ _ ME) P Q (SE' _ _)). lra.
    - assert (P := quot_t _ _ (1/2) (1/2) i j t T3). fold th in P.
      assert (Q := sub_up _ _ _ _ _ _ (proj1 (quot_x _ _ (1/2) i j th V2)) (proj1 (quot_y _ _ (1/2) i j th V1))).
      assert (EQ' : placed c (1/2) (1/2) (e3t th) i j = (placed c (1/2) (1/2) (b2x th) i j - placed c (1/2) (1/2) (b1y th) i j) / (mu c * eps c)
        - placed c (1/2) (1/2) (hj3 H th) i j / eps c) by (unfold placed; apply EQ).
      rewrite EQ' in P. refine (add_up _ _ _ _ _ _ _ _ _ D0 (Rlt_le _ _ ME) P Q (SE' _ _)). lra.
    - assert (P := quot_t _ _ (1/2) 0 i j th U1). rewrite TH in P.
      assert (Q := opp_up _ _ _ (proj2 (quot_y _ _ (1/2) i j (t + dt) Y3))).
      assert (EQ' : placed c (1/2) 0 (b1t (t + dt)) i j = - placed c (1/2) 0 (e3y (t + dt)) i j * 1 - 0) by (unfold placed; rewrite (proj1 (proj2 (proj2 (proj2 (EQ _ _ _))))); ring).
      rewrite EQ' in P. rewrite (change1 _ _ _ _). refine (add_up _ _ _ _ _ _ _ _ _ D0 Rle_0_1 P Q (SB' _ _)). lra.
    - assert (P := quot_t _ _ 0 (1/2) i j th U2). rewrite TH in P.
      assert (Q := proj2 (quot_x _ _ (1/2) i j (t + dt) X3)).
      assert (EQ' : placed c 0 (1/2) (b2t (t + dt)) i j = placed c 0 (1/2) (e3x (t + dt)) i j * 1 - 0) by (unfold placed; rewrite (proj1 (proj2 (proj2 (proj2 (proj2 (EQ _ _ _)))))); ring).
      rewrite EQ' in P. rewrite (change2 _ _ _ _). refine (add_up _ _ _ _ _ _ _ _ _ D0 Rle_0_1 P Q (SB' _ _)). lra.
    - assert (P := quot_t _ _ 0 0 i j th U3). rewrite TH in P.
      assert (Q := opp_up _ _ _ (sub_up _ _ _ _ _ _ (proj2 (quot_x _ _ 0 i j (t + dt) X2)) (proj2 (quot_y _ _ 0 i j (t + dt) Y1)))).
      assert (EQ' : placed c 0 0 (b3t (t + dt)) i j = - (placed c 0 0 (e2x (t + dt)) i j - placed c 0 0 (e1y (t + dt)) i j) * 1 - 0)
        by (unfold placed; rewrite (proj2 (proj2 (proj2 (proj2 (proj2 (EQ _ _ _)))))); ring).
      rewrite EQ' in P. rewrite (change1 _ _ _ _). refine (add_up _ _ _ _ _ _ _ _ _ D0 Rle_0_1 P Q (SB' _ _)). lra.
  Qed.

  Lemma minus_per Y Z : per_lat n1 n2 Y -> per_lat n1 n2 Z -> per_lat n1 n2 (minus Y Z).
  Proof using.
    intros (A1&A2&A3&A4&A5&A6) (C1&C2&C3&C4&C5&C6).
    assert (X : forall u v, per n1 n2 u -> per n1 n2 v -> per n1 n2 (fun i j => u i j - v i j)).
    { intros u v (a&b) (d&e). split; intros; rewrite ?a, ?b, ?d, ?e; reflexivity. }
    unfold minus, per_lat; cbn [E1 E2 E3 B1 B2 B3]. repeat match goal with |- _ /\ _ => split end; apply X; assumption.
  Qed.

  Local Notation GG := (G n1 n2 h1 h2 (eps c) (mu c) dt).
  Definition per_step : R := sqrt (3 * (IZR n1 * IZR n2)) * (sqrt (eps c) * tE + tB / sqrt (mu c)).

  Lemma one_step t J1 J2 J3 Y : per_lat n1 n2 Y -> per n1 n2 J1 -> per n1 n2 J2 -> per n1 n2 J3 ->
    (forall i j, inb n1 i -> inb n2 j -> J1 i j = placed c 0 (1/2) (hj1 H (t + dt / 2)) i j
       /\ J2 i j = placed c (1/2) 0 (hj2 H (t + dt / 2)) i j /\ J3 i j = placed c (1/2) (1/2) (hj3 H (t + dt / 2)) i j) ->
    sqrt (GG (minus (yee_step h1 h2 (eps c) (mu c) dt J1 J2 J3 Y) (sampled c dt (t + dt) H)))
    <= sqrt (GG (minus Y (sampled c dt t H))) + per_step.
  Proof using RG He Hm Hd CO MX BX.
    intros PY PJ1 PJ2 PJ3 JJ. destruct sizes as (P1&P2&A&B). assert (M0 := M_nonneg).
    assert (PX := sampled_per t). assert (PX' := sampled_per (t + dt)).
    unfold per_step. apply (error_step n1 n2 h1 h2 (eps c) (mu c) dt P1 P2 A B He Hm Hd CO (minus Y (sampled c dt t H))).
    - apply minus_per; assumption.
    - apply minus_per; [|assumption]. apply yee_step_per; assumption.
    - unfold tE. apply Rmult_le_pos; [lra|]. apply Rmult_le_pos; [lra|]. assert (Z := pow2_ge_0 dt). assert (Z1 := pow2_ge_0 h1). assert (Z2 := pow2_ge_0 h2).
      apply Rplus_le_le_0_compat; [exact Z|]. unfold Rdiv. apply Rmult_le_pos; [lra|]. left. apply Rinv_0_lt_compat, Rmult_lt_0_compat; assumption.
    - unfold tB. apply Rmult_le_pos; [lra|]. apply Rmult_le_pos; [lra|]. assert (Z := pow2_ge_0 dt). assert (Z1 := pow2_ge_0 h1). assert (Z2 := pow2_ge_0 h2). lra.
    - cbv zeta. intros i j I J. destruct (JJ i j I J) as (Z1&Z2&Z3).
      destruct (residual t J1 J2 J3 i j Z1 Z2 Z3) as (R1&R2&R3&R4&R5&R6). cbv zeta in R1, R2, R3, R4, R5, R6.
      set (X := sampled c dt t H) in *. set (X' := sampled c dt (t + dt) H) in *. clearbody X X'.
      assert (F1 : forall i j, E1 (minus (yee_step h1 h2 (eps c) (mu c) dt J1 J2 J3 Y) X') i j - E1 (S0 h1 h2 (eps c) (mu c) dt (minus Y X)) i j
         = E1 (ampere h1 h2 (eps c) (mu c) dt J1 J2 J3 X) i j - E1 X' i j).
      { intros. unfold minus, S0, yee_step, faraday, ampere, none, fwd2; cbn [E1 E2 E3 B1 B2 B3]. unfold Rdiv. ring. }
      assert (F2 : forall i j, E2 (minus (yee_step h1 h2 (eps c) (mu c) dt J1 J2 J3 Y) X') i j - E2 (S0 h1 h2 (eps c) (mu c) dt (minus Y X)) i j
         = E2 (ampere h1 h2 (eps c) (mu c) dt J1 J2 J3 X) i j - E2 X' i j).
      { intros. unfold minus, S0, yee_step, faraday, ampere, none, fwd1; cbn [E1 E2 E3 B1 B2 B3]. unfold Rdiv. ring. }
      assert (F3 : forall i j, E3 (minus (yee_step h1 h2 (eps c) (mu c) dt J1 J2 J3 Y) X') i j - E3 (S0 h1 h2 (eps c) (mu c) dt (minus Y X)) i j
         = E3 (ampere h1 h2 (eps c) (mu c) dt J1 J2 J3 X) i j - E3 X' i j).
      { intros. unfold minus, S0, yee_step, faraday, ampere, none, fwd1, fwd2; cbn [E1 E2 E3 B1 B2 B3]. unfold Rdiv. ring. }
      split; [rewrite F1; exact R1|]. split; [rewrite F2; exact R2|]. split; [rewrite F3; exact R3|].
      split; [|split].
      + replace (B1 (minus (yee_step h1 h2 (eps c) (mu c) dt J1 J2 J3 Y) X') i j - B1 (S0 h1 h2 (eps c) (mu c) dt (minus Y X)) i j
          + dt * bwd2 h2 (fun i0 j0 => E3 (minus (yee_step h1 h2 (eps c) (mu c) dt J1 J2 J3 Y) X') i0 j0 - E3 (S0 h1 h2 (eps c) (mu c) dt (minus Y X)) i0 j0) i j)
          with (B1 X i j - B1 X' i j - dt * bwd2 h2 (E3 X') i j); [exact R4|].
        unfold bwd2 at 2. rewrite !F3. unfold minus, S0, yee_step, faraday, ampere, none, fwd1, fwd2, bwd2; cbn [E1 E2 E3 B1 B2 B3]. unfold Rdiv. ring.
      + replace (B2 (minus (yee_step h1 h2 (eps c) (mu c) dt J1 J2 J3 Y) X') i j - B2 (S0 h1 h2 (eps c) (mu c) dt (minus Y X)) i j
          - dt * bwd1 h1 (fun i0 j0 => E3 (minus (yee_step h1 h2 (eps c) (mu c) dt J1 J2 J3 Y) X') i0 j0 - E3 (S0 h1 h2 (eps c) (mu c) dt (minus Y X)) i0 j0) i j)
          with (B2 X i j - B2 X' i j + dt * bwd1 h1 (E3 X') i j); [exact R5|].
        unfold bwd1 at 2. rewrite !F3. unfold minus, S0, yee_step, faraday, ampere, none, fwd1, fwd2, bwd1; cbn [E1 E2 E3 B1 B2 B3]. unfold Rdiv. ring.
      + match goal with |- Rabs ?r <= _ => replace r with (B3 X i j - B3 X' i j - dt * (bwd1 h1 (E2 X') i j - bwd2 h2 (E1 X') i j)); [exact R6|] end.
        unfold bwd1 at 2, bwd2 at 2. rewrite !F1, !F2. unfold minus, S0, yee_step, faraday, ampere, none, fwd1, fwd2, bwd1, bwd2; cbn [E1 E2 E3 B1 B2 B3]. unfold Rdiv. ring.
  Qed.

  Definition rate : R := sqrt (3 * (IZR n1 * IZR n2)) * (sqrt (eps c) * (M / 24 * (dt ^ 2 + (h1 ^ 2 + h2 ^ 2) / (mu c * eps c)))
    + M / 24 * (dt ^ 2 + h1 ^ 2 + h2 ^ 2) / sqrt (mu c)).
  Lemma per_step_rate : per_step = dt * rate.
  Proof using. unfold per_step, rate, tE, tB, Rdiv. ring. Qed.

  Lemma grid_of_per J : per n1 n2 (grid_of (flay c) J).
  Proof using RG. apply gper_per_grid. destruct RG as ((A&_)&_). exact A. Qed.

  Lemma run_error hist : forall t Y, per_lat n1 n2 Y -> driven c dt H t hist ->
    sqrt (GG (minus (yee_run h1 h2 (eps c) (mu c) (currents_of (flay c) hist) Y) (sampled c dt (t + passed hist) H)))
    <= sqrt (GG (minus Y (sampled c dt t H))) + passed hist * rate.
  Proof using RG He Hm Hd CO MX BX.
    induction hist as [|ev l IH]; intros t Y PY D.
    { cbn [currents_of yee_run passed]. rewrite Rplus_0_r, Rmult_0_l, Rplus_0_r. apply Rle_refl. }
    destruct ev as [J1 J2 J3 h| |]; cbn [driven] in D; cbn [currents_of yee_run passed]; [|apply IH; assumption|apply IH; assumption].
    destruct D as (->&JJ&D).
    assert (X := one_step t _ _ _ Y PY (grid_of_per (dmap asum1 J1)) (grid_of_per (dmap asum1 J2)) (grid_of_per (dmap asum1 J3)) JJ).
    rewrite per_step_rate in X.
    set (Y' := yee_step h1 h2 (eps c) (mu c) dt (grid_of (flay c) (dmap asum1 J1)) (grid_of (flay c) (dmap asum1 J2)) (grid_of (flay c) (dmap asum1 J3)) Y) in *.
    assert (PY' : per_lat n1 n2 Y') by (apply yee_step_per; auto using grid_of_per).
    specialize (IH (t + dt) Y' PY' D). replace (t + (dt + passed l)) with (t + dt + passed l) by ring. lra.
  Qed.

  Lemma field_norm2_same Y Z : same Y Z -> field_norm2 n1 n2 (eps c) (mu c) Y = field_norm2 n1 n2 (eps c) (mu c) Z.
  Proof using. intros (A1&A2&A3&A4&A5&A6). unfold field_norm2. apply total_ext. intros. rewrite A1, A2, A3, A4, A5, A6. reflexivity. Qed.

  Lemma minus_same Y Y' Z : same Y Y' -> same (minus Y Z) (minus Y' Z).
  Proof using. intros (A1&A2&A3&A4&A5&A6). repeat split; intros; cbn [minus E1 E2 E3 B1 B2 B3]; rewrite ?A1, ?A2, ?A3, ?A4, ?A5, ?A6; reflexivity. Qed.

  Lemma converges rho hist s0 s' t : hybrid c = false -> fields_solver_init c rho = Ok s0 -> do_events c hist s0 = Ok s' ->
    driven c dt H t hist ->
    rms c (view (flay c) (yee_val s')) (sampled c dt (t + passed hist) H)
    <= sqrt ((1 + courant c dt) / (1 - courant c dt))
       * (rms c (view (flay c) (yee_val s0)) (sampled c dt t H) + passed hist * error_rate c M dt).
  Proof using RG He Hm Hd CO MX BX.
    intros HY I R D. destruct sizes as (P1&P2&A&B).
    assert (PL : periodic_layout (flay c)) by (destruct RG as ((X&_)&_); exact X).
    pose proof (yee_history c rho hist s0 s' RG HY I R) as SY.
    assert (PV : per_lat n1 n2 (view (flay c) (yee_val s0))) by (repeat split; cbn [view E1 E2 E3 B1 B2 B3]; apply (gper_per_grid _ _ _ PL)).
    assert (PV' : per_lat n1 n2 (view (flay c) (yee_val s'))) by (repeat split; cbn [view E1 E2 E3 B1 B2 B3]; apply (gper_per_grid _ _ _ PL)).
    assert (X := run_error hist t _ PV D).
    rewrite <- (G_same n1 n2 h1 h2 (eps c) (mu c) dt _ _ (minus_same _ _ _ SY)) in X.
    destruct (kappa_pos h1 h2 (eps c) (mu c) dt A B He Hm Hd) as (K0&_).
    assert (K1 := kappa_lt h1 h2 (eps c) (mu c) dt A B He Hm Hd CO).
    assert (PF := minus_per _ _ PV' (sampled_per (t + passed hist))). assert (PI := minus_per _ _ PV (sampled_per t)).
    destruct (G_between n1 n2 h1 h2 (eps c) (mu c) dt P1 P2 A B He Hm Hd _ PF) as (L&_).
    destruct (G_between n1 n2 h1 h2 (eps c) (mu c) dt P1 P2 A B He Hm Hd _ PI) as (_&U).
    assert (NF := N2_nonneg n1 n2 (eps c) (mu c) He Hm (minus (view (flay c) (yee_val s')) (sampled c dt (t + passed hist) H))).
    assert (NI := N2_nonneg n1 n2 (eps c) (mu c) He Hm (minus (view (flay c) (yee_val s0)) (sampled c dt t H))).
    unfold rms, courant. change (sqrt (courant2 h1 h2 (eps c) (mu c) dt)) with (kappa h1 h2 (eps c) (mu c) dt).
    set (k := kappa h1 h2 (eps c) (mu c) dt) in *.
    unfold N2 in L, U, NF, NI.
    set (F := field_norm2 n1 n2 (eps c) (mu c) (minus (view (flay c) (yee_val s')) _)) in *.
    set (F0 := field_norm2 n1 n2 (eps c) (mu c) (minus (view (flay c) (yee_val s0)) _)) in *.
    set (n := IZR n1 * IZR n2). assert (N0 : 0 < n) by (apply Rmult_lt_0_compat; apply IZR_lt; lia).
    assert (SN : 0 < sqrt n) by (apply sqrt_lt_R0, N0).
    assert (LS : sqrt (1 - k) * sqrt F <= sqrt (1 + k) * sqrt F0 + passed hist * rate).
    { rewrite <- !sqrt_mult by lra. eapply Rle_trans; [apply sqrt_le_1_alt, L|]. eapply Rle_trans; [exact X|].
      apply Rplus_le_compat_r. apply sqrt_le_1_alt, U. }
    assert (RR : rate = sqrt n * error_rate c M dt).
    { unfold rate, error_rate, n. rewrite sqrt_mult by (try lra; apply Rlt_le, Rmult_lt_0_compat; apply IZR_lt; lia).
      assert (SM : 0 < sqrt (mu c)) by (apply sqrt_lt_R0, Hm). field. repeat split; lra. }
    assert (S1 : 0 < sqrt (1 - k)) by (apply sqrt_lt_R0; lra).
    assert (S2 : 1 <= sqrt (1 + k)).
    { apply Rle_trans with (sqrt 1); [rewrite sqrt_1; lra|apply sqrt_le_1_alt; lra]. }
    assert (T0 : 0 <= passed hist).
    { clear - D Hd. revert t D. induction hist as [|[J1 J2 J3 h| |] l IH]; intros t D; cbn [passed driven] in *; [lra| |eauto|eauto].
      destruct D as (->&_&D). specialize (IH _ D). lra. }
    assert (R0 : 0 <= error_rate c M dt).
    { assert (M0 := M_nonneg). unfold error_rate. assert (Q1 := sqrt_pos 3). assert (Q2 := sqrt_pos (eps c)).
      assert (SM : 0 < sqrt (mu c)) by (apply sqrt_lt_R0, Hm). assert (Z := pow2_ge_0 dt). assert (Z1 := pow2_ge_0 h1). assert (Z2 := pow2_ge_0 h2).
      assert (I1 : 0 < / (mu c * eps c)) by (apply Rinv_0_lt_compat, Rmult_lt_0_compat; assumption).
      assert (I2 : 0 < / sqrt (mu c)) by (apply Rinv_0_lt_compat, SM).
      apply Rmult_le_pos; [apply Rmult_le_pos; lra|]. unfold Rdiv. apply Rplus_le_le_0_compat; apply Rmult_le_pos; try lra.
      apply Rplus_le_le_0_compat; [exact Z|]. apply Rmult_le_pos; lra. }
    rewrite !sqrt_div_alt by lra.
    apply (Rmult_le_reg_r (sqrt n * sqrt (1 - k))); [apply Rmult_lt_0_compat; assumption|].
    replace (sqrt F / sqrt n * (sqrt n * sqrt (1 - k))) with (sqrt (1 - k) * sqrt F) by (field; lra).
    replace (sqrt (1 + k) / sqrt (1 - k) * (sqrt F0 / sqrt n + passed hist * error_rate c M dt) * (sqrt n * sqrt (1 - k)))
      with (sqrt (1 + k) * sqrt F0 + sqrt (1 + k) * (passed hist * (sqrt n * error_rate c M dt))) by (field; lra).
    eapply Rle_trans; [exact LS|]. apply Rplus_le_compat_l. rewrite RR.
    assert (Y0 : 0 <= passed hist * (sqrt n * error_rate c M dt)) by (apply Rmult_le_pos; [lra|apply Rmult_le_pos; lra]). nra.
  Qed.
End Exact.

(** Started from the functions of the user. *)
Lemma rms_same c Y Z : same_on (gN1 (flay c)) (gN2 (flay c)) Y Z -> (0 < gN1 (flay c))%Z -> (0 < gN2 (flay c))%Z -> rms c Y Z = 0.
Proof.
  intros S P1 P2. unfold rms, field_norm2.
  assert (X : total (gN1 (flay c)) (gN2 (flay c)) (fun i j => eps c * (E1 (minus Y Z) i j ^ 2 + E2 (minus Y Z) i j ^ 2 + E3 (minus Y Z) i j ^ 2)
     + (B1 (minus Y Z) i j ^ 2 + B2 (minus Y Z) i j ^ 2 + B3 (minus Y Z) i j ^ 2) / mu c) = 0).
  { unfold total. rewrite (zsum_ext _ _ (fun _ => 0)); [apply zsum_zero|]. intros i I. rewrite (zsum_ext _ _ (fun _ => 0)); [apply zsum_zero|]. intros j J.
    destruct (S i j I J) as (A1&A2&A3&A4&A5&A6). cbn [minus E1 E2 E3 B1 B2 B3]. rewrite A1, A2, A3, A4, A5, A6. unfold Rdiv. ring. }
  rewrite X. unfold Rdiv. rewrite Rmult_0_l. apply sqrt_0.
Qed.

Lemma converges_given c dt M H rho hist : regular c -> 0 < eps c -> 0 < mu c -> 0 < dt ->
  courant2 (fdq1 c) (fdq2 c) (eps c) (mu c) dt < 1 -> obeys_maxwell (eps c) (mu c) M H -> boxed c H -> hybrid c = false ->
  (forall x y, he1 H 0 x y = 0) -> (forall x y, hb2 H (dt / 2) x y = 0) ->
  defines_EB c (fun x y => (he1 H 0 x y, he2 H 0 x y, he3 H 0 x y)) (fun x y => (hb1 H (dt / 2) x y, hb2 H (dt / 2) x y, hb3 H (dt / 2) x y)) ->
  driven c dt H 0 hist ->
  exists s0 s', fields_solver_init c rho = Ok s0 /\ do_events c hist s0 = Ok s'
  /\ rms c (view (flay c) (yee_val s')) (sampled c dt (passed hist) H)
     <= sqrt ((1 + courant c dt) / (1 - courant c dt)) * (passed hist * error_rate c M dt).
Proof.
  intros RG He Hm Hd CO MX BX HY Z1 Z2 DF D. destruct (initial_EB c rho _ _ RG DF) as (s0&I&S&_).
  assert (X : exists s', do_events c hist s0 = Ok s').
  { clear - RG HY. revert s0. induction hist as [|e l IH]; intros s; cbn [do_events]; [eauto|].
    assert (X : exists s1, do_event c e s = Ok s1) by (destruct e; cbn [do_event]; eauto; apply evolve_total; auto).
    destruct X as (s1&->). cbn [rbind]. apply IH. }
  destruct X as (s'&R). exists s0, s'. split; [exact I|]. split; [exact R|].
  pose proof (converges c dt M H RG He Hm Hd CO MX BX rho hist s0 s' 0 HY I R D) as C. rewrite !Rplus_0_l in C.
  destruct (sizes c RG) as (P1&P2&_).
  rewrite (rms_same c (view (flay c) (yee_val s0))) in C; [rewrite Rplus_0_l in C; exact C| |exact P1|exact P2].
  eapply same_on_trans; [exact S|]. apply same_on_of. unfold sampled, leapfrog. rewrite Rplus_0_l.
  apply unshifted; intros x y; cbn [fst snd]; auto.
Qed.
