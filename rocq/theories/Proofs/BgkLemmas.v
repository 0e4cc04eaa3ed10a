(** The BGK operator and the Lorentz force. *)
From Coq Require Import ZArith Reals Lra Lia String List Bool.
From Verif Require Import Base.Prelude Base.ZSum Base.Cplx Model.Af Model.Grid Model.Petsc Model.Config Model.Moments Model.NonRel
  Spec.MomentSpec Spec.Maxwellian Proofs.ConvLemmas Proofs.MomentLemmas.
Import ListNotations.
Local Open Scope R_scope.

Lemma floor_pos : 0 < floor_eps.
Proof. unfold floor_eps. apply Rinv_0_lt_compat. apply pow_lt. lra. Qed.

(** ** The local Maxwellian *)
Lemma gaussian_sqrt m k T w : 0 < m -> 0 < k -> 0 < T ->
  sqrt (m / (2 * PI * k * T)) * exp (- m * w ^ 2 / (2 * k * T)) = gaussian (k * T / m) w.
Proof.
  intros Hm Hk HT. pose proof PI_RGT_0. unfold gaussian.
  assert (P : 0 < 2 * PI * (k * T / m)).
  { apply Rmult_lt_0_compat; [lra|]. apply Rmult_lt_0_compat; [apply Rmult_lt_0_compat; auto|apply Rinv_0_lt_compat; auto]. }
  replace (m / (2 * PI * k * T)) with (/ (2 * PI * (k * T / m))) by (field; repeat split; lra).
  rewrite sqrt_inv. unfold Rdiv at 3. rewrite Rmult_comm. f_equal. f_equal. field. repeat split; lra.
Qed.

Lemma f0_maxwellian d m k x y z n T u1 u2 u3 : (1 <= d <= 3)%Z -> 0 < m -> 0 < k -> 0 < T ->
  f0 d m k x y z n T u1 u2 u3 = maxwellian d n (k * T / m) u1 u2 u3 x y z.
Proof.
  intros Hd Hm Hk HT. pose proof PI_RGT_0.
  assert (P : 0 < m / (2 * PI * k * T)).
  { apply Rmult_lt_0_compat; auto. apply Rinv_0_lt_compat. apply Rmult_lt_0_compat; auto. apply Rmult_lt_0_compat; auto. lra. }
  assert (C : d = 1%Z \/ d = 2%Z \/ d = 3%Z) by lia.
  unfold f0. destruct C as [->|[->| ->]]; cbn [Z.eqb Pos.eqb maxwellian]; rewrite <- !gaussian_sqrt by auto.
  - ring.
  - rewrite <- (sqrt_sqrt (m / (2 * PI * k * T))) at 1 by lra. ring.
  - replace (3 / 2) with (/ 2 * INR 3) by (cbn; field). rewrite <- Rpower_mult, Rpower_sqrt by auto.
    rewrite Rpower_pow by (apply sqrt_lt_R0; auto). ring.
Qed.

Lemma gaussian_pos th w : 0 < th -> 0 < gaussian th w.
Proof.
  intros H. pose proof PI_RGT_0. apply Rmult_lt_0_compat; [apply exp_pos|]. apply Rinv_0_lt_compat, sqrt_lt_R0.
  apply Rmult_lt_0_compat; lra.
Qed.
Lemma maxwellian_nonneg d n th u1 u2 u3 x y z : 0 <= n -> 0 < th -> 0 <= maxwellian d n th u1 u2 u3 x y z.
Proof.
  intros Hn Ht. pose proof (gaussian_pos th (x - u1) Ht). pose proof (gaussian_pos th (y - u2) Ht).
  pose proof (gaussian_pos th (z - u3) Ht).
  unfold maxwellian. destruct d as [|[p|[p|p|]|]|p]; repeat (apply Rmult_le_pos; [|lra]); auto.
Qed.
Lemma maxwellian_pos d n th u1 u2 u3 x y z : 0 < n -> 0 < th -> 0 < maxwellian d n th u1 u2 u3 x y z.
Proof.
  intros Hn Ht. pose proof (gaussian_pos th (x - u1) Ht). pose proof (gaussian_pos th (y - u2) Ht).
  pose proof (gaussian_pos th (z - u3) Ht).
  unfold maxwellian. destruct d as [|[p|[p|p|]|]|p]; repeat (apply Rmult_lt_0_compat; [|auto]); auto.
Qed.

(** ** The parameters the code feeds into it *)
Definition used_u (mom n : R) : R := mom / (n + floor_eps).
Definition used_T (d : Z) (m n m1 m2 m3 e : R) : R :=
  / IZR d * (2 * (e * m) - n * m * used_u m1 n ^ 2 - n * m * used_u m2 n ^ 2 - n * m * used_u m3 n ^ 2)
  / (n + floor_eps) + floor_eps.

Lemma used_u_close mom n : 0 < n -> Rabs (used_u mom n - mom / n) <= floor_eps * (Rabs mom / (n * n)).
Proof.
  intros Hn. pose proof floor_pos as E. unfold used_u.
  replace (mom / (n + floor_eps) - mom / n) with (- (floor_eps * (mom * / (n * (n + floor_eps))))) by (field; lra).
  rewrite Rabs_Ropp, Rabs_mult, (Rabs_right floor_eps) by lra. apply Rmult_le_compat_l; [lra|].
  rewrite Rabs_mult. apply Rmult_le_compat_l; [apply Rabs_pos|]. rewrite Rabs_right.
  - apply Rinv_le_contravar; nra.
  - apply Rle_ge, Rlt_le, Rinv_0_lt_compat. nra.
Qed.

Section Temp.
  Context (G : momentum_grid) (g : Z -> Z -> Z -> R).
  Context (W1 : 0 <= w1 G) (W2 : 0 <= w2 G) (W3 : 0 <= w3 G).
  Context (Hg : forall i1 i2 i3, inb (mn1 G) i1 -> inb (mn2 G) i2 -> inb (mn3 G) i3 -> 0 <= g i1 i2 i3).
  Let n := fluid_n G g.
  Let m1 := fluid_m1 G g.
  Let m2 := fluid_m2 G g.
  Let m3 := fluid_m3 G g.
  Let e := integral G (fun x y z => (x * x + y * y + z * z) / 2) g.
  Let M := m1 ^ 2 + m2 ^ 2 + m3 ^ 2.

  Lemma n_nonneg : 0 <= n.
  Proof. apply integral_nonneg; auto. intros; lra. Qed.
  Lemma e_nonneg : 0 <= e.
  Proof. apply integral_nonneg; auto. intros; nra. Qed.
  Lemma cs : M <= n * (2 * e).
  Proof. apply temperature_nonneg; auto. Qed.

  Lemma used_T_pos d m : (0 < d)%Z -> 0 < m -> 0 < used_T d m n m1 m2 m3 e.
  Proof.
    intros Hd Hm. pose proof floor_pos as E. pose proof n_nonneg as N0. pose proof e_nonneg as E0. pose proof cs as C.
    assert (D : 0 < / IZR d) by (apply Rinv_0_lt_compat, IZR_lt; lia).
    assert (I : 0 < / (n + floor_eps)) by (apply Rinv_0_lt_compat; lra).
    assert (X : 0 <= 2 * e - n * (M * (/ (n + floor_eps)) ^ 2)).
    { assert (n * M <= (n + floor_eps) ^ 2 * (2 * e)).
      { apply Rle_trans with (n * (n * (2 * e))).
        - apply Rmult_le_compat_l; auto.
        - assert (n * n <= (n + floor_eps) ^ 2) by nra. nra. }
      assert (n * (M * (/ (n + floor_eps)) ^ 2) <= 2 * e); [|lra].
      apply Rmult_le_reg_l with ((n + floor_eps) ^ 2); [apply pow_lt; lra|].
      replace ((n + floor_eps) ^ 2 * (n * (M * (/ (n + floor_eps)) ^ 2))) with (n * M) by (field; lra). exact H. }
    unfold used_T, used_u.
    replace (2 * (e * m) - n * m * (m1 / (n + floor_eps)) ^ 2 - n * m * (m2 / (n + floor_eps)) ^ 2 - n * m * (m3 / (n + floor_eps)) ^ 2)
      with (m * (2 * e - n * (M * (/ (n + floor_eps)) ^ 2))) by (unfold M, Rdiv; ring).
    assert (0 <= / IZR d * (m * (2 * e - n * (M * (/ (n + floor_eps)) ^ 2))) / (n + floor_eps)).
    { unfold Rdiv. repeat apply Rmult_le_pos; lra. }
    lra.
  Qed.

  (** k_B T from the raw moments. *)
  Lemma fluid_kT_raw d m : 0 < n -> fluid_kT d m G g = m / IZR d * (2 * e / n - M / n ^ 2).
  Proof.
    intros Hn. unfold fluid_kT. f_equal. fold n.
    assert (X : forall a1 a2 a3, integral G (fun x y z => (x - a1) ^ 2 + (y - a2) ^ 2 + (z - a3) ^ 2) g
       = 2 * e - 2 * (a1 * m1 + a2 * m2 + a3 * m3) + (a1 ^ 2 + a2 ^ 2 + a3 ^ 2) * n).
    { intros. rewrite (integral_ext G _ (fun x y z => (2 * ((x * x + y * y + z * z) / 2) + (- (2 * a1)) * x)
        + (((- (2 * a2)) * y + (- (2 * a3)) * z) + (a1 ^ 2 + a2 ^ 2 + a3 ^ 2) * 1))) by (intros; field).
      rewrite !integral_wsum. rewrite ?integral_wscale.
      unfold m1, m2, m3, fluid_m1, fluid_m2, fluid_m3, n, fluid_n, e. ring. }
    rewrite X. unfold fluid_u1, fluid_u2, fluid_u3. fold m1 m2 m3 n. unfold M. field. lra.
  Qed.

  Lemma used_T_close d m : (0 < d)%Z -> 0 < m -> 0 < n ->
    Rabs (used_T d m n m1 m2 m3 e - fluid_kT d m G g) <= floor_eps * (1 + m / IZR d * (2 * e / n ^ 2 + 3 * M / n ^ 3)).
  Proof.
    intros Hd Hm Hn. rewrite fluid_kT_raw by auto. pose proof floor_pos as E. pose proof e_nonneg as E0.
    assert (M0 : 0 <= M) by (unfold M; pose proof (pow2_ge_0 m1); pose proof (pow2_ge_0 m2); pose proof (pow2_ge_0 m3); lra).
    assert (D : 0 < IZR d) by (apply IZR_lt; lia). assert (DI : 0 < / IZR d) by (apply Rinv_0_lt_compat; auto).
    set (h := n + floor_eps). assert (Hh : n < h) by (unfold h; lra).
    replace (used_T d m n m1 m2 m3 e - m / IZR d * (2 * e / n - M / n ^ 2))
      with (floor_eps + (m * / IZR d) * ((M / n ^ 2 - n * M / h ^ 3) - (2 * e / n - 2 * e / h)))
      by (unfold used_T, used_u; fold h; unfold M; field; lra).
    assert (A : 0 <= M / n ^ 2 - n * M / h ^ 3 <= floor_eps * (3 * M / n ^ 3)).
    { replace (M / n ^ 2 - n * M / h ^ 3) with (M * (/ n ^ 2 - n / h ^ 3)) by (field; lra).
      replace (floor_eps * (3 * M / n ^ 3)) with (M * (floor_eps * 3 / n ^ 3)) by (field; lra).
      assert (B : 0 <= / n ^ 2 - n / h ^ 3 <= floor_eps * 3 / n ^ 3).
      { replace (/ n ^ 2 - n / h ^ 3) with ((h ^ 3 - n ^ 3) * / (n ^ 2 * h ^ 3)) by (field; lra).
        assert (P : 0 < n ^ 2 * h ^ 3) by (apply Rmult_lt_0_compat; apply pow_lt; lra).
        assert (h3 : n ^ 3 <= h ^ 3) by (apply pow_incr; lra).
        split; [apply Rmult_le_pos; [lra|left; apply Rinv_0_lt_compat; auto]|].
        apply Rmult_le_reg_r with (n ^ 2 * h ^ 3); auto. rewrite Rmult_assoc, Rinv_l by lra. rewrite Rmult_1_r.
        apply Rmult_le_reg_r with n; auto.
        replace (floor_eps * 3 / n ^ 3 * (n ^ 2 * h ^ 3) * n) with (3 * floor_eps * h ^ 3) by (field; lra).
        assert (h ^ 3 - n ^ 3 <= 3 * floor_eps * h ^ 2).
        { replace floor_eps with (h - n) by (unfold h; ring).
          replace (h ^ 3 - n ^ 3) with ((h - n) * (h ^ 2 + h * n + n ^ 2)) by ring.
          rewrite (Rmult_comm 3), !Rmult_assoc. apply Rmult_le_compat_l; [lra|]. nra. }
        apply Rle_trans with (3 * floor_eps * h ^ 2 * n); [apply Rmult_le_compat_r; lra|].
        replace (3 * floor_eps * h ^ 3) with (3 * floor_eps * h ^ 2 * h) by ring.
        apply Rmult_le_compat_l; [|lra]. apply Rmult_le_pos; [lra|apply pow2_ge_0]. }
      destruct B as (B1&B2). split; [apply Rmult_le_pos; auto|apply Rmult_le_compat_l; auto]. }
    assert (B : 0 <= 2 * e / n - 2 * e / h <= floor_eps * (2 * e / n ^ 2)).
    { replace (2 * e / n - 2 * e / h) with (floor_eps * (2 * e * / (n * h))) by (unfold h; field; unfold h in *; lra).
      assert (0 < n * h) by nra. assert (0 < / (n * h)) by (apply Rinv_0_lt_compat; auto).
      split; [apply Rmult_le_pos; [lra|]; apply Rmult_le_pos; lra|]. apply Rmult_le_compat_l; [lra|]. apply Rmult_le_compat_l; [lra|].
      apply Rinv_le_contravar; nra. }
    assert (K : 0 < m * / IZR d) by (apply Rmult_lt_0_compat; auto). set (kk := m * / IZR d) in *.
    replace (m / IZR d) with kk by reflexivity.
    apply Rabs_le. destruct A as (A1&A2), B as (B1&B2).
    assert (kk * (M / n ^ 2 - n * M / h ^ 3) <= kk * (floor_eps * (3 * M / n ^ 3))) by (apply Rmult_le_compat_l; lra).
    assert (kk * (2 * e / n - 2 * e / h) <= kk * (floor_eps * (2 * e / n ^ 2))) by (apply Rmult_le_compat_l; lra).
    assert (0 <= kk * (M / n ^ 2 - n * M / h ^ 3)) by (apply Rmult_le_pos; lra).
    assert (0 <= kk * (2 * e / n - 2 * e / h)) by (apply Rmult_le_pos; lra).
    assert (X1 : kk * (floor_eps * (2 * e / n ^ 2)) = floor_eps * (kk * (2 * e / n ^ 2))) by ring.
    assert (X2 : kk * (floor_eps * (3 * M / n ^ 3)) = floor_eps * (kk * (3 * M / n ^ 3))) by ring.
    rewrite Rmult_minus_distr_l, Rmult_plus_distr_l. 
    rewrite Rmult_plus_distr_l, Rmult_1_r, Rmult_plus_distr_l. split; lra.
  Qed.
End Temp.

(** ** The operator on arrays *)
Section Bgk.
  Context (c : cfg) (n1 n2 : Z) (OK : momentum_grid_ok c) (P1 : (0 < n1)%Z) (P2 : (0 < n2)%Z).
  Context (CART : p_space_grid c = "cartesian"%string).
  Context (mu k : R) (d : Z) (Hd : (1 <= d <= 3)%Z) (mass tau f : arr R).
  Context (DM : dims4 mass 1 (N_species c) 1 1) (DF : dims4 f (N_p c) (N_species c) n1 n2).

  Definition cell_f (s q1 q2 : Z) (i1 i2 i3 : Z) : R := el f (row c i1 i2 i3) s q1 q2.

  Lemma bgk_value flag :
    exists C, BGK (compute_moments c nonrel_moments mu) mass k d (p1_center c) (p2_center c) (p3_center c) tau f flag = Ok C
    /\ same_dims C f
    /\ forall i1 i2 i3 s q1 q2, inb (N_p1 c) i1 -> inb (N_p2 c) i2 -> inb (N_p3 c) i3 ->
         inb (N_species c) s -> inb n1 q1 -> inb n2 q2 ->
       let G := species_grid c s in
       let g := cell_f s q1 q2 in
       let n := fluid_n G g in
       let MB := f0 d (el mass 0 s 0 0) k (v_of (lo1 G) (w1 G) i1) (v_of (lo2 G) (w2 G) i2) (v_of (lo3 G) (w3 G) i3)
                   n (used_T d (el mass 0 s 0 0) n (fluid_m1 G g) (fluid_m2 G g) (fluid_m3 G g)
                        (integral G (fun x y z => (x * x + y * y + z * z) / 2) g))
                   (used_u (fluid_m1 G g) n) (used_u (fluid_m2 G g) n) (used_u (fluid_m3 G g) n) in
       let x := row c i1 i2 i3 in
       el C x s q1 q2 = if flag then MB else - (el f x s q1 q2 - MB) / el tau x s q1 q2.
  Proof.
    pose proof OK as (A&B&Cp&E&_). assert (PN : (0 < N_p c)%Z).
    { unfold N_p. apply Z.mul_pos_pos; auto. apply Z.mul_pos_pos; auto. }
    destruct (moment_value c n1 n2 OK P1 P2 mu "density" (fun _ _ _ => 1) f DF (fun _ _ _ => eq_refl)) as (Q&_).
    destruct (Q CART) as (Mn&Rn&Dn&Vn). clear Q.
    destruct (moment_value c n1 n2 OK P1 P2 mu "mom_v1_bulk" (fun x _ _ => x) f DF (fun _ _ _ => eq_refl)) as (Q&_).
    destruct (Q CART) as (M1&R1&D1&V1). clear Q.
    destruct (moment_value c n1 n2 OK P1 P2 mu "mom_v2_bulk" (fun _ y _ => y) f DF (fun _ _ _ => eq_refl)) as (Q&_).
    destruct (Q CART) as (M2&R2&D2&V2). clear Q.
    destruct (moment_value c n1 n2 OK P1 P2 mu "mom_v3_bulk" (fun _ _ z => z) f DF (fun _ _ _ => eq_refl)) as (Q&_).
    destruct (Q CART) as (M3&R3&D3&V3). clear Q.
    destruct (moment_value c n1 n2 OK P1 P2 mu "energy" (fun x y z => (x * x + y * y + z * z) / 2) f DF (fun _ _ _ => eq_refl)) as (Q&_).
    destruct (Q CART) as (Me&Re&De&Ve). clear Q.
    destruct (p_center_dims c OK) as (DP1&DP2&DP3).
    unfold BGK. rewrite Rn, R1, R2, R3. cbn [rbind]. replace (d =? 0)%Z with false by (symmetry; apply Z.eqb_neq; lia).
    rewrite Re. cbn [rbind].
    set (FMB := Arr (d0 f) _ _ _ _).
    assert (FV : forall i1 i2 i3 s q1 q2, inb (N_p1 c) i1 -> inb (N_p2 c) i2 -> inb (N_p3 c) i3 ->
         inb (N_species c) s -> inb n1 q1 -> inb n2 q2 ->
       let G := species_grid c s in
       let g := cell_f s q1 q2 in
       let n := fluid_n G g in
       el FMB (row c i1 i2 i3) s q1 q2 = f0 d (el mass 0 s 0 0) k (v_of (lo1 G) (w1 G) i1) (v_of (lo2 G) (w2 G) i2) (v_of (lo3 G) (w3 G) i3)
                   n (used_T d (el mass 0 s 0 0) n (fluid_m1 G g) (fluid_m2 G g) (fluid_m3 G g)
                        (integral G (fun x y z => (x * x + y * y + z * z) / 2) g))
                   (used_u (fluid_m1 G g) n) (used_u (fluid_m2 G g) n) (used_u (fluid_m3 G g) n)).
    { intros i1 i2 i3 s q1 q2 I1 I2 I3 Is K1 K2 G g n.
      assert (Hx : inb (N_p c) (row c i1 i2 i3)) by (apply pidx_bound; auto).
      destruct (p_center_el c i1 i2 i3 s I1 I2 I3) as (X1&X2&X3). cbv zeta in X1, X2, X3. fold (row c i1 i2 i3) in X1, X2, X3.
      destruct DM as (a1&a2&a3&a4), DP1 as (b1&b2&b3&b4), DP2 as (e1&e2&e3&e4), DP3 as (h1&h2&h3&h4),
        Dn as (i1'&i2'&i3'&i4'), D1 as (j1&j2&j3&j4), D2 as (k1&k2&k3&k4), D3 as (l1&l2&l3&l4), De as (o1&o2&o3&o4).
      unfold FMB. cbn [el amap amap2 bcast2]. unfold bel, sq. cbn [el d0 d1 d2 d3 amap amap2 bcast2]. unfold bel.
      rewrite ?a1, ?a2, ?a3, ?a4, ?b1, ?b2, ?b3, ?b4, ?e1, ?e2, ?e3, ?e4, ?h1, ?h2, ?h3, ?h4, ?i1', ?i2', ?i3', ?i4',
        ?j1, ?j2, ?j3, ?j4, ?k1, ?k2, ?k3, ?k4, ?l1, ?l2, ?l3, ?l4, ?o1, ?o2, ?o3, ?o4.
      rewrite !Z.max_id. rewrite !(Z.max_l n1 1), !(Z.max_l n2 1) by lia.
      rewrite !bidx_1. rewrite !(bidx_in (N_p c)) by auto. rewrite !(bidx_in (N_species c)) by auto.
      rewrite !(bidx_in n1) by auto. rewrite !(bidx_in n2) by auto.
      rewrite X1, X2, X3, Vn, V1, V2, V3, Ve by auto. reflexivity. }
    destruct flag; cbn [negb]; eexists; (split; [reflexivity|]); split.
    - repeat split.
    - intros. apply FV; auto.
    - repeat split.
    - intros. cbn [el amap2]. rewrite FV by auto. reflexivity.
  Qed.
End Bgk.

Lemma maxwellian_peak d n th u1 u2 u3 : maxwellian d n th u1 u2 u3 u1 u2 u3
  = match d with 1%Z => n * gaussian th 0 | 2%Z => n * gaussian th 0 * gaussian th 0
    | _ => n * gaussian th 0 * gaussian th 0 * gaussian th 0 end.
Proof. unfold maxwellian. rewrite !Rminus_diag_eq by reflexivity. reflexivity. Qed.

Lemma gaussian_peak_mono th th' : 0 < th -> th < th' -> gaussian th' 0 < gaussian th 0.
Proof.
  intros H L. pose proof PI_RGT_0. unfold gaussian. rewrite !Rmult_0_l, Ropp_0. unfold Rdiv. rewrite !Rmult_0_l, exp_0, !Rmult_1_l.
  apply Rinv_lt_contravar.
  - apply Rmult_lt_0_compat; apply sqrt_lt_R0; apply Rmult_lt_0_compat; lra.
  - apply sqrt_lt_1; try (apply Rmult_le_pos; lra). apply Rmult_lt_compat_l; lra.
Qed.

Lemma maxwellian_peak_mono d n th th' u1 u2 u3 : 0 < n -> 0 < th -> th < th' ->
  maxwellian d n th' u1 u2 u3 u1 u2 u3 < maxwellian d n th u1 u2 u3 u1 u2 u3.
Proof.
  intros Hn Ht L. rewrite !maxwellian_peak. pose proof (gaussian_peak_mono th th' Ht L) as X.
  pose proof (gaussian_pos th 0 Ht) as A. assert (B : 0 < gaussian th' 0) by (apply gaussian_pos; lra).
  set (a := gaussian th 0) in *. set (b := gaussian th' 0) in *.
  assert (S1 : n * b < n * a) by (apply Rmult_lt_compat_l; auto).
  assert (S2 : n * b * b < n * a * a).
  { apply Rlt_trans with (n * a * b); [apply Rmult_lt_compat_r; auto|apply Rmult_lt_compat_l; auto].
    apply Rmult_lt_0_compat; auto. }
  assert (S3 : n * b * b * b < n * a * a * a).
  { apply Rlt_trans with (n * a * a * b); [apply Rmult_lt_compat_r; auto|apply Rmult_lt_compat_l; auto].
    repeat (apply Rmult_lt_0_compat; [|auto]); auto. }
  destruct d as [|[p|[p|p|]|]|p]; auto.
Qed.

Section BgkFinal.
  Context (c : cfg) (n1 n2 : Z) (OK : momentum_grid_ok c) (P1 : (0 < n1)%Z) (P2 : (0 < n2)%Z).
  Context (CART : p_space_grid c = "cartesian"%string).
  Context (mu k : R) (d : Z) (Hd : (1 <= d <= 3)%Z) (Hk : 0 < k) (mass tau f : arr R).
  Context (DM : dims4 mass 1 (N_species c) 1 1) (DF : dims4 f (N_p c) (N_species c) n1 n2).
  Context (MP : forall s, inb (N_species c) s -> 0 < el mass 0 s 0 0).
  Context (WP : forall s, inb (N_species c) s -> 0 <= w1 (species_grid c s) /\ 0 <= w2 (species_grid c s) /\ 0 <= w3 (species_grid c s)).
  Context (FP : forall i s q1 q2, inside f i s q1 q2 -> 0 <= el f i s q1 q2).
  Context (TP : forall i s q1 q2, inside f i s q1 q2 -> el tau i s q1 q2 <> 0).

  Lemma bgk_final : exists C F,
    BGK (compute_moments c nonrel_moments mu) mass k d (p1_center c) (p2_center c) (p3_center c) tau f false = Ok C
    /\ BGK (compute_moments c nonrel_moments mu) mass k d (p1_center c) (p2_center c) (p3_center c) tau f true = Ok F
    /\ forall s q1 q2, inb (N_species c) s -> inb n1 q1 -> inb n2 q2 ->
       let G := species_grid c s in
       let g := fun i1 i2 i3 => el f (row c i1 i2 i3) s q1 q2 in
       let m := el mass 0 s 0 0 in
       exists u1 u2 u3 kT, 0 < kT
       /\ (0 < fluid_n G g ->
           let n := fluid_n G g in
           let P := fluid_m1 G g ^ 2 + fluid_m2 G g ^ 2 + fluid_m3 G g ^ 2 in
           Rabs (u1 - fluid_u1 G g) <= / 10 ^ 30 * (Rabs (fluid_m1 G g) / (n * n))
           /\ Rabs (u2 - fluid_u2 G g) <= / 10 ^ 30 * (Rabs (fluid_m2 G g) / (n * n))
           /\ Rabs (u3 - fluid_u3 G g) <= / 10 ^ 30 * (Rabs (fluid_m3 G g) / (n * n))
           /\ Rabs (kT - fluid_kT d m G g)
              <= / 10 ^ 30 * (1 + m / IZR d * (2 * integral G (fun x y z => (x * x + y * y + z * z) / 2) g / n ^ 2 + 3 * P / n ^ 3)))
       /\ forall i1 i2 i3, inb (N_p1 c) i1 -> inb (N_p2 c) i2 -> inb (N_p3 c) i3 ->
          let x := row c i1 i2 i3 in
          el F x s q1 q2 = maxwellian d (fluid_n G g) (k * kT / m) u1 u2 u3
                             (v_of (lo1 G) (w1 G) i1) (v_of (lo2 G) (w2 G) i2) (v_of (lo3 G) (w3 G) i3)
          /\ 0 <= el F x s q1 q2
          /\ el C x s q1 q2 = (el F x s q1 q2 - el f x s q1 q2) / el tau x s q1 q2
          /\ (el C x s q1 q2 = 0 <-> el f x s q1 q2 = el F x s q1 q2).
  Proof.
    destruct (bgk_value c n1 n2 OK P1 P2 CART mu k d Hd mass tau f DM DF false) as (C&RC&DC&VC).
    destruct (bgk_value c n1 n2 OK P1 P2 CART mu k d Hd mass tau f DM DF true) as (F&RF&DFF&VF).
    exists C, F. split; auto. split; auto. intros s q1 q2 Hs H1 H2 G g m.
    destruct (WP s Hs) as (W1&W2&W3). pose proof (MP s Hs) as Hm. destruct DF as (e1&e2&e3&e4).
    assert (Hg : forall i1 i2 i3, inb (mn1 G) i1 -> inb (mn2 G) i2 -> inb (mn3 G) i3 -> 0 <= g i1 i2 i3).
    { intros. apply FP. unfold inside. rewrite e1, e2, e3, e4. split; [apply pidx_bound; auto|]. split; [auto|]. split; auto. }
    set (n := fluid_n G g). set (E := integral G (fun x y z => (x * x + y * y + z * z) / 2) g).
    set (T := used_T d m n (fluid_m1 G g) (fluid_m2 G g) (fluid_m3 G g) E).
    assert (PT : 0 < T) by (apply used_T_pos; auto; lia).
    assert (N0 : 0 <= n) by (apply n_nonneg; auto).
    exists (used_u (fluid_m1 G g) n), (used_u (fluid_m2 G g) n), (used_u (fluid_m3 G g) n), T.
    split; auto. split.
    - intros Hn n' P. repeat split; try (apply used_u_close; auto). apply used_T_close; auto; lia.
    - intros i1 i2 i3 I1 I2 I3 x.
      assert (VF' := VF i1 i2 i3 s q1 q2 I1 I2 I3 Hs H1 H2). cbv zeta in VF'. fold G in VF'.
      change (cell_f c f s q1 q2) with g in VF'. fold n E x m in VF'. fold T in VF'. cbv iota in VF'.
      assert (VC' := VC i1 i2 i3 s q1 q2 I1 I2 I3 Hs H1 H2). cbv zeta in VC'. fold G in VC'.
      change (cell_f c f s q1 q2) with g in VC'. fold n E x m in VC'. fold T in VC'. cbv iota in VC'.
      rewrite <- VF' in VC'.
      assert (IN : inside f x s q1 q2) by (unfold inside; rewrite e1, e2, e3, e4; split; [apply pidx_bound; auto|]; split; [auto|]; split; auto).
      assert (TN := TP x s q1 q2 IN).
      rewrite f0_maxwellian in VF' by auto.
      assert (TH : 0 < k * T / m).
      { apply Rmult_lt_0_compat; [apply Rmult_lt_0_compat; auto|apply Rinv_0_lt_compat; auto]. }
      split; [exact VF'|]. split; [rewrite VF'; apply maxwellian_nonneg; auto|]. split.
      + rewrite VC'. unfold Rdiv. ring.
      + rewrite VC'. split; intros H.
        * apply Rmult_integral in H. destruct H as [H|H]; [lra|]. exfalso. apply Rinv_neq_0_compat in TN. contradiction.
        * rewrite H. unfold Rdiv. ring.
  Qed.
End BgkFinal.

(** The equilibrium depends on the value of Boltzmann's constant although
    density, bulk velocity and k_B T of f do not. *)
Lemma bgk_depends_on_k c n1 n2 mu k d mass tau f s q1 q2 i1 i2 i3 :
  momentum_grid_ok c -> (0 < n1)%Z -> (0 < n2)%Z -> p_space_grid c = "cartesian"%string ->
  (1 <= d <= 3)%Z -> 1 < k ->
  dims4 mass 1 (N_species c) 1 1 -> dims4 f (N_p c) (N_species c) n1 n2 ->
  inb (N_p1 c) i1 -> inb (N_p2 c) i2 -> inb (N_p3 c) i3 -> inb (N_species c) s -> inb n1 q1 -> inb n2 q2 ->
  0 < el mass 0 s 0 0 ->
  let G := species_grid c s in
  0 <= w1 G -> 0 <= w2 G -> 0 <= w3 G ->
  (forall i s q1 q2, inside f i s q1 q2 -> 0 <= el f i s q1 q2) ->
  let g := fun i1 i2 i3 => el f (row c i1 i2 i3) s q1 q2 in
  0 < fluid_n G g ->
  fluid_m1 G g = 0 -> fluid_m2 G g = 0 -> fluid_m3 G g = 0 ->
  v_of (lo1 G) (w1 G) i1 = 0 -> v_of (lo2 G) (w2 G) i2 = 0 -> v_of (lo3 G) (w3 G) i3 = 0 ->
  exists F F',
    BGK (compute_moments c nonrel_moments mu) mass 1 d (p1_center c) (p2_center c) (p3_center c) tau f true = Ok F
    /\ BGK (compute_moments c nonrel_moments mu) mass k d (p1_center c) (p2_center c) (p3_center c) tau f true = Ok F'
    /\ el F' (row c i1 i2 i3) s q1 q2 < el F (row c i1 i2 i3) s q1 q2.
Proof.
  intros OK P1 P2 CART Hd Hk DM DF I1 I2 I3 Hs H1 H2 Hm G W1 W2 W3 FP g Hn Z1 Z2 Z3 V1 V2 V3.
  destruct (bgk_value c n1 n2 OK P1 P2 CART mu 1 d Hd mass tau f DM DF true) as (F&RF&_&VF).
  destruct (bgk_value c n1 n2 OK P1 P2 CART mu k d Hd mass tau f DM DF true) as (F'&RF'&_&VF').
  exists F, F'. split; auto. split; auto.
  rewrite VF by auto. rewrite VF' by auto. cbv zeta iota. fold G. change (cell_f c f s q1 q2) with g.
  rewrite Z1, Z2, Z3, V1, V2, V3. replace (used_u 0 (fluid_n G g)) with 0 by (unfold used_u, Rdiv; ring).
  destruct DF as (e1&e2&e3&e4).
  assert (Hg : forall i1 i2 i3, inb (mn1 G) i1 -> inb (mn2 G) i2 -> inb (mn3 G) i3 -> 0 <= g i1 i2 i3).
  { intros. apply FP. unfold inside. rewrite e1, e2, e3, e4. split; [apply pidx_bound; auto|]. split; [auto|]. split; auto. }
  assert (PT := used_T_pos G g W1 W2 W3 Hg d (el mass 0 s 0 0) ltac:(lia) Hm). rewrite Z1, Z2, Z3 in PT.
  set (T := used_T _ _ _ _ _ _ _) in *. set (m := el mass 0 s 0 0) in *.
  rewrite !f0_maxwellian by (auto; lra).
  assert (TH : 0 < T / m) by (apply Rmult_lt_0_compat; auto; apply Rinv_0_lt_compat; auto).
  apply maxwellian_peak_mono; auto; unfold Rdiv in *; rewrite !Rmult_assoc; nra.
Qed.

(** ** Lorentz force *)
Lemma magnetic_no_work e m t q1 q2 v1 v2 v3 E1 E2 E3 B1 B2 B3 :
  let '(F1, F2, F3) := A_p_nonrel e m t q1 q2 v1 v2 v3 E1 E2 E3 B1 B2 B3 in
  v1 * F1 + v2 * F2 + v3 * F3 = e / m * (v1 * E1 + v2 * E2 + v3 * E3).
Proof. unfold A_p_nonrel. ring. Qed.

From Verif Require Import Model.Fvm Spec.Lattice Spec.Domain Spec.FvmProblem Proofs.FvmConserve.

(** A distribution that does not depend on momentum feels no force. *)
Lemma lorentz_uniform c e m k_q k_p t E1 E2 E3 g1 g2 (w : Z -> Z -> R) x s :
  (forall s, C_p c s = C_p_nonrel (e s) (m s)) -> pos_cfg c -> inb (N_p c) x ->
  (forall x y, w x s = w y s) ->
  advect_p (problem_of c k_q k_p t E1 E2 E3) g1 g2 w x s = 0.
Proof.
  intros HC (P1&P2&P3&PS) Hx Hw.
  destruct (row_split (N_p1 c) (N_p2 c) (N_p3 c) x P1 P2 Hx) as (EX&B1&B2&B3).
  unfold advect_p, problem_of, problem_at. cbn [M1 M2 M3 kp hp1 hp2 hp3].
  set (i1 := (x mod N_p1 c)%Z) in *. set (i2 := ((x / N_p1 c) mod N_p2 c)%Z) in *. set (i3 := (x / N_p1 c / N_p2 c)%Z) in *.
  assert (MB : forall n i, (0 < n)%Z -> inb n (i mod n)) by (intros; apply Z.mod_pos_bound; auto).
  rewrite !(advect_const _ _ _ _ _ (w 0%Z s)); [lra|..]; unfold periodic; try (intros; apply Hw).
  all: cbn [acc1 acc2 acc3 pidx M1 M2 M3]; unfold pidx; cbn [M1 M2 M3];
    destruct (p_is_fvm c); [|reflexivity]; unfold accel; rewrite HC; unfold C_p_nonrel; cbn [fst snd]; unfold mom1, mom2, mom3;
    match goal with |- context [((?a + 1) mod ?n)%Z] => set (j := ((a + 1) mod n)%Z); set (j' := (a mod n)%Z) end.
  - destruct (pidx_split (N_p1 c) (N_p2 c) i1 i2 j B1 B2) as (Q1&Q2&_).
    destruct (pidx_split (N_p1 c) (N_p2 c) i1 i2 j' B1 B2) as (Q1'&Q2'&_). rewrite Q1, Q2, Q1', Q2'. reflexivity.
  - assert (J : inb (N_p2 c) j) by (apply MB; auto). assert (J' : inb (N_p2 c) j') by (apply MB; auto).
    destruct (pidx_split (N_p1 c) (N_p2 c) i1 j i3 B1 J) as (Q1&_&Q3).
    destruct (pidx_split (N_p1 c) (N_p2 c) i1 j' i3 B1 J') as (Q1'&_&Q3'). rewrite Q1, Q3, Q1', Q3'. reflexivity.
  - assert (J : inb (N_p1 c) j) by (apply MB; auto). assert (J' : inb (N_p1 c) j') by (apply MB; auto).
    destruct (pidx_split (N_p1 c) (N_p2 c) j i2 i3 J B2) as (_&Q2&Q3).
    destruct (pidx_split (N_p1 c) (N_p2 c) j' i2 i3 J' B2) as (_&Q2'&Q3'). rewrite Q2, Q3, Q2', Q3'. reflexivity.
Qed.
