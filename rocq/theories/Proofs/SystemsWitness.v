(** Concrete electrons and particles. *)
From Coq Require Import ZArith Reals String List Bool Lra Lia.
From Verif Require Import Base.Prelude Base.ZSum Model.Af Model.Grid Model.Petsc Model.Config Model.Moments
  Model.Polar Model.Systems
  Spec.MomentSpec Spec.Motion Spec.Systems
  Proofs.ConvLemmas Proofs.MomentLemmas Proofs.PolarLemmas Proofs.SystemsLemmas.
Import ListNotations.
Local Open Scope R_scope.

(** A momentum grid of n1 x n2 x 1 cells for one species *)
Definition grid_cfg (n1 n2 : Z) (s1 s2 d1 d2 : R) : cfg :=
  Cfg (Layout 1 1 [1]%Z [1]%Z 0 0 PPeriodic PPeriodic) 0 n1 n2 1 1 0 1 0 1 1 1 [s1] [s2] [- (1/2)] [d1] [d2] [1]
    "FVM" "FVM" "minmod" "minmod" "cartesian" false false
    (fun _ _ _ _ p1 p2 _ => (p1, p2)) (fun _ _ _ _ p1 p2 _ => (p1, p2))
    (fun _ _ _ _ _ _ _ E1 E2 E3 _ _ _ => (E1, E2, E3)) (fun _ _ _ _ _ _ _ E1 E2 E3 _ _ _ => (E1, E2, E3))
    (fun _ _ _ _ _ _ => 0)
    (fun _ => "periodic"%string) (fun _ _ _ _ f => f) 0 0
    (fun v _ _ _ _ => v) 0.

Lemma grid_cfg_ok n1 n2 s1 s2 d1 d2 : (0 < n1)%Z -> (0 < n2)%Z -> momentum_grid_ok (grid_cfg n1 n2 s1 s2 d1 d2).
Proof. unfold momentum_grid_ok; cbn. intros. repeat split; auto; lia. Qed.

(** One particle per cell of q-space, in momentum cell [x0] *)
Definition single (n x0 : Z) : arr R := Arr n 1 1 1 (fun x _ _ _ => if Z.eqb x x0 then 1 else 0).

(** ** Currents of Dirac electrons *)
Definition two_speeds : cfg := grid_cfg 2 1 0 (- (1/2)) 1 1.

Lemma two_ok : momentum_grid_ok two_speeds. Proof. apply grid_cfg_ok; lia. Qed.
Lemma in_1 : inb 1 0. Proof. unfold inb; lia. Qed.

Lemma two_j x0 : (x0 = 0 \/ x0 = 1)%Z -> exists J, compute_moments two_speeds electronic_moments 0 "j_x" (single 2 x0) = Ok J
  /\ el J 0 0 0 0 = states * (1/2 + IZR x0).
Proof.
  intros H.
  destruct (el_moment two_speeds 1 1 0 "j_x" (fun x _ _ => states * x) (single 2 x0)
    two_ok ltac:(lia) ltac:(lia) ltac:(repeat split) (fun _ _ _ => eq_refl)) as (A&_).
  destruct (A eq_refl) as (J&HJ&_&V). exists J. split; [exact HJ|].
  rewrite (V 0%Z 0%Z 0%Z in_1 in_1 in_1). generalize states. intros k.
  unfold integral, row, single, v_of. cbn [mn1 mn2 mn3 lo1 lo2 lo3 w1 w2 w3 species_grid two_speeds grid_cfg
    N_p1 N_p2 N_p3 p1_start p2_start p3_start dp1 dp2 dp3 Z.to_nat nth el].
  destruct H as [-> | ->]; cbv -[Rplus Rmult Ropp Rdiv Rinv IZR Rminus]; lra.
Qed.

Lemma two_n x0 : (x0 = 0 \/ x0 = 1)%Z -> exists N, compute_moments two_speeds electronic_moments 0 "density" (single 2 x0) = Ok N
  /\ el N 0 0 0 0 = 1.
Proof.
  intros H.
  destruct (el_moment two_speeds 1 1 0 "density" (fun x _ _ => 1) (single 2 x0)
    two_ok ltac:(lia) ltac:(lia) ltac:(repeat split) (fun _ _ _ => eq_refl)) as (A&_).
  destruct (A eq_refl) as (J&HJ&_&V). exists J. split; [exact HJ|].
  rewrite (V 0%Z 0%Z 0%Z in_1 in_1 in_1).
  unfold integral, row, single, v_of. cbn [mn1 mn2 mn3 lo1 lo2 lo3 w1 w2 w3 species_grid two_speeds grid_cfg
    N_p1 N_p2 N_p3 p1_start p2_start p3_start dp1 dp2 dp3 Z.to_nat nth el].
  destruct H as [-> | ->]; cbv -[Rplus Rmult Ropp Rdiv Rinv IZR Rminus]; lra.
Qed.

(** One electron per cell of momentum 3/2 *)
Lemma two_norm : exists N J, compute_moments two_speeds electronic_moments 0 "density" (single 2 1) = Ok N
  /\ compute_moments two_speeds electronic_moments 0 "j_x" (single 2 1) = Ok J
  /\ el (p1_center two_speeds) 1 0 0 0 = 3/2
  /\ el N 0 0 0 0 = 1 /\ el J 0 0 0 0 = states * (3/2 * el N 0 0 0 0) /\ 3/2 * el N 0 0 0 0 < el J 0 0 0 0.
Proof.
  destruct (two_n 1 (or_intror eq_refl)) as (N&HN&VN). destruct (two_j 1 (or_intror eq_refl)) as (J&HJ&VJ).
  exists N, J. split; [exact HN|]. split; [exact HJ|]. split.
  { destruct (p_center_el two_speeds 1 0 0 0 ltac:(unfold inb; cbn; lia) ltac:(unfold inb; cbn; lia) ltac:(unfold inb; cbn; lia)) as (P&_&_).
    change (1 + N_p1 two_speeds * (0 + N_p2 two_speeds * 0))%Z with 1%Z in P. cbv zeta in P. rewrite P.
    unfold v_of. cbn [lo1 w1 species_grid two_speeds grid_cfg p1_start dp1 Z.to_nat nth]. lra. }
  split; [exact VN|].
  rewrite VN, VJ. pose proof factor_big as F. split; [|nra]. revert F. generalize states. intros k _. lra.
Qed.

Lemma two_flow v_f x0 (vx : Z -> R) : (x0 = 0 \/ x0 = 1)%Z ->
  (forall i, inb 2 i -> exists vy, band_velocity v_f "cartesian" (v_of 0 1 i) (v_of (- (1/2)) 1 0) = Ok (vx i, vy)) ->
  integral (species_grid two_speeds 0) (fun _ _ _ => 1) (fun i1 i2 i3 => vx i1 * el (single 2 x0) (row two_speeds i1 i2 i3) 0 0 0)
  = vx x0 /\ vx x0 * (1/2 + IZR x0 + / 10 ^ 20) = v_f * (1/2 + IZR x0).
Proof.
  intros H HV. split.
  - unfold integral, row, single. cbn [mn1 mn2 mn3 lo1 lo2 lo3 w1 w2 w3 species_grid two_speeds grid_cfg
      N_p1 N_p2 N_p3 p1_start p2_start p3_start dp1 dp2 dp3 Z.to_nat nth el].
    destruct H as [-> | ->]; cbv -[Rplus Rmult Ropp Rdiv Rinv IZR Rminus]; lra.
  - destruct (HV x0 ltac:(unfold inb; lia)) as (vy&E).
    cbn [band_velocity p_xy String.eqb Ascii.eqb Bool.eqb rbind] in E. rewrite <- size_sq in E.
    apply (f_equal (fun r => match r with Ok p => fst p | Err _ => 0 end)) in E. cbn [fst] in E. rewrite <- E.
    assert (S : size (v_of 0 1 x0) (v_of (- (1/2)) 1 0) = 1/2 + IZR x0).
    { unfold size, v_of. replace (- (1/2) + (1/2 + 0) * 1) with 0 by lra. rewrite Rmult_0_l, Rplus_0_r.
      rewrite Rplus_0_l, Rmult_1_r. apply sqrt_square. destruct H as [-> | ->]; lra. }
    rewrite S. unfold v_of. pose proof tiny_pos as T. set (z := / 10 ^ 20) in *.
    assert (0 <= IZR x0) by (destruct H as [-> | ->]; lra). field. lra.
Qed.

Lemma no_current_factor v_f : ~ exists kappa vx,
  (forall i, inb 2 i -> exists vy, band_velocity v_f "cartesian" (v_of 0 1 i) (v_of (- (1/2)) 1 0) = Ok (vx i, vy))
  /\ forall f, dims4 f (N_p two_speeds) 1 1 1 -> exists J,
     compute_moments two_speeds electronic_moments 0 "j_x" f = Ok J
     /\ el J 0 0 0 0 = kappa * integral (species_grid two_speeds 0) (fun _ _ _ => 1)
          (fun i1 i2 i3 => vx i1 * el f (row two_speeds i1 i2 i3) 0 0 0).
Proof.
  intros (k&vx&HV&H).
  assert (G : forall x0, (x0 = 0 \/ x0 = 1)%Z -> states * (1/2 + IZR x0) = k * vx x0
      /\ vx x0 * (1/2 + IZR x0 + / 10 ^ 20) = v_f * (1/2 + IZR x0)).
  { intros x0 Hx. destruct (two_flow v_f x0 vx Hx HV) as (A&B). split; [|exact B].
    destruct (H (single 2 x0) ltac:(repeat split)) as (J&HJ&E). destruct (two_j x0 Hx) as (J'&HJ'&E').
    rewrite HJ in HJ'. injection HJ' as <-. rewrite A in E. congruence. }
  destruct (G 0%Z (or_introl eq_refl)) as (A0&B0). destruct (G 1%Z (or_intror eq_refl)) as (A1&B1).
  pose proof factor_big. pose proof tiny_pos as T. set (z := / 10 ^ 20) in *.
  assert (C0 : states * (1/2 + 0 + z) = k * v_f).
  { apply (Rmult_eq_reg_l (1/2 + 0)); [|lra].
    transitivity (states * (1/2 + 0) * (1/2 + 0 + z)); [ring|]. rewrite A0.
    transitivity (k * (vx 0%Z * (1/2 + 0 + z))); [ring|]. rewrite B0. ring. }
  assert (C1 : states * (1/2 + 1 + z) = k * v_f).
  { apply (Rmult_eq_reg_l (1/2 + 1)); [|lra].
    transitivity (states * (1/2 + 1) * (1/2 + 1 + z)); [ring|]. rewrite A1.
    transitivity (k * (vx 1%Z * (1/2 + 1 + z))); [ring|]. rewrite B1. ring. }
  nra.
Qed.

(** ** A particle on the line x = 1 *)
Definition line_r (t : R) : R := sqrt (1 + t * t).
Definition line_rd (t : R) : R := t / sqrt (1 + t * t).
Definition line_td (t : R) : R := / (1 + t * t).
(** momentum cells centred at the velocities at times 0 and 1 *)
Definition line_cfg : cfg := grid_cfg 2 2 (- (1 / sqrt 2) / 2) (1/4) (1 / sqrt 2) (1/2).

Lemma line_ok : momentum_grid_ok line_cfg. Proof. apply grid_cfg_ok; lia. Qed.

Lemma line_energy x0 k : (x0 = 2%Z /\ k = 1/2 \/ x0 = 1%Z /\ k = 3/8) ->
  exists M, compute_moments line_cfg polar_moments 0 "energy" (single 4 x0) = Ok M
  /\ el M 0 0 0 0 = k * (1 / sqrt 2 * (1/2)).
Proof.
  intros H.
  destruct (polar_moment line_cfg 1 1 0 "energy" (fun x y z => (x * x + y * y + z * z) / 2) (single 4 x0)
    line_ok ltac:(lia) ltac:(lia) ltac:(repeat split) (fun _ _ _ => eq_refl)) as (A&_).
  destruct (A eq_refl) as (J&HJ&_&V). exists J. split; [exact HJ|].
  rewrite (V 0%Z 0%Z 0%Z in_1 in_1 in_1).
  assert (Q : 1 / sqrt 2 * (1 / sqrt 2) = 1/2).
  { pose proof (sqrt_sqrt 2 ltac:(lra)) as S. pose proof (sqrt_lt_R0 2 ltac:(lra)) as P.
    apply (Rmult_eq_reg_l (sqrt 2 * sqrt 2)); [|nra].
    transitivity 1; [field; lra|]. rewrite S. lra. }
  unfold integral, row, single, v_of. unfold line_cfg. revert Q. generalize (1 / sqrt 2). intros a Q.
  cbn [mn1 mn2 mn3 lo1 lo2 lo3 w1 w2 w3 species_grid grid_cfg
    N_p1 N_p2 N_p3 p1_start p2_start p3_start dp1 dp2 dp3 Z.to_nat nth el].
  destruct H as [(->& ->)|(->& ->)]; cbv -[Rplus Rmult Ropp Rdiv Rinv IZR Rminus].
  - field.
  - apply Rminus_diag_uniq. transitivity (a / 4 * (a * a - 1/2)); [field|]. rewrite Q. ring.
Qed.

Lemma line_cells : let at_ i1 i2 i3 := (v_of (lo1 (species_grid line_cfg 0)) (w1 (species_grid line_cfg 0)) i1,
     v_of (lo2 (species_grid line_cfg 0)) (w2 (species_grid line_cfg 0)) i2, v_of (lo3 (species_grid line_cfg 0)) (w3 (species_grid line_cfg 0)) i3) in
  at_ 0%Z 1%Z 0%Z = (line_rd 0, line_td 0, 0) /\ at_ 1%Z 0%Z 0%Z = (line_rd 1, line_td 1, 0)
  /\ row line_cfg 0 1 0 = 2%Z /\ row line_cfg 1 0 0 = 1%Z.
Proof.
  unfold v_of, line_rd, line_td.
  cbn [lo1 lo2 lo3 w1 w2 w3 species_grid line_cfg grid_cfg p1_start p2_start p3_start dp1 dp2 dp3 Z.to_nat nth].
  replace (1 + 0 * 0) with 1 by ring. replace (1 + 1 * 1) with 2 by ring. rewrite sqrt_1.
  repeat split; repeat (f_equal; try lra).
Qed.

(** ** An electron on its cyclotron orbit *)
Definition omega : R := / (1 + / 10 ^ 20).
Definition orbit_band (t : R) : band := Band (omega * cos (omega * t)) (- (omega * sin (omega * t))) 1 1 1.

Lemma orbit :
  let p1 t := cos (omega * t) in let p2 t := - sin (omega * t) in
  let d1 t := - (omega * sin (omega * t)) in let d2 t := - (omega * cos (omega * t)) in
  has_derivative p1 d1 /\ has_derivative p2 d2
  /\ (forall t, 0 < p1 t * p1 t + p2 t * p2 t)
  /\ (forall t, band_velocity 1 "cartesian" (p1 t) (p2 t) = Ok (vel1 (orbit_band t), vel2 (orbit_band t)))
  /\ (forall t, C_p_electronic (orbit_band t) t 0 0 (p1 t) (p2 t) 0 0 0 0 0 0 1 = (d1 t, d2 t, 0)).
Proof.
  intros p1 p2 d1 d2.
  assert (L : has_derivative (fun t => omega * t) (fun _ => omega)).
  { apply (deriv_ext (mult_real_fct omega id) _ (fun _ => omega * 1)); [reflexivity|intros; ring|].
    intros t. apply derivable_pt_lim_scal, derivable_pt_lim_id. }
  assert (N : forall t, p1 t * p1 t + p2 t * p2 t = 1).
  { intros t. unfold p1, p2. pose proof (sin2_cos2 (omega * t)) as H. unfold Rsqr in H.
    rewrite <- H. ring. }
  split; [|split; [|split; [|split]]].
  - eapply deriv_ext; [reflexivity| |exact (deriv_cos _ _ L)]. intros. unfold d1. ring.
  - apply (deriv_ext (opp_fct (fun t => sin (omega * t))) _ (fun t => - (cos (omega * t) * omega)));
      [reflexivity|intros; unfold d2; ring|].
    intros t. apply derivable_pt_lim_opp. exact (deriv_sin _ _ L t).
  - intros t. rewrite N. lra.
  - intros t. cbn [band_velocity p_xy String.eqb Ascii.eqb Bool.eqb rbind]. rewrite <- size_sq.
    unfold size. rewrite N, sqrt_1. cbn [vel1 vel2 orbit_band]. unfold p1, p2, omega, Rdiv.
    f_equal. f_equal; ring.
  - intros t. unfold C_p_electronic. cbn [vel1 vel2 charge_electron speed_of_light B3_mean orbit_band].
    unfold d1, d2. f_equal; [f_equal|]; field.
Qed.
