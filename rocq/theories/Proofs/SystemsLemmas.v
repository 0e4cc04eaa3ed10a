(** Proofs about the physical systems. *)
From Coq Require Import ZArith Reals String List Bool Lra Lia.
From Verif Require Import Base.Prelude Base.ZSum Model.Af Model.Grid Model.Petsc Model.Config Model.Moments Model.NonRel
  Model.Polar Model.Validate Model.Systems
  Spec.MomentSpec Spec.Motion Spec.Systems
  Proofs.ConvLemmas Proofs.MomentLemmas Proofs.PhysicsProps Proofs.PolarLemmas.
Import ListNotations.
Local Open Scope R_scope.

Lemma nonrel_usable e m : usable (nonrel_terms e m).
Proof.
  eexists; split; [reflexivity|]. intros t q1 q2 p1 p2 p3 F. destruct F as (((((E1&E2)&E3)&B1)&B2)&B3).
  repeat split; eexists; reflexivity.
Qed.
Lemma polar_usable : usable polar_terms.
Proof.
  eexists; split; [reflexivity|]. intros t q1 q2 p1 p2 p3 F. destruct F as (((((E1&E2)&E3)&B1)&B2)&B3).
  repeat split; eexists; reflexivity.
Qed.

Lemma systems_values :
  (forall e m, exists L, link (nonrel_terms e m) = Ok L /\ forall t q1 q2 v1 v2 v3 E1 E2 E3 B1 B2 B3,
     let F := (E1, E2, E3, B1, B2, B3) in
     let force := (e / m * (E1 + (v2 * B3 - v3 * B2)), e / m * (E2 + (v3 * B1 - v1 * B3)), e / m * (E3 + (v1 * B2 - v2 * B1))) in
     call_q (l_A_q L) t q1 q2 v1 v2 v3 = Ok (v1, v2) /\ call_q (l_C_q L) t q1 q2 v1 v2 v3 = Ok (v1, v2)
     /\ call_p (l_A_p L) t q1 q2 v1 v2 v3 F = Ok force /\ call_p (l_C_p L) t q1 q2 v1 v2 v3 F = Ok force)
  /\ (forall b, exists L, link (electronic_terms b) = Ok L /\ forall t q1 q2 p1 p2 p3,
     call_q (l_A_q L) t q1 q2 p1 p2 p3 = Ok (vel1 b, vel2 b)
     /\ call_q (l_C_q L) t q1 q2 p1 p2 p3 = Ok (vel1 b, vel2 b))
  /\ (exists L, link polar_terms = Ok L /\ forall t r th rd td phid F,
     call_q (l_A_q L) t r th rd td phid = Ok (rd, td) /\ call_q (l_C_q L) t r th rd td phid = Ok (rd, td)
     /\ call_p (l_A_p L) t r th rd td phid F = Ok (r * td ^ 2, - 2 * rd * td / r, 0 * r * td)
     /\ call_p (l_C_p L) t r th rd td phid F = Ok (r * td ^ 2, - 2 * rd * td / r, 0 * r * td)).
Proof.
  split; [|split].
  - intros e m. eexists; split; [reflexivity|]. intros.
    assert (X : A_p_nonrel e m t q1 q2 v1 v2 v3 E1 E2 E3 B1 B2 B3 = force).
    { unfold A_p_nonrel, force. f_equal; [f_equal|]; ring. }
    repeat split; try reflexivity.
    + change (Ok (A_p_nonrel e m t q1 q2 v1 v2 v3 E1 E2 E3 B1 B2 B3) = Ok force). now rewrite X.
    + change (Ok (A_p_nonrel e m t q1 q2 v1 v2 v3 E1 E2 E3 B1 B2 B3) = Ok force). now rewrite X.
  - intros b. eexists; split; [reflexivity|]. intros. split; reflexivity.
  - eexists; split; [reflexivity|]. intros. destruct F as (((((E1&E2)&E3)&B1)&B2)&B3). repeat split.
Qed.

Lemma electronic_no_force b L : link (electronic_terms b) = Ok L -> forall t q1 q2 p1 p2 p3 F,
  call_p (l_A_p L) t q1 q2 p1 p2 p3 F = Err TypeError /\ call_p (l_C_p L) t q1 q2 p1 p2 p3 F = Err TypeError.
Proof.
  intros H. injection H as <-. intros. destruct F as (((((E1&E2)&E3)&B1)&B2)&B3). split; reflexivity.
Qed.

Lemma electronic_not_usable b : ~ usable (electronic_terms b).
Proof.
  intros (L&HL&H). destruct (H 0 0 0 0 0 0 (0, 0, 0, 0, 0, 0)) as (_&_&(v&Hv)&_).
  destruct (electronic_no_force b L HL 0 0 0 0 0 0 (0, 0, 0, 0, 0, 0)) as (E&_). congruence.
Qed.

Lemma optics_link v e m : link (optics_terms v e m) = Err AttributeError.
Proof. reflexivity. Qed.

Lemma optics_calls v e m : forall f, t_A_q (optics_terms v e m) = Some f ->
  forall t q1 q2 p1 p2 p3, call_q f t q1 q2 p1 p2 p3 = Err TypeError.
Proof. intros f H. injection H as <-. reflexivity. Qed.

Lemma optics_refused (a : inputs) : mom_attrs a = optics_moment_attrs -> exists e, physical_system a = Err e.
Proof.
  intros H. unfold physical_system, raise_if. rewrite H. cbn [optics_moment_attrs forallb fun_or_module andb negb].
  repeat (match goal with |- context [if ?b then Err _ else Ok tt] => destruct b end; cbn [rbind]; [eexists; reflexivity|]).
  eexists; reflexivity.
Qed.

(** ** Moments *)
Lemma no_currents : forall c mu name f, In name current_moments ->
  p_space_grid c = "cartesian"%string \/ p_space_grid c = "polar2D"%string ->
  compute_moments c electronic_moments mu name f = Err AttributeError
  /\ compute_moments c polar_moments mu name f = Err AttributeError.
Proof.
  intros c mu name f H G. unfold compute_moments.
  cbn [current_moments In] in H. destruct H as [<-|[<-|[<-|[]]]]; destruct G as [-> | ->]; split; reflexivity.
Qed.

Definition nonrel_name (name : string) : string :=
  if String.eqb name "mom_rdot_bulk" then "mom_v1_bulk"
  else if String.eqb name "mom_thetadot_bulk" then "mom_v2_bulk"
  else if String.eqb name "mom_phidot_bulk" then "mom_v3_bulk" else name.

Lemma polar_as_nonrel name w : (forall x y z, polar_weight name x y z = Some (w x y z)) ->
  getattr polar_moments name = getattr nonrel_moments (nonrel_name name)
  /\ forall x y z, moment_weight (nonrel_name name) x y z = Some (w x y z).
Proof.
  intros H. unfold polar_weight in H. cbv zeta in H.
  repeat match type of H with
  | forall x y z, (if String.eqb name ?n then _ else _) = _ =>
      destruct (String.eqb_spec name n) as [->|?]
  end; [..|discriminate (H 0 0 0)]; (split; [reflexivity|]); intros x y z; exact (H x y z).
Qed.

Lemma polar_moment c n1 n2 mu name w f :
  momentum_grid_ok c -> (0 < n1)%Z -> (0 < n2)%Z -> dims4 f (N_p c) (N_species c) n1 n2 ->
  (forall x y z, polar_weight name x y z = Some (w x y z)) ->
  let I s k l := integral (species_grid c s) w (fun i1 i2 i3 => el f (row c i1 i2 i3) s k l) in
  (p_space_grid c = "cartesian"%string ->
     exists M, compute_moments c polar_moments mu name f = Ok M /\ moment_is c n1 n2 M I)
  /\ (p_space_grid c = "polar2D"%string ->
     exists M, compute_moments c polar_moments mu name f = Ok M
       /\ moment_is c n1 n2 M (fun s k l => mu * I s k l)).
Proof.
  intros OK P1 P2 D W. destruct (polar_as_nonrel name w W) as (G&W').
  replace (compute_moments c polar_moments mu name f) with (compute_moments c nonrel_moments mu (nonrel_name name) f)
    by (unfold compute_moments; rewrite G; reflexivity).
  apply moments_are_integrals; auto.
Qed.

(** The moments of the electronic module are multiples of non-relativistic ones *)
Lemma el_density_is : el_density = density. Proof. reflexivity. Qed.

Definition scaled_moment (c : cfg) (n1 n2 : Z) (r r' : res (arr R)) (k : R) : Prop :=
  exists M M', r = Ok M /\ r' = Ok M' /\ dims4 M 1 (N_species c) n1 n2
  /\ forall s i j, inb (N_species c) s -> inb n1 i -> inb n2 j -> el M 0 s i j = k * el M' 0 s i j.

Lemma scale_integral Np Ns n1 n2 (f w : arr R) im k : (0 < n1)%Z -> (0 < n2)%Z ->
  dims4 f Np Ns n1 n2 -> dims4 w Np Ns 1 1 -> dims4 im 1 Ns 1 1 ->
  let M := integral_over_v real_scalar (times real_scalar (scaled real_scalar k f) w) im in
  let M' := integral_over_v real_scalar (times real_scalar f w) im in
  dims4 M 1 Ns n1 n2 /\ dims4 M' 1 Ns n1 n2
  /\ forall s i j, inb Ns s -> inb n1 i -> inb n2 j -> el M 0 s i j = k * el M' 0 s i j.
Proof.
  intros P1 P2 D W I M M'.
  assert (DS : dims4 (scaled real_scalar k f) Np Ns n1 n2) by (apply amap_dims; exact D).
  pose proof (times_dims real_scalar Np Ns n1 n2 P1 P2 _ _ DS W) as T1.
  pose proof (times_dims real_scalar Np Ns n1 n2 P1 P2 _ _ D W) as T2.
  split; [exact (integral_dims real_scalar Np Ns n1 n2 P1 P2 _ _ T1 I)|].
  split; [exact (integral_dims real_scalar Np Ns n1 n2 P1 P2 _ _ T2 I)|].
  intros s i j Hs Hi Hj. unfold M, M'.
  rewrite (integral_el real_scalar Np Ns n1 n2 _ _ s i j T1 I Hs Hi Hj).
  rewrite (integral_el real_scalar Np Ns n1 n2 _ _ s i j T2 I Hs Hi Hj).
  cbn [s_scale s_sum real_scalar].
  rewrite <- Rmult_assoc, (Rmult_comm k), Rmult_assoc. f_equal. rewrite <- zsum_scal. apply zsum_ext. intros x Hx.
  rewrite (times_el real_scalar Np Ns n1 n2 _ _ x s i j DS W) by auto.
  rewrite (times_el real_scalar Np Ns n1 n2 _ _ x s i j D W) by auto.
  cbn [s_scale real_scalar scaled amap el]. ring.
Qed.

Lemma measure_dims c : dims4 (measure c) 1 (N_species c) 1 1.
Proof. repeat split. Qed.

Lemma el_moment c n1 n2 mu name w f :
  momentum_grid_ok c -> (0 < n1)%Z -> (0 < n2)%Z -> dims4 f (N_p c) (N_species c) n1 n2 ->
  (forall x y z, el_weight name x y z = Some (w x y z)) ->
  let I s k l := integral (species_grid c s) w (fun i1 i2 i3 => el f (row c i1 i2 i3) s k l) in
  (p_space_grid c = "cartesian"%string ->
     exists M, compute_moments c electronic_moments mu name f = Ok M /\ moment_is c n1 n2 M I)
  /\ (p_space_grid c = "polar2D"%string ->
     exists M, compute_moments c electronic_moments mu name f = Ok M
       /\ moment_is c n1 n2 M (fun s k l => mu * I s k l)).
Proof.
  intros OK P1 P2 D W I. destruct (p_center_dims c OK) as (D1&D2&D3).
  pose proof (measure_dims c) as DM.
  assert (S : forall m w0 k (p : arr R) name0,
     getattr electronic_moments name = Ok m ->
     m R real_scalar f (p1_center c) (p2_center c) (p3_center c) (measure c)
       = integral_over_v real_scalar (times real_scalar (scaled real_scalar k f) p) (measure c) ->
     dims4 p (N_p c) (N_species c) 1 1 ->
     (forall x y z, moment_weight name0 x y z = Some (w0 x y z)) ->
     (exists m0, getattr nonrel_moments name0 = Ok m0
        /\ m0 R real_scalar f (p1_center c) (p2_center c) (p3_center c) (measure c)
           = integral_over_v real_scalar (times real_scalar f p) (measure c)) ->
     (forall x y z, w x y z = k * w0 x y z) ->
     (p_space_grid c = "cartesian"%string ->
       exists M, compute_moments c electronic_moments mu name f = Ok M /\ moment_is c n1 n2 M I)
     /\ (p_space_grid c = "polar2D"%string ->
       exists M, compute_moments c electronic_moments mu name f = Ok M
         /\ moment_is c n1 n2 M (fun s k l => mu * I s k l))).
  { intros m w0 k p name0 G Em Dp W0 (m0&G0&Em0) Ew.
    destruct (scale_integral (N_p c) (N_species c) n1 n2 f p (measure c) k P1 P2 D Dp DM) as (Q1&Q2&Q3).
    assert (V : forall s i j, inb (N_species c) s -> inb n1 i -> inb n2 j ->
       el (integral_over_v real_scalar (times real_scalar f p) (measure c)) 0 s i j
       = integral (species_grid c s) w0 (fun i1 i2 i3 => el f (row c i1 i2 i3) s i j)).
    { intros s i j Hs Hi Hj.
      destruct (table_weighs real_scalar real_laws (N_p c) (N_species c) n1 n2 P1 P2 name0 w0 W0) as (m1&G1&WM).
      rewrite G0 in G1. injection G1 as <-.
      destruct (WM f (p1_center c) (p2_center c) (p3_center c) (measure c) D D1 D2 D3 DM) as (_&EM).
      rewrite <- Em0, EM by auto. rewrite measure_el. unfold row.
      rewrite <- (flat_integral c s w0 (fun x => el f x s i j)) by auto. cbn [s_scale s_sum real_scalar]. ring. }
    assert (V' : forall s i j, inb (N_species c) s -> inb n1 i -> inb n2 j ->
       el (integral_over_v real_scalar (times real_scalar (scaled real_scalar k f) p) (measure c)) 0 s i j = I s i j).
    { intros s i j Hs Hi Hj. rewrite Q3, V by auto. unfold I.
      rewrite (integral_ext _ w _ _ Ew), integral_wscale. reflexivity. }
    unfold compute_moments. rewrite G. split; intros ->; cbn [String.eqb Ascii.eqb Bool.eqb rbind]; rewrite Em;
      eexists; (split; [reflexivity|]); (split; [exact Q1|]); intros; cbn [el amap]; rewrite V'; auto. }
  unfold el_weight in W.
  destruct (String.eqb_spec name "density") as [->|N1].
  - replace (compute_moments c electronic_moments mu "density" f) with (compute_moments c nonrel_moments mu "density" f) by reflexivity.
    apply moments_are_integrals; auto.
  - destruct (String.eqb_spec name "j_x") as [->|N2].
    + apply (S el_j_x (fun x _ _ => x) el_factor (p1_center c) "mom_v1_bulk"%string); auto; try reflexivity.
      * exists mom_v1_bulk. split; reflexivity.
      * intros x y z. specialize (W x y z). injection W. auto.
    + destruct (String.eqb_spec name "j_y") as [->|N3]; [|discriminate (W 0 0 0)].
      apply (S el_j_y (fun _ y _ => y) el_factor (p2_center c) "mom_v2_bulk"%string); auto; try reflexivity.
      * exists mom_v2_bulk. split; reflexivity.
      * intros x y z. specialize (W x y z). injection W. auto.
Qed.

(** ** Electrons *)
Lemma electron_force b t q1 q2 p1 p2 p3 E1 E2 E3 B1 B2 B3 :
  let F := C_p_electronic b t q1 q2 p1 p2 p3 E1 E2 E3 B1 B2 B3 in
  (fst F = lorentz2 (charge_electron b) (speed_of_light b) E1 E2 (vel1 b) (vel2 b) (B3_mean b) /\ snd F = 0)
  /\ A_p_electronic b t q1 q2 p1 p2 p3 E1 E2 E3 B1 B2 B3 = F
  /\ vel1 b * fst (fst F) + vel2 b * snd (fst F) = charge_electron b * (vel1 b * E1 + vel2 b * E2).
Proof.
  cbv zeta. unfold C_p_electronic, lorentz2. cbn [fst snd]. repeat split.
  - unfold Rdiv. f_equal; ring.
  - ring.
  - unfold Rdiv. ring.
Qed.

Lemma size_sq x y : size x y = sqrt (x ^ 2 + y ^ 2).
Proof. unfold size. f_equal. ring. Qed.

Lemma size_pos x y : 0 < x * x + y * y -> 0 < size x y.
Proof. intros. now apply sqrt_lt_R0. Qed.

Lemma size_rate p1 p2 d1 d2 : has_derivative p1 d1 -> has_derivative p2 d2 ->
  (forall t, 0 < p1 t * p1 t + p2 t * p2 t) ->
  has_derivative (fun t => size (p1 t) (p2 t)) (fun t => (p1 t * d1 t + p2 t * d2 t) / size (p1 t) (p2 t)).
Proof.
  intros H1 H2 Hp.
  assert (Hq : has_derivative (fun t => p1 t * p1 t + p2 t * p2 t)
                 (fun t => (d1 t * p1 t + p1 t * d1 t) + (d2 t * p2 t + p2 t * d2 t))).
  { apply deriv_plus; apply deriv_mult; assumption. }
  apply (deriv_ext (comp sqrt (fun t => p1 t * p1 t + p2 t * p2 t)) _
    (fun t => / (2 * sqrt (p1 t * p1 t + p2 t * p2 t)) * ((d1 t * p1 t + p1 t * d1 t) + (d2 t * p2 t + p2 t * d2 t)))).
  - reflexivity.
  - intros t. unfold size. pose proof (sqrt_lt_R0 _ (Hp t)). field. lra.
  - intros t. apply (derivable_pt_lim_comp _ sqrt); [apply Hq|]. apply derivable_pt_lim_sqrt, Hp.
Qed.

Lemma tiny_pos : 0 < / 10 ^ 20.
Proof. apply Rinv_0_lt_compat. apply pow_lt. lra. Qed.

Section Dirac.
  Context (v_f e c : R) (b : R -> band) (p1 p2 d1 d2 E1 E2 E3 : R -> R).
  Context (H1 : has_derivative p1 d1) (H2 : has_derivative p2 d2).
  Context (NZ : forall t, 0 < p1 t * p1 t + p2 t * p2 t).
  Context (HV : forall t, band_velocity v_f "cartesian" (p1 t) (p2 t) = Ok (vel1 (b t), vel2 (b t))).
  Context (HF : forall t, exists t' q1 q2 p3 B1 B2 B3, C_p_electronic (b t) t' q1 q2 (p1 t) (p2 t) p3 (E1 t) (E2 t) (E3 t) B1 B2 B3 = (d1 t, d2 t, 0)).

  Lemma vel_is t : vel1 (b t) = v_f * (p1 t / (size (p1 t) (p2 t) + / 10 ^ 20))
    /\ vel2 (b t) = v_f * (p2 t / (size (p1 t) (p2 t) + / 10 ^ 20)).
  Proof.
    specialize (HV t). cbn [band_velocity p_xy String.eqb Ascii.eqb Bool.eqb rbind] in HV.
    rewrite <- size_sq in HV. injection HV as <- <-. split; reflexivity.
  Qed.

  Lemma dirac_power : has_derivative (fun t => dirac_energy v_f (p1 t) (p2 t))
    (fun t => (1 + / 10 ^ 20 / size (p1 t) (p2 t)) * (charge_electron (b t) * (vel1 (b t) * E1 t + vel2 (b t) * E2 t))).
  Proof.
    unfold dirac_energy.
    apply (deriv_ext (fun t => v_f * size (p1 t) (p2 t)) _
      (fun t => v_f * ((p1 t * d1 t + p2 t * d2 t) / size (p1 t) (p2 t)))).
    - reflexivity.
    - intros t. destruct (HF t) as (t'&q1&q2&p3&B1&B2&B3&F).
      destruct (electron_force (b t) t' q1 q2 (p1 t) (p2 t) p3 (E1 t) (E2 t) (E3 t) B1 B2 B3) as (_&_&W).
      rewrite F in W. cbn [fst snd] in W. destruct (vel_is t) as (V1&V2).
      rewrite <- W. rewrite V1, V2. pose proof (size_pos _ _ (NZ t)) as S. pose proof tiny_pos as T.
      set (z := / 10 ^ 20) in *. set (s := size (p1 t) (p2 t)) in *. field. lra.
    - intros t. apply derivable_pt_lim_scal. apply size_rate; assumption.
  Qed.

  Lemma dirac_conserved : (forall t, E1 t = 0) -> (forall t, E2 t = 0) ->
    forall t, dirac_energy v_f (p1 t) (p2 t) = dirac_energy v_f (p1 0) (p2 0).
  Proof.
    intros Z1 Z2. apply (deriv_zero_const (fun t => dirac_energy v_f (p1 t) (p2 t))).
    eapply deriv_ext; [reflexivity| |exact dirac_power]. intros t. cbn beta. rewrite Z1, Z2. ring.
  Qed.
End Dirac.

Lemma band_energy_is v_f p1 p2 :
  band_energy v_f "cartesian" p1 p2 = Ok (dirac_energy v_f p1 p2)
  /\ band_energy v_f "polar2D" p1 p2 = Ok (dirac_energy v_f (p1 * cos p2) (p1 * sin p2)).
Proof.
  split; cbn [band_energy p_xy String.eqb Ascii.eqb Bool.eqb rbind]; rewrite <- size_sq; unfold dirac_energy; now rewrite Rmult_comm.
Qed.

Lemma polar_size p th : size (p * cos th) (p * sin th) = Rabs p.
Proof.
  unfold size. replace (p * cos th * (p * cos th) + p * sin th * (p * sin th)) with (Rsqr p).
  - apply sqrt_Rsqr_abs.
  - pose proof (sin2_cos2 th) as H. unfold Rsqr in *.
    replace (p * cos th * (p * cos th) + p * sin th * (p * sin th)) with (p * p * (sin th * sin th + cos th * cos th)) by ring.
    rewrite H. ring.
Qed.

(** An electron of unit momentum, the angle a right angle, in a magnetic field of
    unit strength and no electric field *)
Definition bump_band : band := Band 0 (1 / (1 + / 10 ^ 20)) 1 1 1.

Lemma bump_velocity : band_velocity 1 "polar2D" 1 (PI / 2) = Ok (vel1 bump_band, vel2 bump_band).
Proof.
  cbn [band_velocity p_xy String.eqb Ascii.eqb Bool.eqb rbind]. rewrite <- size_sq, polar_size.
  rewrite Rabs_R1, cos_PI2, sin_PI2. cbn [vel1 vel2 bump_band]. pose proof tiny_pos.
  f_equal. f_equal; field; lra.
Qed.

Lemma bump_gains : let F := C_p_electronic bump_band 0 0 0 1 (PI / 2) 0 0 0 0 0 0 1 in
  exists d, d <> 0 /\ rate (fun p1 p2 => dirac_energy 1 (p1 * cos p2) (p1 * sin p2)) 1 (PI / 2) (fst (fst F)) (snd (fst F)) d.
Proof.
  intros F. set (d := 1 / (1 + / 10 ^ 20)).
  assert (F1 : fst (fst F) = d).
  { unfold F, C_p_electronic. cbn [fst bump_band vel2 charge_electron speed_of_light B3_mean]. fold d. field. }
  pose proof tiny_pos as T.
  assert (P : 0 < d) by (unfold d; apply Rdiv_lt_0_compat; lra).
  exists d. split; [lra|]. unfold rate. rewrite F1.
  intros eps He.
  exists (mkposreal (/ (1 + d)) ltac:(apply Rinv_0_lt_compat; lra)).
  intros h Hh Hs. cbn [pos] in Hs.
  unfold dirac_energy. rewrite !polar_size, !Rmult_1_l.
  assert (Hb : Rabs (h * d) < 1).
  { rewrite Rabs_mult, (Rabs_right d) by lra.
    apply Rle_lt_trans with (/ (1 + d) * d).
    - apply Rmult_le_compat_r; lra.
    - apply (Rmult_lt_reg_l (1 + d)); [lra|]. rewrite <- Rmult_assoc, Rinv_r by lra. lra. }
  apply Rabs_def2 in Hb.
  rewrite Rplus_0_l.
  rewrite (Rabs_right (1 + h * d)) by lra. rewrite Rmult_0_l, Rplus_0_r, Rabs_R1.
  replace ((1 + h * d - 1) / h - d) with 0 by (field; auto). rewrite Rabs_R0. exact He.
Qed.

Lemma factor_big : 1 < states.
Proof. unfold states. cbn [pow]. lra. Qed.
