(** Final statements about the linear solver. *)
From Coq Require Import ZArith Reals Lra Lia String List Bool FunctionalExtensionality.
From Verif Require Import Base.Prelude Base.ZSum Base.Cplx Model.Af Model.Grid Model.Petsc Model.Config Model.Fft
  Model.Integrators Spec.RungeKutta Model.Moments Model.Linear Spec.Dft Spec.Waves Spec.MomentSpec Spec.LinearSpec
  Proofs.AfLemmas Proofs.DftLemmas Proofs.ConvLemmas Proofs.MomentLemmas Proofs.FourierLemmas Proofs.LinearLemmas
  Proofs.LinearStep Proofs.LinearInv Proofs.LinearMore.
Import ListNotations.
Local Open Scope R_scope.

(** ** C44 *)
Lemma solver_inv c b s : linear_solver c = Ok (b, s) ->
  check_periodic (ph c) = Ok tt /\ b = make_background c (init_f c) /\ f_hat s = to_hat c (amap RtoC (init_f c)) /\ lt s = 0
  /\ initialize_fields c (charge_times c Moments.density (to_hat c (amap RtoC (init_f c)))) = Ok (fsol s).
Proof.
  unfold linear_solver, initialize. destruct (check_periodic (ph c)) as [[]|]; [|discriminate]. cbn [rbind].
  destruct (initialize_fields c _) as [F|]; [|discriminate]. cbn [rbind]. intros H. apply Ok_inj in H.
  injection H as <- <-. auto.
Qed.

Lemma initial_f : forall c b s, linear_solver c = Ok (b, s) -> lin_ok c ->
  dims4 (init_f c) (N_p (ph c)) (N_species (ph c)) (lN1 c) (lN2 c) ->
  aeq (get_dist_func c (f_hat s)) (init_f c) /\ lt s = 0 /\ lin_state_ok c s
  /\ forall x s, el (f_background c (init_f c)) x s 0 0 = Rabs (mean2 (lN1 c) (lN2 c) (fun i j => el (init_f c) x s i j))
     /\ ((forall i j, (0 <= i < lN1 c)%Z -> (0 <= j < lN2 c)%Z -> 0 <= el (init_f c) x s i j) ->
         el (f_background c (init_f c)) x s 0 0 = mean2 (lN1 c) (lN2 c) (fun i j => el (init_f c) x s i j)).
Proof.
  intros c b s H OK D. destruct (solver_inv c b s H) as (_&_&FH&->&_). pose proof D as (A&B&C&E).
  split; [rewrite FH; apply dist_hat_aeq; auto; repeat split; auto|]. split; [reflexivity|]. split.
  - unfold lin_state_ok. rewrite FH. exact D.
  - intros x sp. rewrite fb_el by auto. split; [reflexivity|]. intros P. apply Rabs_pos_eq. apply mean2_nonneg; auto; apply OK.
Qed.
Lemma round_trip : forall c (f : arr R), lin_ok c -> dims4 f (d0 f) (d1 f) (lN1 c) (lN2 c) ->
  aeq (get_dist_func c (to_hat c (amap RtoC f))) f.
Proof. intros. apply dist_hat_aeq; auto. Qed.

(** ** C45 *)
Lemma moments_agree : forall c name w fh, lin_ok c -> shaped c fh ->
  (forall x y z, moment_weight name x y z = Some (w x y z)) ->
  exists M M' Mh, lin_compute_moments c nonrel_moments fh name None None = Ok (Moment M)
  /\ lin_compute_moments c nonrel_moments fh name (Some (get_dist_func c fh)) None = Ok (Moment M')
  /\ (forall g, lin_compute_moments c nonrel_moments g name None (Some fh) = Ok (MomentHat Mh))
  /\ aeq M M' /\ aeq (from_hat c Mh) M
  /\ moment_is (ph c) (lN1 c) (lN2 c) M (fun s k l =>
       integral (species_grid (ph c) s) w (fun i1 i2 i3 => el (get_dist_func c fh) (row (ph c) i1 i2 i3) s k l)).
Proof.
  intros c name w fh OK D W. pose proof OK as (MG&P1&P2&_).
  destruct (table_weighs real_scalar real_laws (N_p (ph c)) (N_species (ph c)) (lN1 c) (lN2 c) P1 P2 name w W) as (m&G&WR).
  destruct (table_weighs cplx_scalar cplx_laws (N_p (ph c)) (N_species (ph c)) (lN1 c) (lN2 c) P1 P2 name w W) as (m'&G'&WC).
  rewrite G in G'. apply Ok_inj in G'. subst m'.
  exists (from_hat c (moment_of c cplx_scalar m fh)), (moment_of c real_scalar m (get_dist_func c fh)), (moment_of c cplx_scalar m fh).
  unfold lin_compute_moments. rewrite G. cbn [rbind]. split; [reflexivity|]. split; [reflexivity|]. split; [intros; reflexivity|].
  pose proof (moment_hat c OK m w fh D WC WR) as E.
  split; [exact E|]. split; [split; [repeat split|reflexivity]|].
  destruct (p_center_dims (ph c) MG) as (D1&D2&D3).
  destruct (WR (get_dist_func c fh) (p1_center (ph c)) (p2_center (ph c)) (p3_center (ph c)) (measure (ph c)) D D1 D2 D3 ltac:(repeat split)) as (DR&ER).
  destruct E as (DE&VE). destruct DR as (Q0&Q1&Q2&Q3). destruct DE as (R0&R1&R2&R3). unfold moment_of in *.
  assert (DI : dims4 (from_hat c (m cplx cplx_scalar fh (p1_center (ph c)) (p2_center (ph c)) (p3_center (ph c)) (measure (ph c))))
    1 (N_species (ph c)) (lN1 c) (lN2 c)) by (split; [|split; [|split]]; congruence).
  split; [exact DI|]. destruct DI as (I0&I1&I2&I3).
  intros s k l Hs Hk Hl. rewrite VE.
  - rewrite ER by auto. rewrite measure_el. unfold row.
    rewrite <- (flat_integral (ph c) s w (fun x => el (get_dist_func c fh) x s k l)) by auto. cbn [s_scale s_sum real_scalar]. ring.
  - unfold inside. rewrite I0, I1, I2, I3. unfold inb in *. repeat split; lia.
Qed.
Lemma moments_errors : forall c name fh g f fh',
  lin_compute_moments c nonrel_moments g name (Some f) (Some fh) = Err GenericException
  /\ (moment_weight name 0 0 0 = None ->
      lin_compute_moments c nonrel_moments g name None None = Err AttributeError
      /\ lin_compute_moments c nonrel_moments g name (Some f) None = Err AttributeError
      /\ lin_compute_moments c nonrel_moments g name None (Some fh') = Err AttributeError).
Proof.
  intros. split; [reflexivity|]. intros H.
  assert (G : getattr nonrel_moments name = Err AttributeError).
  { unfold moment_weight in H. cbv zeta in H.
    repeat match type of H with (if String.eqb name ?n then _ else _) = _ => destruct (String.eqb_spec name n) as [?|?]; [discriminate H|] end.
    cbn [getattr nonrel_moments].
    repeat match goal with |- context [String.eqb ?u ?v] =>
      let E := fresh in destruct (String.eqb_spec u v) as [E|E]; [exfalso; congruence|] end. reflexivity. }
  unfold lin_compute_moments. rewrite G. auto.
Qed.

(** ** C46 *)
Lemma div_B_run : forall c b steps s s' k l, lin_ok c -> lin_run c b steps s = Ok s' -> mode_in c k l ->
  div_B c (fields_hat (fsol s')) k l = div_B c (fields_hat (fsol s)) k l.
Proof.
  intros c b steps s s' k l OK H M.
  apply (run_invariant c b steps (fun s' => div_B c (fields_hat (fsol s')) k l = div_B c (fields_hat (fsol s)) k l) s s'); auto.
  intros m dt s1 s2 P S. rewrite <- P. eapply step_div_B; eauto.
Qed.
Lemma state_ok_step c m b dt s s' : lin_state_ok c s -> instantaneous c = false -> lin_timestep m c b dt s = Ok s' -> lin_state_ok c s'.
Proof.
  intros (A&B&C&D) IN H. destruct (step_dims m c b dt s s' H) as ((X&Y&Z&W)&_). unfold step_input in *. rewrite IN in *.
  split; [|split; [|split]]; congruence.
Qed.
Lemma gauss_run : forall c f steps s s' k l, lin_ok c -> force_divergence_free c -> uniform_dp2 c -> advects_with_p c ->
  source_enabled (ph c) = false -> instantaneous c = false -> fields_enabled (ph c) = true ->
  fields_type c = "electrodynamic"%string -> eps c <> 0 -> lin_state_ok c s ->
  lin_run c (make_background c f) steps s = Ok s' -> mode_in c k l ->
  gauss_defect c (f_hat s') (fields_hat (fsol s')) k l = gauss_defect c (f_hat s) (fields_hat (fsol s)) k l.
Proof.
  intros c f steps s s' k l OK FD U2 AP SE IN FE FT Qe SO H M.
  assert (E : electrodynamic c = true) by (unfold electrodynamic; rewrite FE, FT; reflexivity).
  apply (run_invariant c (make_background c f) steps (fun s' => lin_state_ok c s' /\ gauss_defect c (f_hat s') (fields_hat (fsol s')) k l = gauss_defect c (f_hat s) (fields_hat (fsol s)) k l) s s'); auto.
  intros m dt s1 s2 (P1&P2) S. split; [eapply state_ok_step; eauto|]. rewrite <- P2. eapply step_gauss; eauto.
Qed.
Lemma density_shaped c fh : lin_ok c -> shaped c fh -> dims4 (charge_times c Moments.density fh) 1 (N_species (ph c)) (lN1 c) (lN2 c).
Proof.
  intros OK D. pose proof OK as (MG&P1&P2&_). destruct (p_center_dims (ph c) MG) as (D1&D2&D3).
  destruct (density_weighs cplx_scalar cplx_laws (N_p (ph c)) (N_species (ph c)) (lN1 c) (lN2 c) P1 P2 fh
     (p1_center (ph c)) (p2_center (ph c)) (p3_center (ph c)) (measure (ph c)) D D1 D2 D3 ltac:(repeat split)) as ((A&B&C&E)&_).
  unfold charge_times, moment_of, dims4. cbn [bcast2 d0 d1 d2 d3 per_species]. rewrite A, B, C, E. lia.
Qed.
Lemma density_charge c fh k l : lin_ok c -> shaped c fh -> mode_in c k l ->
  csum (N_species (ph c)) (fun s => el (charge_times c Moments.density fh) 0 s k l) = charge_hat c fh k l.
Proof.
  intros OK D (Hk&Hl). pose proof OK as (MG&P1&P2&_).
  pose proof (J_el c OK Moments.density (fun _ _ _ => 1) fh k l (density_weighs cplx_scalar cplx_laws _ _ _ _ P1 P2) D Hk Hl) as J.
  cbn [csum1 el] in J. destruct (density_shaped c fh OK D) as (_&B&_). rewrite B in J. rewrite J. unfold charge_hat, number_hat.
  apply csum_ext; intros s Hs. do 2 apply f_equal. apply csum3_ext; intros. unfold row. cplx_ring.
Qed.

(** C47 *)
Lemma electrostatic : forall c fh old k l, lin_ok c -> shaped c fh -> eps c <> 0 -> mode_in c k l ->
  let F := compute_electrostatic_fields c (charge_times c Moments.density fh) old in
  let E1 := el (E1h F) 0 0 k l in
  let E2 := el (E2h F) 0 0 k l in
  (((k, l) <> (0, 0))%Z -> cscale (eps c) (cmul ci (cadd (cscale (kx c k) E1) (cscale (ky c l) E2))) = charge_hat c fh k l)
  /\ csub (cscale (kx c k) E2) (cscale (ky c l) E1) = c0
  /\ ((k, l) = (0, 0)%Z -> E1 = c0 /\ E2 = c0)
  /\ el (E3h F) 0 0 k l = c0 /\ el (B1h F) 0 0 k l = c0 /\ el (B2h F) 0 0 k l = c0 /\ el (B3h F) 0 0 k l = c0.
Proof.
  intros c fh old k l OK D Qe M F E1 E2. pose proof M as (Hk&Hl).
  destruct (lin_poisson c OK _ old (density_shaped c fh OK D) Qe) as (G&Z1&Z2).
  destruct (G k l Hk Hl) as (A&B&C). split; [|split; [exact B|split; [|exact C]]].
  - intros N. rewrite <- density_charge by auto. apply A. destruct (Z.eq_dec k 0) as [->|]; auto. destruct (Z.eq_dec l 0) as [->|]; auto.
  - intros Q. injection Q as -> ->. auto.
Qed.

(** Initial fields *)
Lemma grad_dims c k phi : d0 (grad_hat c k phi) = d0 phi /\ d1 (grad_hat c k phi) = d1 phi /\ d2 (grad_hat c k phi) = d2 phi /\ d3 (grad_hat c k phi) = d3 phi.
Proof. auto. Qed.
Lemma join6_el a b d e f g k l : d0 a = 1%Z -> d0 b = 1%Z -> d0 d = 1%Z -> d0 e = 1%Z -> d0 f = 1%Z -> d0 g = 1%Z ->
  let J := join6 a b d e f g in
  el J 0 0 k l = el a 0 0 k l /\ el J 1 0 k l = el b 0 0 k l /\ el J 2 0 k l = el d 0 0 k l
  /\ el J 3 0 k l = el e 0 0 k l /\ el J 4 0 k l = el f 0 0 k l /\ el J 5 0 k l = el g 0 0 k l.
Proof.
  intros A B C D E F J. unfold J, join6, join0. cbn [el d0]. rewrite A, B, C, D, E. cbn. auto 10.
Qed.
Lemma initial_gauss : forall c b s k l, linear_solver c = Ok (b, s) -> lin_ok c -> eps c <> 0 ->
  dims4 (init_f c) (N_p (ph c)) (N_species (ph c)) (lN1 c) (lN2 c) ->
  fields_initialize c <> "user-defined"%string -> mode_in c k l -> ((k, l) <> (0, 0))%Z ->
  gauss_defect c (f_hat s) (fields_hat (fsol s)) k l = c0.
Proof.
  intros c b s k l H OK Qe D NU M N. destruct (solver_inv c b s H) as (_&_&FH&_&FI). rewrite <- FH in FI.
  assert (SH : shaped c (f_hat s)) by (rewrite FH; exact D).
  unfold initialize_fields in FI. destruct (String.eqb_spec (fields_initialize c) "user-defined"); [congruence|].
  set (o := Arr 0 0 0 0 _) in FI.
  destruct (electrostatic c (f_hat s) o k l OK SH Qe M) as (G&_). specialize (G N). cbv zeta in G.
  set (F0 := compute_electrostatic_fields c _ o) in *.
  assert (PD : d0 (E1h F0) = 1%Z /\ d0 (E2h F0) = 1%Z /\ d0 (E3h F0) = 1%Z /\ d0 (B1h F0) = 1%Z /\ d0 (B2h F0) = 1%Z /\ d0 (B3h F0) = 1%Z).
  { destruct M as (Hk&Hl). destruct (phi_el c _ k l (density_shaped c (f_hat s) OK SH) Hk Hl) as ((A&_)&_). repeat split; exact A. }
  destruct PD as (A1&A2&A3&A4&A5&A6).
  assert (E0 : el (fields_hat (fsol s)) 0 0 k l = el (E1h F0) 0 0 k l /\ el (fields_hat (fsol s)) 1 0 k l = el (E2h F0) 0 0 k l).
  { destruct (String.eqb_spec (fields_initialize c) "fft + user-defined magnetic fields").
    - destruct (initialize_magnetic_fields c) as [((u&v)&w)|] eqn:IB; [|discriminate]. cbn [rbind] in FI. apply Ok_inj in FI. rewrite <- FI.
      cbn [fields_hat E1h E2h E3h B1h B2h B3h].
      assert (DU : d0 u = 1%Z /\ d0 v = 1%Z /\ d0 w = 1%Z).
      { unfold initialize_magnetic_fields in IB. destruct (init_B c); [| |discriminate]; apply Ok_inj in IB; injection IB as <- <- <-; auto. }
      destruct DU as (U1&U2&U3).
      destruct (join6_el (E1h F0) (E2h F0) (E3h F0) (to_hat c u) (to_hat c v) (to_hat c w) k l A1 A2 A3 U1 U2 U3) as (J0&J1&_). split; [exact J0|exact J1].
    - apply Ok_inj in FI. rewrite <- FI. cbn [fields_hat].
      destruct (join6_el (E1h F0) (E2h F0) (E3h F0) (B1h F0) (B2h F0) (B3h F0) k l A1 A2 A3 A4 A5 A6) as (J0&J1&_). split; [exact J0|exact J1]. }
  destruct E0 as (E1&E2). unfold gauss_defect. rewrite E1, E2, G. generalize (charge_hat c (f_hat s) k l). intros z. cplx_ring.
Qed.
Lemma initial_div_B : forall c b s A3 B3 k l, linear_solver c = Ok (b, s) -> lin_ok c ->
  dims4 (init_f c) (N_p (ph c)) (N_species (ph c)) (lN1 c) (lN2 c) ->
  init_B c = InitA3B3 A3 B3 -> mode_in c k l -> div_B c (fields_hat (fsol s)) k l = c0.
Proof.
  intros c b s A3 B3 k l H OK D IB M. destruct (solver_inv c b s H) as (_&_&FH&_&FI). rewrite <- FH in FI.
  assert (SH : shaped c (f_hat s)) by (rewrite FH; exact D). pose proof OK as (MG&P1&P2&_). pose proof M as (Hk&Hl).
  unfold initialize_fields in FI. set (o := Arr 0 0 0 0 _) in FI.
  set (F0 := compute_electrostatic_fields c _ o) in *.
  assert (PD : d0 (E1h F0) = 1%Z /\ d0 (E2h F0) = 1%Z /\ d0 (E3h F0) = 1%Z /\ d0 (B1h F0) = 1%Z /\ d0 (B2h F0) = 1%Z /\ d0 (B3h F0) = 1%Z).
  { destruct (phi_el c _ k l (density_shaped c (f_hat s) OK SH) Hk Hl) as ((A&_)&_). repeat split; exact A. }
  destruct PD as (A1&A2&A3'&A4&A5&A6).
  set (Ah := fft2q (on_cells c A3)).
  assert (HB : forall e1 e2 e3 w, d0 e1 = 1%Z -> d0 e2 = 1%Z -> d0 e3 = 1%Z -> d0 w = 1%Z ->
    div_B c (join6 e1 e2 e3 (to_hat c (ifft2q (ik (k_q2 c) Ah))) (to_hat c (amap copp (ifft2q (ik (k_q1 c) Ah)))) w) k l = c0).
  { intros e1 e2 e3 w Q1 Q2 Q3 Q4.
    set (b1 := to_hat c (ifft2q _)). set (b2 := to_hat c (amap _ _)).
    destruct (join6_el e1 e2 e3 b1 b2 w k l Q1 Q2 Q3 eq_refl eq_refl Q4) as (_&_&_&J3&J4&_).
    unfold div_B. rewrite J3, J4. unfold b1, b2.
    assert (I : forall k1, dims4 (ifft2q (ik k1 Ah)) 1 1 (lN1 c) (lN2 c)) by (intros; repeat split).
    assert (T : forall kk, dft2 (lN1 c) (lN2 c) (fun m n => el (ifft2q (ik kk Ah)) 0 0 m n) k l = el (ik kk Ah) 0 0 k l).
    { intros kk. rewrite (dft2_ext _ _ _ (fun m n => idft2 (lN1 c) (lN2 c) (fun m n => el (ik kk Ah) 0 0 m n) m n)).
      - apply dft2_idft2; auto.
      - intros. apply ifft2q_el; auto. }
    rewrite !to_hat_el by (repeat split).
    rewrite (dft2_ext _ _ (fun m n => el (amap copp (ifft2q (ik (k_q1 c) Ah))) 0 0 m n) (fun m n => cscale (-1) (el (ifft2q (ik (k_q1 c) Ah)) 0 0 m n))).
    2:{ intros m n _ _. cbn [amap el]. generalize (el (ifft2q (ik (k_q1 c) Ah)) 0 0 m n). intros z. cplx_ring. }
    rewrite dft2_scale, !T. cbn [ik amap2 el]. destruct (k_el c OK k l Hk Hl) as (K1&K2). rewrite K1, K2.
    fold (kx c k) (ky c l). generalize (el Ah 0 0 k l) (kx c k) (ky c l) (2 / (IZR (lN1 c) * IZR (lN2 c))). clear. intros. cplx_ring. }
  destruct (String.eqb (fields_initialize c) "user-defined").
  - unfold initialize_magnetic_fields in FI. rewrite IB in FI. cbn [rbind] in FI. destruct (init_E c) as ((e1&e2)&e3).
    apply Ok_inj in FI. rewrite <- FI. apply HB; reflexivity.
  - destruct (String.eqb (fields_initialize c) "fft + user-defined magnetic fields").
    + unfold initialize_magnetic_fields in FI. rewrite IB in FI. cbn [rbind] in FI. apply Ok_inj in FI. rewrite <- FI. apply HB; auto.
    + apply Ok_inj in FI. rewrite <- FI. cbn [fields_hat].
      destruct (join6_el (E1h F0) (E2h F0) (E3h F0) (B1h F0) (B2h F0) (B3h F0) k l A1 A2 A3' A4 A5 A6) as (_&_&_&J3&J4&_).
      unfold div_B. rewrite J3, J4. cbn. cplx_ring.
Qed.

(** ** C64 *)
Lemma particles_run : forall c f steps s s' sp, lin_ok c -> force_divergence_free c -> uniform_dp2 c ->
  source_enabled (ph c) = false -> instantaneous c = false -> lin_state_ok c s -> (0 <= sp < N_species (ph c))%Z ->
  lin_run c (make_background c f) steps s = Ok s' ->
  particles c (get_dist_func c (f_hat s')) sp = particles c (get_dist_func c (f_hat s)) sp.
Proof.
  intros c f steps s s' sp OK FD U2 SE IN SO Hs H.
  destruct (run_invariant c (make_background c f) steps (fun s' => lin_state_ok c s' /\ number_hat c (f_hat s') sp 0 0 = number_hat c (f_hat s) sp 0 0) s s') as (A&B); auto.
  - intros m dt s1 s2 (P1&P2) S. split; [eapply state_ok_step; eauto|]. rewrite <- P2. eapply step_zero_mode; eauto.
  - rewrite !particles_hat by auto. rewrite B. reflexivity.
Qed.

(** ** C65 *)
Lemma check_iff c : lin_ok c -> (ddelta_check c = Ok tt <-> (N_species (ph c) = 1 \/ N_species (ph c) = N_p2 (ph c))%Z).
Proof.
  intros OK. split; [apply check_species; auto|]. destruct OK as ((A&B&C&D&_)&_).
  intros [E|E]; unfold ddelta_check, bcompat, N_p; rewrite E.
  - rewrite Z.max_l by lia. rewrite orb_true_r.
    destruct (Z.eqb_spec (N_p1 (ph c) * N_p2 (ph c) * N_p3 (ph c) * (1 * lN1 c * lN2 c)) (N_p1 (ph c) * N_p2 (ph c) * N_p3 (ph c) * 1 * lN1 c * lN2 c)) as [|Q]; [reflexivity|].
    exfalso. apply Q. ring.
  - rewrite Z.eqb_refl. cbn [orb]. rewrite Z.max_id.
    match goal with |- context [(?a =? ?b)%Z] => destruct (Z.eqb_spec a b) as [|Q]; [reflexivity|exfalso; apply Q; ring] end.
Qed.
Lemma multi_species : forall m c b dt s, lin_ok c ->
  (exists s', lin_timestep m c b dt s = Ok s') <->
  (fields_enabled (ph c) = true ->
     In (fields_type c) ["electrostatic"; "electrodynamic"; "None"]%string
     /\ (N_species (ph c) = 1 \/ N_species (ph c) = N_p2 (ph c))%Z).
Proof.
  intros m c b dt s OK.
  assert (X : (exists s', lin_timestep m c b dt s = Ok s') <-> df_hat_check c (fsol s) (step_input c s) = Ok tt).
  { unfold lin_timestep. fold (step_input c s). destruct (df_hat_check c (fsol s) (step_input c s)) as [[]|] eqn:E; cbn [rbind].
    - split; auto. intros _. destruct (fields_enabled (ph c) && String.eqb (fields_type c) "electrodynamic")%bool.
      + destruct (lin_RK_coupled _ _ _ _ _ _ _) as ((u&v)&w). eauto.
      + destruct (lin_RK _ _ _ _ _) as (u&v). eauto.
    - split; [intros (?&?)|]; discriminate. }
  rewrite X. unfold df_hat_check, fields_seen. destruct (fields_enabled (ph c)); [|split; [discriminate|auto]].
  rewrite <- check_iff by auto. cbn [In].
  destruct (String.eqb_spec (fields_type c) "electrostatic") as [E|E]; [cbn [rbind]; intuition|].
  destruct (String.eqb_spec (fields_type c) "electrodynamic") as [E'|E']; [cbn [rbind]; intuition|].
  destruct (String.eqb_spec (fields_type c) "None") as [E''|E'']; [cbn [rbind]; intuition|].
  cbn [rbind]. split; [discriminate|]. intros H. destruct (H eq_refl) as ([Q|[Q|[Q|[]]]]&_); congruence.
Qed.

(** ** C49: during an electrodynamic step f only sees the fields of its beginning. *)
Section Frozen.
  Context {I J : Type} (f : R -> (I -> R) -> (I -> R)) (g : R -> (I -> R) -> (J -> R) -> (J -> R)).
  Notation h := (coupled (fun t x (_ : J -> R) => f t x) g).
  Definition left_of (k : I + J -> R) : I -> R := fun i => k (inl i).
  Lemma left_combine cs ks : left_of (combine_stages cs ks) = combine_stages cs (map left_of ks).
  Proof.
    apply functional_extensionality; intros i. unfold left_of, combine_stages. revert cs.
    induction ks as [|k ks IH]; intros [|x cs]; cbn; auto. rewrite IH. reflexivity.
  Qed.
  Lemma left_stages t x y dt rs ks : map left_of (stages h t (both x y) dt rs ks) = stages f t x dt rs (map left_of ks).
  Proof.
    revert ks. induction rs as [|r rs IH]; intros ks; cbn [stages]; [auto|]. rewrite IH. f_equal. rewrite map_app. f_equal.
    cbn [map]. f_equal. rewrite <- left_combine. reflexivity.
  Qed.
  Lemma left_rk T t x y dt : left_of (rk_step T h t (both x y) dt) = rk_step T f t x dt.
  Proof.
    unfold rk_step. rewrite <- (left_stages t x y dt (rows T) [] : _ = stages f t x dt (rows T) []), <- left_combine. reflexivity.
  Qed.
End Frozen.

Lemma frozen : forall m c b dt s s', lin_timestep m c b dt s = Ok s' -> instantaneous c = false -> f_hat s' = frozen_f m c b dt s.
Proof.
  intros m c b dt s s' H IN. unfold frozen_f. destruct (electrodynamic c) eqn:E.
  - destruct (step_coupled m c b dt s s' H E) as (_&->). unfold step_input. rewrite IN. cbn [f_hat].
    apply f_equal. exact (left_rk _ _ (tableau_of m) (lt s) (vec_of (f_hat s)) (vec_of (fields_hat (fsol s))) dt).
  - destruct (step_uncoupled m c b dt s s' H E) as (_&->). unfold step_input. rewrite IN. reflexivity.
Qed.
