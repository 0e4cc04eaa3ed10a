(** The two solvers on free particles. *)
From Coq Require Import ZArith Reals Lra Lia Psatz String List Bool.
From Verif Require Import Base.Prelude Base.ZSum Base.Cplx Model.Af Model.Grid Model.Petsc Model.Config Model.Fft
  Model.Boundaries Model.Fvm Model.Integrators Model.Moments Model.Splitting Model.Linear Model.Timestep Model.Solver Spec.Dft Spec.Waves Spec.MomentSpec Spec.Lattice Spec.Domain Spec.FvmProblem Spec.FvmRun Spec.Clock
  Spec.Converge Spec.LinearSpec Spec.FreeStream Spec.TimeTerms Spec.Agree
  Proofs.EmInit Proofs.FvmLemmas Proofs.FvmLemmas2 Proofs.FvmConserve Proofs.DftLemmas Proofs.FourierLemmas Proofs.MomentLemmas Proofs.LinearLemmas Proofs.LinearStep Proofs.LinearProps Proofs.FreeStream
  Proofs.Converge Proofs.TimeTerms Props.ExConverge.
Import ListNotations.
Local Open Scope R_scope.

Lemma zsum_abs n f : Rabs (zsum n f) <= zsum n (fun i => Rabs (f i)).
Proof.
  assert (A : - zsum n (fun i => Rabs (f i)) <= zsum n f <= zsum n (fun i => Rabs (f i))); [|apply Rabs_le; exact A].
  split.
  - rewrite <- zsum_opp. apply zsum_le. intros i _. assert (Q := Rle_abs (- f i)). rewrite Rabs_Ropp in Q. lra.
  - apply zsum_le. intros i _. apply Rle_abs.
Qed.
Lemma re_le z : Rabs (re z) <= cmod z.
Proof.
  unfold cmod. rewrite <- sqrt_Rsqr_abs. apply sqrt_le_1_alt. unfold Rsqr, cmod2. assert (Q := pow2_ge_0 (im z)). nra.
Qed.
Lemma cis_second d : cmod (csub (csub (cis d) c1) (0, d)) <= 2 * d ^ 2.
Proof.
  replace (csub (csub (cis d) c1) (0, d)) with (cadd (RtoC (cos d - 1)) (0, sin d - d)) by (apply cplx_eq; cbn; ring).
  eapply Rle_trans; [apply cmod_triang|].
  assert (A : cmod (RtoC (cos d - 1)) <= d ^ 2).
  { apply cmod_le; [apply pow2_ge_0|]. unfold cmod2; cbn [re im RtoC fst snd].
    assert (C := cos_le d). rewrite <- (Rsqr_pow2 (cos d - 1)). rewrite (Rsqr_abs (cos d - 1)). unfold Rsqr. assert (Q := Rabs_pos (cos d - 1)). nra. }
  assert (B : cmod (0, sin d - d) <= d ^ 2).
  { apply cmod_le; [apply pow2_ge_0|]. unfold cmod2; cbn [re im fst snd].
    assert (C := sin_le d). rewrite <- (Rsqr_pow2 (sin d - d)). rewrite (Rsqr_abs (sin d - d)). unfold Rsqr. assert (Q := Rabs_pos (sin d - d)). nra. }
  lra.
Qed.
(** One plane wave. *)
Lemma wave_smooth (z : cplx) w1 w2 o1 o2 x y a b :
  Rabs (re (cmul z (cis (w1 * (x + a - o1) + w2 * (y + b - o2)))) - re (cmul z (cis (w1 * (x - o1) + w2 * (y - o2))))
        - a * re (cmul (cmul z (0, w1)) (cis (w1 * (x - o1) + w2 * (y - o2))))
        - b * re (cmul (cmul z (0, w2)) (cis (w1 * (x - o1) + w2 * (y - o2)))))
  <= 2 * (Rabs w1 + Rabs w2) ^ 2 * cmod z * (Rabs a + Rabs b) ^ 2.
Proof.
  set (th := w1 * (x - o1) + w2 * (y - o2)). set (d := w1 * a + w2 * b).
  replace (w1 * (x + a - o1) + w2 * (y + b - o2)) with (th + d) by (unfold th, d; ring).
  rewrite DftLemmas.cis_add.
  replace (re (cmul z (cmul (cis th) (cis d))) - re (cmul z (cis th)) - a * re (cmul (cmul z (0, w1)) (cis th)) - b * re (cmul (cmul z (0, w2)) (cis th)))
    with (re (cmul (cmul z (cis th)) (csub (csub (cis d) c1) (0, d)))) by (unfold d; cbn; ring).
  eapply Rle_trans; [apply re_le|]. rewrite !cmod_mul, cmod_cis.
  assert (B := cis_second d). assert (P := cmod_nonneg z). assert (P' := cmod_nonneg (csub (csub (cis d) c1) (0, d))).
  assert (D : d ^ 2 <= (Rabs w1 + Rabs w2) ^ 2 * (Rabs a + Rabs b) ^ 2).
  { rewrite <- Rpow_mult_distr. rewrite <- (pow2_abs d). apply pow_incr. split; [apply Rabs_pos|].
    unfold d. eapply Rle_trans; [apply Rabs_triang|]. rewrite !Rabs_mult.
    assert (A1 := Rabs_pos w1). assert (A2 := Rabs_pos w2). assert (A3 := Rabs_pos a). assert (A4 := Rabs_pos b). nra. }
  rewrite Rmult_1_r. apply Rle_trans with (cmod z * (2 * d ^ 2)); [apply Rmult_le_compat_l; auto|].
  replace (2 * (Rabs w1 + Rabs w2) ^ 2 * cmod z * (Rabs a + Rabs b) ^ 2) with (cmod z * (2 * ((Rabs w1 + Rabs w2) ^ 2 * (Rabs a + Rabs b) ^ 2))) by ring.
  apply Rmult_le_compat_l; auto. lra.
Qed.

Section Waves.
  Context (c : lcfg) (OK : lin_ok c).
  Let P1 : (0 < lN1 c)%Z := proj1 (proj2 OK).
  Let P2 : (0 < lN2 c)%Z := proj1 (proj2 (proj2 OK)).
  Let Q1 : 0 < dq1 (ph c) := proj1 (proj2 (proj2 (proj2 OK))).
  Let Q2 : 0 < dq2 (ph c) := proj2 (proj2 (proj2 (proj2 OK))).

  Lemma over_nonneg x s g : (forall k l, 0 <= g k l) -> 0 <= over_waves c x s g.
  Proof using.
    intros G. apply zsum_nonneg; intros k _. apply zsum_nonneg; intros l _. apply Rmult_le_pos; [auto|apply cmod_nonneg].
  Qed.
  Lemma waves_smooth x s : smooth (roughness c x s) (waves c x s).
  Proof using.
    exists (fun q1 q2 => zsum (lN1 c) (fun k => zsum (lN2 c) (fun l =>
        re (cmul (cmul (amplitude c x s k l) (0, kx c k)) (cis (kx c k * (q1 - lq1 c 0) + ky c l * (q2 - lq2 c 0))))))).
    exists (fun q1 q2 => zsum (lN1 c) (fun k => zsum (lN2 c) (fun l =>
        re (cmul (cmul (amplitude c x s k l) (0, ky c l)) (cis (kx c k * (q1 - lq1 c 0) + ky c l * (q2 - lq2 c 0))))))).
    intros q1 q2 a b. unfold waves, roughness, over_waves.
    rewrite <- !zsum_scal, <- !zsum_minus, <- zsum_scal_r.
    eapply Rle_trans; [apply zsum_abs|]. apply zsum_le; intros k _.
    rewrite <- !zsum_scal, <- !zsum_minus, <- zsum_scal_r.
    eapply Rle_trans; [apply zsum_abs|]. apply zsum_le; intros l _.
    apply wave_smooth.
  Qed.
  Lemma one_period N d i q : (0 < N)%Z -> (0 <= i < N)%Z -> 0 < d -> cis (wavenumber N d i * (q + IZR N * d)) = cis (wavenumber N d i * q).
  Proof using.
    intros HN Hi Hd. assert (PN : 0 < IZR N) by (apply IZR_lt; lia). unfold wavenumber.
    replace (2 * PI * IZR (signed_mode N i) / (IZR N * d) * (q + IZR N * d))
      with (2 * PI * IZR (signed_mode N i) / (IZR N * d) * q + 2 * PI * IZR (signed_mode N i)) by (field; lra).
    apply cis_period.
  Qed.
  Lemma waves_fit x s : fits (ph c) (waves c x s).
  Proof using P1 P2 Q1 Q2.
    intros q1 q2. split; unfold waves; apply zsum_ext; intros k Hk; apply zsum_ext; intros l Hl; do 2 f_equal; rewrite !DftLemmas.cis_add; f_equal.
    - replace (q1 + IZR (gN1 (lay (ph c))) * dq1 (ph c) - lq1 c 0) with (q1 - lq1 c 0 + IZR (lN1 c) * dq1 (ph c)) by (unfold lN1; ring).
      unfold kx. apply one_period; auto.
    - replace (q2 + IZR (gN2 (lay (ph c))) * dq2 (ph c) - lq2 c 0) with (q2 - lq2 c 0 + IZR (lN2 c) * dq2 (ph c)) by (unfold lN2; ring).
      unfold ky. apply one_period; auto.
  Qed.
  Lemma at_cell i j k l : inb (lN1 c) k -> inb (lN2 c) l ->
    cis (kx c k * (lq1 c i - lq1 c 0) + ky c l * (lq2 c j - lq2 c 0)) = cis (phase (lN1 c) k i + phase (lN2 c) l j).
  Proof using P1 P2 Q1 Q2.
    intros Hk Hl. rewrite !DftLemmas.cis_add.
    destruct (wave_grid (lN1 c) (lN2 c) (dq1 (ph c)) (dq2 (ph c)) P1 P2 Q1 Q2) as (_&_&G).
    assert (H : forall N d m n, (0 < N)%Z -> 0 < d -> cis (wavenumber N d m * (IZR n * d)) = cis (phase N m n)).
    { intros N d m n HN Hd. unfold wavenumber, phase. assert (PN : 0 < IZR N) by (apply IZR_lt; lia).
      replace (2 * PI * IZR (signed_mode N m) / (IZR N * d) * (IZR n * d))
        with (2 * PI * IZR (signed_mode N m) * IZR n / IZR N) by (field; lra).
      destruct (signed_cong N m) as (r&->). apply cis_cong; auto. }
    f_equal.
    - replace (lq1 c i - lq1 c 0) with (IZR i * dq1 (ph c)) by (unfold lq1; ring). apply H; auto.
    - replace (lq2 c j - lq2 c 0) with (IZR j * dq2 (ph c)) by (unfold lq2; ring). apply H; auto.
  Qed.

  (** What the linear solver returns is half the sum of its modes. *)
  Lemma dist_sum fh x s i j : dims4 fh (d0 fh) (d1 fh) (lN1 c) (lN2 c) ->
    el (get_dist_func c fh) x s i j
    = zsum (lN1 c) (fun k => zsum (lN2 c) (fun l => re (cmul (cscale (1 / 2) (el fh x s k l)) (cis (phase (lN1 c) k i + phase (lN2 c) l j))))).
  Proof using OK.
    intros D. rewrite get_dist_el by auto. rewrite idft2_sum by auto.
    cbn [re cscale fst]. unfold half_N.
    assert (A : IZR (lN1 c) <> 0) by (apply IZR_neq; unfold P1 in *; lia). assert (B : IZR (lN2 c) <> 0) by (apply IZR_neq; lia).
    rewrite <- Rmult_assoc. replace (1 / 2 * IZR (lN2 c) * IZR (lN1 c) * / (IZR (lN1 c) * IZR (lN2 c))) with (1 / 2) by (field; auto).
    unfold csum; cbn [re fst]. rewrite <- zsum_scal. apply zsum_ext; intros k _. rewrite <- zsum_scal. apply zsum_ext; intros l _.
    unfold cmul, cscale, re, im; cbn [fst snd]. ring.
  Qed.
  Lemma amplitude_hat x s k l : dims4 (init_f c) (d0 (init_f c)) (d1 (init_f c)) (lN1 c) (lN2 c) ->
    cscale (1 / 2) (el (to_hat c (amap RtoC (init_f c))) x s k l) = amplitude c x s k l.
  Proof using.
    intros D. rewrite to_hat_el by exact D. unfold amplitude. cbn [amap el].
    generalize (dft2 (lN1 c) (lN2 c) (fun m n => RtoC (el (init_f c) x s m n)) k l). intros z.
    unfold Rdiv. generalize (/ (IZR (lN1 c) * IZR (lN2 c))). intros r. apply cplx_eq; cbn; lra.
  Qed.
  Lemma waves_data x s i j : dims4 (init_f c) (d0 (init_f c)) (d1 (init_f c)) (lN1 c) (lN2 c) -> inb (lN1 c) i -> inb (lN2 c) j ->
    waves c x s (lq1 c i) (lq2 c j) = el (init_f c) x s i j.
  Proof using OK P1 P2 Q1 Q2.
    intros D Hi Hj. rewrite <- (dist_hat c OK (init_f c) x s i j D Hi Hj).
    rewrite dist_sum by exact D. unfold waves. apply zsum_ext; intros k Hk. apply zsum_ext; intros l Hl.
    rewrite amplitude_hat by auto. rewrite at_cell by auto. reflexivity.
  Qed.

  Lemma lin_never_fails b steps s : streams_freely c -> exists s', lin_run c b steps s = Ok s'.
  Proof using.
    intros (_&FO&_&I). revert s. induction steps as [|(m&dt) steps IH]; intros s; [exists s; reflexivity|]. cbn [lin_run].
    assert (E : exists s1, lin_timestep m c b dt s = Ok s1).
    { unfold lin_timestep. rewrite I. unfold df_hat_check. rewrite FO. cbn [rbind andb].
      destruct (lin_RK m _ _ _ _) as [y t]. eexists. reflexivity. }
    destruct E as (s1&E). rewrite E. apply IH.
  Qed.

  Lemma run_shape b steps s s' : streams_freely c -> lin_run c b steps s = Ok s' -> lin_state_ok c s -> lin_state_ok c s'.
  Proof using.
    intros SF. pose proof SF as (_&FO&_&I). revert s. induction steps as [|(m&dt) steps IH]; intros s; cbn [lin_run].
    - intros H. apply Ok_inj in H. subst. auto.
    - unfold lin_timestep. rewrite I. unfold df_hat_check. rewrite FO. cbn [rbind andb].
      destruct (lin_RK m _ _ _ _) as [y t]. cbn [rbind]. intros H D. apply (IH _ H). exact D.
  Qed.

  Lemma spectral b steps l0 x s i j : streams_freely c -> dims4 (init_f c) (N_p (ph c)) (N_species (ph c)) (lN1 c) (lN2 c) ->
    linear_solver c = Ok (b, l0) ->
    (forall k l m dt, mode_in c k l -> In (m, dt) steps -> small_step m (omega c x s k l * dt)) ->
    inb (lN1 c) i -> inb (lN2 c) j ->
    forall l', lin_run c b steps l0 = Ok l' ->
    Rabs (el (get_dist_func c (f_hat l')) x s i j
          - waves c x s (lq1 c i - el (p1_center (ph c)) x s 0 0 * lin_duration steps) (lq2 c j - el (p2_center (ph c)) x s 0 0 * lin_duration steps))
    <= phase_error c steps x s.
  Proof using OK P1 P2 Q1 Q2.
    intros SF D S0 SS Hi Hj l' R'. set (T := lin_duration steps).
    destruct (solver_inv c b l0 S0) as (_&_&FH&_&_).
    assert (ST : lin_state_ok c l0) by (unfold lin_state_ok; rewrite FH; exact D).
    assert (ST' : lin_state_ok c l') by (eapply run_shape; eauto).
    assert (Ds : dims4 (init_f c) (d0 (init_f c)) (d1 (init_f c)) (lN1 c) (lN2 c)) by (destruct D as (?&?&?&?); repeat split; auto).
    rewrite dist_sum by (destruct ST' as (?&?&?&?); repeat split; auto).
    unfold waves, phase_error, over_waves. rewrite <- zsum_minus. eapply Rle_trans; [apply zsum_abs|]. apply zsum_le; intros k Hk.
    rewrite <- zsum_minus. eapply Rle_trans; [apply zsum_abs|]. apply zsum_le; intros l Hl.
    assert (A := run_accuracy c b steps x s k l SF OK (conj Hk Hl) (fun m dt => SS k l m dt (conj Hk Hl)) l0 l' R').
    fold T in A. rewrite <- at_cell by auto.
    set (w := omega c x s k l) in *. set (th := kx c k * (lq1 c i - lq1 c 0) + ky c l * (lq2 c j - lq2 c 0)).
    match goal with |- Rabs (_ - re (cmul _ (cis ?e))) <= _ => replace e with (th + - (w * T)) by (unfold th, w, omega; ring) end.
    rewrite DftLemmas.cis_add, <- (amplitude_hat x s k l Ds), <- FH.
    replace (re (cmul (cscale (1 / 2) (el (f_hat l') x s k l)) (cis th)) - re (cmul (cscale (1 / 2) (el (f_hat l0) x s k l)) (cmul (cis th) (cis (- (w * T))))))
      with (re (cmul (cmul (RtoC (1 / 2)) (cis th)) (csub (el (f_hat l') x s k l) (cmul (cis (- (w * T))) (el (f_hat l0) x s k l)))))
      by (cbn; ring).
    eapply Rle_trans; [apply re_le|]. rewrite !cmod_mul, cmod_cis.
    assert (H2 : cmod (RtoC (1 / 2)) = 1 / 2).
    { unfold cmod, cmod2; cbn [re im RtoC fst snd]. replace ((1 / 2) ^ 2 + 0 ^ 2) with (Rsqr (1 / 2)) by (unfold Rsqr; field). apply sqrt_Rsqr. lra. }
    assert (H3 : cmod (cscale (1 / 2) (el (f_hat l0) x s k l)) = 1 / 2 * cmod (el (f_hat l0) x s k l)).
    { transitivity (cmod (cmul (RtoC (1 / 2)) (el (f_hat l0) x s k l))); [f_equal; apply cplx_eq; cbn; ring|]. rewrite cmod_mul, H2. reflexivity. }
    rewrite H2, H3. lra.
  Qed.
End Waves.

(** A history of steps as a list of calls. *)
Fixpoint calls (E : fieldseq) (t : R) (h : list (method * R)) : list (call * fields3 * fields3) :=
  match h with [] => [] | (_, dt) :: h => (Call t dt E E, no_fields, no_fields) :: calls E (t + dt) h end.
Lemma frozen_calls c k1 k2 E h : forall t u, frozen_run c k1 k2 t h u = run_global c k1 k2 (calls E t h) u.
Proof. induction h as [|(m&dt) h IH]; intros; cbn [frozen_run calls run_global ct cdt]; auto. Qed.
Lemma calls_duration E h : forall t, duration (map (fun p => fst (fst p)) (calls E t h)) = elapsed h.
Proof. induction h as [|(m&dt) h IH]; intros; cbn [calls map duration fold_right fst cdt elapsed]; [reflexivity|]. f_equal. apply IH. Qed.
Lemma calls_in E h k E0 Eh : forall t, In (k, E0, Eh) (calls E t h) -> exists m, In (m, cdt k) h.
Proof.
  induction h as [|(m&dt) h IH]; intros t; cbn [calls In]; [tauto|]. intros [H|H].
  - injection H as <- _ _. exists m. left. reflexivity.
  - destruct (IH _ H) as (m'&H'). exists m'. right. exact H'.
Qed.

Section Both.
  Context (P : params) (cl : lcfg) (k2 : scheme).
  Let c := ph cl.
  Context (Same : pc P = c) (W : wf_cfg c FirstOrder k2) (PF : periodic_fvm c FirstOrder) (OK : lin_ok cl) (SF : streams_freely cl)
    (MP : moves_with_p c) (D : dims4 (init_f cl) (N_p c) (N_species c) (lN1 cl) (lN2 cl)).
  Let v1 x s := mom1 c (1/2) x s.
  Let v2 x s := mom2 c (1/2) x s.

  Lemma centre x s : inb (N_p c) x -> inb (N_species c) s ->
    el (p1_center c) x s 0 0 = v1 x s /\ el (p2_center c) x s 0 0 = v2 x s.
  Proof using W.
    intros Hx Hs. destruct (p_centers c FirstOrder k2 x s 0 0 W Hx Hs) as (A&B&_). unfold v1, v2. rewrite <- A, <- B.
    destruct W as (N1&N2&N3&NS&L1&_).
    unfold bel, p1_center, p2_center, p_center, calculate_p_center, calculate_p_gen, p_arr; cbn [fst snd d0 d1 d2 d3 el flat].
    split; (rewrite !bidx_id; [reflexivity|..]); auto; rewrite L1; auto.
  Qed.

  Lemma follows h s M : holds c (f_of s) (fun x sp g1 g2 => el (init_f cl) x sp g1 g2) ->
    (forall m dt, In (m, dt) h -> courant c dt) -> (forall x sp, inb (N_p c) x -> inb (N_species c) sp -> roughness cl x sp <= M) ->
    exists s', run_steps (solver_stepper P) h s = Ok (s', None)
    /\ forall x sp g1 g2, inb (N_p c) x -> inb (N_species c) sp -> inb (gN1 (lay c)) g1 -> inb (gN2 (lay c)) g2 ->
       Rabs (gval (lay c) (f_of s') x sp g1 g2 - waves cl x sp (lq1 cl g1 - v1 x sp * elapsed h) (lq2 cl g2 - v2 x sp * elapsed h))
       <= 3 * M * elapsed h * (Rabs (v1 x sp) * dq1 c + Rabs (v2 x sp) * dq2 c).
  Proof using Same W PF OK SF MP D.
    intros H0 CF RM.
    assert (Off : fields_enabled (pc P) = false) by (rewrite Same; apply SF).
    assert (Ds : dims4 (init_f cl) (d0 (init_f cl)) (d1 (init_f cl)) (lN1 cl) (lN2 cl)) by (destruct D as (?&?&?&?); repeat split; auto).
    destruct (frozen P FirstOrder k2 Off ltac:(rewrite Same; exact W) ltac:(rewrite Same; exact PF) h s _ ltac:(rewrite Same; exact H0)) as (s'&R'&_&H').
    rewrite Same in H'. exists s'. split; [exact R'|]. intros x sp g1 g2 Hx Hs Hg1 Hg2.
    rewrite (proj2 H' x sp g1 g2) by auto.
    set (E := fun _ _ : nat => (dummy, dummy, dummy)).
    rewrite (frozen_calls c FirstOrder k2 E).
    assert (M0 : 0 <= M).
    { eapply Rle_trans; [|apply (RM x sp Hx Hs)]. apply over_nonneg. intros. assert (Q := pow2_ge_0 (Rabs (kx cl k) + Rabs (ky cl l))). lra. }
    assert (MV : moves_with c v1 v2) by (intros t y r q1 q2 _ _; apply MP).
    assert (VU : velocity_uniform c) by (intros r t q1 q2 q1' q2' p1 p2 p3; rewrite !MP; reflexivity).
    assert (PO : p_is_fvm c = false) by (unfold p_is_fvm; destruct SF as (_&FO&_); fold c in FO; rewrite FO; apply andb_false_r).
    assert (SM : forall y r, inb (N_p c) y -> inb (N_species c) r -> smooth M (waves cl y r) /\ fits c (waves cl y r)).
    { intros y r Hy Hr. split; [|apply waves_fit; exact OK]. destruct (waves_smooth cl y r) as (G1&G2&G). exists G1, G2. intros a b da db.
      eapply Rle_trans; [apply G|]. apply Rmult_le_compat_r; [apply pow2_ge_0|]. apply RM; auto. }
    assert (ER := error_run c k2 W PF VU (proj1 (proj2 (proj2 (proj2 OK)))) (proj2 (proj2 (proj2 (proj2 OK)))) (proj1 (proj2 (proj2 SF))) PO
      v1 v2 (waves cl) M MV M0 SM (calls E (time_elapsed s) h) (fun x sp g1 g2 => el (init_f cl) x sp g1 g2) 0 (fun _ _ => 0)).
    rewrite calls_duration in ER. rewrite Rplus_0_l in ER.
    assert (Z : forall i, pos1 c (1/2) i = lq1 cl i) by (intros; unfold pos1, lq1; fold c; ring).
    assert (Z' : forall i, pos2 c (1/2) i = lq2 cl i) by (intros; unfold pos2, lq2; fold c; ring).
    unfold carried in ER. rewrite <- (Z g1), <- (Z' g2).
    eapply Rle_trans; [apply ER|]; auto; [| |lra].
    - intros k E0 Eh Hk. destruct (calls_in _ _ _ _ _ _ Hk) as (m&Hm). destruct (CF _ _ Hm) as (A&B). split; [exact A|].
      intros y r q1 q2 Hy Hr. unfold velocity. rewrite MP. cbn [fst snd]. apply B; auto.
    - intros y r i j Hy Hr Hi Hj. rewrite Z, Z', !Rmult_0_r, !Rminus_0_r.
      rewrite waves_data by (auto; exact OK). rewrite Rminus_diag_eq, Rabs_R0 by reflexivity. lra.
  Qed.

  Lemma agree s b l0 h steps M : linear_solver cl = Ok (b, l0) -> holds c (f_of s) (fun x sp g1 g2 => el (init_f cl) x sp g1 g2) ->
    elapsed h = lin_duration steps -> (forall m dt, In (m, dt) h -> courant c dt) ->
    (forall m dt x sp k l, inb (N_p c) x -> inb (N_species c) sp -> mode_in cl k l -> In (m, dt) steps -> small_step m (omega cl x sp k l * dt)) ->
    (forall x sp, inb (N_p c) x -> inb (N_species c) sp -> roughness cl x sp <= M) ->
    exists s' l', run_steps (solver_stepper P) h s = Ok (s', None) /\ lin_run cl b steps l0 = Ok l'
    /\ forall x sp g1 g2, inb (N_p c) x -> inb (N_species c) sp -> inb (gN1 (lay c)) g1 -> inb (gN2 (lay c)) g2 ->
       Rabs (gval (lay c) (f_of s') x sp g1 g2 - el (get_dist_func cl (f_hat l')) x sp g1 g2)
       <= 3 * M * elapsed h * (Rabs (v1 x sp) * dq1 c + Rabs (v2 x sp) * dq2 c) + phase_error cl steps x sp.
  Proof using Same W PF OK SF MP D.
    intros L0 H0 T CF SS RM. destruct (follows h s M H0 CF RM) as (s'&R'&F).
    destruct (lin_never_fails cl b steps l0 SF) as (l'&L'). exists s', l'. split; [exact R'|]. split; [exact L'|].
    intros x sp g1 g2 Hx Hs Hg1 Hg2. specialize (F x sp g1 g2 Hx Hs Hg1 Hg2).
    assert (S := spectral cl OK b steps l0 x sp g1 g2 SF D L0 (fun k l m dt => SS m dt x sp k l Hx Hs) Hg1 Hg2 l' L').
    destruct (centre x sp Hx Hs) as (C1&C2). fold c in S. rewrite C1, C2, <- T in S.
    set (e := waves cl x sp _ _) in *.
    replace (gval (lay c) (f_of s') x sp g1 g2 - el (get_dist_func cl (f_hat l')) x sp g1 g2)
      with ((gval (lay c) (f_of s') x sp g1 g2 - e) + - (el (get_dist_func cl (f_hat l')) x sp g1 g2 - e)) by ring.
    eapply Rle_trans; [apply Rabs_triang|]. rewrite Rabs_Ropp. lra.
  Qed.
End Both.

(** Bounds in terms of the largest value of the data. *)
Lemma csum_cmod n f : cmod (csum n f) <= zsum n (fun i => cmod (f i)).
Proof.
  destruct (Z_le_dec n 0) as [N|N].
  - assert (E : forall g, zsum n g = 0) by (intros; unfold zsum; replace (Z.to_nat n) with 0%nat by lia; reflexivity).
    unfold csum. rewrite !E. unfold cmod, cmod2, re, im; cbn [fst snd]. replace (0 ^ 2 + 0 ^ 2) with 0 by ring. rewrite sqrt_0. lra.
  - rewrite <- (Z2Nat.id n) by lia. clear N. induction (Z.to_nat n) as [|m IH].
    + change (Z.of_nat 0) with 0%Z. rewrite csum_0, zsum_0 by lia. unfold cmod, cmod2, re, im; cbn [fst snd c0]. replace (0 ^ 2 + 0 ^ 2) with 0 by ring. rewrite sqrt_0. lra.
    + rewrite Nat2Z.inj_succ. change (Z.succ (Z.of_nat m)) with (Z.of_nat m + 1)%Z. rewrite csum_succ, zsum_succ by lia. eapply Rle_trans; [apply cmod_triang|]. lra.
Qed.
Lemma wavenumber_le c k l : lin_ok c -> mode_in c k l -> Rabs (kx c k) <= PI / dq1 (ph c) /\ Rabs (ky c l) <= PI / dq2 (ph c).
Proof.
  intros (_&P1&P2&Q1&Q2) (Hk&Hl). destruct (wave_grid (lN1 c) (lN2 c) _ _ P1 P2 Q1 Q2) as (_&_&G).
  specialize (G k l Hk Hl). cbv zeta in G. destruct G as (E1&E2&_&_&_&A&B). unfold kx, ky. rewrite <- E1, <- E2. auto.
Qed.
Lemma amplitude_le c x s k l F : lin_ok c -> (forall i j, inb (lN1 c) i -> inb (lN2 c) j -> Rabs (el (init_f c) x s i j) <= F) ->
  cmod (amplitude c x s k l) <= F.
Proof.
  intros (_&P1&P2&_) B. assert (A1 : 0 < IZR (lN1 c)) by (apply IZR_lt; auto). assert (A2 : 0 < IZR (lN2 c)) by (apply IZR_lt; auto).
  assert (A3 : 0 < IZR (lN1 c) * IZR (lN2 c)) by (apply Rmult_lt_0_compat; auto).
  unfold amplitude. set (z := dft2 _ _ _ k l).
  assert (E : cmod (cscale (/ (IZR (lN1 c) * IZR (lN2 c))) z) = / (IZR (lN1 c) * IZR (lN2 c)) * cmod z).
  { transitivity (cmod (cmul (RtoC (/ (IZR (lN1 c) * IZR (lN2 c)))) z)); [f_equal; apply cplx_eq; cbn; ring|]. rewrite cmod_mul. f_equal.
    unfold cmod, cmod2; cbn [re im RtoC fst snd]. rewrite (pow_ne_zero 2), Rplus_0_r by lia. rewrite <- Rsqr_pow2. apply sqrt_Rsqr.
    left. apply Rinv_0_lt_compat; auto. }
  rewrite E. assert (Z : cmod z <= IZR (lN1 c) * IZR (lN2 c) * F).
  { unfold z, dft2, dft. eapply Rle_trans; [apply csum_cmod|]. 
    apply Rle_trans with (zsum (lN1 c) (fun _ => IZR (lN2 c) * F)); [|rewrite zsum_const by lia; lra].
    apply zsum_le; intros i Hi. rewrite cmod_mul, cmod_cis, Rmult_1_r. eapply Rle_trans; [apply csum_cmod|].
    apply Rle_trans with (zsum (lN2 c) (fun _ => F)); [|rewrite zsum_const by lia; lra].
    apply zsum_le; intros j Hj. rewrite cmod_mul, cmod_cis, Rmult_1_r. eapply Rle_trans; [|apply (B i j Hi Hj)].
    apply cmod_le; [apply Rabs_pos|]. unfold cmod2; cbn [re im RtoC fst snd]. rewrite <- Rabs_mult. rewrite Rabs_pos_eq by nra. lra. }
  apply (Rmult_le_reg_l (IZR (lN1 c) * IZR (lN2 c))); auto. rewrite <- Rmult_assoc, Rinv_r, Rmult_1_l by lra. exact Z.
Qed.
Lemma roughness_le c x s F : lin_ok c -> (forall i j, inb (lN1 c) i -> inb (lN2 c) j -> Rabs (el (init_f c) x s i j) <= F) ->
  roughness c x s <= IZR (lN1 c) * IZR (lN2 c) * (2 * (PI / dq1 (ph c) + PI / dq2 (ph c)) ^ 2 * F).
Proof.
  intros OK B. pose proof OK as (_&P1&P2&_). unfold roughness, over_waves.
  apply Rle_trans with (zsum (lN1 c) (fun _ => IZR (lN2 c) * (2 * (PI / dq1 (ph c) + PI / dq2 (ph c)) ^ 2 * F))); [|rewrite zsum_const by lia; lra].
  apply zsum_le; intros k Hk.
  apply Rle_trans with (zsum (lN2 c) (fun _ => 2 * (PI / dq1 (ph c) + PI / dq2 (ph c)) ^ 2 * F)); [|rewrite zsum_const by lia; lra].
  apply zsum_le; intros l Hl. destruct (wavenumber_le c k l OK (conj Hk Hl)) as (A1&A2).
  apply Rmult_le_compat; [assert (Q := pow2_ge_0 (Rabs (kx c k) + Rabs (ky c l))); lra|apply cmod_nonneg| |apply amplitude_le; auto].
  apply Rmult_le_compat_l; [lra|]. apply pow_incr. split; [|lra]. assert (Q1 := Rabs_pos (kx c k)). assert (Q2 := Rabs_pos (ky c l)). lra.
Qed.
