(** Free streaming in the linear solver. *)
From Coq Require Import ZArith Reals Lra Lia Psatz String List Bool.
From Verif Require Import Base.Prelude Base.ZSum Base.Cplx Model.Af Model.Grid Model.Petsc Model.Config Model.Fft
  Model.Integrators Model.Moments Model.Linear Spec.Waves Spec.MomentSpec Spec.LinearSpec Spec.FreeStream
  Proofs.LinearLemmas Proofs.LinearStep.
Import ListNotations.
Local Open Scope R_scope.

(** The factor of one step of dz/dt = i w z, with y = w dt. *)
Definition factor (m : rk) (y : R) : cplx :=
  match m with
  | RK2_ => (1 - y ^ 2 / 2, y)
  | RK4_ => (1 - y ^ 2 / 2 + y ^ 4 / 24, y - y ^ 3 / 6)
  | RK5_ => (1 - y ^ 2 / 2 + y ^ 4 / 24 - y ^ 6 / 640, y - y ^ 3 / 6 + y ^ 5 / 120)
  end.
Lemma factor_gain m y : cmod2 (factor m y) = gain2 m y.
Proof. destruct m; unfold cmod2, factor, gain2, re, im; cbn [fst snd]; field. Qed.

Lemma stream_df c t (v : vec cidx) n0 n1 n2 n3 b x s k l : advects_with_p c ->
  let w := el (k_q1 c) 0 0 k l * el (p1_center (ph c)) x s 0 0 + el (k_q2 c) 0 0 k l * el (p2_center (ph c)) x s 0 0 in
  vec_of (free_streaming c t (arr_of n0 n1 n2 n3 v)) (b, x, s, k, l)
  = if b then - w * v (false, x, s, k, l) else w * v (true, x, s, k, l).
Proof.
  intros A w. unfold vec_of, free_streaming, arr_of. cbn [el]. rewrite A. fold w.
  unfold cmul, cscale, copp, ci, re, im; cbn [fst snd]. destruct b; ring.
Qed.

Lemma stream_step m c b dt s s' x sp k l : streams_freely c -> lin_ok c -> mode_in c k l -> lin_timestep m c b dt s = Ok s' ->
  el (f_hat s') x sp k l = cmul (factor m (- (omega c x sp k l * dt))) (el (f_hat s) x sp k l).
Proof.
  intros (A&FE&SE&IN) LO [Hk Hl] H. unfold lin_timestep in H. rewrite IN in H. cbv zeta in H. unfold df_hat_check in H. rewrite FE in H.
  cbn [rbind andb] in H.
  set (df := fun t v => vec_of (df_hat_value c b (fsol s) t (arr_like (f_hat s) v))) in H.
  assert (DF : forall t v bb, df t v (bb, x, sp, k, l) =
     if bb : bool then - omega c x sp k l * v (false, x, sp, k, l) else omega c x sp k l * v (true, x, sp, k, l)).
  { intros t v bb. unfold df, df_hat_value. rewrite SE, FE. unfold arr_like. rewrite stream_df by auto. cbv zeta.
    destruct (k_el c LO k l Hk Hl) as [-> ->]. reflexivity. }
  clearbody df.
  assert (V : forall bb, vec_of (f_hat s) (bb, x, sp, k, l) = if bb : bool then im (el (f_hat s) x sp k l) else re (el (f_hat s) x sp k l)) by reflexivity.
  generalize dependent (vec_of (f_hat s)). intros v0 H V.
  assert (E : el (f_hat s') x sp k l = (fst (lin_RK m df v0 dt (lt s)) (false, x, sp, k, l), fst (lin_RK m df v0 dt (lt s)) (true, x, sp, k, l))).
  { destruct (lin_RK m df v0 dt (lt s)) as [y t]. inversion H. reflexivity. }
  rewrite E. clear E H. generalize dependent (omega c x sp k l). intros w DF.
  generalize dependent (el (f_hat s) x sp k l). intros [p q] V. cbn [re im fst snd] in V.
  destruct m; cbn [lin_RK]; unfold lin_RK2, lin_RK4, lin_RK5, cmul, factor; cbn [re im fst snd];
    f_equal; rewrite ?DF, ?V; repeat (rewrite DF || rewrite V); cbn [fst snd re im]; try (unfold re, im; cbn [fst snd]); field.
Qed.

(** ** Moduli *)
Lemma cmod2_nonneg z : 0 <= cmod2 z.
Proof. unfold cmod2. assert (Q := pow2_ge_0 (re z)). assert (Q' := pow2_ge_0 (im z)). lra. Qed.
Lemma cmod2_mul z w : cmod2 (cmul z w) = cmod2 z * cmod2 w.
Proof. destruct z, w. unfold cmod2, cmul, re, im; cbn [fst snd]. ring. Qed.
Lemma cmod_mul z w : cmod (cmul z w) = cmod z * cmod w.
Proof. unfold cmod. rewrite cmod2_mul. apply sqrt_mult; apply cmod2_nonneg. Qed.
Lemma cmod_nonneg z : 0 <= cmod z.
Proof. apply sqrt_pos. Qed.
Lemma cmod_sq z : cmod z * cmod z = cmod2 z.
Proof. apply sqrt_def, cmod2_nonneg. Qed.
Lemma cmod_le z a : 0 <= a -> cmod2 z <= a * a -> cmod z <= a.
Proof.
  intros Ha H. unfold cmod. rewrite <- (sqrt_square a Ha). apply sqrt_le_1; auto; [apply cmod2_nonneg|nra].
Qed.
Lemma cmod_triang z w : cmod (cadd z w) <= cmod z + cmod w.
Proof.
  apply cmod_le; [assert (A := cmod_nonneg z); assert (B := cmod_nonneg w); lra|].
  assert (E : cmod2 (cadd z w) = cmod2 z + cmod2 w + 2 * (re z * re w + im z * im w))
    by (unfold cmod2, cadd, re, im; cbn [fst snd]; ring).
  rewrite E, <- (cmod_sq z), <- (cmod_sq w).
  assert (C : re z * re w + im z * im w <= cmod z * cmod w); [|lra].
  rewrite <- cmod_mul. unfold cmod.
  destruct (Rle_dec (re z * re w + im z * im w) 0) as [N|N]; [eapply Rle_trans; [exact N|apply sqrt_pos]|].
  rewrite <- (sqrt_square (re z * re w + im z * im w)) by lra. apply sqrt_le_1; [nra|apply cmod2_nonneg|].
  rewrite cmod2_mul. unfold cmod2.
  assert (Q := pow2_ge_0 (re z * im w - im z * re w)). nra.
Qed.
Lemma cmod_cis t : cmod (cis t) = 1.
Proof.
  unfold cmod, cmod2, cis, re, im; cbn [fst snd]. assert (Q := sin2_cos2 t). unfold Rsqr in Q.
  replace (cos t ^ 2 + sin t ^ 2) with 1 by lra. apply sqrt_1.
Qed.
Lemma cis_add a b : cis (a + b) = cmul (cis a) (cis b).
Proof. unfold cis, cmul, re, im; cbn [fst snd]. rewrite cos_plus, sin_plus. f_equal; ring. Qed.

(** ** Gains *)
Lemma sqpos y : y <> 0 -> 0 < y ^ 2.
Proof. intros N. assert (Q := Rsqr_pos_lt y N). unfold Rsqr in Q. lra. Qed.
Lemma gain4 y : gain2 RK4_ y <= 1 <-> y ^ 2 <= 8.
Proof.
  cbn [gain2]. replace (1 - y ^ 6 / 72 + y ^ 8 / 576) with (1 + y ^ 6 * (y ^ 2 - 8) / 576) by field.
  destruct (Req_dec y 0) as [->|N]; [split; intros; lra|].
  assert (0 < y ^ 2) by (apply sqpos; auto). assert (0 < y ^ 6) by (replace (y ^ 6) with (y ^ 2 * y ^ 2 * y ^ 2) by ring; apply Rmult_lt_0_compat; [apply Rmult_lt_0_compat|]; assumption).
  generalize dependent (y ^ 6). generalize dependent (y ^ 2). intros. split; intros; nra.
Qed.
Lemma gain5 y : gain2 RK5_ y <= 1 <-> y = 0 \/ 9 * y ^ 6 - 224 * y ^ 4 + 1920 * y ^ 2 <= 1280.
Proof.
  cbn [gain2].
  replace (1 - y ^ 6 / 2880 + y ^ 8 / 1920 - 7 * y ^ 10 / 115200 + y ^ 12 / 409600)
    with (1 + y ^ 6 * (9 * y ^ 6 - 224 * y ^ 4 + 1920 * y ^ 2 - 1280) / 3686400) by field.
  destruct (Req_dec y 0) as [->|N]; [split; intros; [auto|lra]|].
  assert (0 < y ^ 2) by (apply sqpos; auto). assert (0 < y ^ 6) by (replace (y ^ 6) with (y ^ 2 * y ^ 2 * y ^ 2) by ring; apply Rmult_lt_0_compat; [apply Rmult_lt_0_compat|]; assumption).
  split; [intros Q; right|intros [Q|Q]; [contradiction|]];
    set (r := 9 * y ^ 6 - 224 * y ^ 4 + 1920 * y ^ 2) in *; clearbody r; generalize dependent (y ^ 6); intros; nra.
Qed.
Lemma gain_2 y : y <> 0 -> 1 < gain2 RK2_ y.
Proof.
  intros N. cbn [gain2]. assert (0 < y ^ 2) by (apply sqpos; auto). replace (y ^ 4) with (y ^ 2 * y ^ 2) by ring.
  assert (0 < y ^ 2 * y ^ 2) by (apply Rmult_lt_0_compat; auto). lra.
Qed.
Lemma gain_even m y : gain2 m (- y) = gain2 m y.
Proof. destruct m; cbn [gain2]; field. Qed.

Lemma small_stable m y : small_step m y -> gain2 m y <= 1.
Proof.
  destruct m; intros S; cbn [small_step] in S; [contradiction|apply gain4|apply gain5].
  - assert (Rabs y ^ 2 <= 4) by (assert (Q := Rabs_pos y); nra). rewrite pow2_abs in H. lra.
  - right. assert (Q := pow2_ge_0 y). replace (y ^ 6) with (y ^ 2 * y ^ 2 * y ^ 2) by ring. replace (y ^ 4) with (y ^ 2 * y ^ 2) by ring.
    set (q := y ^ 2) in *. assert (q * q * q <= 1/4 * q) by nra. nra.
Qed.

(** ** Sine and cosine *)
Lemma facts : INR (fact 0) = 1 /\ INR (fact 1) = 1 /\ INR (fact 2) = 2 /\ INR (fact 3) = 6 /\ INR (fact 4) = 24 /\ INR (fact 5) = 120
  /\ INR (fact 6) = 720 /\ INR (fact 7) = 5040 /\ INR (fact 8) = 40320.
Proof. rewrite !INR_IZR_INZ. repeat split; apply f_equal; vm_compute; reflexivity. Qed.

Lemma cos_bounds y : Rabs y <= 2 -> - (y ^ 6 / 720) <= cos y - (1 - y ^ 2 / 2 + y ^ 4 / 24) <= 0
  /\ 0 <= cos y - (1 - y ^ 2 / 2 + y ^ 4 / 24 - y ^ 6 / 720) <= y ^ 8 / 40320.
Proof.
  intros H. destruct facts as (F0&F1&F2&F3&F4&F5&F6&F7&F8).
  assert (B : -2 <= y <= 2) by (unfold Rabs in H; destruct (Rcase_abs y); lra).
  pose proof (pre_cos_bound y 0 (proj1 B) (proj2 B)) as [_ U0]. pose proof (pre_cos_bound y 1 (proj1 B) (proj2 B)) as [L1 U1].
  unfold cos_approx, cos_term in U0, L1, U1. cbn [Nat.mul Nat.add sum_f_R0] in U0, L1, U1.
  rewrite F0, F2, F4 in U0. rewrite F0, F2, F4, F6 in L1. rewrite F0, F2, F4, F6, F8 in U1. cbn [pow] in U0, L1, U1.
  assert (0 <= y ^ 6) by (replace (y ^ 6) with ((y ^ 3) ^ 2) by ring; apply pow2_ge_0).
  assert (0 <= y ^ 8) by (replace (y ^ 8) with ((y ^ 4) ^ 2) by ring; apply pow2_ge_0).
  cbn [pow]. split; split; lra.
Qed.
Lemma sin_bounds y : 0 <= y <= 2 -> 0 <= sin y - (y - y ^ 3 / 6) <= y ^ 5 / 120
  /\ - (y ^ 7 / 5040) <= sin y - (y - y ^ 3 / 6 + y ^ 5 / 120) <= 0.
Proof.
  intros B. destruct facts as (F0&F1&F2&F3&F4&F5&F6&F7&F8).
  pose proof (pre_sin_bound y 0 (proj1 B) ltac:(lra)) as [L0 U0]. pose proof (pre_sin_bound y 1 (proj1 B) ltac:(lra)) as [L1 U1].
  unfold sin_approx, sin_term in L0, U0, L1. cbn [Nat.mul Nat.add sum_f_R0] in L0, U0, L1.
  rewrite F1, F3 in L0. rewrite F1, F3, F5 in U0. rewrite F1, F3, F5, F7 in L1. cbn [pow] in L0, U0, L1. clear F0 F1 F2 F3 F4 F5 F6 F7 F8.
  cbn [pow]. split; split; lra.
Qed.

Lemma square_sum a b A B C : - A <= a <= A -> - B <= b <= B -> 0 <= A -> 0 <= B -> A + B <= C -> a ^ 2 + b ^ 2 <= C * C.
Proof. intros. assert (a ^ 2 <= A * A) by nra. assert (b ^ 2 <= B * B) by nra. nra. Qed.

(** Error of one step. *)
Lemma factor_opp m y : factor m (- y) = cconj (factor m y).
Proof. destruct m; unfold factor, cconj, re, im; cbn [fst snd]; f_equal; field. Qed.
Lemma cis_opp y : cis (- y) = cconj (cis y).
Proof. unfold cis, cconj, re, im; cbn [fst snd]. rewrite cos_neg, sin_neg. reflexivity. Qed.
Lemma local_pos m y : 0 <= y -> small_step m y -> cmod (csub (factor m y) (cis y)) <= step_error m y.
Proof.
  intros Y H. destruct m; cbn [small_step] in H; [contradiction| |].
  - rewrite Rabs_pos_eq in H by lra.
    destruct (cos_bounds y ltac:(rewrite Rabs_pos_eq; lra)) as [C _]. destruct (sin_bounds y ltac:(lra)) as [S _].
    assert (P5 : 0 <= y ^ 5) by (apply pow_le; lra).
    assert (P6 : y ^ 6 <= 2 * y ^ 5) by (replace (y ^ 6) with (y * y ^ 5) by ring; apply Rmult_le_compat_r; lra).
    assert (P6' : 0 <= y ^ 6) by (apply pow_le; lra).
    cbn [step_error]. rewrite Rabs_pos_eq by lra.
    apply cmod_le; [lra|]. unfold cmod2, csub, factor, cis, re, im; cbn [fst snd].
    set (dc := cos y - (1 - y ^ 2 / 2 + y ^ 4 / 24)) in C. set (ds := sin y - (y - y ^ 3 / 6)) in S.
    replace (1 - y ^ 2 / 2 + y ^ 4 / 24 - cos y) with (- dc) by (unfold dc; ring).
    replace (y - y ^ 3 / 6 - sin y) with (- ds) by (unfold ds; ring). clearbody dc ds.
    generalize dependent (y ^ 6). generalize dependent (y ^ 5). intros y5 P5 S y6 C P6 P6'.
    assert (dc ^ 2 <= (y5 / 360) * (y5 / 360)) by nra. assert (ds ^ 2 <= (y5 / 120) * (y5 / 120)) by nra. nra.
  - assert (Y1 : y <= 1) by nra.
    destruct (cos_bounds y ltac:(rewrite Rabs_pos_eq; lra)) as [_ C]. destruct (sin_bounds y ltac:(lra)) as [_ S].
    assert (P6 : 0 <= y ^ 6) by (apply pow_le; lra).
    assert (P7 : 0 <= y ^ 7 <= y ^ 6) by (split; [apply pow_le; lra|replace (y ^ 7) with (y * y ^ 6) by ring; nra]).
    assert (P8 : 0 <= y ^ 8 <= y ^ 6 / 2) by (split; [apply pow_le; lra|replace (y ^ 8) with (y ^ 2 * y ^ 6) by ring; nra]).
    cbn [step_error]. apply cmod_le; [lra|]. unfold cmod2, csub, factor, cis, re, im; cbn [fst snd].
    set (dc := cos y - (1 - y ^ 2 / 2 + y ^ 4 / 24 - y ^ 6 / 720)) in C. set (ds := sin y - (y - y ^ 3 / 6 + y ^ 5 / 120)) in S.
    replace (1 - y ^ 2 / 2 + y ^ 4 / 24 - y ^ 6 / 640 - cos y) with (- dc - y ^ 6 / 5760) by (unfold dc; field).
    replace (y - y ^ 3 / 6 + y ^ 5 / 120 - sin y) with (- ds) by (unfold ds; ring). clearbody dc ds.
    generalize dependent (y ^ 6). generalize dependent (y ^ 7). generalize dependent (y ^ 8). intros y8 C y7 S y6 P6 P7 P8.
    apply (square_sum _ _ (y6 / 5000) (y6 / 5000)); lra.
Qed.
Lemma cmod_conj z : cmod (cconj z) = cmod z.
Proof. unfold cmod. f_equal. unfold cmod2, cconj, re, im; cbn [fst snd]. ring. Qed.
Lemma step_error_even m y : step_error m (- y) = step_error m y.
Proof. destruct m; cbn [step_error]; rewrite ?Rabs_Ropp; field. Qed.
Lemma small_even m y : small_step m (- y) -> small_step m y.
Proof. destruct m; cbn [small_step]; rewrite ?Rabs_Ropp; auto. intros. replace (y ^ 2) with ((- y) ^ 2) by ring. auto. Qed.
Lemma local_any m y : small_step m y -> cmod (csub (factor m y) (cis y)) <= step_error m y.
Proof.
  intros H. destruct (Rle_dec 0 y); [apply local_pos; auto|].
  replace y with (- - y) at 1 2 by ring. rewrite factor_opp, cis_opp.
  replace (csub (cconj (factor m (- y))) (cconj (cis (- y)))) with (cconj (csub (factor m (- y)) (cis (- y)))) by cplx_ring.
  rewrite cmod_conj, <- step_error_even. apply local_pos; [lra|]. apply small_even. rewrite Ropp_involutive. exact H.
Qed.

(** ** Runs *)
Lemma run_gain c b steps x sp k l : streams_freely c -> lin_ok c -> mode_in c k l ->
  forall s s', lin_run c b steps s = Ok s' ->
  cmod2 (el (f_hat s') x sp k l)
  = fold_right (fun p g => gain2 (fst p) (omega c x sp k l * snd p) * g) 1 steps * cmod2 (el (f_hat s) x sp k l).
Proof.
  intros SF LO HM. induction steps as [|[m dt] steps IH]; intros s s' H; cbn [lin_run fold_right fst snd] in *.
  - inversion H; subst. ring.
  - destruct (lin_timestep m c b dt s) as [s1|e] eqn:E; [|discriminate]. cbn [rbind] in H.
    rewrite (IH s1 s' H). rewrite (stream_step m c b dt s s1 x sp k l SF LO HM E), cmod2_mul, factor_gain, gain_even. ring.
Qed.

Lemma run_accuracy c b steps x sp k l : streams_freely c -> lin_ok c -> mode_in c k l ->
  (forall m dt, In (m, dt) steps -> small_step m (omega c x sp k l * dt)) ->
  forall s s', lin_run c b steps s = Ok s' ->
  cmod (csub (el (f_hat s') x sp k l) (cmul (cis (- (omega c x sp k l * lin_duration steps))) (el (f_hat s) x sp k l)))
  <= total_error (omega c x sp k l) steps * cmod (el (f_hat s) x sp k l).
Proof.
  intros SF LO HM. set (w := omega c x sp k l). intros SS.
  induction steps as [|[m dt] steps IH]; intros s s' H; cbn [lin_run lin_duration total_error fold_right fst snd] in *.
  - inversion H; subst. replace (- (w * 0)) with 0 by ring. unfold cis. rewrite cos_0, sin_0.
    replace (csub (el (f_hat s') x sp k l) (cmul (1, 0) (el (f_hat s') x sp k l))) with c0 by (destruct (el (f_hat s') x sp k l); cplx_ring).
    unfold cmod at 1. unfold cmod2, c0, re, im; cbn [fst snd]. replace (0 ^ 2 + 0 ^ 2) with 0 by ring. rewrite sqrt_0. lra.
  - destruct (lin_timestep m c b dt s) as [s1|e] eqn:E; [|discriminate]. cbn [rbind] in H.
    assert (SM : small_step m (- (w * dt))).
    { apply small_even. rewrite Ropp_involutive. apply SS. left; reflexivity. }
    specialize (IH (fun m' dt' I => SS m' dt' (or_intror I)) s1 s' H). fold (lin_duration steps) (total_error w steps) in *.
    rewrite (stream_step m c b dt s s1 x sp k l SF LO HM E) in IH. fold w in IH.
    set (z := el (f_hat s) x sp k l) in *. set (z' := el (f_hat s') x sp k l) in *. set (T := lin_duration steps) in *.
    set (F := factor m (- (w * dt))) in *.
    assert (FL : cmod F <= 1).
    { apply cmod_le; [lra|]. unfold F. rewrite factor_gain. rewrite Rmult_1_l. apply small_stable; auto. }
    rewrite cmod_mul in IH.
    assert (TE : 0 <= total_error w steps).
    { clear. induction steps as [|[m dt] steps IH]; cbn [total_error fold_right fst snd]; [lra|]. fold (total_error w steps).
      assert (0 <= step_error m (w * dt)); [|lra]. destruct m; cbn [step_error].
      - apply pow_le, Rabs_pos.
      - assert (0 <= Rabs (w * dt) ^ 5) by (apply pow_le, Rabs_pos). lra.
      - assert (0 <= (w * dt) ^ 6) by (replace ((w * dt) ^ 6) with (((w * dt) ^ 3) ^ 2) by ring; apply pow2_ge_0). lra. }
    replace (- (w * (dt + T))) with (- (w * T) + - (w * dt)) by ring. rewrite cis_add.
    replace (csub z' (cmul (cmul (cis (- (w * T))) (cis (- (w * dt)))) z))
      with (cadd (csub z' (cmul (cis (- (w * T))) (cmul F z))) (cmul (cis (- (w * T))) (cmul (csub F (cis (- (w * dt)))) z))) by ring.
    eapply Rle_trans; [apply cmod_triang|]. rewrite !cmod_mul, cmod_cis, Rmult_1_l.
    assert (L := local_any m (- (w * dt)) SM). fold F in L. rewrite step_error_even in L.
    assert (Z := cmod_nonneg z). assert (FZ := cmod_nonneg F).
    assert (cmod F * cmod z <= cmod z) by nra.
    assert (total_error w steps * (cmod F * cmod z) <= total_error w steps * cmod z) by (apply Rmult_le_compat_l; auto).
    assert (cmod (csub F (cis (- (w * dt)))) * cmod z <= step_error m (w * dt) * cmod z) by (apply Rmult_le_compat_r; auto).
    lra.
Qed.
