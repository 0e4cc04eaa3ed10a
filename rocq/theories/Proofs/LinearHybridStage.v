(** The electric field after a step of RK4 or RK5 in the linear hybrid model. *)
From Coq Require Import ZArith Reals Lra Lia String List Bool FunctionalExtensionality.
From Verif Require Import Base.Prelude Base.ZSum Base.Cplx Model.Af Model.Grid Model.Petsc Model.Config Model.Fft
  Model.Integrators Spec.RungeKutta Model.Moments Model.Linear Model.LinearHybrid
  Spec.Dft Spec.Waves Spec.MomentSpec Spec.LinearSpec Spec.LinearHybrid
  Proofs.AfLemmas Proofs.DftLemmas Proofs.ConvLemmas Proofs.MomentLemmas Proofs.FourierLemmas Proofs.LinearLemmas
  Proofs.LinearStep Proofs.LinearInv Proofs.LinearProps Proofs.LinearHybrid
  Spec.LinearHybridStage Proofs.LinearHybridRun.
Import ListNotations.
Local Open Scope R_scope.

Lemma RK4_cold c b dt s s' k l : hybrid_lin c -> instantaneous c = false -> lin_state_ok c s -> lin_fields_ok c s ->
  lin_timestep_hybrid RK4_ c 0 b dt s = Ok s' -> mode_in c k l ->
  exists p1 p2 p3, let p0 := Point (lt s) (fsol s) (f_hat s) (fields_hat (fsol s)) in
    stage c 0 b dt s [(1/2, p0)] (p_f p1) (p_F p1)
    /\ stage c 0 b dt s [(1/2, p1)] (p_f p2) (p_F p2)
    /\ stage c 0 b dt s [(1, p2)] (p_f p3) (p_F p3)
    /\ p_time p1 = lt s + 1/2 * dt /\ p_time p2 = lt s + 1/2 * dt /\ p_time p3 = lt s + 1 * dt
    /\ E_mode (fields_hat (fsol s')) k l = linear_ohm c 0 (p_f p3) (p_F p3) k l.
Proof.
  intros HL IN SO FO H M. pose proof (em_of c HL) as E. destruct (hybrid_step_inv RK4_ c 0 b dt s s' H E) as (NS&->). clear H.
  cbn [fsol set_fields_hat fields_hat]. unfold step_input. rewrite IN.
  set (A := arr_like (f_hat s)). set (F := fields_hat (fsol s)) in *. set (B := arr_like F).
  destruct FO as (F0&F1&F2&F3). fold F in F0, F1, F2, F3.
  assert (AE' : forall a, arr_like a (vec_of a) = a).
  { intros [n0 n1 n2 n3 a]. unfold arr_like, arr_of. cbn [d0 d1 d2 d3]. apply f_equal. repeat (apply functional_extensionality; intro). cbn [vec_of el].
    symmetry. apply surjective_pairing. }
  assert (BV : forall P i j k l, el (B (vec_of P)) i j k l = el P i j k l) by (intros; unfold B; apply arr_vec').
  assert (K1 : df_hat_value c b (set_fields_hat (fsol s) (B (vec_of F))) (lt s) (A (vec_of (f_hat s))) = df_hat_value c b (fsol s) (lt s) (f_hat s)).
  { unfold A, B. rewrite !AE'. f_equal. unfold F. destruct (fsol s); reflexivity. }
  assert (L1 : A (vec_of (f_hat s)) = f_hat s) by apply AE'. assert (L2 : B (vec_of F) = F) by apply AE'.
  assert (SB : forall z, (d0 (B z) = 6 /\ d1 (B z) = 1 /\ d2 (B z) = lN1 c /\ d3 (B z) = lN2 c)%Z) by (intros; repeat split; assumption).
  assert (AR : forall v i j k l, el (A v) i j k l = el (arr_like (f_hat s) v) i j k l) by reflexivity.
  assert (FL : fields_hat (fsol s) = F) by reflexivity.
  cbn [hyb_RK]. unfold hyb_RK4. cbv zeta. unfold y_of. cbn [fst snd]. rewrite K1, L1, L2.
  set (X0 := df_hat_value c b (fsol s) (lt s) (f_hat s)).
  set (D0 := dfields_hybrid c 0 (f_hat s) F).
  set (Y1 := vec_of (put_E c 0 (f_hat s) F F)).
  set (x1 := fun i => vec_of (f_hat s) i + 1 / 2 * vec_of X0 i * dt).
  set (y1 := fun i => Y1 i + 1 / 2 * vec_of D0 i * dt).
  set (X1 := df_hat_value c b (set_fields_hat (fsol s) (B Y1)) (lt s + 1 / 2 * dt) (A x1)).
  set (D1 := dfields_hybrid c 0 (A x1) (B y1)).
  set (Y2 := vec_of (put_E c 0 (A x1) (B y1) (B Y1))).
  set (x2 := fun i => vec_of (f_hat s) i + 1 / 2 * vec_of X1 i * dt).
  set (y2 := fun i => Y2 i + 1 / 2 * vec_of D1 i * dt).
  set (X2 := df_hat_value c b (set_fields_hat (fsol s) (B Y2)) (lt s + 1 / 2 * dt) (A x2)).
  set (D2 := dfields_hybrid c 0 (A x2) (B y2)).
  set (Y3 := vec_of (put_E c 0 (A x2) (B y2) (B Y2))).
  set (x3 := fun i => vec_of (f_hat s) i + vec_of X2 i * dt).
  set (y3 := fun i => Y3 i + vec_of D2 i * dt).
  set (X3 := df_hat_value c b (set_fields_hat (fsol s) (B Y3)) (lt s + 1 / 2 * dt + 1 / 2 * dt) (A x3)).
  set (D3 := dfields_hybrid c 0 (A x3) (B y3)).
  set (Y4 := vec_of (put_E c 0 (A x3) (B y3) (B Y3))).
  assert (B1 : forall i k l, (3 <= i < 6)%Z -> el (B Y1) i 0 k l = el F i 0 k l) by (intros; unfold Y1; rewrite BV, put_B by lia; reflexivity).
  assert (B2 : forall i k l, (3 <= i < 6)%Z -> el (B Y2) i 0 k l = el F i 0 k l) by (intros; unfold Y2; rewrite BV, put_B by lia; auto).
  assert (B3 : forall i k l, (3 <= i < 6)%Z -> el (B Y3) i 0 k l = el F i 0 k l) by (intros; unfold Y3; rewrite BV, put_B by lia; auto).
  exists (Point (lt s + 1 / 2 * dt) (set_fields_hat (fsol s) (B Y1)) (A x1) (B y1)),
    (Point (lt s + 1 / 2 * dt) (set_fields_hat (fsol s) (B Y2)) (A x2) (B y2)),
    (Point (lt s + 1 / 2 * dt + 1 / 2 * dt) (set_fields_hat (fsol s) (B Y3)) (A x3) (B y3)).
  cbv zeta. cbn [p_time p_acting p_f p_F].
  split.
  { split; [repeat split|]. split; [apply SB|]. split; [repeat constructor; cbn [snd p_acting set_fields_hat fields_hat]; assumption|]. split.
    - intros q sp k' l'. cbn [fold_left fst snd p_time p_acting p_f p_F]. rewrite AR. fold X0.
      unfold x1. apply cplx_eq; unfold arr_like; cbn [arr_of el vec_of re im fst snd cadd cscale]; field.
    - intros i k' l' Hi. cbn [fold_left fst snd p_time p_acting p_f p_F]. rewrite FL. fold D0.
      rewrite <- (B1 i k' l' Hi). unfold y1. unfold B. apply cplx_eq; unfold arr_like; cbn [arr_of el vec_of re im fst snd cadd cscale]; field. }
  split.
  { split; [repeat split|]. split; [apply SB|]. split; [repeat constructor; cbn [snd p_acting set_fields_hat fields_hat]; assumption|]. split.
    - intros q sp k' l'. cbn [fold_left fst snd p_time p_acting p_f p_F]. rewrite AR. fold X0 X1.
      unfold x2. apply cplx_eq; unfold arr_like; cbn [arr_of el vec_of re im fst snd cadd cscale]; field.
    - intros i k' l' Hi. cbn [fold_left fst snd p_time p_acting p_f p_F]. rewrite FL. fold D0 D1.
      rewrite <- (B2 i k' l' Hi). unfold y2. unfold B. apply cplx_eq; unfold arr_like; cbn [arr_of el vec_of re im fst snd cadd cscale]; field. }
  split.
  { split; [repeat split|]. split; [apply SB|]. split; [repeat constructor; cbn [snd p_acting set_fields_hat fields_hat]; assumption|]. split.
    - intros q sp k' l'. cbn [fold_left fst snd p_time p_acting p_f p_F]. rewrite AR. fold X0 X1 X2.
      unfold x3. apply cplx_eq; unfold arr_like; cbn [arr_of el vec_of re im fst snd cadd cscale]; field.
    - intros i k' l' Hi. cbn [fold_left fst snd p_time p_acting p_f p_F]. rewrite FL. fold D0 D1 D2.
      rewrite <- (B3 i k' l' Hi). unfold y3. unfold B. apply cplx_eq; unfold arr_like; cbn [arr_of el vec_of re im fst snd cadd cscale]; field. }
  do 3 (split; [field|]).
  assert (SH : shaped c (A x3)) by (destruct SO as (a1&a2&a3&a4); repeat split; assumption).
  destruct HL as (OK&_). pose proof (cold_ohm c OK NS (A x3) (B y3) k l SH (SB y3) M) as CO.
  pose proof (put_E_mode c 0 (A x3) (B y3) (B Y3) k l) as PE. unfold ohm1, ohm2, ohm3 in PE.
  assert (Z0 : forall i, (0 <= i < 3)%Z -> forall P, el (B (fun i => vec_of P i + (vec_of D0 i + 2 * vec_of D1 i + 2 * vec_of D2 i + vec_of D3 i) / 6 * dt)) i 0 k l = el P i 0 k l).
  { intros i Hi P. assert (ZE : forall f G, d1 G = 1%Z -> el (dfields_hybrid c 0 f G) i 0 k l = c0) by (intros; apply dfields_hyb_E; auto).
    assert (e0 : el D0 i 0 k l = c0) by (apply ZE; exact F1).
    assert (e1 : el D1 i 0 k l = c0) by (apply ZE; exact F1).
    assert (e2 : el D2 i 0 k l = c0) by (apply ZE; exact F1).
    assert (e3 : el D3 i 0 k l = c0) by (apply ZE; exact F1).
    unfold B at 1. unfold arr_like. cbn [arr_of el vec_of]. rewrite ?e0, ?e1, ?e2, ?e3. apply cplx_eq; cbn [re im fst snd c0]; field. }
  destruct (ohm_hat c 0 (A x3) (B y3)) as ((E1&E2)&E3). cbn [fst snd] in PE. rewrite <- CO, <- PE.
  unfold E_mode, Y4. rewrite !Z0 by lia. reflexivity.
Qed.

Lemma RK5_cold c b dt s s' k l : hybrid_lin c -> instantaneous c = false -> lin_state_ok c s -> lin_fields_ok c s ->
  lin_timestep_hybrid RK5_ c 0 b dt s = Ok s' -> mode_in c k l ->
  exists p1 p2 p3 p4 p5, let p0 := Point (lt s) (fsol s) (f_hat s) (fields_hat (fsol s)) in
    stage c 0 b dt s [(1/4, p0)] (p_f p1) (p_F p1)
    /\ stage c 0 b dt s [(1/8, p0); (1/8, p1)] (p_f p2) (p_F p2)
    /\ stage c 0 b dt s [(-1/2, p1); (1, p2)] (p_f p3) (p_F p3)
    /\ stage c 0 b dt s [(3/16, p0); (9/16, p3)] (p_f p4) (p_F p4)
    /\ stage c 0 b dt s [(-3/7, p0); (2/7, p1); (12/7, p2); (-12/7, p3); (8/7, p4)] (p_f p5) (p_F p5)
    /\ p_time p1 = lt s + 1/4 * dt /\ p_time p2 = lt s + 1/4 * dt /\ p_time p3 = lt s + 1/2 * dt /\ p_time p4 = lt s + 3/4 * dt /\ p_time p5 = lt s + 1 * dt
    /\ E_mode (fields_hat (fsol s')) k l = linear_ohm c 0 (p_f p5) (p_F p5) k l.
Proof.
  intros HL IN SO FO H M. pose proof (em_of c HL) as E. destruct (hybrid_step_inv RK5_ c 0 b dt s s' H E) as (NS&->). clear H.
  cbn [fsol set_fields_hat fields_hat]. unfold step_input. rewrite IN.
  set (A := arr_like (f_hat s)). set (F := fields_hat (fsol s)) in *. set (B := arr_like F).
  destruct FO as (F0&F1&F2&F3). fold F in F0, F1, F2, F3.
  assert (AE' : forall a, arr_like a (vec_of a) = a).
  { intros [n0 n1 n2 n3 a]. unfold arr_like, arr_of. cbn [d0 d1 d2 d3]. apply f_equal. repeat (apply functional_extensionality; intro). cbn [vec_of el].
    symmetry. apply surjective_pairing. }
  assert (BV : forall P i j k l, el (B (vec_of P)) i j k l = el P i j k l) by (intros; unfold B; apply arr_vec').
  assert (K1 : df_hat_value c b (set_fields_hat (fsol s) (B (vec_of F))) (lt s) (A (vec_of (f_hat s))) = df_hat_value c b (fsol s) (lt s) (f_hat s)).
  { unfold A, B. rewrite !AE'. f_equal. unfold F. destruct (fsol s); reflexivity. }
  assert (L1 : A (vec_of (f_hat s)) = f_hat s) by apply AE'. assert (L2 : B (vec_of F) = F) by apply AE'.
  assert (SB : forall z, (d0 (B z) = 6 /\ d1 (B z) = 1 /\ d2 (B z) = lN1 c /\ d3 (B z) = lN2 c)%Z) by (intros; repeat split; assumption).
  assert (AR : forall v i j k l, el (A v) i j k l = el (arr_like (f_hat s) v) i j k l) by reflexivity.
  assert (FL : fields_hat (fsol s) = F) by reflexivity.
  cbn [hyb_RK]. unfold hyb_RK5. cbv zeta. unfold y_of. cbn [fst snd]. rewrite K1, L1, L2.
  set (X0 := df_hat_value c b (fsol s) (lt s) (f_hat s)).
  set (D0 := dfields_hybrid c 0 (f_hat s) F).
  set (Y1 := vec_of (put_E c 0 (f_hat s) F F)).
  set (x1 := fun i => vec_of (f_hat s) i + 1 / 4 * vec_of X0 i * dt).
  set (y1 := fun i => Y1 i + 1 / 4 * vec_of D0 i * dt).
  set (X1 := df_hat_value c b (set_fields_hat (fsol s) (B Y1)) (lt s + 1 / 4 * dt) (A x1)).
  set (D1 := dfields_hybrid c 0 (A x1) (B y1)).
  set (Y2 := vec_of (put_E c 0 (A x1) (B y1) (B Y1))).
  set (x2 := fun i => vec_of (f_hat s) i + 1 / 8 * (vec_of X0 i + vec_of X1 i) * dt).
  set (y2 := fun i => Y2 i + 1 / 8 * (vec_of D0 i + vec_of D1 i) * dt).
  set (X2 := df_hat_value c b (set_fields_hat (fsol s) (B Y2)) (lt s + 1 / 4 * dt) (A x2)).
  set (D2 := dfields_hybrid c 0 (A x2) (B y2)).
  set (Y3 := vec_of (put_E c 0 (A x2) (B y2) (B Y2))).
  set (x3 := fun i => vec_of (f_hat s) i - (1 / 2 * vec_of X1 i - vec_of X2 i) * dt).
  set (y3 := fun i => Y3 i - (1 / 2 * vec_of D1 i - vec_of D2 i) * dt).
  set (X3 := df_hat_value c b (set_fields_hat (fsol s) (B Y3)) (lt s + 1 / 4 * dt + 1 / 4 * dt) (A x3)).
  set (D3 := dfields_hybrid c 0 (A x3) (B y3)).
  set (Y4 := vec_of (put_E c 0 (A x3) (B y3) (B Y3))).
  set (x4 := fun i => vec_of (f_hat s) i + (3 * vec_of X0 i + 9 * vec_of X3 i) * dt / 16).
  set (y4 := fun i => Y4 i + (3 * vec_of D0 i + 9 * vec_of D3 i) * dt / 16).
  set (X4 := df_hat_value c b (set_fields_hat (fsol s) (B Y4)) (lt s + 1 / 4 * dt + 1 / 4 * dt + 1 / 4 * dt) (A x4)).
  set (D4 := dfields_hybrid c 0 (A x4) (B y4)).
  set (Y5 := vec_of (put_E c 0 (A x4) (B y4) (B Y4))).
  set (x5 := fun i => vec_of (f_hat s) i - (3 * vec_of X0 i - 2 * vec_of X1 i - 12 * vec_of X2 i + 12 * vec_of X3 i - 8 * vec_of X4 i) * dt / 7).
  set (y5 := fun i => Y5 i - (3 * vec_of D0 i - 2 * vec_of D1 i - 12 * vec_of D2 i + 12 * vec_of D3 i - 8 * vec_of D4 i) * dt / 7).
  set (X5 := df_hat_value c b (set_fields_hat (fsol s) (B Y5)) (lt s + 1 / 4 * dt + 1 / 4 * dt + 1 / 4 * dt + 1 / 4 * dt) (A x5)).
  set (D5 := dfields_hybrid c 0 (A x5) (B y5)).
  set (Y6 := vec_of (put_E c 0 (A x5) (B y5) (B Y5))).
  assert (B1 : forall i k l, (3 <= i < 6)%Z -> el (B Y1) i 0 k l = el F i 0 k l) by (intros; unfold Y1; rewrite BV, put_B by lia; reflexivity).
  assert (B2 : forall i k l, (3 <= i < 6)%Z -> el (B Y2) i 0 k l = el F i 0 k l) by (intros; unfold Y2; rewrite BV, put_B by lia; auto).
  assert (B3 : forall i k l, (3 <= i < 6)%Z -> el (B Y3) i 0 k l = el F i 0 k l) by (intros; unfold Y3; rewrite BV, put_B by lia; auto).
  assert (B4 : forall i k l, (3 <= i < 6)%Z -> el (B Y4) i 0 k l = el F i 0 k l) by (intros; unfold Y4; rewrite BV, put_B by lia; auto).
  assert (B5 : forall i k l, (3 <= i < 6)%Z -> el (B Y5) i 0 k l = el F i 0 k l) by (intros; unfold Y5; rewrite BV, put_B by lia; auto).
  exists (Point (lt s + 1 / 4 * dt) (set_fields_hat (fsol s) (B Y1)) (A x1) (B y1)),
    (Point (lt s + 1 / 4 * dt) (set_fields_hat (fsol s) (B Y2)) (A x2) (B y2)),
    (Point (lt s + 1 / 4 * dt + 1 / 4 * dt) (set_fields_hat (fsol s) (B Y3)) (A x3) (B y3)),
    (Point (lt s + 1 / 4 * dt + 1 / 4 * dt + 1 / 4 * dt) (set_fields_hat (fsol s) (B Y4)) (A x4) (B y4)),
    (Point (lt s + 1 / 4 * dt + 1 / 4 * dt + 1 / 4 * dt + 1 / 4 * dt) (set_fields_hat (fsol s) (B Y5)) (A x5) (B y5)).
  cbv zeta. cbn [p_time p_acting p_f p_F].
  split.
  { split; [repeat split|]. split; [apply SB|]. split; [repeat constructor; cbn [snd p_acting set_fields_hat fields_hat]; assumption|]. split.
    - intros q sp k' l'. cbn [fold_left fst snd p_time p_acting p_f p_F]. rewrite AR. fold X0.
      unfold x1. apply cplx_eq; unfold arr_like; cbn [arr_of el vec_of re im fst snd cadd cscale]; field.
    - intros i k' l' Hi. cbn [fold_left fst snd p_time p_acting p_f p_F]. rewrite FL. fold D0.
      rewrite <- (B1 i k' l' Hi). unfold y1. unfold B. apply cplx_eq; unfold arr_like; cbn [arr_of el vec_of re im fst snd cadd cscale]; field. }
  split.
  { split; [repeat split|]. split; [apply SB|]. split; [repeat constructor; cbn [snd p_acting set_fields_hat fields_hat]; assumption|]. split.
    - intros q sp k' l'. cbn [fold_left fst snd p_time p_acting p_f p_F]. rewrite AR. fold X0 X1.
      unfold x2. apply cplx_eq; unfold arr_like; cbn [arr_of el vec_of re im fst snd cadd cscale]; field.
    - intros i k' l' Hi. cbn [fold_left fst snd p_time p_acting p_f p_F]. rewrite FL. fold D0 D1.
      rewrite <- (B2 i k' l' Hi). unfold y2. unfold B. apply cplx_eq; unfold arr_like; cbn [arr_of el vec_of re im fst snd cadd cscale]; field. }
  split.
  { split; [repeat split|]. split; [apply SB|]. split; [repeat constructor; cbn [snd p_acting set_fields_hat fields_hat]; assumption|]. split.
    - intros q sp k' l'. cbn [fold_left fst snd p_time p_acting p_f p_F]. rewrite AR. fold X0 X1 X2.
      unfold x3. apply cplx_eq; unfold arr_like; cbn [arr_of el vec_of re im fst snd cadd cscale]; field.
    - intros i k' l' Hi. cbn [fold_left fst snd p_time p_acting p_f p_F]. rewrite FL. fold D0 D1 D2.
      rewrite <- (B3 i k' l' Hi). unfold y3. unfold B. apply cplx_eq; unfold arr_like; cbn [arr_of el vec_of re im fst snd cadd cscale]; field. }
  split.
  { split; [repeat split|]. split; [apply SB|]. split; [repeat constructor; cbn [snd p_acting set_fields_hat fields_hat]; assumption|]. split.
    - intros q sp k' l'. cbn [fold_left fst snd p_time p_acting p_f p_F]. rewrite AR. fold X0 X1 X2 X3.
      unfold x4. apply cplx_eq; unfold arr_like; cbn [arr_of el vec_of re im fst snd cadd cscale]; field.
    - intros i k' l' Hi. cbn [fold_left fst snd p_time p_acting p_f p_F]. rewrite FL. fold D0 D1 D2 D3.
      rewrite <- (B4 i k' l' Hi). unfold y4. unfold B. apply cplx_eq; unfold arr_like; cbn [arr_of el vec_of re im fst snd cadd cscale]; field. }
  split.
  { split; [repeat split|]. split; [apply SB|]. split; [repeat constructor; cbn [snd p_acting set_fields_hat fields_hat]; assumption|]. split.
    - intros q sp k' l'. cbn [fold_left fst snd p_time p_acting p_f p_F]. rewrite AR. fold X0 X1 X2 X3 X4.
      unfold x5. apply cplx_eq; unfold arr_like; cbn [arr_of el vec_of re im fst snd cadd cscale]; field.
    - intros i k' l' Hi. cbn [fold_left fst snd p_time p_acting p_f p_F]. rewrite FL. fold D0 D1 D2 D3 D4.
      rewrite <- (B5 i k' l' Hi). unfold y5. unfold B. apply cplx_eq; unfold arr_like; cbn [arr_of el vec_of re im fst snd cadd cscale]; field. }
  do 5 (split; [field|]).
  assert (SH : shaped c (A x5)) by (destruct SO as (a1&a2&a3&a4); repeat split; assumption).
  destruct HL as (OK&_). pose proof (cold_ohm c OK NS (A x5) (B y5) k l SH (SB y5) M) as CO.
  pose proof (put_E_mode c 0 (A x5) (B y5) (B Y5) k l) as PE. unfold ohm1, ohm2, ohm3 in PE.
  assert (Z0 : forall i, (0 <= i < 3)%Z -> forall P, el (B (fun i => vec_of P i + (7 * vec_of D0 i + 32 * vec_of D2 i + 12 * vec_of D3 i + 32 * vec_of D4 i + 7 * vec_of D5 i) * dt / 90)) i 0 k l = el P i 0 k l).
  { intros i Hi P. assert (ZE : forall f G, d1 G = 1%Z -> el (dfields_hybrid c 0 f G) i 0 k l = c0) by (intros; apply dfields_hyb_E; auto).
    assert (e0 : el D0 i 0 k l = c0) by (apply ZE; exact F1).
    assert (e1 : el D1 i 0 k l = c0) by (apply ZE; exact F1).
    assert (e2 : el D2 i 0 k l = c0) by (apply ZE; exact F1).
    assert (e3 : el D3 i 0 k l = c0) by (apply ZE; exact F1).
    assert (e4 : el D4 i 0 k l = c0) by (apply ZE; exact F1).
    assert (e5 : el D5 i 0 k l = c0) by (apply ZE; exact F1).
    unfold B at 1. unfold arr_like. cbn [arr_of el vec_of]. rewrite ?e0, ?e1, ?e2, ?e3, ?e4, ?e5. apply cplx_eq; cbn [re im fst snd c0]; field. }
  destruct (ohm_hat c 0 (A x5) (B y5)) as ((E1&E2)&E3). cbn [fst snd] in PE. rewrite <- CO, <- PE.
  unfold E_mode, Y6. rewrite !Z0 by lia. reflexivity.
Qed.
