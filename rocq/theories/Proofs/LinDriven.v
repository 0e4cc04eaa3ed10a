(** Sources of the linear solver that do not depend on f. *)
From Coq Require Import ZArith Reals Lra Lia String List Bool.
From Verif Require Import Base.Prelude Base.ZSum Base.Cplx Model.Af Model.Grid Model.Petsc Model.Config Model.Moments Model.Integrators Model.Linear
  Spec.Waves Spec.MomentSpec Spec.LinearSpec Spec.FreeStream Spec.LinDriven Model.Fft Spec.Dft
  Proofs.AfLemmas Proofs.MomentLemmas Proofs.DftLemmas Proofs.FourierLemmas Proofs.LinearLemmas Proofs.LinearInv Proofs.LinearProps Proofs.LinearWitness.
Import ListNotations.
Local Open Scope R_scope.

(** The midpoint rule, Simpson's and Boole's. *)
Definition quad (m : rk) (g : R -> R) (t dt : R) : R :=
  match m with
  | RK2_ => dt * g (t + 1/2 * dt)
  | RK4_ => dt * (g t + 4 * g (t + 1/2 * dt) + g (t + dt)) / 6
  | RK5_ => dt * (7 * g t + 32 * g (t + 1/4 * dt) + 12 * g (t + 1/2 * dt) + 32 * g (t + 3/4 * dt) + 7 * g (t + dt)) / 90
  end.

Lemma quad_lin m g h a t dt : quad m (fun t => g t + a * h t) t dt = quad m g t dt + a * quad m h t dt.
Proof. destruct m; unfold quad; field. Qed.
Lemma quad_pow m k t dt : (k <= degree m)%nat -> quad m (fun t => t ^ k) t dt = ((t + dt) ^ S k - t ^ S k) / INR (S k).
Proof.
  intros H. destruct m; cbn [degree] in H;
  do 6 (destruct k as [|k]; [first [exfalso; lia | unfold quad; cbn [INR pow]; field; lra]|]); exfalso; lia.
Qed.
Lemma quad_poly m a n t dt : (n <= degree m)%nat -> quad m (poly a n) t dt = poly_integral a n t (t + dt).
Proof.
  induction n as [|n IH]; intros H.
  - unfold poly, poly_integral. cbn [sum_f_R0].
    replace (quad m (fun t => a 0%nat * t ^ 0) t dt) with (a 0%nat * quad m (fun t => t ^ 0) t dt) by (destruct m; unfold quad; field).
    rewrite quad_pow by lia. reflexivity.
  - change (poly a (S n)) with (fun t => poly a n t + a (S n) * t ^ S n).
    rewrite (quad_lin m (poly a n) (fun t => t ^ S n)), IH, (quad_pow m (S n)) by lia. reflexivity.
Qed.

Lemma rk_driven m {I} (df : R -> vec I -> vec I) x dt t i (g : R -> R) : (forall t x, df t x i = g t) ->
  fst (lin_RK m df x dt t) i = x i + quad m g t dt /\ snd (lin_RK m df x dt t) = t + dt.
Proof.
  intros H. destruct m; cbn [lin_RK]; unfold lin_RK2, lin_RK4, lin_RK5; cbn [fst snd]; rewrite !H; unfold quad; split; try field.
  - replace (t + 1 / 2 * dt + 1 / 2 * dt) with (t + dt) by field. field.
  - replace (t + 1 / 4 * dt + 1 / 4 * dt + 1 / 4 * dt + 1 / 4 * dt) with (t + dt) by field.
    replace (t + 1 / 4 * dt + 1 / 4 * dt + 1 / 4 * dt) with (t + 3 / 4 * dt) by field.
    replace (t + 1 / 4 * dt + 1 / 4 * dt) with (t + 1 / 2 * dt) by field. field.
Qed.

Lemma mean_hat c st x s : lin_ok c -> lin_state_ok c st -> mean_f c st x s = re (el (f_hat st) x s 0 0)%Z / 2.
Proof.
  intros OK (A&B&C&D). pose proof OK as (_&P1&P2&_). unfold mean_f, mean2.
  assert (E : zsum (lN1 c) (fun i => zsum (lN2 c) (fun j => el (get_dist_func c (f_hat st)) x s i j)) = half_N c * re (el (f_hat st) x s 0 0)%Z).
  { rewrite <- (dft2_idft2 (lN1 c) (lN2 c) (fun i j => el (f_hat st) x s i j) 0 0) by lia.
    rewrite dft2_sum. cbn [csum re fst]. rewrite <- zsum_scal. apply zsum_ext; intros k Hk.
    rewrite <- zsum_scal. apply zsum_ext; intros l Hl.
    rewrite get_dist_el by (auto; repeat split; auto). f_equal.
    unfold phase. replace (- (2 * PI * 0 * IZR k / IZR (lN1 c) + 2 * PI * 0 * IZR l / IZR (lN2 c))) with 0 by (unfold Rdiv; ring).
    rewrite cis_0. match goal with |- re ?z = _ => generalize z end. intros z. cbn. ring. }
  rewrite E. unfold half_N. field. split; apply IZR_neq; lia.
Qed.

Section Driven.
Variables (c : lcfg) (g : R -> Z -> Z -> Z -> Z -> R).
Context (OK : lin_ok c) (DR : lin_driven c g).

Lemma driven_slope b F t fh x s : dims4 fh (N_p (ph c)) (N_species (ph c)) (lN1 c) (lN2 c) ->
  re (el (df_hat_value c b F t fh) x s 0 0)%Z = 2 * mean2 (lN1 c) (lN2 c) (g t x s).
Proof.
  intros D. pose proof OK as (_&P1&P2&_). destruct DR as (FE&SE&_&SR). unfold df_hat_value. rewrite FE, SE. cbn [amap2 el].
  unfold source_hat. rewrite SR by (apply D). rewrite to_hat_el by (repeat split).
  cbn [amap el]. cbn [free_streaming el].
  destruct (k_el c OK 0 0 ltac:(unfold inb; lia) ltac:(unfold inb; lia)) as (K1&K2). rewrite K1, K2, !wave_0 by auto.
  destruct (A_q (ph c) _ t _ _ _ _ _) as (a1&a2).
  assert (E : re (dft2 (lN1 c) (lN2 c) (fun m n => RtoC (g t x s m n)) 0 0) = zsum (lN1 c) (fun i => zsum (lN2 c) (fun j => g t x s i j))).
  { rewrite dft2_sum. cbn [csum re fst]. apply zsum_ext; intros k Hk. apply zsum_ext; intros l Hl.
    unfold phase. replace (- (2 * PI * 0 * IZR k / IZR (lN1 c) + 2 * PI * 0 * IZR l / IZR (lN2 c))) with 0 by (unfold Rdiv; ring).
    rewrite cis_0. cbn. ring. }
  set (z := dft2 _ _ _ _ _) in *. set (w := el fh x s 0%Z 0%Z). unfold mean2. rewrite <- E. clearbody z w. cbn. field. split; apply IZR_neq; lia.
Qed.

Lemma driven_step b m dt st st' x s : lin_state_ok c st -> lin_timestep m c b dt st = Ok st' ->
  lin_state_ok c st' /\ lt st' = lt st + dt
  /\ mean_f c st' x s = mean_f c st x s + quad m (fun t => mean2 (lN1 c) (lN2 c) (g t x s)) (lt st) dt.
Proof.
  intros SO H. pose proof DR as (FE&SE&IN&SR).
  assert (SO' : lin_state_ok c st') by (eapply state_ok_step; eauto).
  split; [exact SO'|]. rewrite !mean_hat by auto. unfold lin_timestep in H. rewrite IN in H.
  unfold df_hat_check in H. rewrite FE in H. cbn [rbind andb] in H.
  set (df := fun t v => vec_of (df_hat_value c b (fsol st) t (arr_like (f_hat st) v))) in H.
  assert (Z0 : forall t v, df t v (false, x, s, 0, 0)%Z = 2 * mean2 (lN1 c) (lN2 c) (g t x s)).
  { intros t v. unfold df, vec_of. apply driven_slope. destruct SO as (A&B&C&D). unfold arr_like, arr_of; cbn [d0 d1 d2 d3]. repeat split; assumption. }
  destruct (rk_driven m df (vec_of (f_hat st)) dt (lt st) _ _ Z0) as (E1&E2).
  destruct (lin_RK m df (vec_of (f_hat st)) dt (lt st)) as (v&t). cbn [fst snd] in E1, E2. injection H as H. subst st'. cbn [lt f_hat].
  split; [exact E2|]. unfold arr_like, arr_of; cbn [el re fst]. rewrite E1. unfold vec_of.
  destruct m; unfold quad; field.
Qed.

Fixpoint quad_sum (h : list (rk * R)) (g : R -> R) (t : R) : R :=
  match h with [] => 0 | (m, dt) :: h => quad m g t dt + quad_sum h g (t + dt) end.
Lemma driven_run b h st st' x s : lin_state_ok c st -> lin_run c b h st = Ok st' ->
  mean_f c st' x s = mean_f c st x s + quad_sum h (fun t => mean2 (lN1 c) (lN2 c) (g t x s)) (lt st).
Proof.
  revert st. induction h as [|(m&dt) h IH]; intros st SO H.
  - injection H as <-. cbn. ring.
  - cbn [lin_run] in H. destruct (lin_timestep m c b dt st) as [s1|] eqn:Q; [|discriminate]. cbn [rbind] in H.
    destruct (driven_step b m dt st s1 x s SO Q) as (S1&T1&M1). rewrite (IH s1 S1 H), M1, T1. cbn [quad_sum]. ring.
Qed.

Lemma poly_integral_chasles a n t u v : poly_integral a n t u + poly_integral a n u v = poly_integral a n t v.
Proof. unfold poly_integral. rewrite <- sum_plus. apply sum_eq. intros k _. field. apply not_0_INR. discriminate. Qed.
Lemma quad_sum_poly a n (f : R -> R) h t : (forall t, f t = poly a n t) -> Forall (fun k => (n <= degree (fst k))%nat) h ->
  quad_sum h f t = poly_integral a n t (t + lin_duration h).
Proof.
  intros E F. revert t. induction F as [|(m&dt) h Hm F IH]; intros t; cbn [quad_sum].
  - cbn. rewrite Rplus_0_r. unfold poly_integral. symmetry. apply (sum_eq_R0 (fun k => _)). intros k _. field. apply not_0_INR. discriminate.
  - rewrite IH. cbn [fst] in Hm. replace (quad m f t dt) with (quad m (poly a n) t dt) by (destruct m; unfold quad; rewrite !E; reflexivity).
    rewrite quad_poly by exact Hm. cbn [lin_duration fold_right snd]. fold (lin_duration h). rewrite <- Rplus_assoc. apply poly_integral_chasles.
Qed.
Lemma driven_exact b h st st' x s a n : lin_state_ok c st -> (forall t, mean2 (lN1 c) (lN2 c) (g t x s) = poly a n t) ->
  Forall (fun k => (n <= degree (fst k))%nat) h -> lin_run c b h st = Ok st' ->
  mean_f c st' x s = mean_f c st x s + poly_integral a n (lt st) (lt st + lin_duration h).
Proof. intros SO E F H. rewrite (driven_run b h st st' x s SO H). f_equal. apply quad_sum_poly; auto. Qed.
End Driven.

(** ** Smooth sources *)
Lemma poly_integral_diff a n t u : derivable_pt_lim (fun v => poly_integral a n t v) u (poly a n u).
Proof.
  induction n as [|n IH].
  - unfold poly_integral, poly; cbn [sum_f_R0].
    replace (a 0%nat * u ^ 0) with (a 0%nat * ((INR 1 * u ^ 0 - 0) * / INR 1 + (u ^ 1 - t ^ 1) * 0)) by (cbn; field).
    apply (derivable_pt_lim_scal (fun v => (v ^ 1 - t ^ 1) / INR 1)). apply (derivable_pt_lim_mult (fun v => v ^ 1 - t ^ 1) (fun _ => / INR 1)).
    + apply derivable_pt_lim_minus; [apply derivable_pt_lim_pow|apply derivable_pt_lim_const].
    + apply derivable_pt_lim_const.
  - apply (derivable_pt_lim_plus (fun v => poly_integral a n t v) (fun v => a (S n) * ((v ^ S (S n) - t ^ S (S n)) / INR (S (S n))))); [exact IH|].
    replace (a (S n) * u ^ S n) with (a (S n) * ((INR (S (S n)) * u ^ S n - 0) * / INR (S (S n)) + (u ^ S (S n) - t ^ S (S n)) * 0)) by (field; apply not_0_INR; discriminate).
    apply (derivable_pt_lim_scal (fun v => (v ^ S (S n) - t ^ S (S n)) / INR (S (S n)))).
    apply (derivable_pt_lim_mult (fun v => v ^ S (S n) - t ^ S (S n)) (fun _ => / INR (S (S n)))).
    + apply derivable_pt_lim_minus; [apply (derivable_pt_lim_pow u (S (S n)))|apply derivable_pt_lim_const].
    + apply derivable_pt_lim_const.
Qed.
Lemma poly_integral_refl a n t : poly_integral a n t t = 0.
Proof. unfold poly_integral. apply (sum_eq_R0 (fun k => _)). intros k _. field. apply not_0_INR. discriminate. Qed.

Lemma near_integral (G H g h : R -> R) t dt e : 0 <= dt ->
  (forall u, derivable_pt_lim G u (g u)) -> (forall u, derivable_pt_lim H u (h u)) ->
  (forall u, t <= u <= t + dt -> Rabs (g u - h u) <= e) ->
  Rabs ((G (t + dt) - G t) - (H (t + dt) - H t)) <= e * dt.
Proof.
  intros D DG DH B. destruct (Req_dec dt 0) as [->|N].
  - rewrite Rplus_0_r. replace (G t - G t - (H t - H t)) with 0 by ring. rewrite Rabs_R0. lra.
  - destruct (MVT_cor2 (fun u => G u - H u) (fun u => g u - h u) t (t + dt)) as (z&E&Z); [lra| |].
    + intros u _. apply derivable_pt_lim_minus; auto.
    + replace (G (t + dt) - G t - (H (t + dt) - H t)) with ((g z - h z) * dt) by (replace (t + dt - t) with dt in E by ring; lra).
      rewrite Rabs_mult, (Rabs_pos_eq dt) by exact D. apply Rmult_le_compat_r; [exact D|]. apply B. lra.
Qed.
Lemma quad_near m g h t dt e : 0 <= dt -> (forall u, t <= u <= t + dt -> Rabs (g u - h u) <= e) ->
  Rabs (quad m g t dt - quad m h t dt) <= e * dt.
Proof.
  intros D B.
  assert (X : forall w, 0 <= w <= 1 -> - e <= g (t + w * dt) - h (t + w * dt) <= e).
  { intros w W. assert (0 <= w * dt <= dt) by (split; [apply Rmult_le_pos; lra|]; rewrite <- (Rmult_1_l dt) at 2; apply Rmult_le_compat_r; lra).
    specialize (B (t + w * dt) ltac:(lra)). revert B. unfold Rabs. destruct (Rcase_abs _); lra. }
  pose proof (X 0 ltac:(lra)) as X0. rewrite Rmult_0_l, Rplus_0_r in X0. pose proof (X 1 ltac:(lra)) as X1. rewrite Rmult_1_l in X1.
  pose proof (X (1/2) ltac:(lra)) as Xh. pose proof (X (1/4) ltac:(lra)) as Xq. pose proof (X (3/4) ltac:(lra)) as Xt.
  assert (K : forall A, quad m g t dt - quad m h t dt = dt * A -> - e <= A <= e -> Rabs (quad m g t dt - quad m h t dt) <= e * dt).
  { intros A -> HA. rewrite Rabs_mult, (Rabs_pos_eq dt) by exact D. rewrite Rmult_comm. apply Rmult_le_compat_r; [exact D|]. apply Rabs_le; lra. }
  destruct m.
  - apply (K (g (t + 1/2 * dt) - h (t + 1/2 * dt))); [unfold quad; ring|lra].
  - apply (K ((g t - h t + 4 * (g (t + 1/2 * dt) - h (t + 1/2 * dt)) + (g (t + dt) - h (t + dt))) / 6)); [unfold quad; field|lra].
  - apply (K ((7 * (g t - h t) + 32 * (g (t + 1/4 * dt) - h (t + 1/4 * dt)) + 12 * (g (t + 1/2 * dt) - h (t + 1/2 * dt))
      + 32 * (g (t + 3/4 * dt) - h (t + 3/4 * dt)) + 7 * (g (t + dt) - h (t + dt))) / 90)); [unfold quad; field|lra].
Qed.
Lemma quad_smooth m n M G g t dt : (n <= degree m)%nat -> 0 <= M -> 0 <= dt -> (forall u, derivable_pt_lim G u (g u)) -> smooth n M g ->
  Rabs (quad m g t dt - (G (t + dt) - G t)) <= 2 * M * dt ^ S (S n).
Proof.
  intros Hn HM D DG SM. destruct (SM t) as (a&B). set (e := M * dt ^ S n).
  assert (B' : forall u, t <= u <= t + dt -> Rabs (g u - poly a n u) <= e).
  { intros u U. apply (Rle_trans _ _ _ (B u)). unfold e. apply Rmult_le_compat_l; [exact HM|]. apply pow_incr. split; [apply Rabs_pos|]. rewrite Rabs_pos_eq; lra. }
  pose proof (quad_near m g (poly a n) t dt e D B') as Q1.
  pose proof (near_integral G (fun v => poly_integral a n t v) g (poly a n) t dt e D DG (fun u => poly_integral_diff a n t u) B') as Q2.
  rewrite poly_integral_refl, Rminus_0_r, <- (quad_poly m a n t dt Hn) in Q2.
  replace (2 * M * dt ^ S (S n)) with (e * dt + e * dt) by (unfold e; cbn [pow]; ring).
  replace (quad m g t dt - (G (t + dt) - G t)) with ((quad m g t dt - quad m (poly a n) t dt) - (G (t + dt) - G t - quad m (poly a n) t dt)) by ring.
  eapply Rle_trans; [apply Rabs_triang|]. rewrite Rabs_Ropp. lra.
Qed.
Lemma quad_sum_smooth n M G g h t : 0 <= M -> Forall (fun k => (n <= degree (fst k))%nat /\ 0 <= snd k) h ->
  (forall u, derivable_pt_lim G u (g u)) -> smooth n M g ->
  Rabs (quad_sum h g t - (G (t + lin_duration h) - G t)) <= driven_error M n h.
Proof.
  intros HM F DG SM. revert t. induction F as [|(m&dt) h (Hm&Hd) F IH]; intros t.
  - cbn. rewrite Rplus_0_r. replace (0 - (G t - G t)) with 0 by ring. rewrite Rabs_R0. lra.
  - cbn [quad_sum lin_duration driven_error fold_right fst snd] in *. fold (lin_duration h) (driven_error M n h).
    pose proof (quad_smooth m n M G g t dt Hm HM Hd DG SM) as Q. specialize (IH (t + dt)). rewrite Rplus_assoc in IH.
    match goal with |- Rabs ?z <= _ => replace z with ((quad m g t dt - (G (t + dt) - G t)) + (quad_sum h g (t + dt) - (G (t + (dt + lin_duration h)) - G (t + dt)))) by ring end.
    eapply Rle_trans; [apply Rabs_triang|]. lra.
Qed.

Lemma driven_order c g b h st st' x s n M G : lin_ok c -> lin_driven c g -> lin_state_ok c st -> 0 <= M ->
  (forall t, derivable_pt_lim G t (mean2 (lN1 c) (lN2 c) (g t x s))) -> smooth n M (fun t => mean2 (lN1 c) (lN2 c) (g t x s)) ->
  Forall (fun k => (n <= degree (fst k))%nat /\ 0 <= snd k) h -> lin_run c b h st = Ok st' ->
  Rabs (mean_f c st' x s - (mean_f c st x s + (G (lt st + lin_duration h) - G (lt st)))) <= driven_error M n h.
Proof.
  intros OK DR SO HM DG SM F H. rewrite (driven_run c g OK DR b h st st' x s SO H).
  match goal with |- Rabs ?z <= _ => replace z with (quad_sum h (fun t => mean2 (lN1 c) (lN2 c) (g t x s)) (lt st) - (G (lt st + lin_duration h) - G (lt st))) by ring end.
  apply quad_sum_smooth; auto.
Qed.

(** ** An example: 3 x 2 cells, the source t^3 at one place, 4 t elsewhere *)
Definition dr_src (t : R) (x s i j : Z) : R := if Z.eqb i 0 then IZR (1 + x) * t ^ 3 else 4 * t.
Definition dr_f0 : arr R := Arr 6 2 3 2 (fun x s i j => IZR (1 + x + s * i + j)).
Definition dr_c : lcfg :=
  LCfg (Cfg (Layout 3 2 [3]%Z [2]%Z 0 0 PPeriodic PPeriodic) 0 3 2 1 2 0 3 0 2 1 1
    [-(3/2); -3] [-(1/2); -(1/2)] [-(1/2); -(1/2)] [1; 1] [1; 1] [1; 1]
    "FVM" "FVM" "ppm" "ppm" "cartesian" false true
    (fun _ _ _ _ v1 v2 _ => (v1, v2)) (fun _ _ _ _ v1 v2 _ => (v1, v2))
    (fun _ _ _ _ _ _ _ e1 e2 e3 _ _ _ => (e1, e2, e3)) (fun _ _ _ _ _ _ _ e1 e2 e3 _ _ _ => (e1, e2, e3))
    (fun _ _ _ w x s => 0) periodic_box (fun _ _ _ _ f => f) 0 0 (fun v _ _ _ _ => v) 0)
    [1; 1] [1; 1] 1 1 "None" "fft" false
    (fun s t q1 q2 p1 p2 p3 e1 e2 e3 b1 b2 b3 => (e1, e2, e3)) (fun f t _ => Arr 6 2 3 2 (dr_src t)) dr_f0
    ((fun _ _ => 0), (fun _ _ => 0), (fun _ _ => 0)) InitNone.
Lemma dr_ok : lin_ok dr_c.
Proof. unfold lin_ok, momentum_grid_ok, lN1, lN2. cbn. repeat split; lia || lra. Qed.
Lemma dr_driven : lin_driven dr_c dr_src.
Proof. repeat split. Qed.
Definition dr_a (x : Z) (k : nat) : R := match k with 1%nat => 8 / 3 | 3%nat => IZR (1 + x) / 3 | _ => 0 end.
Lemma dr_mean t x s : mean2 (lN1 dr_c) (lN2 dr_c) (dr_src t x s) = poly (dr_a x) 3 t.
Proof. unfold mean2, poly. change (lN1 dr_c) with 3%Z. change (lN2 dr_c) with 2%Z. unfold zsum. change (Z.to_nat 3) with 3%nat. change (Z.to_nat 2) with 2%nat. unfold dr_src, dr_a. cbn -[IZR Z.add]. change ((1 =? 0)%Z) with false. change ((2 =? 0)%Z) with false. cbn -[IZR Z.add]. field. Qed.
Lemma dr_run b h st : lin_state_ok dr_c st -> exists st', lin_run dr_c b h st = Ok st'.
Proof.
  revert st. induction h as [|(m&dt) h IH]; intros st SO; [exists st; reflexivity|]. cbn [lin_run].
  assert (X : exists s1, lin_timestep m dr_c b dt st = Ok s1).
  { unfold lin_timestep. cbn -[lin_RK df_hat_value]. destruct (lin_RK m _ _ _ _). eexists; reflexivity. }
  destruct X as (s1&X). rewrite X. cbn [rbind]. apply IH. exact (state_ok_step dr_c m b dt st s1 SO eq_refl X).
Qed.
Lemma dr_start : exists b st, linear_solver dr_c = Ok (b, st) /\ lin_state_ok dr_c st /\ lt st = 0.
Proof. eexists. eexists. split; [reflexivity|]. split; [repeat split|reflexivity]. Qed.
Lemma dr_exact : exists b st, linear_solver dr_c = Ok (b, st) /\ forall h, Forall (fun k => fst k <> RK2_) h ->
  exists st', lin_run dr_c b h st = Ok st'
  /\ forall x s, let T := lin_duration h in mean_f dr_c st' x s = mean_f dr_c st x s + 4 / 3 * T ^ 2 + IZR (1 + x) / 12 * T ^ 4.
Proof.
  destruct dr_start as (b&st&E&SO&T0). exists b, st. split; [exact E|]. intros h F. destruct (dr_run b h st SO) as (st'&R1). exists st'. split; [exact R1|].
  intros x s T. rewrite (driven_exact dr_c dr_src dr_ok dr_driven b h st st' x s (dr_a x) 3 SO (fun t => dr_mean t x s)); [|clear - F; induction F as [|(m&d) h Hm F IH]; constructor; auto; destruct m; cbn; [contradiction (Hm eq_refl)|lia|lia]|exact R1].
  rewrite T0, Rplus_0_l. fold T. unfold poly_integral. cbn -[IZR Z.add]. field.
Qed.
(** RK2 does not integrate t^3. *)
Lemma dr_sharp : exists b st st', linear_solver dr_c = Ok (b, st) /\ lin_run dr_c b [(RK2_, 1)] st = Ok st'
  /\ mean_f dr_c st' 2 0 = mean_f dr_c st 2 0 + 4 / 3 + 3 / 12 - 1 / 8.
Proof.
  destruct dr_start as (b&st&E&SO&T0). destruct (dr_run b [(RK2_, 1)] st SO) as (st'&R1). exists b, st, st'. split; [exact E|]. split; [exact R1|].
  rewrite (driven_run dr_c dr_src dr_ok dr_driven b _ st st' 2 0 SO R1). cbn [quad_sum quad]. rewrite dr_mean, T0. unfold poly, dr_a. cbn. field.
Qed.
