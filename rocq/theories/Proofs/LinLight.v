(** Light waves in the linear solver. *)
From Coq Require Import ZArith Reals Lra Lia Psatz String List Bool.
From Verif Require Import Base.Prelude Base.ZSum Base.Cplx Model.Af Model.Grid Model.Petsc Model.Config Model.Fft
  Model.Moments Model.Integrators Model.Linear Spec.Dft Spec.Waves Spec.MomentSpec Spec.LinearSpec Spec.RungeKutta Spec.FreeStream Spec.Modes Spec.LinLight
  Proofs.DftLemmas Proofs.LinearLemmas Proofs.LinearStep Proofs.LinearInv Proofs.LinearRel Proofs.FreeStream.
Import ListNotations.
Local Open Scope R_scope.

(** A linear functional that the right-hand side turns with frequency w. *)
Section Turn.
  Context {I : Type} (L : (I -> R) -> cplx) (w : R).
  Context (L_lin : forall a b x y, L (fun i => a * x i + b * y i) = cadd (cscale a (L x)) (cscale b (L y))).
  Context (f : R -> (I -> R) -> (I -> R)) (L_f : forall t x, L (f t x) = cscale w (cmul ci (L x))).
  Definition turns (_ : R) (z : bool -> R) : bool -> R := fun b => if b then w * z false else - w * z true.
  Lemma L_zero : L (fun _ => 0) = c0.
  Proof.
    pose proof (L_lin 0 0 (fun _ => 0) (fun _ => 0)) as H. cbv beta in H.
    assert (E : L (fun _ => 0 * 0 + 0 * 0) = c0) by (rewrite H; cplx_ring). rewrite <- E.
    replace (0 * 0 + 0 * 0) with 0 by ring. reflexivity.
  Qed.
  Lemma turn_step m t x dt : L (rk_step (tableau_of m) f t x dt) = cmul (factor m (w * dt)) (L x).
  Proof.
    set (P := fun (x : I -> R) (z : bool -> R) => L x = (z false, z true)).
    set (z := fun b : bool => if b then im (L x) else re (L x)).
    assert (H : P (rk_step (tableau_of m) f t x dt) (rk_step (tableau_of m) turns t z dt)).
    { apply (rk_rel P).
      - intros a b u v u' v' U V. unfold P in *. rewrite L_lin, U, V. unfold cadd, cscale, re, im. cbn [fst snd]. reflexivity.
      - intros u v v' V. unfold P in *. rewrite L_f, V. unfold cscale, cmul, ci, turns, re, im. cbn [fst snd]. f_equal; ring.
      - unfold P. rewrite L_zero. reflexivity.
      - unfold P, z, re, im. apply surjective_pairing. }
    unfold P in H. rewrite H. unfold z. destruct (L x) as (p, q). cbn [re im fst snd].
    destruct m; unfold rk_step, tableau_of, midpoint_tableau, classical_tableau, butcher_tableau, turns, cmul, factor; cbn;
      unfold re, im; cbn [fst snd]; f_equal; field.
  Qed.
End Turn.

Section Light.
  Context (c : lcfg) (OK : lin_ok c) (NC : no_charges c) (EV : evolves_fields c) (k l : Z) (M : mode_in c k l).
  Definition combo (g : Z -> R) (F : arr cplx) : cplx :=
    weighted g (el F 0 0 k l) (el F 1 0 k l) (el F 2 0 k l) (el F 3 0 k l) (el F 4 0 k l) (el F 5 0 k l).

  Lemma no_current m fh i : el (csum1 (charge_times c m fh)) i 0 k l = c0.
  Proof.
    unfold csum1. cbn [el]. transitivity (csum (d1 (charge_times c m fh)) (fun _ => c0)); [|apply csum_zero].
    apply csum_ext. intros s _. unfold charge_times, bcast2, per_species, bel at 1. cbn [el]. unfold bel at 1. cbn [el]. rewrite NC. cplx_ring.
  Qed.
  Lemma dfields_free fh F : let D := dfields_hat_value c fh F in
    let a := / (mu c * eps c) in
    (el D 0 0 k l = cscale (a * ky c l) (cmul ci (el F 5 0 k l))
    /\ el D 1 0 k l = cscale (- (a * kx c k)) (cmul ci (el F 5 0 k l))
    /\ el D 2 0 k l = cscale a (cmul ci (csub (cscale (kx c k) (el F 4 0 k l)) (cscale (ky c l) (el F 3 0 k l))))
    /\ el D 3 0 k l = cscale (- ky c l) (cmul ci (el F 2 0 k l))
    /\ el D 4 0 k l = cscale (kx c k) (cmul ci (el F 2 0 k l))
    /\ el D 5 0 k l = cmul ci (csub (cscale (ky c l) (el F 0 0 k l)) (cscale (kx c k) (el F 1 0 k l))))%Z.
  Proof.
    intros D a. destruct (dfields_el c fh F k l) as (A0&A1&A2&A3&A4&A5). fold D in A0, A1, A2, A3, A4, A5.
    destruct M as (Hk&Hl). destruct (k_el c OK k l Hk Hl) as (K1&K2). fold (kx c k) in K1. fold (ky c l) in K2. cbv zeta in *.
    rewrite K1, K2, ?no_current in *. rewrite A0, A1, A2, A3, A4, A5. unfold a. clear.
    repeat split; cplx_ring.
  Qed.

  Notation vcomb g n0 n1 n2 n3 := (fun z : cidx + cidx -> R => combo g (arr_of n0 n1 n2 n3 (fun j => z (inr j)))).
  Lemma combo_step g w m b dt s s' : lin_timestep m c b dt s = Ok s' ->
    (forall fh F, combo g (dfields_hat_value c fh F) = cscale w (cmul ci (combo g F))) ->
    combo g (fields_hat (fsol s')) = cmul (factor m (w * dt)) (combo g (fields_hat (fsol s))).
  Proof.
    intros H T. assert (EM : electrodynamic c = true). { destruct EV as (A&B&_). unfold electrodynamic. rewrite A, B. reflexivity. }
    destruct (step_coupled m c b dt s s' H EM) as (_&->). set (F0 := fields_hat (fsol s)).
    cbn [fsol set_fields_hat fields_hat].
    pose proof (turn_step (vcomb g (d0 F0) (d1 F0) (d2 F0) (d3 F0)) w) as Q.
    match goal with |- combo g (arr_like F0 (fun j => rk_step ?T ?f ?t ?x ?d (inr j))) = _ => specialize (Q ltac:(intros; unfold combo, weighted; cbn [arr_of el]; cplx_ring) f) end.
    unfold arr_like at 1. rewrite Q.
    - apply f_equal. change (combo g (arr_like F0 (vec_of F0)) = combo g F0). unfold combo. rewrite !arr_vec'. reflexivity.
    - intros t x. rewrite <- T with (fh := arr_like (step_input c s) (fun i => x (inl i))).
      change (combo g (arr_like F0 (vec_of (dfields_hat_value c (arr_like (step_input c s) (fun i => x (inl i))) (arr_like F0 (fun j => x (inr j))))))
        = combo g (dfields_hat_value c (arr_like (step_input c s) (fun i => x (inl i))) (arr_like F0 (fun j => x (inr j))))).
      unfold combo. rewrite !arr_vec'. reflexivity.
  Qed.

  Notation K := (k_norm c k l).
  Notation v := (light_speed c).
  Notation w := (light_omega c k l).
  Lemma K_sq : K * K = kx c k ^ 2 + ky c l ^ 2.
  Proof. unfold k_norm. apply sqrt_def. pose proof (pow2_ge_0 (kx c k)). pose proof (pow2_ge_0 (ky c l)). lra. Qed.
  Lemma v_sq : v * v = / (mu c * eps c).
  Proof.
    destruct EV as (_&_&A&B). unfold light_speed. assert (0 < mu c * eps c) by (apply Rmult_lt_0_compat; auto).
    assert (N : sqrt (mu c * eps c) <> 0) by (apply Rgt_not_eq, sqrt_lt_R0; auto).
    rewrite <- Rinv_mult by auto. rewrite sqrt_def by lra. reflexivity.
  Qed.
  Definition gE3 (g : R) (i : Z) : R := match i with 2%Z => K | 3%Z => - (g * v * ky c l) | 4%Z => g * v * kx c k | _ => 0 end.
  Definition gB3 (g : R) (i : Z) : R := match i with 0%Z => g * ky c l | 1%Z => - (g * kx c k) | 5%Z => K * v | _ => 0 end.
  Lemma wave_E3_is g F : wave_E3 c g F k l = combo (gE3 g) F.
  Proof. unfold wave_E3, combo, weighted, gE3. cplx_ring. Qed.
  Lemma wave_B3_is g F : wave_B3 c g F k l = combo (gB3 g) F.
  Proof. unfold wave_B3, combo, weighted, gB3. cplx_ring. Qed.

  Ltac by_parts := unfold cscale, cadd, csub, cmul, copp, ci, re, im; cbn [fst snd]; f_equal.
  Lemma E3_turns g fh F : g * g = 1 -> combo (gE3 g) (dfields_hat_value c fh F) = cscale (g * w) (cmul ci (combo (gE3 g) F)).
  Proof.
    intros G. destruct (dfields_free fh F) as (A0&A1&A2&A3&A4&A5). cbv zeta in *. unfold combo. rewrite A0, A1, A2, A3, A4, A5, <- v_sq. clear A0 A1 A2 A3 A4 A5.
    pose proof K_sq as KS. unfold light_omega, weighted, gE3. cbn [fst snd].
    generalize dependent (el F 0 0 k l)%Z. generalize dependent (el F 1 0 k l)%Z. generalize dependent (el F 2 0 k l)%Z.
    generalize dependent (el F 3 0 k l)%Z. generalize dependent (el F 4 0 k l)%Z. generalize dependent (el F 5 0 k l)%Z. clear - G KS.
    generalize dependent K. generalize dependent (kx c k). generalize dependent (ky c l). generalize dependent v. intros cs a b q QS (x5,y5) (x4,y4) (x3,y3) (x2,y2) (x1,y1) (x0,y0) .
    intros. by_parts.
    - transitivity (- g * cs * (q * q) * y2 - (g * g) * cs * cs * q * (b * y4 - a * y3)); [rewrite G, QS|]; ring.
    - transitivity (g * cs * (q * q) * x2 + (g * g) * cs * cs * q * (b * x4 - a * x3)); [rewrite G, QS|]; ring.
  Qed.
  Lemma B3_turns g fh F : g * g = 1 -> combo (gB3 g) (dfields_hat_value c fh F) = cscale (g * w) (cmul ci (combo (gB3 g) F)).
  Proof.
    intros G. destruct (dfields_free fh F) as (A0&A1&A2&A3&A4&A5). cbv zeta in *. unfold combo. rewrite A0, A1, A2, A3, A4, A5, <- v_sq. clear A0 A1 A2 A3 A4 A5.
    pose proof K_sq as KS. unfold light_omega, weighted, gB3. cbn [fst snd].
    generalize dependent (el F 0 0 k l)%Z. generalize dependent (el F 1 0 k l)%Z. generalize dependent (el F 2 0 k l)%Z.
    generalize dependent (el F 3 0 k l)%Z. generalize dependent (el F 4 0 k l)%Z. generalize dependent (el F 5 0 k l)%Z. clear - G KS.
    generalize dependent K. generalize dependent (kx c k). generalize dependent (ky c l). generalize dependent v. intros cs a b q QS (x5,y5) (x4,y4) (x3,y3) (x2,y2) (x1,y1) (x0,y0) .
    intros. by_parts.
    - transitivity (- g * cs * cs * (q * q) * y5 - (g * g) * cs * q * (a * y0 - b * y1)); [rewrite G, QS|]; ring.
    - transitivity (g * cs * cs * (q * q) * x5 + (g * g) * cs * q * (a * x0 - b * x1)); [rewrite G, QS|]; ring.
  Qed.
  Lemma wave_steps g m b dt s s' : g * g = 1 -> lin_timestep m c b dt s = Ok s' ->
    wave_E3 c g (fields_hat (fsol s')) k l = cmul (factor m (g * w * dt)) (wave_E3 c g (fields_hat (fsol s)) k l)
    /\ wave_B3 c g (fields_hat (fsol s')) k l = cmul (factor m (g * w * dt)) (wave_B3 c g (fields_hat (fsol s)) k l).
  Proof.
    intros G H. rewrite !wave_E3_is, !wave_B3_is. split; eapply combo_step; eauto; intros; [apply E3_turns|apply B3_turns]; auto.
  Qed.
  Definition gkE (i : Z) : R := match i with 0%Z => kx c k | 1%Z => ky c l | _ => 0 end.
  Definition gkB (i : Z) : R := match i with 3%Z => kx c k | 4%Z => ky c l | _ => 0 end.
  Lemma still_step m b dt s s' : lin_timestep m c b dt s = Ok s' ->
    k_dot_E c (fields_hat (fsol s')) k l = k_dot_E c (fields_hat (fsol s)) k l
    /\ k_dot_B c (fields_hat (fsol s')) k l = k_dot_B c (fields_hat (fsol s)) k l.
  Proof.
    intros H. assert (EI : forall F, k_dot_E c F k l = combo gkE F) by (intros; unfold k_dot_E, combo, weighted, gkE; cplx_ring).
    assert (BI : forall F, k_dot_B c F k l = combo gkB F) by (intros; unfold k_dot_B, combo, weighted, gkB; cplx_ring).
    assert (F1 : forall y, factor m (0 * y) = (1, 0)) by (intros y; destruct m; unfold factor; f_equal; field).
    rewrite !EI, !BI. split.
    - rewrite (combo_step gkE 0 m b dt s s' H), F1; [destruct (combo gkE _); cplx_ring|].
      intros fh F. destruct (dfields_free fh F) as (A0&A1&A2&A3&A4&A5). cbv zeta in *. unfold combo, weighted, gkE. rewrite A0, A1. clear. cplx_ring.
    - rewrite (combo_step gkB 0 m b dt s s' H), F1; [destruct (combo gkB _); cplx_ring|].
      intros fh F. destruct (dfields_free fh F) as (A0&A1&A2&A3&A4&A5). cbv zeta in *. unfold combo, weighted, gkB. rewrite A3, A4. clear. cplx_ring.
  Qed.
  Lemma flat_step m b dt s s' i : (0 <= i < 6)%Z -> K = 0 -> lin_timestep m c b dt s = Ok s' ->
    el (fields_hat (fsol s')) i 0 k l = el (fields_hat (fsol s)) i 0 k l.
  Proof.
    intros Hi KZ H. pose proof K_sq as KS. rewrite KZ in KS. pose proof (pow2_ge_0 (kx c k)). pose proof (pow2_ge_0 (ky c l)).
    assert (X : kx c k = 0) by nra. assert (Y : ky c l = 0) by nra.
    set (g := fun j => if (j =? i)%Z then 1 else 0).
    assert (GI : forall F, el F i 0 k l = combo g F).
    { intros F. unfold combo, weighted, g. destruct (six i Hi) as [-> | [-> | [-> | [-> | [-> | ->]]]]]; cbn [Z.eqb Pos.eqb]; cplx_ring. }
    assert (F1 : forall y, factor m (0 * y) = (1, 0)) by (intros y; destruct m; unfold factor; f_equal; field).
    rewrite !GI. rewrite (combo_step g 0 m b dt s s' H), F1; [destruct (combo g _); cplx_ring|].
    intros fh F. rewrite <- !GI. destruct (dfields_free fh F) as (A0&A1&A2&A3&A4&A5). cbv zeta in *. rewrite X, Y in *.
    destruct (six i Hi) as [-> | [-> | [-> | [-> | [-> | ->]]]]]; rewrite ?A0, ?A1, ?A2, ?A3, ?A4, ?A5; clear; cplx_ring.
  Qed.

  (** ** Runs *)
  Lemma wave_gain g steps b : g * g = 1 -> forall s s', lin_run c b steps s = Ok s' ->
    cmod2 (wave_E3 c g (fields_hat (fsol s')) k l) = run_gain2 w steps * cmod2 (wave_E3 c g (fields_hat (fsol s)) k l)
    /\ cmod2 (wave_B3 c g (fields_hat (fsol s')) k l) = run_gain2 w steps * cmod2 (wave_B3 c g (fields_hat (fsol s)) k l).
  Proof.
    intros G. assert (GG : g = 1 \/ g = -1) by (destruct (Rmult_integral (g - 1) (g + 1)); [nra|left; lra|right; lra]).
    induction steps as [|(m, dt) steps IH]; intros s s' H; cbn [lin_run run_gain2 fold_right fst snd] in *.
    - apply Ok_inj in H. subst. split; ring.
    - destruct (lin_timestep m c b dt s) as [u|] eqn:E; [|discriminate]. cbn [rbind] in H. destruct (IH u s' H) as (P&Q). rewrite P, Q.
      destruct (wave_steps g m b dt s u G E) as (A&B). rewrite A, B, !cmod2_mul, factor_gain. fold (run_gain2 w steps).
      assert (GE : gain2 m (g * w * dt) = gain2 m (w * dt)).
      { destruct GG as [-> | ->]; [f_equal; ring|]. replace (-1 * w * dt) with (- (w * dt)) by ring. apply gain_even. }
      rewrite GE. split; ring.
  Qed.
  Lemma still_run steps b : forall s s', lin_run c b steps s = Ok s' ->
    k_dot_E c (fields_hat (fsol s')) k l = k_dot_E c (fields_hat (fsol s)) k l
    /\ k_dot_B c (fields_hat (fsol s')) k l = k_dot_B c (fields_hat (fsol s)) k l.
  Proof.
    induction steps as [|(m, dt) steps IH]; intros s s' H; cbn [lin_run] in *; [apply Ok_inj in H; subst; auto|].
    destruct (lin_timestep m c b dt s) as [u|] eqn:E; [|discriminate]. cbn [rbind] in H. destruct (IH u s' H) as (P&Q). rewrite P, Q. apply (still_step m b dt); auto.
  Qed.
  Lemma flat_run steps b i : (0 <= i < 6)%Z -> K = 0 -> forall s s', lin_run c b steps s = Ok s' ->
    el (fields_hat (fsol s')) i 0 k l = el (fields_hat (fsol s)) i 0 k l.
  Proof.
    intros Hi KZ. induction steps as [|(m, dt) steps IH]; intros s s' H; cbn [lin_run] in *; [apply Ok_inj in H; subst; auto|].
    destruct (lin_timestep m c b dt s) as [u|] eqn:E; [|discriminate]. cbn [rbind] in H. rewrite (IH u s' H). apply (flat_step m b dt); auto.
  Qed.
  Lemma energy_waves F : k_dot_E c F k l = c0 -> k_dot_B c F k l = c0 ->
    K * K * mode_energy c F k l = eps c / 2 * (cmod2 (wave_E3 c 1 F k l) + cmod2 (wave_E3 c (-1) F k l) + cmod2 (wave_B3 c 1 F k l) + cmod2 (wave_B3 c (-1) F k l)).
  Proof.
    intros HE HB. pose proof v_sq as VS. pose proof K_sq as KS. destruct EV as (_&_&PM&PE).
    assert (IM : / mu c = eps c * (v * v)) by (rewrite VS; field; lra).
    unfold mode_energy. rewrite IM. clear IM VS.
    unfold k_dot_E, k_dot_B, wave_E3, wave_B3, cmod2 in *.
    destruct (el F 0 0 k l)%Z as (x0,y0). destruct (el F 1 0 k l)%Z as (x1,y1). destruct (el F 2 0 k l)%Z as (x2,y2).
    destruct (el F 3 0 k l)%Z as (x3,y3). destruct (el F 4 0 k l)%Z as (x4,y4). destruct (el F 5 0 k l)%Z as (x5,y5).
    unfold cscale, cadd, csub, c0, re, im in *. cbn [fst snd] in *.
    injection HE as E1 E2. injection HB as B1 B2. clear - KS E1 E2 B1 B2.
    generalize dependent K. generalize dependent (kx c k). generalize dependent (ky c l). generalize v (eps c). intros cs e b a E1 E2 B1 B2 q QS.
    transitivity (e * ((a ^ 2 + b ^ 2) * (x0 ^ 2 + y0 ^ 2 + (x1 ^ 2 + y1 ^ 2)) + q * q * (x2 ^ 2 + y2 ^ 2))
       + e * (cs * cs) * ((a ^ 2 + b ^ 2) * (x3 ^ 2 + y3 ^ 2 + (x4 ^ 2 + y4 ^ 2)) + q * q * (x5 ^ 2 + y5 ^ 2))).
    { rewrite <- QS. ring. }
    replace ((a ^ 2 + b ^ 2) * (x0 ^ 2 + y0 ^ 2 + (x1 ^ 2 + y1 ^ 2))) with ((b * x0 - a * x1) ^ 2 + (b * y0 - a * y1) ^ 2 + (a * x0 + b * x1) ^ 2 + (a * y0 + b * y1) ^ 2) by ring.
    replace ((a ^ 2 + b ^ 2) * (x3 ^ 2 + y3 ^ 2 + (x4 ^ 2 + y4 ^ 2))) with ((a * x4 - b * x3) ^ 2 + (a * y4 - b * y3) ^ 2 + (a * x3 + b * x4) ^ 2 + (a * y3 + b * y4) ^ 2) by ring.
    rewrite E1, E2, B1, B2. field.
  Qed.
  Lemma gain_0 steps : run_gain2 0 steps = 1.
  Proof.
    induction steps as [|(m, dt) steps IH]; [reflexivity|]. cbn [run_gain2 fold_right fst snd]. fold (run_gain2 0 steps). rewrite IH.
    replace (gain2 m (0 * dt)) with 1; [ring|]. destruct m; unfold gain2; field.
  Qed.
  Lemma energy_gain steps b s s' : lin_run c b steps s = Ok s' ->
    k_dot_E c (fields_hat (fsol s)) k l = c0 -> k_dot_B c (fields_hat (fsol s)) k l = c0 ->
    mode_energy c (fields_hat (fsol s')) k l = run_gain2 w steps * mode_energy c (fields_hat (fsol s)) k l.
  Proof.
    intros H HE HB. destruct (Req_dec K 0) as [Z|N].
    - unfold light_omega. rewrite Z, Rmult_0_r, gain_0, Rmult_1_l. unfold mode_energy.
      rewrite !(fun i Hi => flat_run steps b i Hi Z s s' H) by lia. reflexivity.
    - destruct (still_run steps b s s' H) as (SE&SB). rewrite HE in SE. rewrite HB in SB.
      pose proof (energy_waves _ HE HB) as A. pose proof (energy_waves _ SE SB) as A'.
      destruct (wave_gain 1 steps b ltac:(ring) s s' H) as (W1&W2). destruct (wave_gain (-1) steps b ltac:(ring) s s' H) as (W3&W4).
      rewrite W1, W2, W3, W4 in A'. apply (Rmult_eq_reg_l (K * K)); [|nra]. rewrite A'.
      replace (K * K * (run_gain2 w steps * mode_energy c (fields_hat (fsol s)) k l)) with (run_gain2 w steps * (K * K * mode_energy c (fields_hat (fsol s)) k l)) by ring.
      rewrite A. ring.
  Qed.

  Lemma total_nonneg y steps : 0 <= total_error y steps.
  Proof.
    induction steps as [|[m dt] steps IH]; cbn [total_error fold_right fst snd]; [lra|]. fold (total_error y steps).
    assert (0 <= step_error m (y * dt)); [|lra]. destruct m; cbn [step_error].
    - apply pow_le, Rabs_pos.
    - assert (0 <= Rabs (y * dt) ^ 5) by (apply pow_le, Rabs_pos). lra.
    - assert (0 <= (y * dt) ^ 6) by (replace ((y * dt) ^ 6) with (((y * dt) ^ 3) ^ 2) by ring; apply pow2_ge_0). lra.
  Qed.
  (** Amplitudes that every step multiplies with the factor of frequency y follow exp (i y t). *)
  Lemma follows (z : lstate -> cplx) y b steps :
    (forall m dt s s', lin_timestep m c b dt s = Ok s' -> z s' = cmul (factor m (y * dt)) (z s)) ->
    (forall m dt, In (m, dt) steps -> small_step m (y * dt)) ->
    forall s s', lin_run c b steps s = Ok s' ->
    cmod (csub (z s') (cmul (cis (y * lin_duration steps)) (z s))) <= total_error y steps * cmod (z s).
  Proof.
    intros ST. induction steps as [|[m dt] steps IH]; intros SS s s' H; cbn [lin_run lin_duration total_error fold_right fst snd] in *.
    - apply Ok_inj in H. subst. replace (y * 0) with 0 by ring. unfold cis. rewrite cos_0, sin_0.
      replace (csub (z s') (cmul (1, 0) (z s'))) with c0 by (destruct (z s'); cplx_ring).
      unfold cmod at 1. unfold cmod2, c0, re, im; cbn [fst snd]. replace (0 ^ 2 + 0 ^ 2) with 0 by ring. rewrite sqrt_0. lra.
    - destruct (lin_timestep m c b dt s) as [s1|e] eqn:E; [|discriminate]. cbn [rbind] in H.
      assert (SM := SS m dt (or_introl eq_refl)). specialize (IH (fun m' dt' I => SS m' dt' (or_intror I)) s1 s' H).
      fold (lin_duration steps) (total_error y steps) in *. rewrite (ST m dt s s1 E) in IH.
      set (u := z s) in *. set (u' := z s') in *. set (T := lin_duration steps) in *. set (F := factor m (y * dt)) in *.
      assert (FL : cmod F <= 1) by (apply cmod_le; [lra|]; unfold F; rewrite factor_gain, Rmult_1_l; apply small_stable; auto).
      rewrite cmod_mul in IH. pose proof (total_nonneg y steps) as TE.
      replace (y * (dt + T)) with (y * T + y * dt) by ring. rewrite cis_add.
      replace (csub u' (cmul (cmul (cis (y * T)) (cis (y * dt))) u))
        with (cadd (csub u' (cmul (cis (y * T)) (cmul F u))) (cmul (cis (y * T)) (cmul (csub F (cis (y * dt))) u))) by ring.
      eapply Rle_trans; [apply cmod_triang|]. rewrite !cmod_mul, cmod_cis, Rmult_1_l.
      assert (LC := local_any m (y * dt) SM). fold F in LC.
      assert (Z := cmod_nonneg u). assert (FZ := cmod_nonneg F).
      assert (cmod F * cmod u <= cmod u) by nra.
      assert (total_error y steps * (cmod F * cmod u) <= total_error y steps * cmod u) by (apply Rmult_le_compat_l; auto).
      assert (cmod (csub F (cis (y * dt))) * cmod u <= step_error m (y * dt) * cmod u) by (apply Rmult_le_compat_r; auto).
      lra.
  Qed.
  Lemma light_phase g b steps s s' : g * g = 1 -> (forall m dt, In (m, dt) steps -> small_step m (g * w * dt)) -> lin_run c b steps s = Ok s' ->
    let follow (W : arr cplx -> cplx) :=
      cmod (csub (W (fields_hat (fsol s'))) (cmul (cis (g * w * lin_duration steps)) (W (fields_hat (fsol s))))) <= total_error (g * w) steps * cmod (W (fields_hat (fsol s))) in
    follow (fun F => wave_E3 c g F k l) /\ follow (fun F => wave_B3 c g F k l).
  Proof.
    intros G SS H follow. split.
    - apply (follows (fun s => wave_E3 c g (fields_hat (fsol s)) k l) (g * w) b steps); auto. intros. apply (wave_steps g m b dt s0 s'0 G); auto.
    - apply (follows (fun s => wave_B3 c g (fields_hat (fsol s)) k l) (g * w) b steps); auto. intros. apply (wave_steps g m b dt s0 s'0 G); auto.
  Qed.
End Light.

(** ** RK2 amplifies light without bound *)
From Verif Require Import Proofs.LinearMore Proofs.LinearProps Proofs.LinearWitness Proofs.FreeWitness.
Definition ll_E3 (q1 q2 : R) : R := if Rlt_dec q1 1 then 1 else 0.
Definition ll_f : arr R := Arr 3 1 3 1 (fun _ _ _ _ => 1).
Definition ll_c : lcfg := LCfg (w_ph 3 1 3 1 1 [-(3/2)] [1] true periodic_box) [0] [1] 1 1 "electrodynamic" "user-defined" false
    (fun s t q1 q2 p1 p2 p3 e1 e2 e3 b1 b2 b3 => (e1, e2, e3)) (fun f _ _ => f) ll_f
    ((fun _ _ => 0), (fun _ _ => 0), ll_E3) (InitB (fun _ _ => 0) (fun _ _ => 0) (fun _ _ => 0)).
Lemma ll_ok : lin_ok ll_c.
Proof. unfold lin_ok, momentum_grid_ok, lN1, lN2. cbn. repeat split; lia || lra. Qed.
Lemma ll_neutral : no_charges ll_c.
Proof. intros n. cbn [charge ll_c]. destruct n as [|[|n]]; reflexivity. Qed.
Lemma ll_evolves : evolves_fields ll_c.
Proof. repeat split; cbn; lra. Qed.
Lemma ll_mode : mode_in ll_c 1 0.
Proof. split; cbn; lia. Qed.
Lemma ll_omega : light_omega ll_c 1 0 = 2 * PI / 3.
Proof.
  unfold light_omega, light_speed, k_norm, kx, ky, wavenumber. change (lN1 ll_c) with 3%Z. change (lN2 ll_c) with 1%Z.
  change (signed_mode 3 1) with 1%Z. change (signed_mode 1 0) with 0%Z. change (dq1 (ph ll_c)) with 1. change (dq2 (ph ll_c)) with 1.
  change (mu ll_c) with 1. change (eps ll_c) with 1. rewrite Rmult_1_r, sqrt_1, Rinv_1, Rmult_1_l.
  match goal with |- sqrt ?x = _ => replace x with ((2 * PI / 3) * (2 * PI / 3)) by field end.
  apply sqrt_square. assert (P := PI_RGT_0). lra.
Qed.
Lemma ll_run b steps s : exists s', lin_run ll_c b steps s = Ok s'.
Proof.
  revert s. induction steps as [|(m&dt) steps IH]; intros s; [exists s; reflexivity|]. cbn [lin_run].
  destruct (proj2 (multi_species m ll_c b dt s ll_ok)) as (s1&E); [intros _; split; [right; left; reflexivity|left; reflexivity]|]. rewrite E. apply IH.
Qed.
Lemma ll_zero : el (to_hat ll_c (on_cells ll_c (fun _ _ => 0))) 0 0 1 0 = c0.
Proof.
  rewrite (to_hat_el ll_c) by repeat split. cbn [on_cells el].
  assert (E : dft2 (lN1 ll_c) (lN2 ll_c) (fun _ _ => RtoC 0) 1 0 = c0).
  { unfold dft2, dft. change (lN1 ll_c) with 3%Z. change (lN2 ll_c) with 1%Z.
    unfold csum. cbv [zsum Z.to_nat Pos.to_nat Pos.iter_op Nat.add seq fold_left fold_right map]. cbn.
    unfold re, im, cmul, cis, RtoC, c0; cbn [fst snd]. f_equal; ring. }
  rewrite E. cplx_ring.
Qed.
Lemma ll_E3_hat : el (to_hat ll_c (on_cells ll_c ll_E3)) 0 0 1 0 = (2 / 3, 0).
Proof.
  rewrite (to_hat_el ll_c) by repeat split. cbn [on_cells el].
  assert (C : forall i, (0 <= i)%Z -> ll_E3 (lq1 ll_c i) (lq2 ll_c 0) = if (i =? 0)%Z then 1 else 0).
  { intros i Hi. unfold ll_E3, lq1. change (q1_start (ph ll_c)) with 0. change (dq1 (ph ll_c)) with 1.
    destruct (Z.eqb_spec i 0) as [->|N]; destruct (Rlt_dec _ _) as [Q|Q]; auto.
    - exfalso. apply Q. cbn. lra.
    - exfalso. assert (1 <= IZR i) by (apply IZR_le; lia). lra. }
  assert (E : dft2 (lN1 ll_c) (lN2 ll_c) (fun k l => RtoC (ll_E3 (lq1 ll_c k) (lq2 ll_c l))) 1 0 = (1, 0)).
  { unfold dft2, dft. change (lN1 ll_c) with 3%Z. change (lN2 ll_c) with 1%Z.
    unfold csum. cbv [zsum Z.to_nat Pos.to_nat Pos.iter_op Nat.add seq fold_left fold_right map]. cbn [fst snd].
    cbn -[ll_E3 lq1 lq2]. rewrite !C by lia. cbn.
    replace (- (2 * PI * 1 * 0 / 3)) with 0 by field. replace (- (2 * PI * 0 * 0 / 1)) with 0 by field.
    rewrite cos_0, sin_0. unfold re, im, cmul, cis, RtoC; cbn [fst snd]. f_equal; ring. }
  rewrite E. change (lN1 ll_c) with 3%Z. change (lN2 ll_c) with 1%Z. unfold cscale, re, im; cbn [fst snd]. f_equal; field.
Qed.
Lemma ll_start : exists b s, linear_solver ll_c = Ok (b, s) /\ k_dot_E ll_c (fields_hat (fsol s)) 1 0 = c0 /\ k_dot_B ll_c (fields_hat (fsol s)) 1 0 = c0
  /\ mode_energy ll_c (fields_hat (fsol s)) 1 0 = 4 / 9.
Proof.
  destruct (linear_solver ll_c) as [(b&s)|] eqn:H; [|discriminate H]. exists b, s. split; [reflexivity|].
  destruct (solver_inv ll_c b s H) as (_&_&_&_&FI). unfold initialize_fields in FI.
  change (String.eqb (fields_initialize ll_c) "user-defined") with true in FI. cbn iota in FI.
  change (initialize_magnetic_fields ll_c) with (Ok (on_cells ll_c (fun _ _ => 0), on_cells ll_c (fun _ _ => 0), on_cells ll_c (fun _ _ => 0)) : res (arr cplx * arr cplx * arr cplx)) in FI.
  cbn [rbind] in FI. change (init_E ll_c) with ((fun _ _ : R => 0), (fun _ _ : R => 0), ll_E3) in FI. cbv beta iota zeta in FI. apply Ok_inj in FI.
  assert (G : (el (fields_hat (fsol s)) 0 0 1 0 = c0 /\ el (fields_hat (fsol s)) 1 0 1 0 = c0 /\ el (fields_hat (fsol s)) 2 0 1 0 = ((2 / 3)%R, 0%R)
    /\ el (fields_hat (fsol s)) 3 0 1 0 = c0 /\ el (fields_hat (fsol s)) 4 0 1 0 = c0 /\ el (fields_hat (fsol s)) 5 0 1 0 = c0)%Z).
  { rewrite <- FI. cbn [fields_hat E1h E2h E3h B1h B2h B3h].
    repeat split; exact ll_zero || exact ll_E3_hat. }
  destruct G as (G0&G1&G2&G3&G4&G5). unfold k_dot_E, k_dot_B, mode_energy, cmod2. rewrite G0, G1, G2, G3, G4, G5.
  change (eps ll_c) with 1. change (mu ll_c) with 1.
  split; [cplx_ring|split; [cplx_ring|]]. unfold c0, re, im; cbn [fst snd]. field.
Qed.
Lemma rk2_light : exists c b s, lin_ok c /\ no_charges c /\ evolves_fields c /\ linear_solver c = Ok (b, s)
  /\ forall dt M, dt <> 0 -> exists n s', lin_run c b (repeat (RK2_, dt) n) s = Ok s' /\ M < mode_energy c (fields_hat (fsol s')) 1 0.
Proof.
  destruct ll_start as (b&s&E&HE&HB&C). exists ll_c, b, s. split; [apply ll_ok|split; [apply ll_neutral|split; [apply ll_evolves|split; [exact E|]]]].
  intros dt M N. set (g := gain2 RK2_ (light_omega ll_c 1 0 * dt)).
  assert (G : 1 < g).
  { apply gain_2. rewrite ll_omega. assert (P := PI_RGT_0). intros Q. apply Rmult_integral in Q. destruct Q as [Q|Q]; [lra|auto]. }
  assert (A : exists n : nat, M < (1 + INR n * (g - 1)) * (4 / 9)).
  { set (y := 9 / 4 * Rmax 0 M / (g - 1)). destruct (archimed y) as [U _]. exists (Z.to_nat (up y)).
    assert (Y0 : 0 <= y).
    { unfold y. apply Rmult_le_pos; [assert (Q := Rmax_l 0 M); lra|left; apply Rinv_0_lt_compat; lra]. }
    assert (UP : (0 <= up y)%Z) by (apply le_IZR; lra).
    rewrite INR_IZR_INZ, Z2Nat.id by exact UP.
    assert (E' : y * (g - 1) = 9 / 4 * Rmax 0 M) by (unfold y; field; lra).
    apply (Rmult_lt_compat_r (g - 1)) in U; [|lra]. assert (M <= Rmax 0 M) by apply Rmax_r. lra. }
  destruct A as (n&Hn). exists n. destruct (ll_run b (repeat (RK2_, dt) n) s) as (s'&R). exists s'. split; [exact R|].
  rewrite (energy_gain ll_c ll_ok ll_neutral ll_evolves 1 0 ll_mode _ b s s' R HE HB), C.
  assert (P : run_gain2 (light_omega ll_c 1 0) (repeat (RK2_, dt) n) = g ^ n).
  { clear. induction n; cbn [repeat run_gain2 fold_right pow fst snd]; [reflexivity|]. fold (run_gain2 (light_omega ll_c 1 0) (repeat (RK2_, dt) n)). rewrite IHn. reflexivity. }
  rewrite P. assert (Q := Rfunctions.poly n (g - 1) ltac:(lra)). replace (1 + (g - 1)) with g in Q by ring.
  eapply Rlt_le_trans; [exact Hn|]. lra.
Qed.
