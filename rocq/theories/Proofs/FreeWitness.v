(** Free streaming with RK2 grows without bound at every step size. *)
From Coq Require Import ZArith Reals Lra Lia Psatz String List Bool.
From Verif Require Import Base.Prelude Base.ZSum Base.Cplx Model.Af Model.Grid Model.Petsc Model.Config Model.Fft
  Model.Integrators Model.Moments Model.Linear Spec.Dft Spec.Waves Spec.MomentSpec Spec.LinearSpec Spec.FreeStream
  Proofs.LinearLemmas Proofs.LinearStep Proofs.LinearWitness Proofs.FreeStream.
Import ListNotations.
Local Open Scope R_scope.

Definition fs_f : arr R := Arr 3 1 3 1 (fun _ _ i _ => if (i =? 0)%Z then 1 else 0).
Definition fs_c : lcfg := w_cfg 3 1 3 1 1 [-(3/2)] [1] false periodic_box "None" fs_f.
Lemma fs_ok : lin_ok fs_c.
Proof. unfold lin_ok, momentum_grid_ok, lN1, lN2. cbn. repeat split; lia || lra. Qed.
Lemma fs_free : streams_freely fs_c.
Proof. repeat split. Qed.
Lemma fs_steps b steps s : exists s', lin_run fs_c b steps s = Ok s'.
Proof.
  revert s. induction steps as [|(m&dt) steps IH]; intros s; [exists s; reflexivity|]. cbn [lin_run].
  assert (E : exists s1, lin_timestep m fs_c b dt s = Ok s1).
  { unfold lin_timestep. cbn [instantaneous fs_c w_cfg]. unfold df_hat_check. cbn [fields_enabled ph fs_c w_cfg w_ph rbind andb].
    destruct (lin_RK m _ _ _ _) as [y t]. eexists. reflexivity. }
  destruct E as (s1&E). rewrite E. apply IH.
Qed.
Lemma fs_omega : omega fs_c 0 0 1 0 = - (2 * PI / 3).
Proof.
  unfold omega, kx, ky, wavenumber. change (lN1 fs_c) with 3%Z. change (lN2 fs_c) with 1%Z.
  change (signed_mode 3 1) with 1%Z. change (signed_mode 1 0) with 0%Z.
  assert (P1 : el (p1_center (ph fs_c)) 0 0 0 0 = -1) by (cbv -[Rplus Rmult Ropp Rdiv Rinv IZR Rminus]; lra).
  rewrite P1. change (dq1 (ph fs_c)) with 1. change (dq2 (ph fs_c)) with 1. field.
Qed.
Lemma fs_start : exists b s, linear_solver fs_c = Ok (b, s) /\ cmod2 (el (f_hat s) 0 0 1 0) = 4 / 9.
Proof.
  eexists. eexists. split; [reflexivity|]. cbn [f_hat].
  rewrite (to_hat_el fs_c) by repeat split.
  assert (E : dft2 (lN1 fs_c) (lN2 fs_c) (fun m n => el (amap RtoC (init_f fs_c)) 0 0 m n) 1 0 = (1, 0)).
  { unfold dft2, dft. change (lN1 fs_c) with 3%Z. change (lN2 fs_c) with 1%Z.
    unfold csum. cbv [zsum Z.to_nat Pos.to_nat Pos.iter_op Nat.add seq fold_left fold_right map].
    cbn. replace (- (2 * PI * 1 * 0 / 3)) with 0 by field. replace (- (2 * PI * 0 * 0 / 1)) with 0 by field.
    rewrite cos_0, sin_0. unfold re, im, cmul, cis; cbn [fst snd]. f_equal; ring. }
  rewrite E. change (lN1 fs_c) with 3%Z. change (lN2 fs_c) with 1%Z. unfold cmod2, cscale, re, im; cbn [fst snd]. field.
Qed.

Lemma rk2_blows_up : exists c b s, lin_ok c /\ streams_freely c /\ linear_solver c = Ok (b, s)
  /\ forall dt M, dt <> 0 -> exists n s', lin_run c b (repeat (RK2_, dt) n) s = Ok s' /\ M < cmod2 (el (f_hat s') 0 0 1 0).
Proof.
  destruct fs_start as (b&s&E&C). exists fs_c, b, s. split; [apply fs_ok|split; [apply fs_free|split; [exact E|]]].
  intros dt M N. set (g := gain2 RK2_ (omega fs_c 0 0 1 0 * dt)).
  assert (G : 1 < g).
  { apply gain_2. rewrite fs_omega. assert (P := PI_RGT_0). intros Q. apply Rmult_integral in Q. destruct Q as [Q|Q]; [lra|auto]. }
  assert (A : exists n : nat, M < (1 + INR n * (g - 1)) * (4 / 9)).
  { set (y := 9 / 4 * Rmax 0 M / (g - 1)). destruct (archimed y) as [U _]. exists (Z.to_nat (up y)).
    assert (Y0 : 0 <= y).
    { unfold y. apply Rmult_le_pos; [assert (Q := Rmax_l 0 M); lra|left; apply Rinv_0_lt_compat; lra]. }
    assert (UP : (0 <= up y)%Z) by (apply le_IZR; lra).
    rewrite INR_IZR_INZ, Z2Nat.id by exact UP.
    assert (E' : y * (g - 1) = 9 / 4 * Rmax 0 M) by (unfold y; field; lra).
    apply (Rmult_lt_compat_r (g - 1)) in U; [|lra]. assert (M <= Rmax 0 M) by apply Rmax_r. lra. }
  destruct A as (n&Hn). exists n. destruct (fs_steps b (repeat (RK2_, dt) n) s) as (s'&R). exists s'. split; [exact R|].
  rewrite (run_gain fs_c b _ 0 0 1 0 fs_free fs_ok ltac:(split; cbn; lia) s s' R), C.
  assert (P : fold_right (fun p h => gain2 (fst p) (omega fs_c 0 0 1 0 * snd p) * h) 1 (repeat (RK2_, dt) n) = g ^ n).
  { clear. induction n; cbn [repeat fold_right pow fst snd]; [reflexivity|]. rewrite IHn. reflexivity. }
  rewrite P. assert (Q := poly n (g - 1) ltac:(lra)). replace (1 + (g - 1)) with g in Q by ring.
  eapply Rlt_le_trans; [exact Hn|]. lra.
Qed.
