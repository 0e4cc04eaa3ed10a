(** The linear solver holds the transform of real functions. *)
From Coq Require Import ZArith Reals Lra Lia String List Bool FunctionalExtensionality.
From Verif Require Import Base.Prelude Base.ZSum Base.Cplx Model.Af Model.Grid Model.Petsc Model.Config Model.Fft
  Model.Moments Model.Integrators Model.Linear Spec.Dft Spec.Waves Spec.MomentSpec Spec.LinearSpec Spec.RungeKutta Spec.Modes
  Proofs.AfLemmas Proofs.DftLemmas Proofs.ConvLemmas Proofs.MomentLemmas Proofs.FourierLemmas Proofs.LinearLemmas
  Proofs.LinearStep Proofs.LinearInv Proofs.LinearMore Proofs.LinearProps Proofs.LinearRel Proofs.Modes Proofs.ModesMove.
Import ListNotations.
Local Open Scope R_scope.

Section Real.
  Context (c : lcfg) (OK : lin_ok c).
  Let P1 : (0 < lN1 c)%Z := proj1 (proj2 OK).
  Let P2 : (0 < lN2 c)%Z := proj1 (proj2 (proj2 OK)).
  Notation np := (N_p (ph c)).
  Notation ns := (N_species (ph c)).
  Notation n1 := (negm (lN1 c)).
  Notation n2 := (negm (lN2 c)).
  Definition res_modes (k l : Z) : Prop := mode_in c k l /\ resolved (lN1 c) (lN2 c) k l.
  Notation rl := (rel res_modes n1 n2 (fun _ _ => cconj)).

  Lemma conj_scale a z : cconj (cscale a z) = cscale a (cconj z).
  Proof. cplx_ring. Qed.
  Lemma rm_in k l : res_modes k l -> mode_in c k l /\ mode_in c (n1 k) (n2 l).
  Proof. intros ((A&B)&_). split; [split; auto|split; apply negm_in; auto]. Qed.
  Lemma rm_0 k l : res_modes k l -> (k = 0 /\ l = 0 <-> n1 k = 0 /\ n2 l = 0)%Z.
  Proof. intros ((A&B)&_). unfold negm. destruct (Z.eqb_spec k 0), (Z.eqb_spec l 0); lia. Qed.
  Lemma k_neg k l : res_modes k l -> kx c (n1 k) = - kx c k /\ ky c (n2 l) = - ky c l.
  Proof. intros ((A&B)&(C&D)). unfold kx, ky, wavenumber. rewrite !negm_neg by auto. rewrite !opp_IZR. unfold Rdiv. split; ring. Qed.
  Lemma rm_x k l z : res_modes k l -> cconj (cscale (kx c (n1 k)) (cmul z ci)) = cscale (kx c k) (cmul (cconj z) ci).
  Proof. intros H. destruct (k_neg k l H) as (->&_). cplx_ring. Qed.
  Lemma rm_y k l z : res_modes k l -> cconj (cscale (ky c (n2 l)) (cmul z ci)) = cscale (ky c l) (cmul (cconj z) ci).
  Proof. intros H. destruct (k_neg k l H) as (_&->). cplx_ring. Qed.
  Lemma rm_sq k l : res_modes k l -> kx c (n1 k) ^ 2 + ky c (n2 l) ^ 2 = kx c k ^ 2 + ky c l ^ 2.
  Proof. intros H. destruct (k_neg k l H) as (->&->). ring. Qed.
  Lemma conj_lin a b z w : cconj (cadd (cscale a z) (cscale b w)) = cadd (cscale a (cconj z)) (cscale b (cconj w)).
  Proof. cplx_ring. Qed.

  Lemma real_el (a : arr R) x s k l : dims4 a (d0 a) (d1 a) (lN1 c) (lN2 c) -> mode_in c k l ->
    el (to_hat c (amap RtoC a)) x s k l = cconj (el (to_hat c (amap RtoC a)) x s (n1 k) (n2 l)).
  Proof.
    intros D (A&B). rewrite !to_hat_el by auto. rewrite conj_scale. apply f_equal. cbn [amap el]. rewrite dft2_real, conj_conj by auto. reflexivity.
  Qed.
  Lemma real_rel (a : arr R) m0 m1 : dims4 a (d0 a) (d1 a) (lN1 c) (lN2 c) -> rl m0 m1 (to_hat c (amap RtoC a)) (to_hat c (amap RtoC a)).
  Proof. intros D x s k l _ _ (M&_). apply real_el; auto. Qed.
  Lemma real_fn g : relfn c res_modes n1 n2 (fun _ _ => cconj) g g.
  Proof.
    intros k l (M&_).
    change (on_cells c g) with (amap RtoC (Arr 1 1 (lN1 c) (lN2 c) (fun _ _ k l => g (lq1 c k) (lq2 c l)))).
    apply real_el; auto. repeat split.
  Qed.
  Lemma same_start : starting_from c (init_f c) (init_E c) (init_B c) = c.
  Proof. destruct c; reflexivity. Qed.

  Lemma real_start b s : f_shaped c (init_f c) -> linear_solver c = Ok (b, s) -> relS c res_modes n1 n2 (fun _ _ => cconj) cconj s s.
  Proof.
    intros D L.
    destruct (solver_rel c OK res_modes n1 n2 (fun _ _ => cconj) cconj) with (f := init_f c) (E := init_E c) (B := init_B c) (b := b) (s := s) as (s'&L'&RS); auto.
    - apply rm_in.
    - apply rm_0.
    - intros. apply conj_add.
    - intros. apply conj_scale.
    - intros. apply rm_x with (l := l); auto.
    - intros. apply rm_y with (k := k); auto.
    - apply rm_sq.
    - repeat split; auto; try lia; unfold resolved; lia.
    - apply real_rel. destruct D as (A&B&C&E). repeat split; auto.
    - repeat split; apply real_fn.
    - unfold relB. destruct (init_B c); repeat split; apply real_fn.
    - rewrite same_start, L in L'. apply Ok_inj in L'. injection L' as _ <-. exact RS.
  Qed.
  Lemma real_run b steps s t : homogeneous c -> (source_enabled (ph c) = true \/ instantaneous c = true -> source_shaped c) ->
    relS c res_modes n1 n2 (fun _ _ => cconj) cconj s s -> lin_run c b steps s = Ok t ->
    relS c res_modes n1 n2 (fun _ _ => cconj) cconj t t.
  Proof.
    intros HM SS H R.
    apply (run_self c OK HM res_modes n1 n2 (fun _ _ => cconj) cconj) with (b := b) (steps := steps) (s := s); auto.
    - apply rm_in.
    - apply rm_0.
    - intros. apply conj_add.
    - intros. apply conj_scale.
    - intros. apply rm_x with (l := l); auto.
    - intros. apply rm_y with (k := k); auto.
    - apply rm_sq.
    - apply conj_lin.
    - intros. apply conj_mul.
    - intros SE u X DX _. unfold source_hat. apply real_rel.
      assert (GX : f_shaped c (from_hat c X)) by exact DX. destruct (SS (or_introl SE) _ u false GX) as (A&B&C&E). repeat split; auto.
    - intros SE u X DX _. assert (GX : f_shaped c (get_dist_func c X)) by exact DX. pose proof (SS (or_intror SE) _ u true GX) as G.
      split; [exact G|]. apply real_rel. destruct G as (A&B&C&E). repeat split; auto.
  Qed.
  Lemma from_shown X x sp k l : dims4 X (d0 X) (d1 X) (lN1 c) (lN2 c) -> mode_in c k l ->
    el (to_hat c (amap RtoC (from_hat c X))) x sp k l = cscale (1 / 2) (cadd (el X x sp k l) (cconj (el X x sp (n1 k) (n2 l)))).
  Proof.
    intros D M. rewrite <- (shown_hat c X x sp k l OK D M). rewrite !to_hat_el by (destruct D as (A&B&C&E); repeat split; auto).
    apply f_equal. apply dft2_ext. intros i j _ _. cbn [amap el]. rewrite from_hat_el, get_dist_el by auto. reflexivity.
  Qed.
  Lemma half_same z : cscale (1 / 2) (cadd z (cconj (cconj z))) = z.
  Proof. rewrite conj_conj. cplx_ring; field. Qed.

  Lemma holds_real b s steps t : homogeneous c -> f_shaped c (init_f c) -> (source_enabled (ph c) = true \/ instantaneous c = true -> source_shaped c) ->
    linear_solver c = Ok (b, s) -> lin_run c b steps s = Ok t -> holds_resolved c t /\ fields_resolved c t.
  Proof.
    intros HM D SS L R. pose proof (real_run b steps s t HM SS (real_start b s D L) R) as (_&(A&B&C&E)&_&RF&(_&RH&_)).
    assert (FO : lin_fields_ok c t).
    { apply (run_invariant c b steps (lin_fields_ok c) s t); auto; [|apply (initial_fields_ok c b s); auto]. intros me dt w w' HW HS.
      destruct (step_dims me c b dt w w' HS) as (_&(A1&A2&A3&A4)&_). unfold lin_fields_ok in *. rewrite A1, A2, A3, A4. exact HW. }
    destruct FO as (F0&F1&F2&F3).
    split.
    - intros x sp k l Hx Hs M RS. assert (Q : res_modes k l) by (split; auto).
      rewrite shown_hat by (auto; repeat split; auto). rewrite (RF x sp k l Hx Hs Q). set (z := el (f_hat t) x sp (n1 k) (n2 l)). cplx_ring; field.
    - intros i k l Hi M RS. assert (Q : res_modes k l) by (split; auto). assert (Z0 : inb 1 0) by (split; [discriminate|reflexivity]).
      rewrite from_shown by (auto; repeat split; auto). rewrite (RH i 0%Z k l Hi Z0 Q).
      set (z := el (fields_hat (fsol t)) i 0%Z (n1 k) (n2 l)). cplx_ring; field.
  Qed.
  Lemma odd_resolved k l : Z.Odd (lN1 c) -> Z.Odd (lN2 c) -> resolved (lN1 c) (lN2 c) k l.
  Proof. intros (a&A) (b&B). split; lia. Qed.
  Lemma holds_odd b s steps t : homogeneous c -> f_shaped c (init_f c) -> (source_enabled (ph c) = true \/ instantaneous c = true -> source_shaped c) ->
    Z.Odd (lN1 c) -> Z.Odd (lN2 c) ->
    linear_solver c = Ok (b, s) -> lin_run c b steps s = Ok t -> holds_what_it_shows c t /\ fields_shown c t.
  Proof.
    intros HM D SS O1 O2 L R. destruct (holds_real b s steps t HM D SS L R) as (A&B). split.
    - intros x sp k l Hx Hs M. apply A; auto. apply odd_resolved; auto.
    - intros i k l Hi M. apply B; auto. apply odd_resolved; auto.
  Qed.
End Real.

(** On an even grid the mode at the grid frequency becomes complex: two cells, one step. *)
From Verif Require Import Spec.FreeStream Proofs.LinearWitness Proofs.FreeStream.
Definition nq_f : arr R := Arr 3 1 2 1 (fun _ _ i _ => if (i =? 0)%Z then 1 else 0).
Definition nq_c : lcfg := w_cfg 2 1 3 1 1 [-(3/2)] [1] false periodic_box "None" nq_f.
Lemma nq_ok : lin_ok nq_c.
Proof. unfold lin_ok, momentum_grid_ok, lN1, lN2. cbn. repeat split; lia || lra. Qed.
Lemma nq_free : streams_freely nq_c.
Proof. repeat split. Qed.
Lemma w_homogeneous N1 N2 Np1 Np2 Ns st ones fields bc ft f : homogeneous (w_cfg N1 N2 Np1 Np2 Ns st ones fields bc ft f).
Proof.
  split; [reflexivity|]. exists (fun _ _ _ _ _ i => if (i =? 0)%Z then 1 else 0), (fun _ _ _ _ _ i => if (i =? 1)%Z then 1 else 0), (fun _ _ _ _ _ i => if (i =? 2)%Z then 1 else 0).
  intros. cbn [lA_p w_cfg]. unfold weighted. cbn [Z.eqb Pos.eqb]. f_equal; [f_equal|]; cplx_ring.
Qed.
Lemma nq_omega : omega nq_c 0 0 1 0 = PI.
Proof.
  unfold omega, kx, ky, wavenumber. change (lN1 nq_c) with 2%Z. change (lN2 nq_c) with 1%Z.
  change (signed_mode 2 1) with (-1)%Z. change (signed_mode 1 0) with 0%Z.
  assert (P1 : el (p1_center (ph nq_c)) 0 0 0 0 = -1) by (cbv -[Rplus Rmult Ropp Rdiv Rinv IZR Rminus]; lra).
  rewrite P1. change (dq1 (ph nq_c)) with 1. change (dq2 (ph nq_c)) with 1. field.
Qed.
Lemma nq_hat : el (to_hat nq_c (amap RtoC nq_f)) 0 0 1 0 = (1, 0).
Proof.
  rewrite (to_hat_el nq_c) by repeat split.
  assert (E : dft2 (lN1 nq_c) (lN2 nq_c) (fun m n => el (amap RtoC nq_f) 0 0 m n) 1 0 = (1, 0)).
  { unfold dft2, dft. change (lN1 nq_c) with 2%Z. change (lN2 nq_c) with 1%Z.
    unfold csum. cbv [zsum Z.to_nat Pos.to_nat Pos.iter_op Nat.add seq fold_left fold_right map].
    cbn. replace (- (2 * PI * 1 * 0 / 2)) with 0 by field. replace (- (2 * PI * 0 * 0 / 1)) with 0 by field.
    rewrite cos_0, sin_0. unfold re, im, cmul, cis; cbn [fst snd]. f_equal; ring. }
  rewrite E. change (lN1 nq_c) with 2%Z. change (lN2 nq_c) with 1%Z. unfold cscale, re, im; cbn [fst snd]. f_equal; field.
Qed.
Lemma even_grid_loses : exists c b s s', lin_ok c /\ homogeneous c /\ collisionless c /\ f_shaped c (init_f c) /\ linear_solver c = Ok (b, s)
  /\ lin_run c b [(RK2_, 1)] s = Ok s' /\ ~ holds_what_it_shows c s'.
Proof.
  destruct (linear_solver nq_c) as [(b&s)|] eqn:H; [|discriminate H].
  assert (T : exists s', lin_timestep RK2_ nq_c b 1 s = Ok s').
  { apply (multi_species RK2_ nq_c b 1 s nq_ok). intros F. discriminate F. }
  destruct T as (s'&T). exists nq_c, b, s, s'. repeat (split; [exact nq_ok || apply w_homogeneous || (split; reflexivity) || (repeat split) || exact H|]).
  split; [cbn [lin_run]; rewrite T; reflexivity|]. intros HW.
  destruct (solver_inv nq_c b s H) as (_&_&FH&_&_).
  assert (SH : shaped nq_c (f_hat s')).
  { destruct (step_dims RK2_ nq_c b 1 s s' T) as (D&_). change (step_input nq_c s) with (f_hat s) in D. destruct D as (A&B&C&E). rewrite FH in A, B, C, E. repeat split; assumption. }
  assert (M : mode_in nq_c 1 0) by (split; cbn; lia).
  specialize (HW 0 0 1 0 ltac:(cbn; lia) ltac:(cbn; lia) M)%Z.
  rewrite shown_hat in HW by (exact nq_ok || exact M || (destruct SH as (A&B&C&E); repeat split; assumption)).
  change (negm (lN1 nq_c) 1) with 1%Z in HW. change (negm (lN2 nq_c) 0) with 0%Z in HW.
  rewrite (stream_step RK2_ nq_c b 1 s s' 0 0 1 0 nq_free nq_ok M T), FH in HW.
  change (init_f nq_c) with nq_f in HW. rewrite nq_hat, nq_omega in HW.
  apply (f_equal snd) in HW. unfold factor, cmul, cconj, cscale, cadd, re, im in HW. cbn [fst snd] in HW. pose proof PI_RGT_0. lra.
Qed.
