(** Configurations on which the linear solver disagrees with what is expected. *)
From Coq Require Import ZArith Reals Lra Lia String List Bool FunctionalExtensionality.
From Verif Require Import Base.Prelude Base.ZSum Base.Cplx Model.Af Model.Grid Model.Petsc Model.Config Model.Fft
  Model.Integrators Spec.RungeKutta Model.Moments Model.Linear Spec.Dft Spec.Waves Spec.MomentSpec Spec.LinearSpec
  Proofs.AfLemmas Proofs.DftLemmas Proofs.ConvLemmas Proofs.MomentLemmas Proofs.FourierLemmas Proofs.LinearLemmas
  Proofs.LinearStep Proofs.LinearInv Proofs.LinearMore Proofs.LinearProps.
Import ListNotations.
Local Open Scope R_scope.

(** A configuration with N1 x N2 cells, Np1 x Np2 cells in momentum, and given
    boundary, fields and initial f. *)
Definition w_ph (N1 N2 Np1 Np2 Ns : Z) (st ones : list R) (fields : bool) (bc : edge -> string) : cfg :=
  Cfg (Layout N1 N2 [N1] [N2] 0 0 PPeriodic PPeriodic) 0 Np1 Np2 1 Ns 0 (IZR N1) 0 (IZR N2) 1 1
    st (map (fun _ => - (1 / 2)) st) (map (fun _ => - (1 / 2)) st) ones ones ones
    "FVM" "FVM" "ppm" "ppm" "cartesian" fields false
    (fun _ _ _ _ v1 v2 _ => (v1, v2)) (fun _ _ _ _ v1 v2 _ => (v1, v2))
    (fun _ _ _ _ _ _ _ e1 e2 e3 _ _ _ => (e1, e2, e3)) (fun _ _ _ _ _ _ _ e1 e2 e3 _ _ _ => (e1, e2, e3))
    (fun _ _ _ w x s => 0) bc (fun _ _ _ _ f => f) 0 0 (fun v _ _ _ _ => v) 0.
Definition w_cfg (N1 N2 Np1 Np2 Ns : Z) (st ones : list R) (fields : bool) (bc : edge -> string) (ft : string) (f : arr R) : lcfg :=
  LCfg (w_ph N1 N2 Np1 Np2 Ns st ones fields bc) ones ones 1 1 ft "fft" false
    (fun s t q1 q2 p1 p2 p3 e1 e2 e3 b1 b2 b3 => (e1, e2, e3)) (fun f _ _ => f) f
    ((fun _ _ => 0), (fun _ _ => 0), (fun _ _ => 0)) InitNone.
Definition periodic_box : edge -> string := fun _ => "periodic"%string.

(** ** C43: mirrors on the left and on the right *)
Definition half_periodic : edge -> string := fun e => match e with ELeft | ERight => "mirror"%string | _ => "periodic"%string end.
Lemma not_periodic : exists c, lin_ok c /\ in_q (ph c) ELeft = "mirror"%string /\ in_q (ph c) ERight = "mirror"%string
  /\ exists b s, linear_solver c = Ok (b, s).
Proof.
  exists (w_cfg 2 2 3 1 1 [-(3/2)] [1] false half_periodic "None" (Arr 3 1 2 2 (fun _ _ _ _ => 1))).
  split; [|split; [reflexivity|split; [reflexivity|]]].
  - unfold lin_ok, momentum_grid_ok, lN1, lN2. cbn. repeat split; lia || lra.
  - eexists. eexists. reflexivity.
Qed.

(** ** C49 *)
Definition w_f : arr R := Arr 3 1 1 1 (fun x _ _ _ => if (x =? 2)%Z then 1 else 0).
Definition w_c : lcfg := w_cfg 1 1 3 1 1 [-(3/2)] [1] true periodic_box "electrodynamic" w_f.
Lemma w_ok : lin_ok w_c.
Proof. unfold lin_ok, momentum_grid_ok, lN1, lN2. cbn. repeat split; lia || lra. Qed.
Lemma w_k : el (k_q1 w_c) 0 0 0 0 = 0 /\ el (k_q2 w_c) 0 0 0 0 = 0.
Proof.
  destruct (k_el w_c w_ok 0 0 ltac:(unfold inb; cbn; lia) ltac:(unfold inb; cbn; lia)) as (A&B). rewrite A, B.
  split; apply wave_0; cbn; lia.
Qed.
Lemma w_fb x s : el (f_background w_c w_f) x s 0 0 = Rabs (el w_f x s 0 0).
Proof.
  rewrite fb_el by (try exact w_ok; repeat split). unfold mean2. change (lN1 w_c) with 1%Z. change (lN2 w_c) with 1%Z.
  rewrite !zsum_1. f_equal. unfold Rdiv. rewrite !Rmult_1_l. change (IZR 1) with 1. field.
Qed.
Notation w_b := (make_background w_c w_f).
Lemma w_dfdp : el (dfdp1 w_b) 0 0 0 0 = - (3 / 4) /\ el (dfdp2 w_b) 0 0 0 0 = 0 /\ el (dfdp3 w_b) 0 0 0 0 = 0.
Proof.
  assert (H : forall n i, (0 <= i < n)%Z -> inb n i) by (unfold inb; lia).
  unfold make_background. cbn [dfdp1 dfdp2 dfdp3].
  assert (E : forall axis dp, el (dfdp_background w_c axis dp (f_background w_c w_f)) 0 0 0 0
    = el (stencil4r (shift_axis axis (moddims (f_background w_c w_f) 3 1 1 1))) 0 0 0 0 * / (12 * nth 0 dp 0)).
  { intros. apply (dfdp_el w_c w_ok axis dp (f_background w_c w_f) 0 0 0 0); apply H; cbn; lia. }
  rewrite !E. set (b := f_background w_c w_f).
  assert (M : forall x, (0 <= x < 3)%Z -> el (moddims b 3 1 1 1) x 0 0 0 = if (x =? 2)%Z then 1 else 0).
  { intros x Hx. assert (el (moddims b 3 1 1 1) x 0 0 0 = el b x 0 0 0).
    { unfold moddims, of_flat, flat. cbn [el d0 d1 d2 d3]. change (d0 b) with 3%Z. change (d1 b) with 1%Z. change (d2 b) with 1%Z.
      unfold lin, unlin0, unlin1, unlin2, unlin3. replace (x + 3 * (0 + 1 * (0 + 1 * 0)))%Z with x by lia.
      rewrite Z.mod_small, Z.div_small by lia. reflexivity. }
    rewrite H0. unfold b. rewrite w_fb. cbn [w_f el]. destruct (x =? 2)%Z; [apply Rabs_R1|apply Rabs_R0]. }
  unfold stencil4r. cbn [amap2 amap el shift_axis shift]. set (a := moddims b 3 1 1 1) in *.
  change (d0 a) with 3%Z. change (d1 a) with 1%Z. change (d2 a) with 1%Z. change (d3 a) with 1%Z.
  rewrite !Z.mod_1_r. change ((0 - -2) mod 3)%Z with 2%Z. change ((0 - -1) mod 3)%Z with 1%Z.
  change ((0 - 2) mod 3)%Z with 1%Z. change ((0 - 1) mod 3)%Z with 2%Z. change ((0 - 0) mod 3)%Z with 0%Z.
  rewrite !M by lia. cbn. repeat split; lra.
Qed.

Lemma w_df F t fh : el (fields_hat F) 3 0 0 0 = c0 -> el (fields_hat F) 4 0 0 0 = c0 -> el (fields_hat F) 5 0 0 0 = c0 ->
  el (df_hat_value w_c w_b F t fh) 0 0 0 0 = cscale (3 / 4) (el (fields_hat F) 0 0 0 0).
Proof.
  intros B1 B2 B3. unfold df_hat_value. change (source_enabled (ph w_c)) with false. change (fields_enabled (ph w_c)) with true.
  change (fields_seen w_c F fh) with (Ok F : res fields). cbn iota. cbn [amap2 el].
  assert (FS : el (free_streaming w_c t fh) 0 0 0 0 = c0).
  { cbn [free_streaming el]. destruct (A_q (ph w_c) _ t _ _ _ _ _) as (u&v). destruct w_k as (-> & ->).
    generalize (el fh 0 0 0 0). clear. intros. cplx_ring. }
  assert (MB : el (mean_B_term w_c F fh) 0 0 0 0 = c0).
  { unfold mean_B_term. cbn [el]. rewrite B1, B2, B3.
    generalize (el (ddelta_f_dp w_c 0 (dp1 (ph w_c)) fh) 0 0 0 0) (el (ddelta_f_dp w_c 1 (dp2 (ph w_c)) fh) 0 0 0 0) (el (ddelta_f_dp w_c 2 (dp3 (ph w_c)) fh) 0 0 0 0).
    generalize (el (p1_center (ph w_c)) 0 0 0 0) (el (p2_center (ph w_c)) 0 0 0 0) (el (p3_center (ph w_c)) 0 0 0 0).
    generalize (nth (Z.to_nat 0) (charge w_c) 0 / nth (Z.to_nat 0) (mass w_c) 0). clear. intros. cplx_ring. }
  rewrite FS, MB. unfold fields_term. cbn [el]. unfold get_fields. change (String.eqb (fields_type w_c) "electrodynamic") with true.
  cbn iota. cbn [E1h E2h E3h B1h B2h B3h comp el]. destruct w_dfdp as (-> & -> & ->).
  change (lA_p w_c) with (fun (s : Z) (t q1 q2 p1 p2 p3 : R) (e1 e2 e3 b1 b2 b3 : cplx) => (e1, e2, e3)). cbv beta iota.
  generalize (el (fields_hat F) 0 0 0 0)%Z (el (fields_hat F) 1 0 0 0)%Z (el (fields_hat F) 2 0 0 0)%Z. clear. intros. cplx_ring; field.
Qed.
Lemma w_current_gen m w fh : weighs cplx_scalar (N_p (ph w_c)) (N_species (ph w_c)) (lN1 w_c) (lN2 w_c) m w -> shaped w_c fh ->
  el (csum1 (charge_times w_c m fh)) 0 0 0 0
  = cadd (cadd (cscale (w (-1) 0 0) (el fh 0 0 0 0)%Z) (cscale (w 0 0 0) (el fh 1 0 0 0)%Z)) (cscale (w 1 0 0) (el fh 2 0 0 0)%Z).
Proof.
  intros WM D. rewrite (J_el w_c w_ok m w fh 0 0 WM D) by (unfold inb; cbn; lia).
  change (N_species (ph w_c)) with 1%Z. unfold csum3. change (N_p3 (ph w_c)) with 1%Z. change (N_p2 (ph w_c)) with 1%Z. change (N_p1 (ph w_c)) with 3%Z.
  assert (C1 : forall g, csum 1 g = g 0%Z) by (intros; apply cplx_eq; cbn [csum re im fst snd]; apply zsum_1).
  assert (C3 : forall g, csum 3 g = cadd (cadd (g 0%Z) (g 1%Z)) (g 2%Z)).
  { intros. apply cplx_eq; cbn [csum re im fst snd cadd]; rewrite !(zsum_succ 2), !(zsum_succ 1), zsum_1 by lia; reflexivity. }
  rewrite !C1, C3. cbv beta.
  assert (Hi : forall n i, (0 <= i < n)%Z -> inb n i) by (unfold inb; lia).
  assert (PC : forall i, (0 <= i < 3)%Z -> let x := (i + 3 * (0 + 1 * 0))%Z in
    el (p1_center (ph w_c)) x 0 0 0 = IZR i - 1 /\ el (p2_center (ph w_c)) x 0 0 0 = 0 /\ el (p3_center (ph w_c)) x 0 0 0 = 0).
  { intros i Hi'. destruct (center_el w_c i 0 0 0) as (A&B&C); try (apply Hi; cbn; lia). cbv zeta.
    change (N_p1 (ph w_c)) with 3%Z in *. change (N_p2 (ph w_c)) with 1%Z in *. rewrite A, B, C. cbn. unfold v_of. split; [lra|split; lra]. }
  destruct (PC 0%Z ltac:(lia)) as (A0&A1&A2). destruct (PC 1%Z ltac:(lia)) as (B0&B1&B2). destruct (PC 2%Z ltac:(lia)) as (D0&D1&D2).
  cbv zeta in *. rewrite A0, A1, A2, B0, B1, B2, D0, D1, D2.
  replace (0 - 1) with (-1) by lra. replace (1 - 1) with 0 by lra. replace (2 - 1) with 1 by lra.
  change (0 + 3 * (0 + 1 * 0))%Z with 0%Z. change (1 + 3 * (0 + 1 * 0))%Z with 1%Z. change (2 + 3 * (0 + 1 * 0))%Z with 2%Z.
  generalize (el fh 0 0 0 0)%Z (el fh 1 0 0 0)%Z (el fh 2 0 0 0)%Z (w (-1) 0 0) (w 0 0 0) (w 1 0 0). clear. intros. cbn. cplx_ring; ring.
Qed.
Lemma w_P1 : (0 < lN1 w_c)%Z. Proof. reflexivity. Qed.
Lemma w_P2 : (0 < lN2 w_c)%Z. Proof. reflexivity. Qed.
Lemma w_current fh : shaped w_c fh ->
  el (csum1 (charge_times w_c mom_v1_bulk fh)) 0 0 0 0 = csub (el fh 2 0 0 0)%Z (el fh 0 0 0 0)%Z.
Proof.
  intros D. rewrite (w_current_gen mom_v1_bulk (fun x _ _ => x) fh (mom1_weighs cplx_scalar cplx_laws _ _ _ _ w_P1 w_P2) D).
  generalize (el fh 0 0 0 0)%Z (el fh 1 0 0 0)%Z (el fh 2 0 0 0)%Z. clear. intros. cplx_ring.
Qed.
Lemma w_current2 fh : shaped w_c fh -> el (csum1 (charge_times w_c mom_v2_bulk fh)) 0 0 0 0 = c0.
Proof.
  intros D. rewrite (w_current_gen mom_v2_bulk (fun _ x _ => x) fh (mom2_weighs cplx_scalar cplx_laws _ _ _ _ w_P1 w_P2) D).
  generalize (el fh 0 0 0 0)%Z (el fh 1 0 0 0)%Z (el fh 2 0 0 0)%Z. clear. intros. cplx_ring.
Qed.
Lemma w_current3 fh : shaped w_c fh -> el (csum1 (charge_times w_c mom_v3_bulk fh)) 0 0 0 0 = c0.
Proof.
  intros D. rewrite (w_current_gen mom_v3_bulk (fun _ _ x => x) fh (mom3_weighs cplx_scalar cplx_laws _ _ _ _ w_P1 w_P2) D).
  generalize (el fh 0 0 0 0)%Z (el fh 1 0 0 0)%Z (el fh 2 0 0 0)%Z. clear. intros. cplx_ring.
Qed.

Lemma w_start b s : linear_solver w_c = Ok (b, s) -> b = w_b /\ shaped w_c (f_hat s)
  /\ el (f_hat s) 0 0 0 0 = c0 /\ el (f_hat s) 2 0 0 0 = RtoC 2
  /\ forall i, (0 <= i < 6)%Z -> el (fields_hat (fsol s)) i 0 0 0 = c0.
Proof.
  intros H. destruct (solver_inv w_c b s H) as (_&B&FH&_&FI).
  assert (FV : forall x, el (f_hat s) x 0 0 0 = RtoC (2 * el w_f x 0 0 0)).
  { intros x. rewrite FH, to_hat_el by (repeat split). change (lN1 w_c) with 1%Z. change (lN2 w_c) with 1%Z.
    rewrite dft2_sum. assert (C1 : forall g, csum 1 g = g 0%Z) by (intros; apply cplx_eq; cbn [csum re im fst snd]; apply zsum_1).
    rewrite !C1. unfold phase. replace (- (2 * PI * 0 * 0 / 1 + 2 * PI * 0 * 0 / 1)) with 0 by field. rewrite cis_0.
    change (init_f w_c) with w_f. cbn [amap el]. generalize (el w_f x 0 0 0). clear. intros. cplx_ring; field. }
  split; [exact B|]. assert (SH : shaped w_c (f_hat s)) by (rewrite FH; repeat split). split; [exact SH|].
  split; [rewrite FV; cbn; cplx_ring|]. split; [rewrite FV; cbn; cplx_ring|].
  rewrite <- FH in FI. unfold initialize_fields in FI. change (String.eqb (fields_initialize w_c) "user-defined") with false in FI.
  change (String.eqb (fields_initialize w_c) "fft + user-defined magnetic fields") with false in FI. cbn iota in FI.
  apply Ok_inj in FI. rewrite <- FI. cbn [fields_hat].
  set (o := Arr 0 0 0 0 _).
  assert (M : mode_in w_c 0 0) by (split; cbn; lia). pose proof M as (Hk&Hl).
  assert (Q1 : eps w_c <> 0) by (cbn; lra).
  destruct (electrostatic w_c (f_hat s) o 0 0 w_ok SH Q1 M) as (_&_&Z0&E3&E4&E5&E6). destruct (Z0 eq_refl) as (E1&E2).
  destruct (phi_el w_c _ 0 0 (density_shaped w_c (f_hat s) w_ok SH) Hk Hl) as ((A&_)&_).
  set (F0 := compute_electrostatic_fields w_c _ o) in *.
  destruct (join6_el (E1h F0) (E2h F0) (E3h F0) (B1h F0) (B2h F0) (B3h F0) 0 0 A A A A A A) as (J0&J1&J2&J3&J4&J5).
  intros i Hi. assert (Q : (i = 0 \/ i = 1 \/ i = 2 \/ i = 3 \/ i = 4 \/ i = 5)%Z) by lia.
  destruct Q as [->| [->| [->| [->| [->| ->]]]]]; [rewrite J0|rewrite J1|rewrite J2|rewrite J3|rewrite J4|rewrite J5]; auto.
Qed.

Lemma midpoint_is {I} (f : R -> (I -> R) -> (I -> R)) t x dt i :
  rk_step midpoint_tableau f t x dt i = x i + dt * f (t + dt / 2) (fun j => x j + dt / 2 * f t x j) i.
Proof.
  unfold rk_step, midpoint_tableau. cbn [rows weights stages app].
  assert (E : (fun i0 : I => x i0 + dt * combine_stages [] [] i0) = x) by (apply functional_extensionality; intros; unfold combine_stages; cbn; ring).
  rewrite !E. replace (t + total [] * dt) with t by (cbn; ring). replace (t + total [1 / 2] * dt) with (t + dt / 2) by (cbn; field).
  replace (fun i0 => x i0 + dt * combine_stages [1 / 2] [f t x] i0) with (fun j => x j + dt / 2 * f t x j)
    by (apply functional_extensionality; intros; unfold combine_stages; cbn; field).
  unfold combine_stages at 1. cbn [dot map]. ring.
Qed.

Lemma uncoupled_step : exists c b s s' dt, linear_solver c = Ok (b, s) /\ lin_ok c
  /\ fields_enabled (ph c) = true /\ fields_type c = "electrodynamic"%string
  /\ lin_timestep RK2_ c b dt s = Ok s'
  /\ el (f_hat s') 0 0 0 0 <> el (intended_f RK2_ c b dt s) 0 0 0 0.
Proof.
  exists w_c. destruct (linear_solver w_c) as [(b&s)|] eqn:H; [|discriminate H].
  destruct (w_start b s H) as (B&SH&F0&F2&FZ). rewrite B.
  assert (S : exists s', lin_timestep RK2_ w_c w_b 1 s = Ok s').
  { apply (proj2 (multi_species RK2_ w_c w_b 1 s w_ok)). intros _. split; [right; left; reflexivity|left; reflexivity]. }
  destruct S as (s'&S). exists w_b, s, s', 1. split; [reflexivity|]. split; [exact w_ok|]. split; [reflexivity|]. split; [reflexivity|].
  split; [exact S|]. rewrite (frozen RK2_ w_c w_b 1 s s' S eq_refl).
  assert (FR : re (el (frozen_f RK2_ w_c w_b 1 s) 0 0 0 0) = 0).
  { unfold frozen_f, tableau_of. cbn [arr_like arr_of el re fst]. rewrite midpoint_is.
    set (X := fun j => _). unfold vec_of at 1 2. cbn [vec_of]. rewrite F0. rewrite w_df by (apply FZ; lia). rewrite (FZ 0%Z) by lia. cbn. ring. }
  assert (IT : re (el (intended_f RK2_ w_c w_b 1 s) 0 0 0 0) = - (3 / 4)).
  { unfold intended_f, tableau_of. cbn [arr_like arr_of el re fst]. rewrite midpoint_is.
    set (f1 := coupled _ _). cbn [both]. unfold vec_of at 1. rewrite F0.
    set (z1 := fun j => both _ _ j + _).
    assert (Z1 : forall b i, (0 <= i < 6)%Z -> z1 (inr (b, i, 0, 0, 0)%Z) = if b then 0 else (if (i =? 0)%Z then - 1 else 0)).
    { intros q i Hi. unfold z1. cbn [both]. unfold f1 at 1. cbn [coupled both].
      set (fh := arr_like (f_hat s) _). set (FH := arr_like (fields_hat (fsol s)) _).
      assert (SF : shaped w_c fh) by exact SH.
      assert (J0 : el fh 0 0 0 0 = c0) by (unfold fh; cbn [arr_like arr_of el vec_of]; rewrite F0; reflexivity).
      assert (J2 : (el fh 2 0 0 0)%Z = RtoC 2) by (unfold fh; cbn [arr_like arr_of el vec_of]; rewrite F2; reflexivity).
      assert (FV : forall i, (0 <= i < 6)%Z -> el FH i 0 0 0 = c0) by (intros; unfold FH; cbn [arr_like arr_of el vec_of]; rewrite FZ by lia; reflexivity).
      destruct (dfields_el w_c fh FH 0 0) as (D0&D1&D2&D3&D4&D5). cbv zeta in D0, D1, D2, D3, D4, D5.
      destruct w_k as (K1&K2). rewrite K1, K2 in *. rewrite w_current, J0, J2 in D0 by exact SF.
      unfold vec_of at 1 2. rewrite FZ by lia.
      assert (W : (1 <= i)%Z -> (3 <= i)%Z \/ i = 1%Z \/ i = 2%Z) by lia.
      assert (Q : (i = 0 \/ i = 1 \/ i = 2 \/ i = 3 \/ i = 4 \/ i = 5)%Z) by lia.
      destruct Q as [->| [->| [->| [->| [->| ->]]]]].
      - rewrite D0, (FV 5%Z) by lia. destruct q; cbn; field.
      - rewrite D1, (FV 5%Z), w_current2 by (exact SF || lia). destruct q; cbn; field.
      - rewrite D2, (FV 4%Z), (FV 3%Z), w_current3 by (exact SF || lia). destruct q; cbn; field.
      - rewrite D3, (FV 2%Z) by lia. destruct q; cbn; field.
      - rewrite D4, (FV 2%Z) by lia. destruct q; cbn; field.
      - rewrite D5, (FV 0%Z), (FV 1%Z) by lia. destruct q; cbn; field. }
    unfold f1 at 1. cbn [coupled both]. unfold vec_of at 1.
    set (Bm := arr_like (fields_hat (fsol s)) (fun j => z1 (inr j))).
    rewrite w_df; cbn [set_fields_hat fields_hat].
    - unfold Bm. cbn [arr_like arr_of el]. rewrite !Z1 by lia. cbn. lra.
    - unfold Bm. cbn [arr_like arr_of el]. rewrite !Z1 by lia. reflexivity.
    - unfold Bm. cbn [arr_like arr_of el]. rewrite !Z1 by lia. reflexivity.
    - unfold Bm. cbn [arr_like arr_of el]. rewrite !Z1 by lia. reflexivity. }
  intros E. rewrite E in FR. lra.
Qed.

(** ** C50 *)
(** The buffer index of element (i, j) of momentum x and species s in the dumped
    and in the loaded array. *)
Lemma load_dump : forall c fh x s i j, lin_ok c -> shaped c fh -> inb (N_p (ph c)) x -> inb (N_species (ph c)) s ->
  inb (lN1 c) i -> inb (lN2 c) j ->
  el (get_dist_func c (load_f c (dump_f c fh))) x s i j
  = flat (get_dist_func c fh) (j + lN2 c * (i + lN1 c * (s + N_species (ph c) * x)))%Z.
Proof.
  intros c fh x s i j OK D Hx Hs Hi Hj. unfold load_f. rewrite dist_hat by (auto; repeat split). reflexivity.
Qed.
Definition w2_f : arr R := Arr 1 1 2 2 (fun _ _ i j => if ((i =? 0) && (j =? 1))%Z%bool then 1 else 0).
Definition w2_c : lcfg := w_cfg 2 2 1 1 1 [-(1/2)] [1] false periodic_box "None" w2_f.
Lemma w2_ok : lin_ok w2_c.
Proof. unfold lin_ok, momentum_grid_ok, lN1, lN2. cbn. repeat split; lia || lra. Qed.
Lemma load_transposed : exists c b s, linear_solver c = Ok (b, s) /\ lin_ok c
  /\ ~ aeq (get_dist_func c (load_f c (dump_f c (f_hat s)))) (get_dist_func c (f_hat s)).
Proof.
  exists w2_c. destruct (linear_solver w2_c) as [(b&s)|] eqn:H; [|discriminate H]. exists b, s. split; [reflexivity|]. split; [exact w2_ok|].
  intros (_&E). destruct (solver_inv w2_c b s H) as (_&_&FH&_&_).
  assert (SH : shaped w2_c (f_hat s)) by (rewrite FH; repeat split).
  assert (V : forall x k i j, inb 2 i -> inb 2 j -> el (get_dist_func w2_c (f_hat s)) x k i j = el w2_f x k i j).
  { intros x k i j Hi Hj. rewrite FH. apply (dist_hat w2_c w2_ok w2_f x k i j); auto. repeat split. }
  specialize (E 0 0 0 1)%Z.
  rewrite (load_dump w2_c (f_hat s) 0 0 0 1 w2_ok SH) in E by (unfold inb; cbn; lia).
  assert (FL : forall x, flat (get_dist_func w2_c (f_hat s)) x = el (get_dist_func w2_c (f_hat s)) (x mod 1) ((x / 1) mod 1) ((x / 1 / 1) mod 2) (x / 1 / 1 / 2)).
  { intros x. unfold flat. cbn [get_dist_func amap d0 d1 d2 d3 ifft2q reorder2301 ifft2_scaled]. destruct SH as (A&B&C&D).
    rewrite A, B, C. reflexivity. }
  change (1 + lN2 w2_c * (0 + lN1 w2_c * (0 + N_species (ph w2_c) * 0)))%Z with 1%Z in E. rewrite FL in E.
  change (1 mod 1)%Z with 0%Z in E. change ((1 / 1) mod 1)%Z with 0%Z in E. change ((1 / 1 / 1) mod 2)%Z with 1%Z in E. change (1 / 1 / 1 / 2)%Z with 0%Z in E.
  rewrite !V in E by (unfold inb; lia). cbn in E.
  assert (X : 0 = 1); [apply E|lra].
  unfold inside, inb. cbn. lia.
Qed.
