(** Invariants of the linear solver's time step. *)
From Coq Require Import ZArith Reals Lra Lia String List Bool FunctionalExtensionality.
From Verif Require Import Base.Prelude Base.ZSum Base.Cplx Model.Af Model.Grid Model.Petsc Model.Config Model.Fft
  Model.Moments Model.Integrators Model.Linear Spec.Dft Spec.Waves Spec.MomentSpec Spec.LinearSpec Spec.RungeKutta
  Proofs.AfLemmas Proofs.DftLemmas Proofs.ConvLemmas Proofs.MomentLemmas Proofs.FourierLemmas Proofs.LinearLemmas
  Proofs.LinearStep.
Import ListNotations.
Local Open Scope R_scope.

Lemma Ok_inj {A} (x y : A) : Ok x = Ok y -> x = y.
Proof. intros H. injection H. auto. Qed.

Lemma arr_vec a i j k l : el (arr_like a (vec_of a)) i j k l = el a i j k l.
Proof. cbn. destruct (el a i j k l). reflexivity. Qed.
Lemma arr_vec' a b i j k l : el (arr_like a (vec_of b)) i j k l = el b i j k l.
Proof. cbn. destruct (el b i j k l). reflexivity. Qed.

(** ** One step *)
Definition step_input (c : lcfg) (s : lstate) : arr cplx :=
  if instantaneous c then to_hat c (amap RtoC (lsource c (get_dist_func c (f_hat s)) (lt s) true)) else f_hat s.
Definition electrodynamic (c : lcfg) : bool := (fields_enabled (ph c) && String.eqb (fields_type c) "electrodynamic")%bool.

Lemma step_coupled m c b dt s s' : lin_timestep m c b dt s = Ok s' -> electrodynamic c = true ->
  let fh := step_input c s in
  let A := arr_like fh in
  let F := fsol s in
  let B := arr_like (fields_hat F) in
  let z := rk_step (tableau_of m) (coupled (fun t x _ => vec_of (df_hat_value c b F t (A x)))
             (fun _ x y => vec_of (dfields_hat_value c (A x) (B y)))) (lt s) (both (vec_of fh) (vec_of (fields_hat F))) dt in
  df_hat_check c F fh = Ok tt
  /\ s' = LState (A (fun i => z (inl i))) (set_fields_hat F (B (fun j => z (inr j)))) (lt s + dt).
Proof.
  intros H E fh A F B z. unfold lin_timestep in H. fold (step_input c s) fh F A in H. fold (electrodynamic c) in H. rewrite E in H.
  destruct (df_hat_check c F fh) as [[]|e]; [|discriminate]. split; [reflexivity|]. cbn [rbind] in H. cbv zeta in H. rewrite lin_RK_coupled_is in H.
  apply Ok_inj in H. rewrite <- H. reflexivity.
Qed.
Lemma step_uncoupled m c b dt s s' : lin_timestep m c b dt s = Ok s' -> electrodynamic c = false ->
  let fh := step_input c s in
  let A := arr_like fh in
  let F := fsol s in
  df_hat_check c F fh = Ok tt
  /\ s' = LState (A (rk_step (tableau_of m) (fun t x => vec_of (df_hat_value c b F t (A x))) (lt s) (vec_of fh) dt)) F (lt s + dt).
Proof.
  intros H E fh A F. unfold lin_timestep in H. fold (step_input c s) fh F A in H. fold (electrodynamic c) in H. rewrite E in H.
  destruct (df_hat_check c F fh) as [[]|e]; [|discriminate]. split; [reflexivity|]. cbn [rbind] in H. cbv zeta in H. rewrite lin_RK_is in H.
  apply Ok_inj in H. rewrite <- H. reflexivity.
Qed.

(** Extents and clock. *)
Lemma step_dims m c b dt s s' : lin_timestep m c b dt s = Ok s' ->
  same_dims (f_hat s') (step_input c s) /\ same_dims (fields_hat (fsol s')) (fields_hat (fsol s)) /\ lt s' = lt s + dt.
Proof.
  intros H. destruct (electrodynamic c) eqn:E.
  - destruct (step_coupled m c b dt s s' H E) as (_&->). split; [repeat split|]. split; [repeat split|]. reflexivity.
  - destruct (step_uncoupled m c b dt s s' H E) as (_&->). split; [repeat split|]. split; [repeat split|]. reflexivity.
Qed.

(** ** k . B *)
Section DivB.
  Context (c : lcfg) (OK : lin_ok c).
  Lemma dfields_el fh F k l :
    let D := dfields_hat_value c fh F in
    let J m := el (csum1 (charge_times c m fh)) 0 0 k l in
    let k1 := el (k_q1 c) 0 0 k l in let k2 := el (k_q2 c) 0 0 k l in
    let e i := el F i 0 k l in
    (el D 0 0 k l = csub (cscale (/ (mu c * eps c)) (cscale k2 (cmul (e 5) ci))) (cscale (/ eps c) (J mom_v1_bulk))
    /\ el D 1 0 k l = csub (cscale (/ (mu c * eps c)) (cscale k1 (cmul (copp (e 5)) ci))) (cscale (/ eps c) (J mom_v2_bulk))
    /\ el D 2 0 k l = csub (cscale (/ (mu c * eps c)) (csub (cscale k1 (cmul (e 4) ci)) (cscale k2 (cmul (e 3) ci)))) (cscale (/ eps c) (J mom_v3_bulk))
    /\ el D 3 0 k l = cscale k2 (cmul (copp (e 2)) ci)
    /\ el D 4 0 k l = cscale k1 (cmul (e 2) ci)
    /\ el D 5 0 k l = csub (cscale k2 (cmul (e 0) ci)) (cscale k1 (cmul (e 1) ci)))%Z.
  Proof. cbv zeta. repeat split; reflexivity. Qed.

  Lemma div_B_value fh F k l : mode_in c k l -> div_B c (dfields_hat_value c fh F) k l = c0.
  Proof.
    intros (Hk&Hl). destruct (dfields_el fh F k l) as (_&_&_&X&Y&_). unfold div_B.
    destruct (k_el c OK k l Hk Hl) as (K1&K2). fold (kx c k) in K1. fold (ky c l) in K2. rewrite K1 in *. rewrite K2 in *. cbv zeta in X, Y. rewrite X, Y.
    generalize (el F 2 0 k l)%Z. generalize (kx c k) (ky c l). clear. intros. cplx_ring.
  Qed.
  Lemma div_B_lin n0 n1 n2 n3 a b x y k l :
    div_B c (arr_of n0 n1 n2 n3 (fun i => a * x i + b * y i)) k l
    = cadd (cscale a (div_B c (arr_of n0 n1 n2 n3 x) k l)) (cscale b (div_B c (arr_of n0 n1 n2 n3 y) k l)).
  Proof. unfold div_B. cbn [arr_of el]. cplx_ring. Qed.

  Lemma step_div_B m b dt s s' k l : lin_timestep m c b dt s = Ok s' -> mode_in c k l ->
    div_B c (fields_hat (fsol s')) k l = div_B c (fields_hat (fsol s)) k l.
  Proof.
    intros H M. destruct (electrodynamic c) eqn:E.
    - destruct (step_coupled m c b dt s s' H E) as (_&->). cbn [fsol set_fields_hat fields_hat].
      set (fh := step_input c s). set (F := fields_hat (fsol s)). set (B := arr_like F).
      set (f := coupled _ _). set (z := rk_step _ _ _ _ _).
      assert (G : forall pr : cplx -> R, (forall a b u v, pr (cadd (cscale a u) (cscale b v)) = a * pr u + b * pr v) -> pr c0 = 0 ->
        pr (div_B c (B (fun j => z (inr j))) k l) = pr (div_B c F k l)).
      { intros pr PL P0. set (L := fun w : cidx + cidx -> R => pr (div_B c (B (fun j => w (inr j))) k l)).
        assert (HL : functional L).
        { intros a b' x y. unfold L. unfold B, arr_like. rewrite div_B_lin. apply PL. }
        assert (HZ : L z = L (both (vec_of fh) (vec_of F))).
        { unfold z. apply (rk_inv L HL). intros t x. unfold L, f. cbn [coupled both].
          replace (div_B c _ k l) with (div_B c (dfields_hat_value c (arr_like fh (fun i => x (inl i))) (B (fun j => x (inr j)))) k l).
          - rewrite div_B_value by auto. exact P0.
          - unfold div_B, B. change (fun j => both ?u ?v (inr j)) with v. rewrite !arr_vec'. reflexivity. }
        change (L z = pr (div_B c F k l)). rewrite HZ. unfold L, div_B, B. cbn [both].
        change (fun j => vec_of F j) with (vec_of F). rewrite !arr_vec. reflexivity. }
      apply cplx_eq; [apply (G re)|apply (G im)]; cbn; intros; ring.
    - destruct (step_uncoupled m c b dt s s' H E) as (_&->). reflexivity.
  Qed.
End DivB.

(** ** Number of particles and charge *)
Section Num.
  Context (c : lcfg) (OK : lin_ok c).
  Notation p := (ph c).
  Notation ns := (N_species (ph c)).
  Notation row := (fun i1 i2 i3 => i1 + N_p1 p * (i2 + N_p2 p * i3))%Z.

  Lemma number_lin n0 n1 n2 n3 a b x y s k l :
    number_hat c (arr_of n0 n1 n2 n3 (fun i => a * x i + b * y i)) s k l
    = cadd (cscale a (number_hat c (arr_of n0 n1 n2 n3 x) s k l)) (cscale b (number_hat c (arr_of n0 n1 n2 n3 y) s k l)).
  Proof.
    unfold number_hat.
    rewrite (csum3_ext p _ (fun i1 i2 i3 => cadd (cscale a (el (arr_of n0 n1 n2 n3 x) (row i1 i2 i3) s k l)) (cscale b (el (arr_of n0 n1 n2 n3 y) (row i1 i2 i3) s k l))))
      by (intros; cbn [arr_of el]; cplx_ring).
    rewrite csum3_lin. set (W := w1 _ * _ * _). clearbody W. generalize (csum3 p (fun i1 i2 i3 => el (arr_of n0 n1 n2 n3 x) (row i1 i2 i3) s k l)).
    generalize (csum3 p (fun i1 i2 i3 => el (arr_of n0 n1 n2 n3 y) (row i1 i2 i3) s k l)). clear. intros. cplx_ring.
  Qed.
  Lemma charge_lin n0 n1 n2 n3 a b x y k l :
    charge_hat c (arr_of n0 n1 n2 n3 (fun i => a * x i + b * y i)) k l
    = cadd (cscale a (charge_hat c (arr_of n0 n1 n2 n3 x) k l)) (cscale b (charge_hat c (arr_of n0 n1 n2 n3 y) k l)).
  Proof.
    unfold charge_hat. rewrite <- csum_lin. apply csum_ext; intros s Hs. rewrite number_lin.
    generalize (nth (Z.to_nat s) (charge c) 0) (number_hat c (arr_of n0 n1 n2 n3 x) s k l) (number_hat c (arr_of n0 n1 n2 n3 y) s k l).
    clear. intros. cplx_ring.
  Qed.
  Lemma gauss_lin n0 n1 n2 n3 m0 m1 m2 m3 a b x y u v k l :
    gauss_defect c (arr_of n0 n1 n2 n3 (fun i => a * x i + b * y i)) (arr_of m0 m1 m2 m3 (fun i => a * u i + b * v i)) k l
    = cadd (cscale a (gauss_defect c (arr_of n0 n1 n2 n3 x) (arr_of m0 m1 m2 m3 u) k l))
           (cscale b (gauss_defect c (arr_of n0 n1 n2 n3 y) (arr_of m0 m1 m2 m3 v) k l)).
  Proof.
    unfold gauss_defect. rewrite charge_lin.
    generalize (charge_hat c (arr_of n0 n1 n2 n3 x) k l) (charge_hat c (arr_of n0 n1 n2 n3 y) k l). cbn [arr_of el]. intros. cplx_ring.
  Qed.

  Lemma check_indep F fh fh' : df_hat_check c F fh = df_hat_check c F fh'.
  Proof.
    unfold df_hat_check, fields_seen. destruct (fields_enabled p); [|reflexivity].
    destruct (String.eqb (fields_type c) "electrostatic"); [reflexivity|].
    destruct (String.eqb (fields_type c) "electrodynamic"); [reflexivity|]. reflexivity.
  Qed.

  Context (FD : force_divergence_free c) (U2 : uniform_dp2 c) (SE : source_enabled p = false).

  (** The zero mode of the number density of a species does not change. *)
  Lemma zero_mode_df f F t fh s : df_hat_check c F fh = Ok tt -> inb ns s ->
    number_hat c (df_hat_value c (make_background c f) F t fh) s 0 0 = c0.
  Proof.
    intros CH Hs. pose proof OK as (_&Q1&Q2&_&_). unfold number_hat.
    rewrite (df_number c OK FD U2 f F t fh s 0 0) by (auto; unfold inb; lia).
    rewrite (csum3_ext p _ (fun _ _ _ => c0)).
    - rewrite csum3_z1; [cplx_ring|]. intros. apply csum_zero.
    - intros i1 i2 i3 H1 H2 H3. cbn [free_streaming el].
      destruct (k_el c OK 0 0 ltac:(unfold inb; lia) ltac:(unfold inb; lia)) as (K1&K2). rewrite K1, K2, !wave_0 by auto.
      destruct (A_q p _ t _ _ _ _ _) as (a1&a2). generalize (el fh (row i1 i2 i3) s 0 0)%Z. clear. intros. cplx_ring.
  Qed.

  Lemma step_zero_mode m f dt st st' s : lin_timestep m c (make_background c f) dt st = Ok st' -> instantaneous c = false ->
    inb ns s -> number_hat c (f_hat st') s 0 0 = number_hat c (f_hat st) s 0 0.
  Proof.
    intros H IN Hs. assert (SI : step_input c st = f_hat st) by (unfold step_input; rewrite IN; reflexivity).
    set (b := make_background c f) in *.
    assert (LIN : forall pr : cplx -> R, (forall a b u v, pr (cadd (cscale a u) (cscale b v)) = a * pr u + b * pr v) -> pr c0 = 0 ->
      pr (number_hat c (f_hat st') s 0 0) = pr (number_hat c (f_hat st) s 0 0)).
    { intros pr PL P0.
      assert (VZ : forall t F x, df_hat_check c F (f_hat st) = Ok tt ->
        pr (number_hat c (arr_like (f_hat st) (vec_of (df_hat_value c b F t (arr_like (f_hat st) x)))) s 0 0) = 0).
      { intros t F x CH. rewrite (check_indep F _ (arr_like (f_hat st) x)) in CH.
        replace (number_hat c (arr_like (f_hat st) (vec_of (df_hat_value c b F t (arr_like (f_hat st) x)))) s 0 0)
          with (number_hat c (df_hat_value c b F t (arr_like (f_hat st) x)) s 0 0).
        - unfold b. rewrite zero_mode_df by auto. exact P0.
        - unfold number_hat. apply (f_equal (cscale _)). apply csum3_ext; intros. rewrite arr_vec'. reflexivity. }
      assert (VI : number_hat c (arr_like (f_hat st) (vec_of (f_hat st))) s 0 0 = number_hat c (f_hat st) s 0 0).
      { unfold number_hat. apply (f_equal (cscale _)). apply csum3_ext; intros. rewrite arr_vec'. reflexivity. }
      destruct (electrodynamic c) eqn:E.
      - destruct (step_coupled m c b dt st st' H E) as (CH&->). cbn [f_hat]. rewrite SI in *.
        set (L := fun w : cidx + cidx -> R => pr (number_hat c (arr_like (f_hat st) (fun i => w (inl i))) s 0 0)).
        assert (HL : functional L) by (intros a b' x y; unfold L, arr_like; rewrite number_lin; apply PL).
        set (z := rk_step _ _ _ _ _). change (L z = pr (number_hat c (f_hat st) s 0 0)). unfold z. rewrite (rk_inv L HL).
        + unfold L. change (fun i => both (vec_of (f_hat st)) (vec_of (fields_hat (fsol st))) (inl i)) with (vec_of (f_hat st)).
          rewrite VI. reflexivity.
        + intros t x. apply (VZ t (fsol st) (fun i => x (inl i)) CH).
      - destruct (step_uncoupled m c b dt st st' H E) as (CH&->). cbn [f_hat]. rewrite SI in *.
        set (L := fun w : cidx -> R => pr (number_hat c (arr_like (f_hat st) w) s 0 0)).
        assert (HL : functional L) by (intros a b' x y; unfold L, arr_like; rewrite number_lin; apply PL).
        set (z := rk_step _ _ _ _ _). change (L z = pr (number_hat c (f_hat st) s 0 0)). unfold z. rewrite (rk_inv L HL).
        + unfold L. rewrite VI. reflexivity.
        + intros t x. apply (VZ t (fsol st) x CH). }
    apply cplx_eq; [apply (LIN re)|apply (LIN im)]; cbn; intros; ring.
  Qed.

  (** ** Gauss *)
  Context (AP : advects_with_p c).

  Lemma J_el m w fh k l : weighs cplx_scalar (N_p p) ns (lN1 c) (lN2 c) m w -> shaped c fh -> inb (lN1 c) k -> inb (lN2 c) l ->
    el (csum1 (charge_times c m fh)) 0 0 k l
    = csum ns (fun s => cscale (nth (Z.to_nat s) (charge c) 0)
        (cscale (w1 (species_grid p s) * w2 (species_grid p s) * w3 (species_grid p s))
          (csum3 p (fun i1 i2 i3 => cscale (w (el (p1_center p) (row i1 i2 i3) s 0 0) (el (p2_center p) (row i1 i2 i3) s 0 0) (el (p3_center p) (row i1 i2 i3) s 0 0))
             (el fh (row i1 i2 i3) s k l))))).
  Proof.
    intros W D Hk Hl. pose proof OK as (MG&_). pose proof MG as (A&B&C&E&_).
    destruct (p_center_dims p MG) as (D1&D2&D3).
    destruct (W fh (p1_center p) (p2_center p) (p3_center p) (measure p) D D1 D2 D3 (measure_dims c)) as ((DM0&DM1&DM2&DM3)&EM).
    fold (moment_of c cplx_scalar m fh) in *. unfold csum1, charge_times, per_species. cbn [el bcast2 d1].
    replace (Z.max ns (d1 (moment_of c cplx_scalar m fh))) with ns by lia.
    apply csum_ext; intros s Hs. unfold bel. cbn [d0 d1 d2 d3 el]. rewrite DM0, DM1, DM2, DM3.
    rewrite !bidx_1, !bidx_in by auto. rewrite EM by auto. rewrite measure_el. cbn [s_scale s_sum cplx_scalar]. rewrite csum_np by auto. reflexivity.
  Qed.

  Lemma gauss_value f F t fh FH k l : df_hat_check c F fh = Ok tt -> shaped c fh -> mode_in c k l -> eps c <> 0 ->
    gauss_defect c (df_hat_value c (make_background c f) F t fh) (dfields_hat_value c fh FH) k l = c0.
  Proof.
    intros CH D (Hk&Hl) Qe. pose proof OK as (MG&Q1&Q2&_).
    destruct (dfields_el c fh FH k l) as (X&Y&_). unfold gauss_defect. cbv zeta in X, Y. rewrite X, Y. clear X Y.
    destruct (k_el c OK k l Hk Hl) as (K1&K2). fold (kx c k) in K1. fold (ky c l) in K2. rewrite K1, K2.
    rewrite (J_el _ (fun x _ _ => x) fh k l (mom1_weighs cplx_scalar cplx_laws (N_p p) ns (lN1 c) (lN2 c) Q1 Q2) D Hk Hl).
    rewrite (J_el _ (fun _ y _ => y) fh k l (mom2_weighs cplx_scalar cplx_laws (N_p p) ns (lN1 c) (lN2 c) Q1 Q2) D Hk Hl).
    set (J1 := csum ns _). set (J2 := csum ns _).
    replace (charge_hat c (df_hat_value c (make_background c f) F t fh) k l)
      with (cmul (copp ci) (cadd (cscale (kx c k) J1) (cscale (ky c l) J2))).
    - clearbody J1 J2. generalize (el FH 5 0 k l)%Z (kx c k) (ky c l) (/ (mu c * eps c)). clear - Qe. intros z a b d. cplx_ring; field; auto.
    - unfold J1, J2, charge_hat. rewrite <- csum_lin, <- csum_mul_l. apply csum_ext; intros s Hs. unfold number_hat.
      rewrite (df_number c OK FD U2 f F t fh s k l SE CH Hs Hk Hl).
      rewrite (csum3_ext p (fun i1 i2 i3 => el (free_streaming c t fh) (row i1 i2 i3) s k l)
        (fun i1 i2 i3 => cmul (copp ci) (cadd
           (cscale (kx c k) (cscale (el (p1_center p) (row i1 i2 i3) s 0 0) (el fh (row i1 i2 i3) s k l)))
           (cscale (ky c l) (cscale (el (p2_center p) (row i1 i2 i3) s 0 0) (el fh (row i1 i2 i3) s k l)))))).
      + rewrite csum3_mul, csum3_lin.
        generalize (csum3 p (fun i1 i2 i3 => cscale (el (p1_center p) (row i1 i2 i3) s 0 0) (el fh (row i1 i2 i3) s k l))).
        generalize (csum3 p (fun i1 i2 i3 => cscale (el (p2_center p) (row i1 i2 i3) s 0 0) (el fh (row i1 i2 i3) s k l))).
        set (W := w1 _ * _ * _). clearbody W. generalize (nth (Z.to_nat s) (charge c) 0) (kx c k) (ky c l). clear. intros. cplx_ring.
      + intros i1 i2 i3 H1 H2 H3. cbn [free_streaming el]. rewrite AP, K1, K2.
        generalize (el (p1_center p) (row i1 i2 i3) s 0 0) (el (p2_center p) (row i1 i2 i3) s 0 0) (el fh (row i1 i2 i3) s k l) (kx c k) (ky c l).
        clear. intros. cplx_ring.
  Qed.

  Lemma step_gauss m f dt st st' k l : lin_timestep m c (make_background c f) dt st = Ok st' -> instantaneous c = false ->
    electrodynamic c = true -> lin_state_ok c st -> mode_in c k l -> eps c <> 0 ->
    gauss_defect c (f_hat st') (fields_hat (fsol st')) k l = gauss_defect c (f_hat st) (fields_hat (fsol st)) k l.
  Proof.
    intros H IN E SO M Qe. assert (SI : step_input c st = f_hat st) by (unfold step_input; rewrite IN; reflexivity).
    set (b := make_background c f) in *.
    destruct (step_coupled m c b dt st st' H E) as (CH&->). cbn [f_hat fsol set_fields_hat fields_hat]. rewrite SI in *.
    set (A := arr_like (f_hat st)) in *. set (FH := fields_hat (fsol st)). set (B := arr_like FH).
    assert (GV : forall u v u' v', (forall i j k l, el u i j k l = el u' i j k l) -> (forall i j k l, el v i j k l = el v' i j k l) ->
      gauss_defect c u v k l = gauss_defect c u' v' k l).
    { intros u v u' v' HU HV. unfold gauss_defect, charge_hat. rewrite !HV. f_equal. apply csum_ext; intros s Hs.
      apply (f_equal (cscale _)). unfold number_hat. apply (f_equal (cscale _)). apply csum3_ext; intros. apply HU. }
    assert (G : forall pr : cplx -> R, (forall a b u v, pr (cadd (cscale a u) (cscale b v)) = a * pr u + b * pr v) -> pr c0 = 0 -> forall z,
      z = rk_step (tableau_of m) (coupled (fun t x _ => vec_of (df_hat_value c b (fsol st) t (A x)))
             (fun _ x y => vec_of (dfields_hat_value c (A x) (B y)))) (lt st) (both (vec_of (f_hat st)) (vec_of FH)) dt ->
      pr (gauss_defect c (A (fun i => z (inl i))) (B (fun j => z (inr j))) k l) = pr (gauss_defect c (f_hat st) FH k l)).
    { intros pr PL P0 z ->.
      set (L := fun w : cidx + cidx -> R => pr (gauss_defect c (A (fun i => w (inl i))) (B (fun j => w (inr j))) k l)).
      assert (HL : functional L) by (intros a b' x y; unfold L, A, B, arr_like; rewrite gauss_lin; apply PL).
      set (z := rk_step _ _ _ _ _). change (L z = pr (gauss_defect c (f_hat st) FH k l)). unfold z. rewrite (rk_inv L HL).
      - unfold L. apply (f_equal pr). apply GV; intros; apply arr_vec'.
      - intros t x. unfold L. cbn [coupled both].
        rewrite (GV _ _ (df_hat_value c b (fsol st) t (A (fun i => x (inl i)))) (dfields_hat_value c (A (fun i => x (inl i))) (B (fun j => x (inr j))))).
        + unfold b. rewrite gauss_value; auto.
          * rewrite (check_indep _ _ (f_hat st)). exact CH.
        + intros. apply arr_vec'.
        + intros. apply arr_vec'. }
    apply cplx_eq; [apply (G re)|apply (G im)]; try reflexivity; cbn; intros; ring.
  Qed.
End Num.

(** ** Histories *)
Lemma run_invariant c b steps (P : lstate -> Prop) s s' :
  (forall m dt s s', P s -> lin_timestep m c b dt s = Ok s' -> P s') ->
  P s -> lin_run c b steps s = Ok s' -> P s'.
Proof.
  intros H. revert s. induction steps as [|(m&dt) steps IH]; intros s HP HR; cbn in HR.
  - apply Ok_inj in HR. subst. auto.
  - destruct (lin_timestep m c b dt s) as [s1|e] eqn:E; [|discriminate]. cbn in HR. apply (IH s1); eauto.
Qed.

(** The domain's number of particles is the zero mode. *)
Lemma particles_hat c fh s : lin_ok c -> shaped c fh ->
  particles c (get_dist_func c fh) s = dq1 (ph c) * dq2 (ph c) * (half_N c * re (number_hat c fh s 0 0)).
Proof.
  intros OK D. pose proof OK as (MG&P1&P2&_). unfold particles, number_hat.
  rewrite <- (csum_np (ph c) (fun x => el fh x s 0 0)%Z MG). cbn [re cscale csum fst].
  set (W := w1 _ * _ * _). rewrite !Rmult_assoc. do 2 f_equal. rewrite <- Rmult_assoc, (Rmult_comm (half_N c)), Rmult_assoc. f_equal.
  rewrite (zsum_ext (lN1 c) _ (fun k => zsum (N_p (ph c)) (fun x => zsum (lN2 c) (fun l => el (get_dist_func c fh) x s k l))))
    by (intros; apply zsum_swap).
  rewrite zsum_swap, <- zsum_scal. apply zsum_ext; intros x Hx.
  rewrite <- (dft2_idft2 (lN1 c) (lN2 c) (fun i j => el fh x s i j) 0 0) by lia.
  rewrite dft2_sum. cbn [csum re fst]. rewrite <- zsum_scal. apply zsum_ext; intros k Hk.
  rewrite <- zsum_scal. apply zsum_ext; intros l Hl.
  rewrite get_dist_el by (auto; destruct D as (A&B&C&E); repeat split; auto). f_equal.
  unfold phase. replace (- (2 * PI * 0 * IZR k / IZR (lN1 c) + 2 * PI * 0 * IZR l / IZR (lN2 c))) with 0 by (unfold Rdiv; ring).
  rewrite cis_0. unfold c1, cmul, re. cbn. ring.
Qed.
