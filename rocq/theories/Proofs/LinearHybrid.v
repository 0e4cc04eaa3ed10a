(** Lemmas about the hybrid model of the linear solver. *)
From Coq Require Import ZArith Reals Lra Lia String List Bool FunctionalExtensionality.
From Verif Require Import Base.Prelude Base.ZSum Base.Cplx Model.Af Model.Grid Model.Petsc Model.Config Model.Fft
  Model.Integrators Spec.RungeKutta Model.Moments Model.Linear Model.LinearHybrid
  Spec.Dft Spec.Waves Spec.MomentSpec Spec.LinearSpec Spec.LinearHybrid
  Proofs.AfLemmas Proofs.DftLemmas Proofs.ConvLemmas Proofs.MomentLemmas Proofs.FourierLemmas Proofs.LinearLemmas
  Proofs.LinearStep Proofs.LinearInv Proofs.LinearProps.
Import ListNotations.
Local Open Scope R_scope.

Section C.
  Context (c : lcfg) (OK : lin_ok c) (NS : N_species (ph c) = 1%Z).
  Notation N1 := (lN1 c).
  Notation N2 := (lN2 c).

  Lemma P1 : (0 < N1)%Z. Proof. apply OK. Qed.
  Lemma P2 : (0 < N2)%Z. Proof. apply OK. Qed.

  Lemma mean_all_2 (a : arr R) : dims4 a 1 1 N1 N2 -> mean_all a = mean2 N1 N2 (fun i j => el a 0 0 i j).
  Proof.
    intros (A&B&C&D). unfold mean_all, mean2. rewrite A, B, C, D. rewrite !Rmult_1_l. f_equal. rewrite zsum_swap.
    apply zsum_ext; intros. apply zsum_ext; intros. rewrite !zsum_1. reflexivity.
  Qed.

  Lemma sum_idft (y : Z -> Z -> cplx) : csum N1 (fun i => csum N2 (fun j => idft2 N1 N2 y i j)) = y 0%Z 0%Z.
  Proof.
    pose proof P1. pose proof P2.
    rewrite <- (dft2_idft2 N1 N2 y 0 0) by lia. rewrite dft2_sum. apply csum_ext; intros i Hi. apply csum_ext; intros j Hj.
    replace (- (phase N1 0 i + phase N2 0 j)) with 0 by (unfold phase, Rdiv; ring). rewrite cis_0. ring.
  Qed.

  Lemma mean_from_hat a : dims4 a 1 1 N1 N2 -> mean_all (from_hat c a) = half_N c / (IZR N1 * IZR N2) * re (el a 0 0 0 0)%Z.
  Proof.
    intros D. pose proof D as (A&B&C&E). rewrite mean_all_2 by exact D. unfold mean2.
    rewrite (zsum_ext N1 _ (fun i => zsum N2 (fun j => half_N c * re (idft2 N1 N2 (fun m n => el a 0 0 m n) i j))))
      by (intros; apply zsum_ext; intros; apply from_hat_el; [exact OK|rewrite A, B; exact D]).
    rewrite (zsum_ext N1 _ (fun i => half_N c * zsum N2 (fun j => re (idft2 N1 N2 (fun m n => el a 0 0 m n) i j))))
      by (intros; apply zsum_scal).
    rewrite zsum_scal.
    change (zsum N1 (fun i => zsum N2 (fun j => re (idft2 N1 N2 (fun m n => el a 0 0 m n) i j))))
      with (re (csum N1 (fun i => csum N2 (fun j => idft2 N1 N2 (fun m n => el a 0 0 m n) i j)))).
    rewrite sum_idft. unfold Rdiv. ring.
  Qed.

  Lemma moment_cell name w m fh i j : shaped c fh -> (forall x y z, moment_weight name x y z = Some (w x y z)) ->
    getattr nonrel_moments name = Ok m -> inb N1 i -> inb N2 j ->
    dims4 (from_hat c (moment_of c cplx_scalar m fh)) 1 1 N1 N2
    /\ el (from_hat c (moment_of c cplx_scalar m fh)) 0 0 i j = ion_moment c w (get_dist_func c fh) i j.
  Proof.
    intros D W G Hi Hj. destruct (moments_agree c name w fh OK D W) as (M&M'&Mh&A&_&_&_&_&(DM&EM)).
    unfold lin_compute_moments in A. rewrite G in A. cbn [rbind] in A. injection A as A. rewrite A. rewrite NS in DM.
    split; [exact DM|]. rewrite EM by (unfold inb in *; lia). reflexivity.
  Qed.
  Lemma drift_is name w m fh : shaped c fh -> (forall x y z, moment_weight name x y z = Some (w x y z)) ->
    getattr nonrel_moments name = Ok m -> mean_all (v_real c m fh) = drift c w (get_dist_func c fh).
  Proof.
    intros D W G. pose proof P1. pose proof P2.
    assert (Z : inb N1 0 /\ inb N2 0) by (unfold inb; lia). destruct Z as (Z1&Z2).
    rewrite mean_all_2 by (apply (moment_cell name w m fh 0 0); auto).
    unfold drift, mean2. f_equal. apply zsum_ext; intros i Hi. apply zsum_ext; intros j Hj. unfold v_real, n_real, n_hat. cbn [amap2 el].
    destruct (moment_cell name w m fh i j D W G Hi Hj) as (_&->).
    destruct (moment_cell "density" (fun _ _ _ => 1) density fh i j D ltac:(reflexivity) ltac:(reflexivity) Hi Hj) as (_&->). reflexivity.
  Qed.
  Lemma mean_density_is fh : shaped c fh -> mean_all (n_real c fh) = mean_density c (get_dist_func c fh).
  Proof.
    intros D. pose proof P1. pose proof P2.
    assert (Z : inb N1 0 /\ inb N2 0) by (unfold inb; lia). destruct Z as (Z1&Z2). unfold n_real, n_hat.
    rewrite mean_all_2 by (apply (moment_cell "density" (fun _ _ _ => 1) density fh 0 0 D); auto; reflexivity).
    unfold mean_density, mean2. f_equal. apply zsum_ext; intros i Hi. apply zsum_ext; intros j Hj.
    destruct (moment_cell "density" (fun _ _ _ => 1) density fh i j D ltac:(reflexivity) ltac:(reflexivity) Hi Hj) as (_&->). reflexivity.
  Qed.

  Lemma n_hat_el fh k l : shaped c fh -> mode_in c k l ->
    dims4 (n_hat c fh) 1 1 N1 N2 /\ el (n_hat c fh) 0 0 k l = number_hat c fh 0 k l.
  Proof.
    intros D (Hk&Hl). pose proof OK as (MG&Q1&Q2&_). destruct (p_center_dims (ph c) MG) as (D1&D2&D3).
    destruct (density_weighs cplx_scalar cplx_laws _ _ _ _ Q1 Q2 fh (p1_center (ph c)) (p2_center (ph c)) (p3_center (ph c)) (measure (ph c)) D D1 D2 D3 (measure_dims c)) as (DM&EM).
    fold (moment_of c cplx_scalar Moments.density fh) in *. change (moment_of c cplx_scalar Moments.density fh) with (n_hat c fh) in *.
    split; [rewrite NS in DM; exact DM|]. rewrite EM by (unfold inb; lia). rewrite measure_el. cbn [s_scale s_sum cplx_scalar].
    rewrite csum_np by auto. unfold number_hat. f_equal. apply csum3_ext; intros. cplx_ring.
  Qed.

  (** J has no mean. *)
  Lemma curl_dims F : dims4 F 6 1 N1 N2 -> let '(J1, J2, J3) := curl_B_over_mu c F in
    dims4 J1 1 1 N1 N2 /\ dims4 J2 1 1 N1 N2 /\ dims4 J3 1 1 N1 N2.
  Proof. intros (A&B&C&D). cbn. repeat split; assumption. Qed.
  Lemma curl_mean F : dims4 F 6 1 N1 N2 -> let '(J1, J2, J3) := curl_B_over_mu c F in
    mean_all (from_hat c J1) = 0 /\ mean_all (from_hat c J2) = 0 /\ mean_all (from_hat c J3) = 0.
  Proof.
    intros D. pose proof P1. pose proof P2. pose proof (curl_dims F D) as X. pose proof D as (A&B&C&E). unfold curl_B_over_mu in *. destruct X as (X&Y&Z).
    rewrite !mean_from_hat by assumption.
    destruct (k_el c OK 0 0 ltac:(unfold inb; lia) ltac:(unfold inb; lia)) as (K1&K2). rewrite wave_0 in K1, K2 by lia.
    cbn [csum1 el amap ik amap2 comp d1]. rewrite B. unfold csum. cbn [re fst]. rewrite !zsum_1, K1, K2.
    cbn. split; [|split]; ring.
  Qed.

  Lemma ohm_el Te fh F k l : shaped c fh -> dims4 F 6 1 N1 N2 -> mode_in c k l ->
    let f := get_dist_func c fh in
    let u1 := drift c (fun v _ _ => v) f in
    let u2 := drift c (fun _ v _ => v) f in
    let u3 := drift c (fun _ _ v => v) f in
    let B1 := el F 3 0 k l in let B2 := el F 4 0 k l in let B3 := el F 5 0 k l in
    let push q := cscale (q * Te / mean_density c f) (number_hat c fh 0 k l) in
    let '(E1, E2, E3) := ohm_hat c Te fh F in
    (dims4 E1 1 1 N1 N2 /\ dims4 E2 1 1 N1 N2 /\ dims4 E3 1 1 N1 N2)
    /\ (el E1 0 0 k l, el E2 0 0 k l, el E3 0 0 k l)
    = (csub (copp (csub (cscale u2 B3) (cscale u3 B2))) (push (kx c k)),
       csub (copp (csub (cscale u3 B1) (cscale u1 B3))) (push (ky c l)),
       copp (csub (cscale u1 B2) (cscale u2 B1)))%Z.
  Proof.
    intros D DF M f u1 u2 u3 B1 B2 B3 push. pose proof DF as (A&B&C&E). pose proof M as (Hk&Hl).
    pose proof (curl_mean F DF) as X. unfold ohm_hat. destruct (curl_B_over_mu c F) as ((J1&J2)&J3). destruct X as (X&Y&Z).
    rewrite X, Y, Z. rewrite (drift_is "mom_v1_bulk" (fun v _ _ => v) mom_v1_bulk fh) by (auto; reflexivity).
    rewrite (drift_is "mom_v2_bulk" (fun _ v _ => v) mom_v2_bulk fh) by (auto; reflexivity).
    rewrite (drift_is "mom_v3_bulk" (fun _ _ v => v) mom_v3_bulk fh) by (auto; reflexivity).
    rewrite mean_density_is by auto. fold f u1 u2 u3. set (n0 := mean_density c f) in *.
    split; [repeat split; assumption|]. destruct (n_hat_el fh k l D M) as (_&EN).
    destruct (k_el c OK k l Hk Hl) as (K1&K2). fold (kx c k) in K1. fold (ky c l) in K2.
    cbn [amap2 amap el comp bcast2]. rewrite K1, K2, EN. unfold bel. cbn [d0 d1 d2 d3 comp amap2 amap el].
    rewrite B, C, E. unfold per_species; cbn [d0 d1 d2 d3 el]. rewrite NS, !bidx_1. rewrite (bidx_in N1 k), (bidx_in N2 l) by assumption.
    fold B1 B2 B3. unfold push. generalize (number_hat c fh 0 k l) (nth (Z.to_nat 0) (map Rinv (charge c)) 0). clearbody n0 u1 u2 u3 B1 B2 B3. clear.
    intros z q. f_equal; [f_equal|]; cplx_ring; unfold Rdiv; ring.
  Qed.

  Lemma cold_ohm fh F k l : shaped c fh -> dims4 F 6 1 N1 N2 -> mode_in c k l ->
    let '(E1, E2, E3) := ohm_hat c 0 fh F in (el E1 0 0 k l, el E2 0 0 k l, el E3 0 0 k l)%Z = linear_ohm c 0 fh F k l.
  Proof.
    intros D DF M. pose proof (ohm_el 0 fh F k l D DF M) as H. cbv zeta in H. destruct (ohm_hat c 0 fh F) as ((E1&E2)&E3). destruct H as (_&->).
    unfold linear_ohm. generalize (number_hat c fh 0 k l). intros z. f_equal. f_equal; cplx_ring; unfold Rdiv; ring.
  Qed.

  (** Fields that are odd in the wave number have no real part. *)
  Lemma re_odd (y : Z -> Z -> cplx) i j :
    (forall k l, inb N1 k -> inb N2 l -> y (negm N1 k) (negm N2 l) = copp (cconj (y k l))) ->
    inb N1 i -> inb N2 j -> re (idft2 N1 N2 y i j) = 0.
  Proof.
    intros H Hi Hj. pose proof P1 as Q1. pose proof P2 as Q2.
    assert (Z : RtoC (re (idft2 N1 N2 y i j)) = c0).
    { rewrite <- (idft2_dft2 N1 N2 (fun a b => RtoC (re (idft2 N1 N2 y a b))) i j) by auto.
      rewrite (idft2_ext N1 N2 _ (fun _ _ => c0)).
      - rewrite idft2_sum by auto.
        transitivity (cscale (/ (IZR N1 * IZR N2)) (csum N1 (fun _ => c0))); [|rewrite csum_zero; cplx_ring].
        f_equal. apply csum_ext. intros a Ha. transitivity (csum N2 (fun _ => c0)); [|apply csum_zero].
        apply csum_ext. intros. ring.
      - intros k l Hk Hl. rewrite dft2_re by auto. rewrite !dft2_idft2 by (auto; apply negm_in; auto).
        rewrite H by auto. generalize (y k l). intros z. cplx_ring. }
    injection Z as Z. exact Z.
  Qed.
  Lemma odd_mode N k : Z.odd N = true -> inb N k -> signed_mode N (negm N k) = (- signed_mode N k)%Z.
  Proof. intros O Hk. apply negm_neg; [exact Hk|]. intros E. rewrite <- E, Z.odd_mul in O. discriminate. Qed.
  Lemma wave_odd N d k : Z.odd N = true -> inb N k -> wavenumber N d (negm N k) = - wavenumber N d k.
  Proof. intros O Hk. unfold wavenumber. rewrite odd_mode by auto. rewrite opp_IZR. unfold Rdiv. ring. Qed.

  Lemma number_conj f k l : dims4 f (N_p (ph c)) (N_species (ph c)) N1 N2 -> inb N1 k -> inb N2 l ->
    number_hat c (to_hat c (amap RtoC f)) 0 (negm N1 k) (negm N2 l) = cconj (number_hat c (to_hat c (amap RtoC f)) 0 k l).
  Proof.
    intros D Hk Hl. pose proof P1 as Q1. pose proof P2 as Q2. pose proof D as (A&B&C&E).
    unfold number_hat. set (W := w1 _ * _ * _). clearbody W.
    assert (T : forall z, cconj (cscale W z) = cscale W (cconj z)) by (intros; cplx_ring). rewrite T. f_equal.
    unfold csum3. rewrite conj_sum. apply csum_ext; intros i3 H3. rewrite conj_sum. apply csum_ext; intros i2 H2.
    rewrite conj_sum. apply csum_ext; intros i1 H1.
    rewrite !to_hat_el by (repeat split; assumption). cbn [amap el]. rewrite dft2_real by auto.
    generalize (2 / (IZR N1 * IZR N2)). generalize (dft2 N1 N2 (fun a b => RtoC (el f (i1 + N_p1 (ph c) * (i2 + N_p2 (ph c) * i3))%Z 0%Z a b)) k l).
    intros. cplx_ring.
  Qed.

  Lemma pressure_invisible Te f F : Z.odd N1 = true -> Z.odd N2 = true ->
    dims4 f (N_p (ph c)) (N_species (ph c)) N1 N2 -> dims4 F 6 1 N1 N2 ->
    let fh := to_hat c (amap RtoC f) in
    forall i j, inb N1 i -> inb N2 j ->
    let '(E1, E2, E3) := solver_E c Te fh F in let '(E1', E2', E3') := solver_E c 0 fh F in
    (el E1 0 0 i j = el E1' 0 0 i j /\ el E2 0 0 i j = el E2' 0 0 i j /\ el E3 0 0 i j = el E3' 0 0 i j)%Z.
  Proof.
    intros O1 O2 D DF fh i j Hi Hj. pose proof P1 as Q1. pose proof P2 as Q2.
    assert (DH : shaped c fh) by exact D.
    pose proof (fun k l => ohm_el Te fh F k l DH DF) as H. pose proof (fun k l => ohm_el 0 fh F k l DH DF) as H'. cbv zeta in H, H'.
    unfold solver_E. destruct (ohm_hat c Te fh F) as ((E1&E2)&E3). destruct (ohm_hat c 0 fh F) as ((E1'&E2')&E3').
    destruct (H 0 0)%Z as ((D1&D2&D3)&_); [unfold mode_in; lia|]. destruct (H' 0 0)%Z as ((D1'&D2'&D3')&_); [unfold mode_in; lia|].
    assert (G : forall (E E' : arr cplx) (y : Z -> Z -> cplx), dims4 E 1 1 N1 N2 -> dims4 E' 1 1 N1 N2 ->
      (forall k l, inb N1 k -> inb N2 l -> el E 0 0 k l = csub (el E' 0 0 k l) (y k l))%Z ->
      (forall k l, inb N1 k -> inb N2 l -> y (negm N1 k) (negm N2 l) = copp (cconj (y k l))) ->
      (el (from_hat c E) 0 0 i j = el (from_hat c E') 0 0 i j)%Z).
    { intros E E' y DE DE' EQ OD. pose proof DE as (A1&A2&A3&A4). pose proof DE' as (B1&B2&B3&B4).
      rewrite !from_hat_el by (rewrite ?A1, ?A2, ?B1, ?B2; assumption).
      rewrite (idft2_ext N1 N2 (fun m n => el E 0 0 m n) (fun m n => cadd (cmul c1 (el E' 0 0 m n)) (cmul (copp c1) (y m n))))%Z
        by (intros; rewrite EQ by auto; ring).
      rewrite (idft2_linear N1 N2 c1 (copp c1) (fun m n => el E' 0%Z 0%Z m n) y). pose proof (re_odd y i j OD Hi Hj) as Z. revert Z.
      generalize (idft2 N1 N2 y i j). generalize (idft2 N1 N2 (fun m n => el E' 0 0 m n) i j). intros (z1&z2) (w1'&w2'). unfold cadd, cmul, copp, c1, re, im; cbn [fst snd]. intros ->. ring. }
    set (n0 := mean_density c (get_dist_func c fh)) in *.
    split; [|split].
    - apply (G E1 E1' (fun k l => cscale (kx c k * Te / n0) (number_hat c fh 0 k l))); auto.
      + intros k l Hk Hl. destruct (H k l (conj Hk Hl)) as (_&X). destruct (H' k l (conj Hk Hl)) as (_&X').
        injection X as X _ _. injection X' as X' _ _. rewrite X, X'. generalize (number_hat c fh 0 k l). intros. cplx_ring; unfold Rdiv; ring.
      + intros k l Hk Hl. unfold fh. rewrite number_conj by auto. unfold kx. rewrite wave_odd by auto.
        generalize (number_hat c (to_hat c (amap RtoC f)) 0 k l). intros. cplx_ring; unfold Rdiv; ring.
    - apply (G E2 E2' (fun k l => cscale (ky c l * Te / n0) (number_hat c fh 0 k l))); auto.
      + intros k l Hk Hl. destruct (H k l (conj Hk Hl)) as (_&X). destruct (H' k l (conj Hk Hl)) as (_&X').
        injection X as _ X _. injection X' as _ X' _. rewrite X, X'. generalize (number_hat c fh 0 k l). intros. cplx_ring; unfold Rdiv; ring.
      + intros k l Hk Hl. unfold fh. rewrite number_conj by auto. unfold ky. rewrite wave_odd by auto.
        generalize (number_hat c (to_hat c (amap RtoC f)) 0 k l). intros. cplx_ring; unfold Rdiv; ring.
    - apply (G E3 E3' (fun _ _ => c0)); auto.
      + intros k l Hk Hl. destruct (H k l (conj Hk Hl)) as (_&X). destruct (H' k l (conj Hk Hl)) as (_&X').
        injection X as _ _ X. injection X' as _ _ X'. rewrite X, X'. generalize (el F 4 0 k l) (el F 3 0 k l). intros. cplx_ring.
      + intros. cplx_ring.
  Qed.
End C.
