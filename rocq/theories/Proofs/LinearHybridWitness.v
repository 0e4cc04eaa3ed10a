(** Hybrid plasmas of the linear solver that disagree with what is expected: three
    cells, all ions with one velocity. *)
From Coq Require Import ZArith Reals Lra Lia String List Bool FunctionalExtensionality.
From Verif Require Import Base.Prelude Base.ZSum Base.Cplx Model.Af Model.Grid Model.Petsc Model.Config Model.Fft
  Model.Integrators Spec.RungeKutta Model.Moments Model.Linear Model.LinearHybrid
  Spec.Dft Spec.Waves Spec.MomentSpec Spec.LinearSpec Spec.LinearHybrid
  Proofs.AfLemmas Proofs.DftLemmas Proofs.ConvLemmas Proofs.MomentLemmas Proofs.FourierLemmas Proofs.LinearLemmas
  Proofs.LinearStep Proofs.LinearInv Proofs.LinearProps Proofs.LinearWitness Proofs.LinearHybrid Proofs.LinearHybridRun.
Import ListNotations.
Local Open Scope R_scope.

(** The momentum axis has one cell of width 1 about [v]; [g]: the density; [B]: B3. *)
Definition beam_f (g : Z -> R) : arr R := Arr 1 1 3 1 (fun _ _ i _ => g i).
Definition beam (v : R) (g : Z -> R) (B : R -> R) : lcfg :=
  LCfg (w_ph 3 1 1 1 1 [v - 1 / 2] [1] true periodic_box) [1] [1] 1 1 "electrodynamic" "fft + user-defined magnetic fields" false
    (fun s t q1 q2 p1 p2 p3 e1 e2 e3 b1 b2 b3 => (e1, e2, e3)) (fun f _ _ => f) (beam_f g)
    ((fun _ _ => 0), (fun _ _ => 0), (fun _ _ => 0)) (InitB (fun _ _ => 0) (fun _ _ => 0) (fun x _ => B x)).

Section B.
  Context (v : R) (g : Z -> R) (B : R -> R).
  Notation c := (beam v g B).
  Notation b := (make_background c (beam_f g)).
  Lemma beam_hyb : hybrid_lin c.
  Proof. unfold hybrid_lin, lin_ok, momentum_grid_ok, lN1, lN2. cbn. repeat split; lia || lra. Qed.
  Let OK : lin_ok c := proj1 beam_hyb.
  Lemma in3 k : (0 <= k < 3)%Z -> mode_in c k 0 /\ inb (lN1 c) k /\ inb (lN2 c) 0.
  Proof. intros. unfold mode_in, inb, lN1, lN2. cbn. lia. Qed.
  Lemma ky0 : ky c 0 = 0.
  Proof. apply wave_0. cbn. lia. Qed.

  Lemma beam_dfdp : el (dfdp1 b) 0 0 0 0 = 0 /\ el (dfdp2 b) 0 0 0 0 = 0 /\ el (dfdp3 b) 0 0 0 0 = 0.
  Proof.
    assert (E : forall axis dp, el (dfdp_background c axis dp (f_background c (beam_f g))) 0 0 0 0 = 0).
    { intros. assert (H : forall n i, (0 <= i < n)%Z -> inb n i) by (unfold inb; lia).
      etransitivity; [apply (dfdp_el c OK axis dp (f_background c (beam_f g)) 0 0 0 0); apply H; cbn; lia|].
      set (a := moddims _ _ _ _ _). unfold stencil4r.
      assert (S : forall d, el (shift_axis axis a d) 0 0 0 0 = el a 0 0 0 0).
      { intros d. destruct axis as [|[|]]; cbn [shift_axis shift el]; change (d0 a) with 1%Z; change (d1 a) with 1%Z; change (d2 a) with 1%Z; change (d3 a) with 1%Z;
          rewrite !Z.mod_1_r; reflexivity. }
      cbn [amap2 amap el]. rewrite !S. generalize (el a 0 0 0 0) (/ (12 * nth (Z.to_nat 0) dp 0)). intros. lra. }
    repeat split; apply E.
  Qed.
  Lemma beam_ddelta axis dp fh k : (0 <= k < 3)%Z -> el (ddelta_f_dp c axis dp fh) 0 0 k 0 = c0.
  Proof.
    intros Hk. assert (H : forall n i, (0 <= i < n)%Z -> inb n i) by (unfold inb; lia).
    etransitivity; [apply (ddelta_el c OK axis dp fh 0 0 0 0 k 0); try (apply H; cbn; lia); apply check_iff; [exact OK|left; reflexivity]|].
    set (a := moddims _ _ _ _ _). set (w := wid c 0 k 0).
    assert (W : (0 <= w < 3)%Z).
    { unfold w, wid. change (N_species (ph c)) with 1%Z. change (lN1 c) with 3%Z. lia. }
    unfold stencil4.
    assert (S : forall d, el (shift_axis axis a d) 0 0 0 w = el a 0 0 0 w).
    { intros d. destruct axis as [|[|]]; cbn [shift_axis shift el]; change (d0 a) with 1%Z; change (d1 a) with 1%Z; change (d2 a) with 1%Z; change (d3 a) with 3%Z;
        rewrite !Z.mod_1_r, Z.mod_small by lia; f_equal; lia. }
    cbn [amap2 amap el]. rewrite !S. generalize (el a 0 0 0 w). intros. cplx_ring.
  Qed.
  Lemma beam_p1 : el (p1_center (ph c)) 0 0 0 0 = v.
  Proof.
    assert (H : forall n i, (0 <= i < n)%Z -> inb n i) by (unfold inb; lia).
    destruct (center_el c 0 0 0 0) as (A&_&_); try (apply H; cbn; lia).
    etransitivity; [exact A|]. unfold v_of. cbn. lra.
  Qed.
  Lemma beam_df F t fh k : (0 <= k < 3)%Z -> el (df_hat_value c b F t fh) 0 0 k 0 = cmul (cscale (kx c k * v) (copp ci)) (el fh 0 0 k 0).
  Proof.
    intros Hk. destruct (in3 k Hk) as (_&Ik&Il). destruct (k_el c OK k 0 Ik Il) as (K1&K2). fold (kx c k) in K1. fold (ky c 0) in K2. rewrite ky0 in K2.
    unfold df_hat_value. change (source_enabled (ph c)) with false. change (fields_enabled (ph c)) with true.
    change (fields_seen c F fh) with (Ok F : res fields). cbn iota. cbn [amap2 el].
    assert (MB : el (mean_B_term c F fh) 0 0 k 0 = c0).
    { unfold mean_B_term. cbn [el]. rewrite !beam_ddelta by exact Hk.
      generalize (el (fields_hat F) 3 0 0 0)%Z (el (fields_hat F) 4 0 0 0)%Z (el (fields_hat F) 5 0 0 0)%Z.
      generalize (el (p1_center (ph c)) 0 0 0 0) (el (p2_center (ph c)) 0 0 0 0) (el (p3_center (ph c)) 0 0 0 0).
      generalize (nth (Z.to_nat 0) (charge c) 0 / nth (Z.to_nat 0) (mass c) 0). clear. intros. cplx_ring. }
    assert (FT : el (fields_term c b t F fh) 0 0 k 0 = c0).
    { unfold fields_term. cbn [el]. destruct (lA_p c _ _ _ _ _ _ _ _ _ _ _ _ _) as ((a1&a2)&a3). destruct beam_dfdp as (-> & -> & ->).
      generalize a1 a2 a3. clear. intros. cplx_ring. }
    rewrite MB, FT. cbn [free_streaming el]. rewrite beam_p1.
    change (A_q (ph c)) with (fun (_ : Z) (_ _ _ v1 v2 _ : R) => (v1, v2)). cbv beta iota. rewrite K1, K2.
    generalize (kx c k) (el fh 0 0 k 0) (el (p2_center (ph c)) 0 0 0 0). clear. intros. cplx_ring.
  Qed.

  Lemma beam_number fh k : number_hat c fh 0 k 0 = el fh 0 0 k 0.
  Proof.
    unfold number_hat, csum3. change (N_p1 (ph c)) with 1%Z. change (N_p2 (ph c)) with 1%Z. change (N_p3 (ph c)) with 1%Z. rewrite !csum_one.
    cbn [Z.add Z.mul]. change (w1 (species_grid (ph c) 0)) with 1. change (w2 (species_grid (ph c) 0)) with 1. change (w3 (species_grid (ph c) 0)) with 1.
    generalize (el fh 0 0 k 0). clear. intros. cplx_ring.
  Qed.
  Lemma beam_moment w f i j : ion_moment c w f i j = w v 0 0 * el f 0 0 i j.
  Proof.
    unfold ion_moment, integral. change (mn1 (species_grid (ph c) 0)) with 1%Z. change (mn2 (species_grid (ph c) 0)) with 1%Z. change (mn3 (species_grid (ph c) 0)) with 1%Z.
    rewrite !zsum_1. cbn [species_grid w1 w2 w3 lo1 lo2 lo3 ph c w_ph p1_start p2_start p3_start dp1 dp2 dp3 map nth Z.to_nat N_p1 N_p2 Z.add Z.mul beam].
    unfold v_of. replace (v - 1 / 2 + (1 / 2 + 0) * 1) with v by lra. replace (- (1 / 2) + (1 / 2 + 0) * 1) with 0 by lra. ring.
  Qed.
  Lemma beam_drift w f : (forall i, (0 <= i < 3)%Z -> el f 0 0 i 0 <> 0) -> drift c w f = w v 0 0.
  Proof.
    intros N. unfold drift, mean2, ion_density. change (lN1 c) with 3%Z. change (lN2 c) with 1%Z.
    rewrite (zsum_ext 3 _ (fun _ => w v 0 0)).
    - rewrite (zsum_succ 2), (zsum_succ 1), zsum_1 by lia. lra.
    - intros i Hi. rewrite zsum_1, !beam_moment. field. apply N. exact Hi.
  Qed.

  (** Anything that agrees with the initial transform on the grid is the transform of g. *)
  Lemma beam_dist fh i : shaped c fh -> (forall k, (0 <= k < 3)%Z -> el fh 0 0 k 0 = el (to_hat c (amap RtoC (beam_f g))) 0 0 k 0) ->
    (0 <= i < 3)%Z -> el (get_dist_func c fh) 0 0 i 0 = g i.
  Proof.
    intros SH E Hi. destruct (in3 i Hi) as (_&Ii&Il).
    transitivity (el (get_dist_func c (to_hat c (amap RtoC (beam_f g)))) 0 0 i 0).
    - rewrite (get_dist_el c OK fh) by (destruct SH as (A&B'&C&D); repeat split; assumption || reflexivity).
      rewrite (get_dist_el c OK (to_hat c (amap RtoC (beam_f g)))) by (repeat split). do 2 f_equal. apply idft2_ext. intros m n Hm Hn.
      change (lN1 c) with 3%Z in Hm. change (lN2 c) with 1%Z in Hn. assert (n = 0)%Z by (unfold inb in *; lia). subst n. rewrite E by (unfold inb in *; lia). reflexivity.
    - rewrite (dist_hat c OK (beam_f g)) by (auto; repeat split). reflexivity.
  Qed.

  Lemma beam_start : exists s, linear_solver c = Ok (b, s) /\ f_hat s = to_hat c (amap RtoC (beam_f g)) /\ lin_state_ok c s /\ lin_fields_ok c s
    /\ (forall k, el (fields_hat (fsol s)) 3 0 k 0 = c0 /\ el (fields_hat (fsol s)) 4 0 k 0 = c0)%Z
    /\ (forall k, el (fields_hat (fsol s)) 5 0 k 0 = el (to_hat c (on_cells c (fun x _ => B x))) 0 0 k 0)%Z.
  Proof.
    destruct (linear_solver c) as [(b'&s)|e] eqn:H; [|discriminate H]. exists s.
    destruct (solver_inv c b' s H) as (_&Eb&FH&_&FI). split; [rewrite Eb; reflexivity|]. split; [exact FH|].
    split; [unfold lin_state_ok; rewrite FH; repeat split|].
    unfold initialize_fields in FI. change (String.eqb (fields_initialize c) "user-defined") with false in FI.
    change (String.eqb (fields_initialize c) "fft + user-defined magnetic fields") with true in FI. cbn iota in FI.
    unfold initialize_magnetic_fields in FI. change (init_B c) with (InitB (fun _ _ => 0) (fun _ _ => 0) (fun x _ => B x)) in FI. cbn [rbind] in FI.
    apply Ok_inj in FI. unfold lin_fields_ok. cbv zeta. rewrite <- FI. cbn [fields_hat E1h E2h E3h B1h B2h B3h]. clear FI H FH.
    set (F0 := compute_electrostatic_fields c _ _).
    assert (Z : forall k, el (to_hat c (on_cells c (fun _ _ => 0))) 0 0 k 0 = c0).
    { intros. rewrite to_hat_el by (repeat split). rewrite dft2_sum. cbn [on_cells el].
      rewrite (csum_ext _ _ (fun _ => c0)) by (intros; rewrite (csum_ext _ _ (fun _ => c0)) by (intros; cplx_ring); apply csum_zero).
      rewrite csum_zero. cplx_ring. }
    assert (D : d0 (E1h F0) = 1%Z /\ d0 (E2h F0) = 1%Z /\ d0 (E3h F0) = 1%Z) by (repeat split).
    split; [repeat split|]. destruct D as (A1&A2&A3).
    assert (J : forall k, _) by (intros k; exact (join6_el (E1h F0) (E2h F0) (E3h F0) (to_hat c (on_cells c (fun _ _ => 0)))
      (to_hat c (on_cells c (fun _ _ => 0))) (to_hat c (on_cells c (fun x _ => B x))) k 0 A1 A2 A3 eq_refl eq_refl eq_refl)).
    split; intros k; destruct (J k) as (_&_&_&J3&J4&J5); [split; [rewrite J3|rewrite J4]; apply Z|exact J5].
  Qed.
End B.

(** The transforms that are needed. *)
Lemma dft3 (x : Z -> Z -> cplx) : re (dft2 3 1 x 1 0) = re (x 0 0)%Z - (re (x 1 0)%Z + re (x 2 0)%Z) / 2 + sqrt 3 / 2 * (im (x 1 0)%Z - im (x 2 0)%Z).
Proof.
  rewrite dft2_sum. cbn [csum re fst]. rewrite !(zsum_succ 2), !(zsum_succ 1), !zsum_1 by lia.
  unfold phase. change (0 + 1)%Z with 1%Z. change (1 + 1)%Z with 2%Z.
  replace (- (2 * PI * 1 * 0 / 3 + 2 * PI * 0 * 0 / 1)) with 0 by field.
  replace (- (2 * PI * 1 * 1 / 3 + 2 * PI * 0 * 0 / 1)) with (- (2 * (PI / 3))) by field.
  replace (- (2 * PI * 1 * 2 / 3 + 2 * PI * 0 * 0 / 1)) with (2 * (PI / 3) - 2 * PI) by field.
  unfold cis. rewrite cos_0, sin_0, cos_neg, sin_neg, cos_minus, sin_minus, cos_2PI, sin_2PI.
  replace (2 * (PI / 3)) with (2 * PI / 3) by field.
  assert (C : cos (2 * PI / 3) = -1 / 2).
  { replace (2 * PI / 3) with (2 * (PI / 3)) by field. rewrite cos_2a, cos_PI3, sin_PI3.
    assert (sqrt 3 * sqrt 3 = 3) by (apply sqrt_sqrt; lra). nra. }
  assert (S : sin (2 * PI / 3) = sqrt 3 / 2).
  { replace (2 * PI / 3) with (2 * (PI / 3)) by field. rewrite sin_2a, cos_PI3, sin_PI3. field. }
  rewrite C, S. destruct (x 0%Z 0%Z), (x 1%Z 0%Z), (x 2%Z 0%Z). cbn [cmul re im fst snd]. field.
Qed.

Lemma zero_sum a : cadd c0 (cscale a c0) = c0. Proof. cplx_ring. Qed.
Lemma plus_zero z a : cadd z (cscale a c0) = z. Proof. destruct z. cplx_ring. Qed.
Lemma mul_zero z : cmul z c0 = c0. Proof. cplx_ring. Qed.
Lemma mul_zero' z : cmul c0 z = c0. Proof. cplx_ring. Qed.
Lemma scale_zero z : cscale 0 z = c0. Proof. cplx_ring. Qed.
Lemma zero_mul z : cmul (RtoC 0) z = c0. Proof. cplx_ring. Qed.
Lemma zero_scale a : cscale a c0 = c0. Proof. cplx_ring. Qed.
(** The transform of nothing. *)
Lemma nothing c k l : lin_ok c -> el (to_hat c (on_cells c (fun _ _ => 0))) 0 0 k l = c0.
Proof.
  intros OK. rewrite to_hat_el by (repeat split). rewrite dft2_sum. cbn [on_cells el].
  rewrite (csum_ext _ _ (fun _ => c0)) by (intros; rewrite (csum_ext _ _ (fun _ => c0)) by (intros; apply zero_mul); apply csum_zero).
  rewrite csum_zero. apply zero_scale.
Qed.

(** ** The pressure of the electrons *)
Definition heap (k : Z) : R := if (k =? 0)%Z then 2 else 1.
Lemma pressure_wrong : exists c b s s', linear_solver c = Ok (b, s) /\ hybrid_lin c /\ no_B c (fields_hat (fsol s))
  /\ lin_timestep_hybrid RK2_ c 1 b 1 s = Ok s'
  /\ (forall x sp i j, (0 <= x < N_p (ph c))%Z -> sp = 0%Z -> (0 <= i < lN1 c)%Z -> (0 <= j < lN2 c)%Z -> el (get_dist_func c (f_hat s')) x sp i j = el (init_f c) x sp i j)
  /\ E_mode (fields_hat (fsol s')) 1 0 <> linear_ohm c 1 (f_hat s') (fields_hat (fsol s')) 1 0.
Proof.
  set (c := beam 0 heap (fun _ => 0)). assert (HL : hybrid_lin c) by apply beam_hyb.
  destruct (beam_start 0 heap (fun _ => 0)) as (s&H&FH&SO&FO&B34&B5). set (b := make_background (beam 0 heap (fun _ => 0)) (beam_f heap)) in *. fold c in H, FH, SO, FO, B34, B5.
  destruct (hybrid_step_ok RK2_ c 1 b 1 s HL) as (s'&HS).
  destruct (in3 0 heap (fun _ => 0) 1 ltac:(lia)) as (M&_&_).
  destruct (RK2_E c 1 b 1 s s' 1 0 HL eq_refl SO FO HS M) as (f&F&(DF&DB&EF&EB)&E&(SD&_)&(G&t&EF')&_).
  assert (NB : no_B c (fields_hat (fsol s))).
  { intros i k l Hi (Mk&Ml). change (lN2 c) with 1%Z in Ml. assert (l = 0)%Z by lia. subst l.
    assert (Q : (i = 3 \/ i = 4 \/ i = 5)%Z) by lia. destruct (B34 k) as (B3&B4). destruct Q as [->|[->| ->]]; auto.
    rewrite B5. apply nothing. exact (proj1 HL). }
  assert (NB' : no_B c (fields_hat (fsol s'))) by exact (proj1 (hybrid_step_no_B RK2_ c 1 b 1 s s' HL FO NB HS)).
  assert (DF0 : forall F t fh k, (0 <= k < 3)%Z -> el (df_hat_value c b F t fh) 0 0 k 0 = c0).
  { intros F1 t1 fh k Hk. etransitivity; [exact (beam_df 0 heap (fun _ => 0) F1 t1 fh k Hk)|]. fold c. generalize (kx c k) (el fh 0 0 k 0). clear. intros. cplx_ring. }
  assert (Ef : forall k, (0 <= k < 3)%Z -> el f 0 0 k 0 = el (f_hat s) 0 0 k 0).
  { intros k Hk. rewrite EF, DF0 by exact Hk. generalize (el (f_hat s) 0 0 k 0). clear. intros. cplx_ring. }
  assert (Ef' : forall k, (0 <= k < 3)%Z -> el (f_hat s') 0 0 k 0 = el (f_hat s) 0 0 k 0).
  { intros k Hk. rewrite EF', DF0 by exact Hk. generalize (el (f_hat s) 0 0 k 0). clear. intros. cplx_ring. }
  assert (SH : shaped c f) by (destruct SO as (A&B&C&D); destruct DF as (A'&B'&C'&D'); repeat split; congruence).
  assert (SH' : shaped c (f_hat s')) by (destruct SO as (A&B&C&D); destruct SD as (A'&B'&C'&D'); repeat split; congruence).
  assert (Gf : forall i, (0 <= i < 3)%Z -> el (get_dist_func c f) 0 0 i 0 = heap i) by (intros; apply beam_dist; auto; intros; rewrite Ef, FH by auto; reflexivity).
  assert (Gf' : forall i, (0 <= i < 3)%Z -> el (get_dist_func c (f_hat s')) 0 0 i 0 = heap i) by (intros; apply beam_dist; auto; intros; rewrite Ef', FH by auto; reflexivity).
  exists c, b, s, s'. split; [exact H|]. split; [exact HL|]. split; [exact NB|]. split; [exact HS|]. split.
  { intros x sp i j Hx -> Hi Hj. change (N_p (ph c)) with 1%Z in Hx. change (lN1 c) with 3%Z in Hi. change (lN2 c) with 1%Z in Hj.
    assert (x = 0 /\ j = 0)%Z as (->&->) by lia. rewrite Gf' by exact Hi. reflexivity. }
  rewrite E. destruct HL as (OK&NS&_&_). pose proof (ohm_el c OK NS 1 f F 1 0 SH DB M) as OE. cbv zeta in OE.
  unfold ohm1, ohm2, ohm3. destruct (ohm_hat c 1 f F) as ((E1&E2)&E3). cbn [fst snd]. destruct OE as (_&OE). rewrite OE. clear OE.
  assert (MD : forall fh, (forall i, (0 <= i < 3)%Z -> el (get_dist_func c fh) 0 0 i 0 = heap i) -> mean_density c (get_dist_func c fh) = 4 / 3).
  { intros fh Hf. unfold mean_density, mean2. change (lN1 c) with 3%Z. change (lN2 c) with 1%Z.
    rewrite !(zsum_succ 2), !(zsum_succ 1), !zsum_1 by lia. unfold ion_density, c. rewrite !beam_moment. fold c. rewrite !Hf by lia. cbn. lra. }
  assert (ZF : forall i, (3 <= i < 6)%Z -> el F i 0 1 0 = c0).
  { intros i Hi. rewrite EB by exact Hi. rewrite NB by auto. rewrite (slope_no_B c 1 (f_hat s) (fields_hat (fsol s)) NB FO i 1 0 Hi M). apply zero_sum. }
  unfold linear_ohm. rewrite !MD by assumption. rewrite !ZF, !NB' by (lia || exact M).
  assert (NH : forall fh, number_hat c fh 0 1 0 = el fh 0 0 1 0) by (intros; exact (beam_number 0 heap (fun _ => 0) fh 1)).
  rewrite !NH, Ef, Ef' by lia.
  assert (NZ : re (el (f_hat s) 0 0 1 0) = 2 / 3).
  { rewrite FH, to_hat_el by (repeat split). cbn [cscale re fst]. change (lN1 c) with 3%Z. change (lN2 c) with 1%Z. rewrite dft3. cbn. lra. }
  assert (KX : kx c 1 <> 0).
  { unfold kx, wavenumber. change (signed_mode (lN1 c) 1) with 1%Z. change (lN1 c) with 3%Z. change (dq1 (ph c)) with 1. pose proof PI_RGT_0. lra. }
  change (nth 0 (charge c) 0) with 1. intros X.
  pose proof (f_equal (fun z => re (fst (fst z))) X) as X1. apply (f_equal (fun z => im (fst (fst z)))) in X.
  revert X X1 NZ. generalize (el (f_hat s) 0 0 1 0).
  generalize dependent (kx c 1). clear. intros k K (x&y) X X1 NZ. cbn in X, X1, NZ. subst x.
  rewrite !Rmult_0_r in X, X1. apply K. lra.
Qed.

(** ** The electric field is half a step late *)
Definition wave3 (x : R) : R := cos (2 * PI * x / 3).
Lemma E_late : exists c b s s', linear_solver c = Ok (b, s) /\ hybrid_lin c /\ lin_state_ok c s /\ lin_fields_ok c s
  /\ lin_timestep_hybrid RK2_ c 0 b 1 s = Ok s'
  /\ E_mode (fields_hat (fsol s')) 1 0 <> linear_ohm c 0 (f_hat s') (fields_hat (fsol s')) 1 0.
Proof.
  set (one := fun _ : Z => 1). set (c := beam 1 one wave3). assert (HL : hybrid_lin c) by apply beam_hyb.
  destruct (beam_start 1 one wave3) as (s&H&FH&SO&FO&B34&B5). set (b := make_background (beam 1 one wave3) (beam_f one)) in *. fold c in H, FH, SO, FO, B34, B5.
  destruct (hybrid_step_ok RK2_ c 0 b 1 s HL) as (s'&HS).
  destruct (in3 1 one wave3 1 ltac:(lia)) as (M&I1&I2). fold c in M, I1, I2.
  destruct (RK2_E c 0 b 1 s s' 1 0 HL eq_refl SO FO HS M) as (f&F&(DF&DB&EF&EB)&E&(SD&SD')&(G&t&EF')&EB').
  pose proof HL as (OK&NS&_&_).
  (* the density is uniform *)
  assert (U : forall k, (0 < k < 3)%Z -> el (f_hat s) 0 0 k 0 = c0).
  { intros k Hk. rewrite FH, to_hat_el by (repeat split). change (lN1 c) with 3%Z. change (lN2 c) with 1%Z. rewrite dft2_sum.
    rewrite (csum_ext 3 _ (fun n => cis (2 * PI * IZR (- k) * IZR n / IZR 3))).
    - rewrite roots by lia. apply zero_scale.
    - intros n Hn. rewrite csum_one. cbn [amap beam_f el one]. unfold one. rewrite opp_IZR. change (RtoC 1) with c1.
      replace (- (phase 3 k n + phase 1 0 0)) with (2 * PI * - IZR k * IZR n / 3) by (unfold phase; field). ring. }
  assert (DF0 : forall F t fh k, (0 <= k < 3)%Z -> ((0 < k)%Z -> el fh 0 0 k 0 = c0) -> el (df_hat_value c b F t fh) 0 0 k 0 = c0).
  { intros F1 t1 fh k Hk Z0. etransitivity; [exact (beam_df 1 one wave3 F1 t1 fh k Hk)|]. fold c.
    destruct (Z.eq_dec k 0) as [->|]; [|rewrite Z0 by lia; apply mul_zero].
    replace (kx c 0) with 0 by (symmetry; apply wave_0; reflexivity). rewrite Rmult_0_l, scale_zero. apply mul_zero'. }
  assert (Ef : forall k, (0 <= k < 3)%Z -> el f 0 0 k 0 = el (f_hat s) 0 0 k 0).
  { intros k Hk. rewrite EF, DF0 by auto using U with zarith. apply plus_zero. }
  assert (Ef' : forall k, (0 <= k < 3)%Z -> el (f_hat s') 0 0 k 0 = el (f_hat s) 0 0 k 0).
  { intros k Hk. rewrite EF', DF0; [apply plus_zero|exact Hk|]. intros. rewrite Ef by exact Hk. apply U. lia. }
  assert (SH0 : shaped c (f_hat s)) by (destruct SO as (A&B&C&D); repeat split; assumption).
  assert (SH : shaped c f) by (destruct SO as (A&B&C&D); destruct DF as (A'&B'&C'&D'); repeat split; congruence).
  assert (SH' : shaped c (f_hat s')) by (destruct SO as (A&B&C&D); destruct SD as (A'&B'&C'&D'); repeat split; congruence).
  assert (Dr : forall w fh, shaped c fh -> (forall k, (0 <= k < 3)%Z -> el fh 0 0 k 0 = el (f_hat s) 0 0 k 0) -> drift c w (get_dist_func c fh) = w 1 0 0).
  { intros w fh Sf Hf. apply (beam_drift 1 one wave3). intros i Hi.
    assert (R : el (get_dist_func c fh) 0 0 i 0 = 1) by (apply (beam_dist 1 one wave3); auto; intros; rewrite Hf, FH by auto; reflexivity).
    intros Z0. fold c in Z0. rewrite R in Z0. lra. }
  (* only B3, and E2 = B3 *)
  set (F0 := fields_hat (fsol s)) in *. destruct (B34 1%Z) as (B3&B4).
  assert (OE : forall fh F1, shaped c fh -> (forall k, (0 <= k < 3)%Z -> el fh 0 0 k 0 = el (f_hat s) 0 0 k 0) -> dims4 F1 6 1 (lN1 c) (lN2 c) ->
    el F1 3 0 1 0 = c0 -> el F1 4 0 1 0 = c0 ->
    (el (ohm1 c 0 fh F1) 0 0 1 0, el (ohm2 c 0 fh F1) 0 0 1 0, el (ohm3 c 0 fh F1) 0 0 1 0) = (c0, el F1 5 0 1 0, c0)%Z).
  { intros fh F1 Sf Hf D1 X3 X4. pose proof (ohm_el c OK NS 0 fh F1 1 0 Sf D1 M) as OE. cbv zeta in OE.
    rewrite !(Dr _ fh Sf Hf), X3, X4 in OE. unfold ohm1, ohm2, ohm3. destruct (ohm_hat c 0 fh F1) as ((E1&E2)&E3). cbn [fst snd]. destruct OE as (_&->).
    unfold Rdiv. rewrite !Rmult_0_r, !Rmult_0_l. generalize (number_hat c fh 0 1 0) (el F1 5 0 1 0)%Z. clear. intros. f_equal; [f_equal|]; cplx_ring. }
  assert (SL : forall fh F1, shaped c fh -> (forall k, (0 <= k < 3)%Z -> el fh 0 0 k 0 = el (f_hat s) 0 0 k 0) -> dims4 F1 6 1 (lN1 c) (lN2 c) ->
    el F1 3 0 1 0 = c0 -> el F1 4 0 1 0 = c0 ->
    (el (dfields_hybrid c 0 fh F1) 3 0 1 0 = c0 /\ el (dfields_hybrid c 0 fh F1) 4 0 1 0 = c0
     /\ el (dfields_hybrid c 0 fh F1) 5 0 1 0 = copp (cscale (kx c 1) (cmul (el F1 5 0 1 0) ci)))%Z).
  { intros fh F1 Sf Hf D1 X3 X4. specialize (OE fh F1 Sf Hf D1 X3 X4). 
    pose proof (f_equal (fun z => fst (fst z)) OE) as O1. pose proof (f_equal (fun z => snd (fst z)) OE) as O2. pose proof (f_equal snd OE) as O3. cbv beta in O1, O2. cbn [fst snd] in O1, O2, O3. clear OE.
    destruct (dfields_hyb_el c 0 fh F1 1 0) as (X&Y&W). cbv zeta in X, Y, W. rewrite X, Y, W.
    destruct (k_el c OK 1 0 I1 I2) as (K1&K2). fold (kx c 1) in K1. rewrite K1, K2, O1, O2, O3.
    replace (wavenumber (lN2 c) (dq2 (ph c)) 0) with 0 by (symmetry; apply wave_0; reflexivity).
    generalize (el F1 5 0 1 0)%Z (kx c 1). clear. intros. repeat split; cplx_ring. }
  assert (R0 : forall k, (0 <= k < 3)%Z -> el (f_hat s) 0 0 k 0 = el (f_hat s) 0 0 k 0) by reflexivity.
  destruct (SL (f_hat s) F0 SH0 R0 FO B3 B4) as (S3&S4&S5).
  assert (H3 : el F 3 0 1 0 = c0) by (rewrite EB, B3, S3 by lia; apply zero_sum).
  assert (H4 : el F 4 0 1 0 = c0) by (rewrite EB, B4, S4 by lia; apply zero_sum).
  pose proof (EB 5 1 0 ltac:(lia))%Z as H5. rewrite S5 in H5.
  destruct (SL f F SH Ef DB H3 H4) as (T3&T4&T5).
  set (F' := fields_hat (fsol s')) in *.
  assert (N3 : el F' 3 0 1 0 = c0) by (rewrite EB', B3, T3 by lia; apply zero_sum).
  assert (N4 : el F' 4 0 1 0 = c0) by (rewrite EB', B4, T4 by lia; apply zero_sum).
  pose proof (EB' 5 1 0 ltac:(lia))%Z as N5. rewrite T5 in N5.
  assert (DB' : dims4 F' 6 1 (lN1 c) (lN2 c)) by (destruct FO as (A&B&C&D); fold F0 in A, B, C, D; destruct SD' as (A'&B'&C'&D'); repeat split; congruence).
  exists c, b, s, s'. split; [exact H|]. split; [exact HL|]. split; [exact SO|]. split; [exact FO|]. split; [exact HS|].
  fold F'. rewrite E, (OE f F SH Ef DB H3 H4).
  pose proof (cold_ohm c OK NS (f_hat s') F' 1 0 SH' DB' M) as CO.
  pose proof (OE (f_hat s') F' SH' Ef' DB' N3 N4) as OE'. unfold ohm1, ohm2, ohm3 in OE'. destruct (ohm_hat c 0 (f_hat s') F') as ((E1&E2)&E3). cbn [fst snd] in OE'.
  rewrite <- CO, OE'. intros X. apply (f_equal (fun z => snd (fst z))) in X. cbv beta in X. cbn [fst snd] in X. rewrite N5, H5 in X.
  assert (NZ : re (el F0 5 0 1 0)%Z <> 0).
  { unfold F0. rewrite B5, to_hat_el by (repeat split). cbn [cscale re fst]. change (lN1 c) with 3%Z. change (lN2 c) with 1%Z. rewrite dft3. cbn [on_cells el RtoC re im fst snd].
    unfold lq1, wave3. cbn [c beam ph w_ph q1_start dq1].
    replace (2 * PI * (0 + (0 + 1 / 2) * 1) / 3) with (PI / 3) by field.
    replace (2 * PI * (0 + (1 + 1 / 2) * 1) / 3) with PI by field.
    replace (2 * PI * (0 + (2 + 1 / 2) * 1) / 3) with (2 * PI - PI / 3) by field.
    rewrite cos_minus, cos_2PI, sin_2PI, cos_PI, cos_PI3. lra. }
  assert (KX : kx c 1 <> 0).
  { unfold kx, wavenumber. change (signed_mode (lN1 c) 1) with 1%Z. change (lN1 c) with 3%Z. change (dq1 (ph c)) with 1. pose proof PI_RGT_0. lra. }
  revert KX NZ X. generalize (kx c 1) (el F0 5 0 1 0)%Z. clear. intros k (x&y) KX NZ X. cbn [re fst] in NZ.
  pose proof (f_equal fst X) as X1. apply (f_equal snd) in X. cbn in X, X1.
  assert (Y1 : k * (k * x - y) = 0) by lra. assert (Y2 : k * (x + k * y) = 0) by lra.
  apply Rmult_integral in Y1, Y2. destruct Y1 as [|Y1]; [lra|]. destruct Y2 as [|Y2]; [lra|].
  apply NZ. assert (Y : y = k * x) by lra. rewrite Y in Y2. assert (x * (1 + k * k) = 0) by lra. apply Rmult_integral in H. destruct H; [assumption|]. nra.
Qed.
