(** The linear solver: initial state, moments, electrostatic field. *)
From Coq Require Import ZArith Reals Lra Lia String List Bool FunctionalExtensionality.
From Verif Require Import Base.Prelude Base.ZSum Base.Cplx Model.Af Model.Grid Model.Petsc Model.Config Model.Fft
  Model.Moments Model.Integrators Model.Linear Spec.Dft Spec.Waves Spec.MomentSpec Spec.LinearSpec
  Proofs.AfLemmas Proofs.DftLemmas Proofs.ConvLemmas Proofs.MomentLemmas Proofs.FourierLemmas.
Import ListNotations.
Local Open Scope R_scope.

(** ** Boundary check *)
Lemma periodic_check : forall c,
  (check_periodic c = Ok tt <-> exists e, in_q c e = "periodic"%string)
  /\ (check_periodic c = Err GenericException <-> forall e, in_q c e <> "periodic"%string).
Proof.
  intros c. unfold check_periodic.
  destruct (String.eqb_spec (in_q c ELeft) "periodic") as [A|A];
  destruct (String.eqb_spec (in_q c ERight) "periodic") as [B|B];
  destruct (String.eqb_spec (in_q c EBottom) "periodic") as [C|C];
  destruct (String.eqb_spec (in_q c ETop) "periodic") as [D|D]; cbn; split; split; intros H; try discriminate; try reflexivity;
  try (eexists; eassumption); try (exfalso; eapply H; eassumption).
  - destruct H as (e&E). destruct e; congruence.
  - intros e. destruct e; auto.
Qed.

(** ** idft2 and sums *)
Lemma cmul_assoc x y z : cmul x (cmul y z) = cmul (cmul x y) z.
Proof. ring. Qed.
Lemma idft2_scale N1 N2 a x i j : idft2 N1 N2 (fun m n => cscale a (x m n)) i j = cscale a (idft2 N1 N2 x i j).
Proof.
  rewrite (idft2_ext N1 N2 _ (fun m n => cadd (cmul (RtoC a) (x m n)) (cmul c0 (x m n)))).
  - rewrite idft2_linear, cscale_mul. ring.
  - intros. rewrite cscale_mul. ring.
Qed.
Lemma dft2_scale N1 N2 a x i j : dft2 N1 N2 (fun m n => cscale a (x m n)) i j = cscale a (dft2 N1 N2 x i j).
Proof.
  rewrite (dft2_ext N1 N2 _ (fun m n => cadd (cmul (RtoC a) (x m n)) (cmul c0 (x m n)))).
  - rewrite dft2_linear, cscale_mul. ring.
  - intros. rewrite cscale_mul. ring.
Qed.
Lemma idft2_csum N1 N2 n (x : Z -> Z -> Z -> cplx) i j : (0 < N1)%Z -> (0 < N2)%Z ->
  idft2 N1 N2 (fun a b => csum n (fun y => x y a b)) i j = csum n (fun y => idft2 N1 N2 (fun a b => x y a b) i j).
Proof.
  intros P1 P2. rewrite idft2_sum by auto.
  rewrite (csum_ext n _ (fun y => cscale (/ (IZR N1 * IZR N2)) (csum N1 (fun k1 => csum N2 (fun k2 => cmul (x y k1 k2) (cis (phase N1 k1 i + phase N2 k2 j)))))))
    by (intros; apply idft2_sum; auto).
  rewrite csum_scale. f_equal. rewrite (csum_swap n N1). apply csum_ext; intros k1 _.
  rewrite (csum_swap n N2). apply csum_ext; intros k2 _. rewrite csum_mul_r. reflexivity.
Qed.

Section L.
  Context (c : lcfg) (OK : lin_ok c).
  Let P1 : (0 < lN1 c)%Z := proj1 (proj2 OK).
  Let P2 : (0 < lN2 c)%Z := proj1 (proj2 (proj2 OK)).
  Notation np := (N_p (ph c)).
  Notation ns := (N_species (ph c)).
  Definition shaped {A} (a : arr A) : Prop := dims4 a np ns (lN1 c) (lN2 c).

  Lemma half_inv : half_N c * 2 * / (IZR (lN1 c) * IZR (lN2 c)) = 1.
  Proof. unfold half_N. field. split; apply IZR_neq; lia. Qed.

  Lemma get_dist_el a x s i j : dims4 a (d0 a) (d1 a) (lN1 c) (lN2 c) ->
    el (get_dist_func c a) x s i j = half_N c * re (idft2 (lN1 c) (lN2 c) (fun m n => el a x s m n) i j).
  Proof.
    intros (_&_&A&B). unfold get_dist_func. cbn [amap el]. rewrite ifft2q_el by (rewrite ?A, ?B; auto).
    rewrite A, B. reflexivity.
  Qed.
  Lemma from_hat_el a x s i j : dims4 a (d0 a) (d1 a) (lN1 c) (lN2 c) ->
    el (from_hat c a) x s i j = half_N c * re (idft2 (lN1 c) (lN2 c) (fun m n => el a x s m n) i j).
  Proof.
    intros (_&_&A&B). unfold from_hat. cbn [amap el]. rewrite ifft2q_el by (cbn [amap d2 d3]; rewrite ?A, ?B; auto).
    cbn [amap d2 d3 el]. rewrite A, B, idft2_scale. reflexivity.
  Qed.
  Lemma to_hat_el a x s i j : dims4 a (d0 a) (d1 a) (lN1 c) (lN2 c) ->
    el (to_hat c a) x s i j = cscale (2 / (IZR (lN1 c) * IZR (lN2 c))) (dft2 (lN1 c) (lN2 c) (fun m n => el a x s m n) i j).
  Proof.
    intros (_&_&A&B). unfold to_hat. cbn [amap el]. rewrite fft2q_el, A, B.
    generalize (dft2 (lN1 c) (lN2 c) (fun m n => el a x s m n) i j). intros z. cplx_ring; unfold Rdiv; ring.
  Qed.

  (** Round trip. *)
  Lemma dist_hat (f : arr R) x s i j : dims4 f (d0 f) (d1 f) (lN1 c) (lN2 c) -> inb (lN1 c) i -> inb (lN2 c) j ->
    el (get_dist_func c (to_hat c (amap RtoC f))) x s i j = el f x s i j.
  Proof.
    intros D Hi Hj. assert (D' : dims4 (to_hat c (amap RtoC f)) (d0 f) (d1 f) (lN1 c) (lN2 c)) by exact D.
    rewrite get_dist_el by exact D'.
    rewrite (idft2_ext _ _ _ (fun m n => cscale (2 / (IZR (lN1 c) * IZR (lN2 c))) (dft2 (lN1 c) (lN2 c) (fun m n => RtoC (el f x s m n)) m n))).
    2:{ intros. apply to_hat_el. exact D. }
    rewrite idft2_scale, idft2_dft2 by auto. cbn [re cscale RtoC fst]. unfold half_N. field. split; apply IZR_neq; lia.
  Qed.
  Lemma dist_hat_aeq (f : arr R) : dims4 f (d0 f) (d1 f) (lN1 c) (lN2 c) ->
    aeq (get_dist_func c (to_hat c (amap RtoC f))) f.
  Proof.
    intros D. split; [repeat split|]. intros x s i j (A&B&C&E). destruct D as (_&_&F&G).
    change (inb (d2 f) i) in C. change (inb (d3 f) j) in E. rewrite F in C. rewrite G in E.
    apply dist_hat; auto. repeat split; auto.
  Qed.

  Lemma fb_el f x s : dims4 f np ns (lN1 c) (lN2 c) ->
    el (f_background c f) x s 0 0 = Rabs (mean2 (lN1 c) (lN2 c) (fun i j => el f x s i j)).
  Proof.
    intros (A&B&C&D). unfold f_background. cbn [el]. rewrite fft2q_el. cbn [amap d2 d3 el]. rewrite C, D.
    replace (dft2 (lN1 c) (lN2 c) (fun m n => RtoC (el f x s m n)) 0 0)
      with (RtoC (zsum (lN1 c) (fun i => zsum (lN2 c) (fun j => el f x s i j)))).
    2:{ symmetry. rewrite dft2_sum.
        rewrite (csum_ext (lN1 c) _ (fun i => csum (lN2 c) (fun j => RtoC (el f x s i j)))).
        - apply cplx_eq; cbn; [reflexivity|]. rewrite (zsum_ext (lN1 c) _ (fun _ => 0)); [apply zsum_zero|]. intros; apply zsum_zero.
        - intros i Hi. apply csum_ext; intros j Hj. unfold phase.
          replace (- (2 * PI * 0 * IZR i / IZR (lN1 c) + 2 * PI * 0 * IZR j / IZR (lN2 c))) with 0 by (unfold Rdiv; ring).
          rewrite cis_0. ring. }
    cbn [re im RtoC fst snd]. unfold mean2. set (T := zsum _ _). clearbody T.
    assert (Q1 : 0 < IZR (lN1 c)) by (apply IZR_lt; auto). assert (Q2 : 0 < IZR (lN2 c)) by (apply IZR_lt; auto).
    replace (T ^ 2 + 0 ^ 2) with (Rsqr T) by (unfold Rsqr; ring). rewrite sqrt_Rsqr_abs.
    unfold Rdiv. rewrite Rabs_mult, Rabs_inv, (Rabs_right (IZR (lN1 c) * IZR (lN2 c))); [reflexivity|].
    apply Rle_ge, Rlt_le, Rmult_lt_0_compat; auto.
  Qed.

  Lemma mean2_nonneg N1 N2 x : (0 < N1)%Z -> (0 < N2)%Z ->
    (forall i j, (0 <= i < N1)%Z -> (0 <= j < N2)%Z -> 0 <= x i j) -> 0 <= mean2 N1 N2 x.
  Proof.
    intros H1 H2 H. unfold mean2, Rdiv. apply Rmult_le_pos.
    - apply zsum_nonneg; intros. apply zsum_nonneg; intros. auto.
    - apply Rlt_le, Rinv_0_lt_compat, Rmult_lt_0_compat; apply IZR_lt; auto.
  Qed.

  (** ** Moments *)
  Lemma measure_dims : dims4 (measure (ph c)) 1 ns 1 1.
  Proof. repeat split. Qed.

  Lemma moment_hat m w f_hat : shaped f_hat ->
    weighs cplx_scalar np ns (lN1 c) (lN2 c) m w -> weighs real_scalar np ns (lN1 c) (lN2 c) m w ->
    aeq (from_hat c (moment_of c cplx_scalar m f_hat)) (moment_of c real_scalar m (get_dist_func c f_hat)).
  Proof.
    intros D WC WR. destruct (p_center_dims (ph c) (proj1 OK)) as (D1&D2&D3).
    destruct (WC f_hat (p1_center (ph c)) (p2_center (ph c)) (p3_center (ph c)) (measure (ph c)) D D1 D2 D3 measure_dims) as (DM&EM).
    assert (DF : dims4 (get_dist_func c f_hat) np ns (lN1 c) (lN2 c)) by exact D.
    destruct (WR (get_dist_func c f_hat) (p1_center (ph c)) (p2_center (ph c)) (p3_center (ph c)) (measure (ph c)) DF D1 D2 D3 measure_dims) as (DR&ER).
    fold (moment_of c cplx_scalar m f_hat) in *. fold (moment_of c real_scalar m (get_dist_func c f_hat)) in *.
    assert (DH : dims4 (from_hat c (moment_of c cplx_scalar m f_hat)) 1 ns (lN1 c) (lN2 c)) by exact DM.
    split.
    - destruct DH as (A&B&C&E). destruct DR as (A'&B'&C'&E'). unfold same_dims. rewrite A, B, C, E, A', B', C', E'. auto.
    - intros o s k l (Ho&Hs&Hk&Hl). destruct DH as (A&B&C&E). rewrite A in Ho. rewrite B in Hs. rewrite C in Hk. rewrite E in Hl.
      assert (o = 0%Z) as -> by (unfold inb in Ho; lia). clear A B C E.
      rewrite ER by auto. rewrite from_hat_el by (destruct DM as (A&B&C&E); repeat split; auto).
      rewrite (idft2_ext _ _ _ (fun a b => cscale (el (measure (ph c)) 0 s 0 0)
        (csum np (fun x => cscale (w (el (p1_center (ph c)) x s 0 0) (el (p2_center (ph c)) x s 0 0) (el (p3_center (ph c)) x s 0 0)) (el f_hat x s a b))))).
      2:{ intros. rewrite EM by auto. reflexivity. }
      rewrite idft2_scale, idft2_csum by auto. cbn [s_sum s_scale real_scalar re cscale csum fst].
      rewrite (Rmult_comm (half_N c)), Rmult_assoc. f_equal. rewrite <- zsum_scal_r. apply zsum_ext; intros x Hx.
      rewrite idft2_scale, get_dist_el by (destruct D as (A&B&C&E); repeat split; auto). cbn [re cscale fst]. change (fun m n : Z => el f_hat x s m n) with (el f_hat x s). ring.
  Qed.


  (** ** Electrostatic field *)
  Lemma k_el i j : inb (lN1 c) i -> inb (lN2 c) j ->
    el (k_q1 c) 0 0 i j = wavenumber (lN1 c) (dq1 (ph c)) i /\ el (k_q2 c) 0 0 i j = wavenumber (lN2 c) (dq2 (ph c)) j.
  Proof. intros Hi Hj. split; apply freq_wave; auto. Qed.

  Lemma phi_el rho i j : dims4 rho 1 ns (lN1 c) (lN2 c) -> inb (lN1 c) i -> inb (lN2 c) j ->
    dims4 (phi_hat c rho) 1 1 (lN1 c) (lN2 c)
    /\ el (phi_hat c rho) 0 0 i j = if ((i =? 0) && (j =? 0))%Z%bool then c0
       else cscale (/ (el (k_q1 c) 0 0 i j ^ 2 + el (k_q2 c) 0 0 i j ^ 2)) (csum ns (fun s => el rho 0 s i j)).
  Proof.
    intros (A&B&C&D) Hi Hj. unfold phi_hat, k_q1, k_q2, calculate_k. split.
    - unfold dims4. cbn. rewrite A, C, D. lia.
    - cbn. unfold bel. cbn. rewrite ?A, ?B, ?C, ?D, !bidx_1, !bidx_in by auto.
      destruct ((i =? 0) && (j =? 0))%Z%bool; reflexivity.
  Qed.

  Lemma lin_poisson rho old : dims4 rho 1 ns (lN1 c) (lN2 c) -> eps c <> 0 ->
    let F := compute_electrostatic_fields c rho old in
    let E1 i j := el (E1h F) 0 0 i j in
    let E2 i j := el (E2h F) 0 0 i j in
    (forall i j, inb (lN1 c) i -> inb (lN2 c) j ->
      let k1 := wavenumber (lN1 c) (dq1 (ph c)) i in
      let k2 := wavenumber (lN2 c) (dq2 (ph c)) j in
      ((i <> 0 \/ j <> 0)%Z -> cscale (eps c) (cmul ci (cadd (cscale k1 (E1 i j)) (cscale k2 (E2 i j))))
         = csum ns (fun s => el rho 0 s i j))
      /\ csub (cscale k1 (E2 i j)) (cscale k2 (E1 i j)) = c0
      /\ el (E3h F) 0 0 i j = c0 /\ el (B1h F) 0 0 i j = c0 /\ el (B2h F) 0 0 i j = c0 /\ el (B3h F) 0 0 i j = c0)
    /\ E1 0%Z 0%Z = c0 /\ E2 0%Z 0%Z = c0.
  Proof.
    intros D Qe F E1 E2. pose proof OK as (_&_&_&Q1&Q2).
    assert (G : forall i j, inb (lN1 c) i -> inb (lN2 c) j ->
      E1 i j = cscale (/ eps c) (cscale (wavenumber (lN1 c) (dq1 (ph c)) i) (cmul (copp (el (phi_hat c rho) 0 0 i j)) ci))
      /\ E2 i j = cscale (/ eps c) (cscale (wavenumber (lN2 c) (dq2 (ph c)) j) (cmul (copp (el (phi_hat c rho) 0 0 i j)) ci))).
    { intros i j Hi Hj. destruct (k_el i j Hi Hj) as (A&B). rewrite <- A, <- B. split; reflexivity. }
    split.
    - intros i j Hi Hj k1 k2. destruct (G i j Hi Hj) as (V1&V2). destruct (phi_el rho i j D Hi Hj) as (_&VP).
      destruct (k_el i j Hi Hj) as (A&B). rewrite A, B in VP. fold k1 k2 in V1, V2, VP.
      split; [|split; [|split; [|split; [|split]]]].
      + intros N. assert (W : 0 < k1 ^ 2 + k2 ^ 2) by (apply wave_sq; auto).
        replace ((i =? 0) && (j =? 0))%Z%bool with false in VP
          by (symmetry; apply andb_false_iff; destruct N; [left|right]; apply Z.eqb_neq; auto).
        rewrite V1, V2, VP. generalize (csum ns (fun s => el rho 0 s i j)). intros z. clearbody k1 k2.
        clear - W Qe. cplx_ring; field; split; auto; lra.
      + rewrite V1, V2. clearbody k1 k2. generalize (el (phi_hat c rho) 0 0 i j). intros z. clear - Qe. cplx_ring; field; auto.
      + cbn. cplx_ring.
      + cbn. cplx_ring.
      + cbn. cplx_ring.
      + cbn. cplx_ring.
    - destruct (G 0%Z 0%Z ltac:(unfold inb; lia) ltac:(unfold inb; lia)) as (V1&V2).
      destruct (phi_el rho 0 0 D ltac:(unfold inb; lia) ltac:(unfold inb; lia)) as (_&VP). cbn [Z.eqb andb] in VP.
      rewrite V1, V2, VP. split; cplx_ring.
  Qed.
End L.
