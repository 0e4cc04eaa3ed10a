(** Wave numbers, transforms of real data, the FFT wrappers, the Poisson solver. *)
From Coq Require Import ZArith Reals Lra Lia Bool FunctionalExtensionality.
From Verif Require Import Base.Prelude Base.ZSum Base.Cplx Model.Af Model.Petsc Model.Fft Model.Linear
  Spec.Dft Spec.Waves Proofs.DftLemmas Proofs.MomentLemmas.
Local Open Scope R_scope.

Lemma mode_signed N i : (0 < N)%Z -> (0 <= i < N)%Z -> fftfreq_index N i = signed_mode N i.
Proof.
  intros HN Hi. unfold fftfreq_index, signed_mode.
  pose proof (Z.div_mod (N - 1) 2 ltac:(lia)). pose proof (Z.mod_pos_bound (N - 1) 2 ltac:(lia)).
  destruct (Z.ltb_spec i ((N - 1) / 2 + 1)); destruct (Z.ltb_spec (2 * i) N); lia.
Qed.
Lemma freq_wave N dq i : (0 < N)%Z -> (0 <= i < N)%Z -> 2 * PI * fftfreq N dq i = wavenumber N dq i.
Proof. intros HN Hi. unfold fftfreq, wavenumber. rewrite mode_signed by auto. unfold Rdiv. ring. Qed.

Definition negm (N i : Z) : Z := if (i =? 0)%Z then 0%Z else (N - i)%Z.
Lemma negm_in N i : (0 <= i < N)%Z -> (0 <= negm N i < N)%Z.
Proof. unfold negm. destruct (Z.eqb_spec i 0); lia. Qed.
Lemma negm_neg N i : (0 <= i < N)%Z -> (2 * i)%Z <> N -> signed_mode N (negm N i) = (- signed_mode N i)%Z.
Proof.
  intros H E. unfold negm, signed_mode. destruct (Z.eqb_spec i 0).
  - subst. destruct (Z.ltb_spec (2 * 0) N); lia.
  - destruct (Z.ltb_spec (2 * (N - i)) N); destruct (Z.ltb_spec (2 * i) N); lia.
Qed.
Lemma negm_mode N i : (0 <= i < N)%Z -> exists m, negm N i = (- i + N * m)%Z.
Proof. intros H. unfold negm. destruct (Z.eqb_spec i 0); [exists 0%Z; lia|exists 1%Z; lia]. Qed.
Lemma signed_cong N i : exists m, signed_mode N i = (i + N * m)%Z.
Proof. unfold signed_mode. destruct (2 * i <? N)%Z; [exists 0%Z; lia|exists (-1)%Z; lia]. Qed.

Lemma cis_cong N i m n : (0 < N)%Z -> cis (2 * PI * IZR (i + N * m) * IZR n / IZR N) = cis (2 * PI * IZR i * IZR n / IZR N).
Proof.
  intros HN. assert (IZR N <> 0) by (apply IZR_neq; lia).
  replace (2 * PI * IZR (i + N * m) * IZR n / IZR N) with (2 * PI * IZR i * IZR n / IZR N + 2 * PI * IZR (m * n)).
  - apply cis_period.
  - rewrite plus_IZR, !mult_IZR. field. auto.
Qed.

(** ** Conjugation *)
Lemma conj_add z w : cconj (cadd z w) = cadd (cconj z) (cconj w).
Proof. cplx_ring. Qed.
Lemma conj_mul z w : cconj (cmul z w) = cmul (cconj z) (cconj w).
Proof. cplx_ring. Qed.
Lemma conj_conj z : cconj (cconj z) = z.
Proof. cplx_ring. Qed.
Lemma conj_sum n f : cconj (csum n f) = csum n (fun i => cconj (f i)).
Proof. apply cplx_eq; cbn; [reflexivity|]. symmetry. apply zsum_opp. Qed.

Lemma dft_conj N x k : (0 < N)%Z -> (0 <= k < N)%Z -> dft N (fun n => cconj (x n)) k = cconj (dft N x (negm N k)).
Proof.
  intros HN Hk. unfold dft. rewrite conj_sum. apply csum_ext; intros n Hn. rewrite conj_mul. f_equal.
  rewrite cis_conj, Ropp_involutive. destruct (negm_mode N k Hk) as (m&->). rewrite cis_cong by auto.
  f_equal. rewrite opp_IZR. unfold Rdiv. ring.
Qed.
Lemma dft2_conj N1 N2 x i j : (0 < N1)%Z -> (0 < N2)%Z -> (0 <= i < N1)%Z -> (0 <= j < N2)%Z ->
  dft2 N1 N2 (fun a b => cconj (x a b)) i j = cconj (dft2 N1 N2 x (negm N1 i) (negm N2 j)).
Proof.
  intros H1 H2 Hi Hj. unfold dft2. rewrite <- dft_conj by auto. apply dft_ext; intros. apply dft_conj; auto.
Qed.
Lemma dft2_real N1 N2 (x : Z -> Z -> R) i j : (0 < N1)%Z -> (0 < N2)%Z -> (0 <= i < N1)%Z -> (0 <= j < N2)%Z ->
  dft2 N1 N2 (fun a b => RtoC (x a b)) (negm N1 i) (negm N2 j) = cconj (dft2 N1 N2 (fun a b => RtoC (x a b)) i j).
Proof.
  intros H1 H2 Hi Hj. rewrite <- (conj_conj (dft2 _ _ _ (negm N1 i) _)). f_equal. rewrite <- dft2_conj by auto.
  apply dft2_ext; intros. cplx_ring.
Qed.
(** The transform of the real part. *)
Lemma dft2_re N1 N2 y i j : (0 < N1)%Z -> (0 < N2)%Z -> (0 <= i < N1)%Z -> (0 <= j < N2)%Z ->
  dft2 N1 N2 (fun a b => RtoC (re (y a b))) i j
  = cscale (1/2) (cadd (dft2 N1 N2 y i j) (cconj (dft2 N1 N2 y (negm N1 i) (negm N2 j)))).
Proof.
  intros H1 H2 Hi Hj. rewrite <- dft2_conj by auto.
  rewrite (dft2_ext N1 N2 (fun a b => RtoC (re (y a b))) (fun a b => cadd (cmul (RtoC (1/2)) (y a b)) (cmul (RtoC (1/2)) (cconj (y a b))))).
  - rewrite dft2_linear, cscale_mul. ring.
  - intros. cplx_ring; field.
Qed.

(** ** Wrappers *)
Lemma fft2q_el a x s i j : el (fft2q a) x s i j = dft2 (d2 a) (d3 a) (fun m n => el a x s m n) i j.
Proof. cbn. rewrite dft2_sum. reflexivity. Qed.
Lemma fft2_el a i j k l : el (fft2 a) i j k l = dft2 (d0 a) (d1 a) (fun m n => el a m n k l) i j.
Proof. cbn. rewrite dft2_sum. reflexivity. Qed.
Lemma ifft2q_el a x s i j : (0 < d2 a)%Z -> (0 < d3 a)%Z ->
  el (ifft2q a) x s i j = idft2 (d2 a) (d3 a) (fun m n => el a x s m n) i j.
Proof.
  intros H1 H2. rewrite idft2_sum by auto. unfold ifft2q. cbn [reorder2301 el amap ifft2_scaled d0 d1 d2 d3].
  f_equal. rewrite cscale_mul. change (RtoC 1) with c1. ring.
Qed.

Lemma fft_pair : forall a : arr cplx, (0 < d2 a)%Z -> (0 < d3 a)%Z ->
  aeq (ifft2q (fft2q a)) a /\ aeq (fft2q (ifft2q a)) a.
Proof.
  intros a H1 H2. split; (split; [repeat split|]); intros x s i j (A&B&C&D).
  - rewrite ifft2q_el by auto. cbn [fft2q reorder2301 fft2 d0 d1 d2 d3] in *.
    rewrite (idft2_ext _ _ _ (dft2 (d2 a) (d3 a) (fun m n => el a x s m n))).
    + apply idft2_dft2; auto.
    + intros. apply fft2q_el.
  - rewrite fft2q_el. cbn [ifft2q reorder2301 amap ifft2_scaled d0 d1 d2 d3] in *.
    rewrite (dft2_ext _ _ _ (idft2 (d2 a) (d3 a) (fun m n => el a x s m n))).
    + apply dft2_idft2; auto.
    + intros. apply ifft2q_el; auto.
Qed.

Lemma fft_is_dft : forall (a : arr cplx) x s i j, (0 < d2 a)%Z -> (0 < d3 a)%Z ->
  el (fft2q a) x s i j = dft2 (d2 a) (d3 a) (fun m n => el a x s m n) i j
  /\ el (ifft2q a) x s i j = idft2 (d2 a) (d3 a) (fun m n => el a x s m n) i j
  /\ same_dims (fft2q a) a /\ same_dims (ifft2q a) a.
Proof. intros. split; [apply fft2q_el|]. split; [apply ifft2q_el; auto|]. split; repeat split. Qed.

Lemma fft_linear : forall (al be : cplx) (a b : arr cplx), same_dims a b -> (0 < d2 a)%Z -> (0 < d3 a)%Z ->
  let comb u v := amap2 (fun z w => cadd (cmul al z) (cmul be w)) u v in
  aeq (fft2q (comb a b)) (comb (fft2q a) (fft2q b))
  /\ aeq (ifft2q (comb a b)) (comb (ifft2q a) (ifft2q b)).
Proof.
  intros al be a b (A&B&C&D) H1 H2 comb. split; (split; [repeat split|]); intros x s i j _.
  - rewrite fft2q_el. cbn [comb amap2 el d2 d3]. rewrite !fft2q_el, <- C, <- D. apply dft2_linear.
  - rewrite ifft2q_el by auto. cbn [comb amap2 el d2 d3]. rewrite !ifft2q_el by (rewrite <- ?C, <- ?D; auto).
    rewrite <- C, <- D. apply idft2_linear.
Qed.

(** ** Wave-number grid *)
Lemma wave_grid : forall N1 N2 d1' d2', (0 < N1)%Z -> (0 < N2)%Z -> 0 < d1' -> 0 < d2' ->
  let K1 := fst (calculate_k N1 N2 d1' d2') in
  let K2 := snd (calculate_k N1 N2 d1' d2') in
  dims4 K1 1 1 N1 N2 /\ dims4 K2 1 1 N1 N2
  /\ forall i j, (0 <= i < N1)%Z -> (0 <= j < N2)%Z ->
     let k1 := el K1 0 0 i j in let k2 := el K2 0 0 i j in
     k1 = wavenumber N1 d1' i /\ k2 = wavenumber N2 d2' j
     /\ (forall q, cis (k1 * (q + IZR N1 * d1')) = cis (k1 * q))
     /\ (forall q, cis (k2 * (q + IZR N2 * d2')) = cis (k2 * q))
     /\ (forall n1 n2, cmul (cis (k1 * (IZR n1 * d1'))) (cis (k2 * (IZR n2 * d2')))
         = cis (2 * PI * (IZR i * IZR n1 / IZR N1 + IZR j * IZR n2 / IZR N2)))
     /\ Rabs k1 <= PI / d1' /\ Rabs k2 <= PI / d2'.
Proof.
  assert (G : forall N i d, (0 < N)%Z -> (0 <= i < N)%Z -> 0 < d ->
    (forall q, cis (wavenumber N d i * (q + IZR N * d)) = cis (wavenumber N d i * q))
    /\ (forall n, cis (wavenumber N d i * (IZR n * d)) = cis (2 * PI * IZR i * IZR n / IZR N))
    /\ Rabs (wavenumber N d i) <= PI / d).
  { intros N i d HN Hi Hd. assert (PN : 0 < IZR N) by (apply IZR_lt; lia). split; [|split].
    - intros q. unfold wavenumber.
      replace (2 * PI * IZR (signed_mode N i) / (IZR N * d) * (q + IZR N * d))
        with (2 * PI * IZR (signed_mode N i) / (IZR N * d) * q + 2 * PI * IZR (signed_mode N i)) by (field; lra).
      apply cis_period.
    - intros n. unfold wavenumber.
      replace (2 * PI * IZR (signed_mode N i) / (IZR N * d) * (IZR n * d))
        with (2 * PI * IZR (signed_mode N i) * IZR n / IZR N) by (field; lra).
      destruct (signed_cong N i) as (m&->). apply cis_cong; auto.
    - unfold wavenumber. pose proof PI_RGT_0 as PP.
      assert (B : Rabs (IZR (signed_mode N i)) <= IZR N / 2).
      { rewrite <- abs_IZR. assert (2 * Z.abs (signed_mode N i) <= N)%Z.
        { unfold signed_mode. destruct (Z.ltb_spec (2 * i) N); lia. }
        apply IZR_le in H. rewrite mult_IZR in H. lra. }
      unfold Rdiv. rewrite !Rabs_mult. rewrite (Rabs_right 2), (Rabs_right PI) by lra.
      rewrite Rabs_inv, (Rabs_right (IZR N * d)) by (apply Rle_ge, Rlt_le, Rmult_lt_0_compat; auto).
      apply (Rle_trans _ (2 * PI * (IZR N / 2) * / (IZR N * d))).
      + apply Rmult_le_compat_r; [apply Rlt_le, Rinv_0_lt_compat, Rmult_lt_0_compat; auto|].
        apply Rmult_le_compat_l; lra.
      + right. field. lra. }
  intros N1 N2 e1 e2 H1 H2 P1 P2 K1 K2. split; [repeat split|]. split; [repeat split|]. intros i j Hi Hj k1 k2.
  assert (Q1 : k1 = wavenumber N1 e1 i) by (apply freq_wave; auto).
  assert (Q2 : k2 = wavenumber N2 e2 j) by (apply freq_wave; auto).
  destruct (G N1 i e1 H1 Hi P1) as (A1&B1&C1). destruct (G N2 j e2 H2 Hj P2) as (A2&B2&C2).
  rewrite Q1, Q2. split; [reflexivity|]. split; [reflexivity|]. split; [auto|]. split; [auto|]. split; [|split; auto].
  intros n1 n2. rewrite B1, B2, <- cis_add. f_equal. unfold Rdiv. ring.
Qed.

(** Different indices are different wave numbers, and only index 0 has k = 0. *)
Lemma wave_inj : forall N d i j, (0 < N)%Z -> 0 < d -> (0 <= i < N)%Z -> (0 <= j < N)%Z ->
  wavenumber N d i = wavenumber N d j -> i = j.
Proof.
  intros N d i j HN Hd Hi Hj E. assert (PN : 0 < IZR N) by (apply IZR_lt; lia). pose proof PI_RGT_0 as PP.
  assert (Q : IZR (signed_mode N i) = IZR (signed_mode N j)).
  { unfold wavenumber in E. assert (X : IZR N * d <> 0) by (apply Rgt_not_eq, Rmult_lt_0_compat; auto).
    apply (Rmult_eq_reg_l (2 * PI / (IZR N * d))).
    - unfold Rdiv in *. rewrite (Rmult_assoc (2 * PI)), (Rmult_comm (/ _)), <- Rmult_assoc, E. ring.
    - unfold Rdiv. apply Rmult_integral_contrapositive. split; [lra|]. apply Rinv_neq_0_compat. auto. }
  apply eq_IZR in Q. unfold signed_mode in Q.
  destruct (Z.ltb_spec (2 * i) N); destruct (Z.ltb_spec (2 * j) N); lia.
Qed.
Lemma wave_0 N d : (0 < N)%Z -> wavenumber N d 0 = 0.
Proof. intros H. unfold wavenumber, signed_mode. destruct (Z.ltb_spec (2 * 0) N); [unfold Rdiv; ring|lia]. Qed.
Lemma wave_nonzero N d i : (0 < N)%Z -> 0 < d -> (0 <= i < N)%Z -> i <> 0%Z -> wavenumber N d i <> 0.
Proof.
  intros HN Hd Hi Hn E. apply Hn. apply (wave_inj N d i 0 HN Hd Hi); [lia|]. rewrite E, wave_0 by auto. reflexivity.
Qed.
Lemma wave_sq N1 N2 e1 e2 i j : (0 < N1)%Z -> (0 < N2)%Z -> 0 < e1 -> 0 < e2 -> (0 <= i < N1)%Z -> (0 <= j < N2)%Z ->
  (i <> 0 \/ j <> 0)%Z -> 0 < wavenumber N1 e1 i ^ 2 + wavenumber N2 e2 j ^ 2.
Proof.
  intros H1 H2 P1 P2 Hi Hj [H|H].
  - pose proof (wave_nonzero N1 e1 i H1 P1 Hi H). nra.
  - pose proof (wave_nonzero N2 e2 j H2 P2 Hj H). nra.
Qed.
