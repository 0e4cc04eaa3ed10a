(** Orthogonality of the roots of unity, and the inversion of the transforms. *)
From Coq Require Import ZArith Reals Lra Lia.
From Verif Require Import Base.Prelude Base.ZSum Base.Cplx Model.Af Model.Fft Spec.Dft.
Local Open Scope R_scope.

(** ** Sums of complex numbers *)
Lemma csum_ext n f g : (forall i, (0 <= i < n)%Z -> f i = g i) -> csum n f = csum n g.
Proof. intros H. apply cplx_eq; cbn; apply zsum_ext; intros; rewrite H; auto. Qed.
Lemma csum_add n f g : csum n (fun i => cadd (f i) (g i)) = cadd (csum n f) (csum n g).
Proof. apply cplx_eq; cbn; apply zsum_plus. Qed.
Lemma csum_sub n f g : csum n (fun i => csub (f i) (g i)) = csub (csum n f) (csum n g).
Proof. apply cplx_eq; cbn; apply zsum_minus. Qed.
Lemma csum_mul_l n c f : csum n (fun i => cmul c (f i)) = cmul c (csum n f).
Proof.
  apply cplx_eq; cbn [csum cmul re im fst snd].
  - rewrite zsum_minus, !zsum_scal. reflexivity.
  - rewrite zsum_plus, !zsum_scal. reflexivity.
Qed.
Lemma csum_mul_r n c f : csum n (fun i => cmul (f i) c) = cmul (csum n f) c.
Proof.
  rewrite (csum_ext n _ (fun i => cmul c (f i))) by (intros; ring). rewrite csum_mul_l. ring.
Qed.
Lemma cscale_mul a z : cscale a z = cmul (RtoC a) z.
Proof. cplx_ring. Qed.
Lemma csum_scale n a f : csum n (fun i => cscale a (f i)) = cscale a (csum n f).
Proof. rewrite cscale_mul, <- csum_mul_l. apply csum_ext; intros; apply cscale_mul. Qed.
Lemma csum_swap n m (f : Z -> Z -> cplx) :
  csum n (fun i => csum m (fun j => f i j)) = csum m (fun j => csum n (fun i => f i j)).
Proof. apply cplx_eq; cbn; apply zsum_swap. Qed.
Lemma csum_single n k f : (0 <= k < n)%Z -> (forall i, (0 <= i < n)%Z -> i <> k -> f i = c0) -> csum n f = f k.
Proof.
  intros Hk H. apply cplx_eq; cbn; apply (zsum_single n k (fun i => _ (f i))); auto;
    intros i Hi Hn; rewrite (H i Hi Hn); reflexivity.
Qed.
Lemma csum_succ n f : (0 <= n)%Z -> csum (n + 1) f = cadd (csum n f) (f n).
Proof. intros H. apply cplx_eq; cbn; rewrite zsum_succ by auto; reflexivity. Qed.
Lemma csum_0 f : csum 0 f = c0.
Proof. reflexivity. Qed.
Lemma csum_zero n : csum n (fun _ => c0) = c0.
Proof. apply cplx_eq; cbn; apply zsum_zero. Qed.
Lemma csum_one n : (0 <= n)%Z -> csum n (fun _ => c1) = RtoC (IZR n).
Proof. intros H. apply cplx_eq; cbn; rewrite zsum_const by auto; ring. Qed.

(** ** cis *)
Lemma cis_add a b : cis (a + b) = cmul (cis a) (cis b).
Proof. apply cplx_eq; cbn [cis cmul re im fst snd]; [apply cos_plus|rewrite sin_plus; ring]. Qed.
Lemma cis_0 : cis 0 = c1.
Proof. apply cplx_eq; cbn; [apply cos_0|apply sin_0]. Qed.
Lemma cis_2PI_nat (n : nat) : cis (2 * PI * INR n) = c1.
Proof.
  apply cplx_eq; cbn.
  - replace (2 * PI * INR n) with (0 + 2 * INR n * PI) by ring. rewrite cos_period. apply cos_0.
  - replace (2 * PI * INR n) with (0 + 2 * INR n * PI) by ring. rewrite sin_period. apply sin_0.
Qed.
Lemma cis_neg t : cmul (cis (- t)) (cis t) = c1.
Proof. rewrite <- cis_add. replace (- t + t) with 0 by ring. apply cis_0. Qed.
Lemma cis_conj t : cconj (cis t) = cis (- t).
Proof. apply cplx_eq; cbn; [rewrite cos_neg|rewrite sin_neg]; reflexivity. Qed.
Lemma cis_2PI k : cis (2 * PI * IZR k) = c1.
Proof.
  destruct (Z_le_gt_dec 0 k) as [H|H].
  - rewrite <- (Z2Nat.id k) by auto. rewrite <- INR_IZR_INZ. apply cis_2PI_nat.
  - assert (E : cis (2 * PI * IZR (- k)) = c1).
    { rewrite <- (Z2Nat.id (- k)) by lia. rewrite <- INR_IZR_INZ. apply cis_2PI_nat. }
    rewrite opp_IZR in E. rewrite <- (cis_neg (2 * PI * IZR k)).
    replace (- (2 * PI * IZR k)) with (2 * PI * - IZR k) by ring. rewrite E. ring.
Qed.
Lemma cis_period t k : cis (t + 2 * PI * IZR k) = cis t.
Proof. rewrite cis_add, cis_2PI. ring. Qed.

(** ** Orthogonality *)
Lemma geometric n t : (0 <= n)%Z ->
  cmul (csub (cis t) c1) (csum n (fun i => cis (IZR i * t))) = csub (cis (IZR n * t)) c1.
Proof.
  revert n. apply (natlike_ind (fun n => cmul (csub (cis t) c1) (csum n (fun i => cis (IZR i * t))) = csub (cis (IZR n * t)) c1)).
  - rewrite csum_0. replace (IZR 0 * t) with 0 by ring. rewrite cis_0. ring.
  - intros x Hx IH. unfold Z.succ. rewrite csum_succ by auto.
    transitivity (cadd (cmul (csub (cis t) c1) (csum x (fun i => cis (IZR i * t))))
                       (cmul (csub (cis t) c1) (cis (IZR x * t)))); [ring|].
    rewrite IH, plus_IZR. replace ((IZR x + 1) * t) with (IZR x * t + t) by ring. rewrite cis_add. ring.
Qed.

Lemma cplx_integral z w : cmul z w = c0 -> z <> c0 -> w = c0.
Proof.
  intros H Hz. destruct z as (a&b), w as (x&y). unfold cmul in H. cbn in H. injection H as H1 H2.
  assert (P : a * a + b * b <> 0).
  { intros E. apply Hz. assert (a = 0) by nra. assert (b = 0) by nra. subst. reflexivity. }
  assert (X : (a * a + b * b) * x = 0).
  { transitivity (a * (a * x - b * y) + b * (a * y + b * x)); [ring|]. rewrite H1, H2. ring. }
  assert (Y : (a * a + b * b) * y = 0).
  { transitivity (a * (a * y + b * x) - b * (a * x - b * y)); [ring|]. rewrite H1, H2. ring. }
  apply Rmult_integral in X, Y. destruct X as [X|X]; [contradiction|]. destruct Y as [Y|Y]; [contradiction|].
  subst. reflexivity.
Qed.

Lemma cis_not_1 N k : (0 < k < N)%Z -> csub (cis (2 * PI * IZR k / IZR N)) c1 <> c0.
Proof.
  intros H E. assert (PN : 0 < IZR N) by (apply IZR_lt; lia).
  assert (S : 0 < sin (PI * IZR k / IZR N)).
  { pose proof PI_RGT_0 as PP. apply sin_gt_0.
    - apply Rmult_lt_0_compat; [apply Rmult_lt_0_compat; auto; apply IZR_lt; lia|apply Rinv_0_lt_compat; auto].
    - apply Rmult_lt_reg_r with (IZR N); auto. unfold Rdiv. rewrite Rmult_assoc, Rinv_l by lra.
      rewrite Rmult_1_r. apply Rmult_lt_compat_l; auto. apply IZR_lt; lia. }
  assert (C : cos (2 * PI * IZR k / IZR N) - 1 = 0) by exact (f_equal fst E).
  replace (2 * PI * IZR k / IZR N) with (2 * (PI * IZR k / IZR N)) in C by (field; lra).
  rewrite cos_2a_sin in C. nra.
Qed.

Lemma cis_neg_not_1 N k : (0 < k < N)%Z -> csub (cis (2 * PI * IZR (- k) / IZR N)) c1 <> c0.
Proof.
  intros H E. apply (cis_not_1 N k H). rewrite opp_IZR in E.
  replace (2 * PI * - IZR k / IZR N) with (- (2 * PI * IZR k / IZR N)) in E by (unfold Rdiv; ring).
  rewrite <- cis_conj in E. apply cplx_eq.
  - exact (f_equal fst E).
  - apply (f_equal snd) in E. cbn in E |- *. lra.
Qed.

Lemma roots N k : (0 < N)%Z -> (- N < k < N)%Z -> k <> 0%Z ->
  csum N (fun n => cis (2 * PI * IZR k * IZR n / IZR N)) = c0.
Proof.
  intros HN Hk Hz. set (t := 2 * PI * IZR k / IZR N).
  rewrite (csum_ext N _ (fun n => cis (IZR n * t))) by (intros; unfold t; f_equal; field; apply IZR_neq; lia).
  apply (cplx_integral (csub (cis t) c1)).
  - rewrite geometric by lia. replace (IZR N * t) with (2 * PI * IZR k) by (unfold t; field; apply IZR_neq; lia).
    rewrite cis_2PI. ring.
  - destruct (Z_lt_le_dec 0 k).
    + apply cis_not_1; lia.
    + unfold t. rewrite <- (Z.opp_involutive k). apply cis_neg_not_1; lia.
Qed.

(** The transform of a delta. *)
Lemma roots_delta N m n : (0 < N)%Z -> (0 <= m < N)%Z -> (0 <= n < N)%Z ->
  csum N (fun k => cis (2 * PI * IZR k * (IZR m - IZR n) / IZR N)) = if (m =? n)%Z then RtoC (IZR N) else c0.
Proof.
  intros HN Hm Hn.
  rewrite (csum_ext N _ (fun k => cis (2 * PI * IZR (m - n) * IZR k / IZR N)))
    by (intros; rewrite minus_IZR; f_equal; field; apply IZR_neq; lia).
  destruct (Z.eqb_spec m n) as [->|Hd].
  - replace (n - n)%Z with 0%Z by lia. rewrite <- csum_one by lia. apply csum_ext; intros.
    replace (2 * PI * 0 * IZR i / IZR N) with 0 by (field; apply IZR_neq; lia). apply cis_0.
  - apply roots; lia.
Qed.

(** ** One variable *)
Lemma dft_ext N x y k : (forall n, (0 <= n < N)%Z -> x n = y n) -> dft N x k = dft N y k.
Proof. intros H. apply csum_ext; intros. rewrite H; auto. Qed.
Lemma idft_ext N x y k : (forall n, (0 <= n < N)%Z -> x n = y n) -> idft N x k = idft N y k.
Proof. intros H. unfold idft. f_equal. apply csum_ext; intros. rewrite H; auto. Qed.

Lemma idft_dft N x n : (0 < N)%Z -> (0 <= n < N)%Z -> idft N (dft N x) n = x n.
Proof.
  intros HN Hn. assert (PN : IZR N <> 0) by (apply IZR_neq; lia). unfold idft, dft.
  rewrite (csum_ext N _ (fun k => csum N (fun m => cmul (x m) (cis (2 * PI * IZR k * (IZR n - IZR m) / IZR N))))).
  2:{ intros k Hk. rewrite <- csum_mul_r. apply csum_ext; intros m Hm.
      transitivity (cmul (x m) (cmul (cis (- (2 * PI * IZR k * IZR m / IZR N))) (cis (2 * PI * IZR k * IZR n / IZR N)))); [ring|].
      rewrite <- cis_add. do 2 f_equal. field; auto. }
  rewrite csum_swap.
  rewrite (csum_single N n).
  - rewrite csum_mul_l, roots_delta by auto. rewrite Z.eqb_refl. apply cplx_eq; cbn; field; auto.
  - auto.
  - intros m Hm Hd. rewrite csum_mul_l, roots_delta by auto.
    destruct (Z.eqb_spec n m); [congruence|]. ring.
Qed.

Lemma dft_idft N x k : (0 < N)%Z -> (0 <= k < N)%Z -> dft N (idft N x) k = x k.
Proof.
  intros HN Hk. assert (PN : IZR N <> 0) by (apply IZR_neq; lia). unfold idft, dft.
  rewrite (csum_ext N _ (fun n => cscale (/ IZR N) (csum N (fun m => cmul (x m) (cis (2 * PI * IZR n * (IZR m - IZR k) / IZR N)))))).
  2:{ intros n Hn. rewrite !cscale_mul.
      transitivity (cmul (RtoC (/ IZR N)) (cmul (csum N (fun k0 => cmul (x k0) (cis (2 * PI * IZR k0 * IZR n / IZR N))))
                     (cis (- (2 * PI * IZR k * IZR n / IZR N))))); [ring|].
      f_equal. rewrite <- csum_mul_r. apply csum_ext; intros m Hm.
      transitivity (cmul (x m) (cmul (cis (2 * PI * IZR m * IZR n / IZR N)) (cis (- (2 * PI * IZR k * IZR n / IZR N))))); [ring|].
      rewrite <- cis_add. do 2 f_equal. field; auto. }
  rewrite csum_scale, csum_swap.
  rewrite (csum_single N k).
  - rewrite csum_mul_l, roots_delta by auto. rewrite Z.eqb_refl. apply cplx_eq; cbn; field; auto.
  - auto.
  - intros m Hm Hd. rewrite csum_mul_l, roots_delta by auto.
    destruct (Z.eqb_spec m k); [congruence|]. ring.
Qed.

Lemma dft_linear N a b x y k : dft N (fun n => cadd (cmul a (x n)) (cmul b (y n))) k
  = cadd (cmul a (dft N x k)) (cmul b (dft N y k)).
Proof. unfold dft. rewrite <- !csum_mul_l, <- csum_add. apply csum_ext; intros; ring. Qed.
Lemma idft_linear N a b x y k : idft N (fun n => cadd (cmul a (x n)) (cmul b (y n))) k
  = cadd (cmul a (idft N x k)) (cmul b (idft N y k)).
Proof.
  unfold idft. rewrite !cscale_mul.
  transitivity (cmul (RtoC (/ IZR N)) (cadd (cmul a (csum N (fun k0 => cmul (x k0) (cis (2 * PI * IZR k0 * IZR k / IZR N)))))
    (cmul b (csum N (fun k0 => cmul (y k0) (cis (2 * PI * IZR k0 * IZR k / IZR N))))))); [|ring].
  f_equal. rewrite <- !csum_mul_l, <- csum_add. apply csum_ext; intros; ring.
Qed.

(** ** Two variables *)
Lemma dft2_ext N1 N2 x y k1 k2 : (forall n1 n2, (0 <= n1 < N1)%Z -> (0 <= n2 < N2)%Z -> x n1 n2 = y n1 n2) ->
  dft2 N1 N2 x k1 k2 = dft2 N1 N2 y k1 k2.
Proof. intros H. apply dft_ext; intros. apply dft_ext; intros. auto. Qed.
Lemma idft2_ext N1 N2 x y k1 k2 : (forall n1 n2, (0 <= n1 < N1)%Z -> (0 <= n2 < N2)%Z -> x n1 n2 = y n1 n2) ->
  idft2 N1 N2 x k1 k2 = idft2 N1 N2 y k1 k2.
Proof. intros H. apply idft_ext; intros. apply idft_ext; intros. auto. Qed.

Lemma dft2_sum N1 N2 x k1 k2 : dft2 N1 N2 x k1 k2
  = csum N1 (fun n1 => csum N2 (fun n2 => cmul (x n1 n2) (cis (- (phase N1 k1 n1 + phase N2 k2 n2))))).
Proof.
  unfold dft2, dft. apply csum_ext; intros n1 H1. rewrite <- csum_mul_r. apply csum_ext; intros n2 H2.
  transitivity (cmul (x n1 n2) (cmul (cis (- (2 * PI * IZR k1 * IZR n1 / IZR N1))) (cis (- (2 * PI * IZR k2 * IZR n2 / IZR N2))))); [ring|].
  rewrite <- cis_add. unfold phase. do 2 f_equal. ring.
Qed.
Lemma idft2_sum N1 N2 x n1 n2 : (0 < N1)%Z -> (0 < N2)%Z -> idft2 N1 N2 x n1 n2
  = cscale (/ (IZR N1 * IZR N2)) (csum N1 (fun k1 => csum N2 (fun k2 => cmul (x k1 k2) (cis (phase N1 k1 n1 + phase N2 k2 n2))))).
Proof.
  intros P1 P2. assert (IZR N1 <> 0) by (apply IZR_neq; lia). assert (IZR N2 <> 0) by (apply IZR_neq; lia).
  unfold idft2, idft. rewrite !cscale_mul.
  transitivity (cmul (RtoC (/ IZR N1)) (cmul (RtoC (/ IZR N2)) (csum N1 (fun k1 => csum N2 (fun k2 => cmul (x k1 k2) (cis (phase N1 k1 n1 + phase N2 k2 n2))))))).
  - f_equal. rewrite <- csum_mul_l. apply csum_ext; intros k1 H1. rewrite cscale_mul.
    transitivity (cmul (RtoC (/ IZR N2)) (cmul (csum N2 (fun k => cmul (x k1 k) (cis (2 * PI * IZR k * IZR n2 / IZR N2))))
       (cis (2 * PI * IZR k1 * IZR n1 / IZR N1)))); [ring|]. f_equal.
    rewrite <- csum_mul_r. apply csum_ext; intros k2 H2.
    transitivity (cmul (x k1 k2) (cmul (cis (2 * PI * IZR k1 * IZR n1 / IZR N1)) (cis (2 * PI * IZR k2 * IZR n2 / IZR N2)))); [ring|].
    rewrite <- cis_add. reflexivity.
  - apply cplx_eq; cbn; field; auto.
Qed.

Lemma idft2_dft2 N1 N2 x n1 n2 : (0 < N1)%Z -> (0 < N2)%Z -> (0 <= n1 < N1)%Z -> (0 <= n2 < N2)%Z ->
  idft2 N1 N2 (dft2 N1 N2 x) n1 n2 = x n1 n2.
Proof.
  intros P1 P2 H1 H2. unfold idft2, dft2.
  rewrite (idft_ext N1 _ (dft N1 (fun n1 => x n1 n2))).
  - rewrite idft_dft; auto.
  - intros k1 K1.
    (* the two transforms act on different variables *)
    transitivity (dft N1 (fun m1 => idft N2 (fun k2 => dft N2 (fun m2 => x m1 m2) k2) n2) k1).
    + unfold idft, dft. rewrite !cscale_mul.
      rewrite (csum_ext N1 (fun n => cmul (cscale _ _) _) (fun n => cmul (RtoC (/ IZR N2))
         (csum N2 (fun k => cmul (cmul (csum N2 (fun n0 => cmul (x n n0) (cis (- (2 * PI * IZR k * IZR n0 / IZR N2)))))
            (cis (2 * PI * IZR k * IZR n2 / IZR N2))) (cis (- (2 * PI * IZR k1 * IZR n / IZR N1))))))).
      2:{ intros. rewrite cscale_mul. rewrite csum_mul_r. ring. }
      rewrite csum_mul_l. f_equal. rewrite csum_swap. apply csum_ext; intros k Hk.
      rewrite <- csum_mul_r. apply csum_ext; intros; ring.
    + apply dft_ext; intros m1 M1. apply idft_dft; auto.
Qed.

Lemma dft2_idft2 N1 N2 x k1 k2 : (0 < N1)%Z -> (0 < N2)%Z -> (0 <= k1 < N1)%Z -> (0 <= k2 < N2)%Z ->
  dft2 N1 N2 (idft2 N1 N2 x) k1 k2 = x k1 k2.
Proof.
  intros P1 P2 H1 H2. unfold idft2, dft2.
  rewrite (dft_ext N1 _ (idft N1 (fun n1 => x n1 k2))).
  - rewrite dft_idft; auto.
  - intros n1 K1.
    transitivity (idft N1 (fun m1 => dft N2 (fun k => idft N2 (fun m2 => x m1 m2) k) k2) n1).
    + unfold idft, dft. rewrite !cscale_mul.
      rewrite (csum_ext N2 _ (fun n => cmul (RtoC (/ IZR N1)) (csum N1 (fun k => cmul (cmul (cscale (/ IZR N2) (csum N2 (fun k0 => cmul (x k k0) (cis (2 * PI * IZR k0 * IZR n / IZR N2)))))
            (cis (2 * PI * IZR k * IZR n1 / IZR N1))) (cis (- (2 * PI * IZR k2 * IZR n / IZR N2))))))).
      2:{ intros. rewrite cscale_mul. rewrite csum_mul_r. ring. }
      rewrite csum_mul_l. f_equal. rewrite csum_swap. apply csum_ext; intros k Hk.
      rewrite <- csum_mul_r. apply csum_ext; intros; ring.
    + apply idft_ext; intros m1 M1. apply dft_idft; auto.
Qed.

Lemma dft2_linear N1 N2 a b x y k1 k2 : dft2 N1 N2 (fun i j => cadd (cmul a (x i j)) (cmul b (y i j))) k1 k2
  = cadd (cmul a (dft2 N1 N2 x k1 k2)) (cmul b (dft2 N1 N2 y k1 k2)).
Proof.
  unfold dft2. rewrite <- dft_linear. apply dft_ext; intros. apply dft_linear.
Qed.
Lemma idft2_linear N1 N2 a b x y k1 k2 : idft2 N1 N2 (fun i j => cadd (cmul a (x i j)) (cmul b (y i j))) k1 k2
  = cadd (cmul a (idft2 N1 N2 x k1 k2)) (cmul b (idft2 N1 N2 y k1 k2)).
Proof.
  unfold idft2. rewrite <- idft_linear. apply idft_ext; intros. apply idft_linear.
Qed.
