(** The nonlinear solver's FFT Poisson solver. *)
From Coq Require Import ZArith Reals Lra Lia Bool.
From Verif Require Import Base.Prelude Base.ZSum Base.Cplx Model.Af Model.Petsc Model.Fft
  Spec.Dft Spec.Waves Proofs.DftLemmas Proofs.MomentLemmas Proofs.FourierLemmas.
Local Open Scope R_scope.

Lemma real_ifft_el a i j k l : (0 < d0 a)%Z -> (0 < d1 a)%Z ->
  el (real_ifft a) i j k l = re (idft2 (d0 a) (d1 a) (fun m n => el a m n k l) i j).
Proof.
  intros H1 H2. rewrite idft2_sum by auto. unfold real_ifft. cbn [el amap ifft2_scaled d0 d1].
  f_equal. f_equal. rewrite cscale_mul. change (RtoC 1) with c1. ring.
Qed.

Lemma dft2_00 N1 N2 (x : Z -> Z -> R) :
  dft2 N1 N2 (fun i j => RtoC (x i j)) 0 0 = RtoC (zsum N1 (fun i => zsum N2 (fun j => x i j))).
Proof.
  rewrite dft2_sum.
  rewrite (csum_ext N1 _ (fun i => csum N2 (fun j => RtoC (x i j)))).
  - apply cplx_eq; cbn; [reflexivity|]. rewrite (zsum_ext N1 _ (fun _ => 0)); [apply zsum_zero|]. intros; apply zsum_zero.
  - intros i Hi. apply csum_ext; intros j Hj. unfold phase.
    replace (- (2 * PI * 0 * IZR i / IZR N1 + 2 * PI * 0 * IZR j / IZR N2)) with 0 by (unfold Rdiv; ring).
    rewrite cis_0. ring.
Qed.
Lemma dft2_scale_real N1 N2 a (x : Z -> Z -> R) i j :
  dft2 N1 N2 (fun m n => RtoC (x m n * a)) i j = cscale a (dft2 N1 N2 (fun m n => RtoC (x m n)) i j).
Proof.
  rewrite (dft2_ext N1 N2 _ (fun m n => cadd (cmul (RtoC a) (RtoC (x m n))) (cmul c0 c0))).
  - rewrite dft2_linear, cscale_mul. ring.
  - intros. cplx_ring.
Qed.

Lemma gauss_alg z a b e : 0 < a ^ 2 + b ^ 2 -> e <> 0 ->
  let p := cscale (/ (a ^ 2 + b ^ 2)) z in
  cmul ci (cadd (cscale a (cscale (/ e) (cmul (cscale a (copp ci)) p))) (cscale b (cscale (/ e) (cmul (cscale b (copp ci)) p))))
  = cscale (/ e) z.
Proof. intros W E p. unfold p. cplx_ring; field; split; auto; lra. Qed.

Section P.
  Context (g N1 N2 : Z) (Pg : (0 < g)%Z) (P1 : (0 < N1)%Z) (P2 : (0 < N2)%Z).
  Context (dq1 dq2 eps : R) (Q1 : 0 < dq1) (Q2 : 0 < dq2) (Qe : eps <> 0).
  Context (rho : arr R) (D : dims4 rho 1 1 (N1 + 2 * g) (N2 + 2 * g)).

  Let r i j := el rho 0 0 (g + i)%Z (g + j)%Z.
  Let rin := reorder2301 (interior_g g rho).

  Lemma rin_dims : d0 rin = N1 /\ d1 rin = N2.
  Proof.
    destruct D as (A&B&C&E). unfold rin, interior_g. cbn [reorder2301 slice23 d0 d1 d2 d3].
    rewrite C, E. unfold slice_len, slice_bound.
    destruct (Z.ltb_spec (- g) 0); destruct (Z.ltb_spec g 0); lia.
  Qed.
  Lemma rin_el i j : el rin i j 0 0 = r i j.
  Proof.
    destruct D as (A&B&C&E). unfold rin, interior_g, r. cbn [reorder2301 slice23 el d2 d3].
    rewrite C, E. unfold slice_bound. destruct (Z.ltb_spec g 0); [lia|].
    rewrite !Z.min_r by lia. reflexivity.
  Qed.

  Let rh i j := dft2 N1 N2 (fun m n => RtoC (r m n - mean2 N1 N2 r)) i j.
  Let k1 i := wavenumber N1 dq1 i.
  Let k2 j := wavenumber N2 dq2 j.
  Let ph i j := if ((i =? 0) && (j =? 0))%Z%bool then c0 else cscale (/ (k1 i ^ 2 + k2 j ^ 2)) (rh i j).
  Let P := poisson_hat dq1 dq2 rin.

  Lemma amean_rin : amean2 rin = mean2 N1 N2 r.
  Proof.
    destruct rin_dims as (A&B). unfold amean2, mean2. rewrite A, B. f_equal. apply zsum_ext; intros; apply zsum_ext; intros.
    apply rin_el.
  Qed.
  Lemma P_el i j : (0 <= i < N1)%Z -> (0 <= j < N2)%Z -> el P i j 0 0 = ph i j.
  Proof.
    intros Hi Hj. destruct rin_dims as (A&B). unfold P, poisson_hat, ph. cbn [el].
    destruct ((i =? 0) && (j =? 0))%Z%bool; [reflexivity|]. rewrite fft2_el.
    change (d0 (amap RtoC (amap (fun x => x - amean2 rin) rin))) with (d0 rin).
    change (d1 (amap RtoC (amap (fun x => x - amean2 rin) rin))) with (d1 rin).
    rewrite A, B. f_equal.
    - unfold k1, k2. rewrite <- !freq_wave by auto. f_equal. ring.
    - unfold rh. apply dft2_ext; intros m n Hm Hn. cbn [amap el]. rewrite rin_el, amean_rin. reflexivity.
  Qed.
  Lemma P_dims : d0 P = N1 /\ d1 P = N2.
  Proof. exact rin_dims. Qed.

  (** The hermitian symmetry of the potential. *)
  Lemma rh_conj i j : (0 <= i < N1)%Z -> (0 <= j < N2)%Z -> rh (negm N1 i) (negm N2 j) = cconj (rh i j).
  Proof. intros. apply (dft2_real N1 N2 (fun m n => r m n - mean2 N1 N2 r)); auto. Qed.
  Lemma k_sq N d i : (0 < N)%Z -> (0 <= i < N)%Z -> wavenumber N d (negm N i) ^ 2 = wavenumber N d i ^ 2.
  Proof.
    intros HN Hi. unfold wavenumber. destruct (Z.eq_dec (2 * i) N) as [E|E].
    - unfold negm. destruct (Z.eqb_spec i 0); [subst; reflexivity|]. replace (N - i)%Z with i by lia. reflexivity.
    - rewrite negm_neg by auto. rewrite opp_IZR. unfold Rdiv. ring.
  Qed.
  Lemma negm_0 N i : (0 <= i < N)%Z -> (negm N i =? 0)%Z = (i =? 0)%Z.
  Proof. intros H. unfold negm. destruct (Z.eqb_spec i 0); [reflexivity|]. apply Z.eqb_neq. lia. Qed.
  Lemma ph_conj i j : (0 <= i < N1)%Z -> (0 <= j < N2)%Z -> ph (negm N1 i) (negm N2 j) = cconj (ph i j).
  Proof.
    intros Hi Hj. unfold ph. rewrite !negm_0 by auto. destruct ((i =? 0) && (j =? 0))%Z%bool; [cplx_ring|].
    rewrite rh_conj by auto. unfold k1, k2. rewrite !k_sq by auto. cplx_ring.
  Qed.

  (** One component: kk is k1 or k2 as a function of the mode. *)
  Section Component.
    Context (kk : Z -> Z -> R) (fr : Z -> Z -> R) (FR : forall i j, (0 <= i < N1)%Z -> (0 <= j < N2)%Z -> 2 * PI * fr i j = kk i j).
    Let E := amap (fun x => x / eps) (reorder2301 (real_ifft (electric_hat fr P))).
    Let X i j := cmul (cscale (kk i j) (copp ci)) (ph i j).

    Lemma E_el i j : (0 <= i < N1)%Z -> (0 <= j < N2)%Z ->
      el E 0 0 i j = re (idft2 N1 N2 X i j) / eps.
    Proof.
      intros Hi Hj. destruct P_dims as (A&B). unfold E. cbn [amap reorder2301 el].
      rewrite real_ifft_el by (cbn [electric_hat d0 d1]; lia). cbn [electric_hat d0 d1]. rewrite A, B.
      f_equal. f_equal. apply idft2_ext; intros m n Hm Hn.
      change (cmul (cscale (2 * PI * fr m n) (copp ci)) (el P m n 0 0) = X m n). rewrite P_el, FR by auto. reflexivity.
    Qed.
    Lemma E_hat i j : (0 <= i < N1)%Z -> (0 <= j < N2)%Z ->
      dft2 N1 N2 (fun m n => RtoC (el E 0 0 m n)) i j
      = cscale (/ eps) (cscale (1/2) (cadd (X i j) (cconj (X (negm N1 i) (negm N2 j))))).
    Proof.
      intros Hi Hj.
      rewrite (dft2_ext N1 N2 _ (fun m n => RtoC (re (idft2 N1 N2 X m n) * / eps))).
      2:{ intros m n Hm Hn. rewrite E_el by auto. reflexivity. }
      rewrite dft2_scale_real. f_equal. rewrite dft2_re by auto.
      rewrite !dft2_idft2 by (auto using negm_in). reflexivity.
    Qed.
    Lemma E_odd i j : (0 <= i < N1)%Z -> (0 <= j < N2)%Z -> kk (negm N1 i) (negm N2 j) = - kk i j ->
      dft2 N1 N2 (fun m n => RtoC (el E 0 0 m n)) i j = cscale (/ eps) (X i j).
    Proof.
      intros Hi Hj H. rewrite E_hat by auto. f_equal. unfold X at 2. rewrite H, ph_conj by auto.
      unfold X. generalize (ph i j); intros z. generalize (kk i j); intros q. cplx_ring; field.
    Qed.
    Lemma E_even i j : (0 <= i < N1)%Z -> (0 <= j < N2)%Z -> kk (negm N1 i) (negm N2 j) = kk i j ->
      dft2 N1 N2 (fun m n => RtoC (el E 0 0 m n)) i j = c0.
    Proof.
      intros Hi Hj H. rewrite E_hat by auto. unfold X at 2. rewrite H, ph_conj by auto.
      unfold X. generalize (ph i j); intros z. generalize (kk i j); intros q. cplx_ring; field; auto.
    Qed.
    Lemma E_mean : mean2 N1 N2 (fun i j => el E 0 0 i j) = 0.
    Proof.
      pose proof (E_hat 0 0 ltac:(lia) ltac:(lia)) as H. rewrite dft2_00 in H.
      assert (Z0 : X 0 0 = c0) by (unfold X, ph; cbn; cplx_ring).
      change (negm N1 0) with 0%Z in H. change (negm N2 0) with 0%Z in H. rewrite Z0 in H.
      unfold mean2. set (T := zsum N1 _) in *. clearbody T. apply (f_equal re) in H. cbn in H. rewrite H. unfold Rdiv. ring.
    Qed.
  End Component.

  Lemma wave_odd N d i : (0 < N)%Z -> (0 <= i < N)%Z -> (2 * i)%Z <> N -> wavenumber N d (negm N i) = - wavenumber N d i.
  Proof. intros HN Hi E. unfold wavenumber. rewrite negm_neg by auto. rewrite opp_IZR. unfold Rdiv. ring. Qed.
  Lemma wave_even N d i : (2 * i)%Z = N -> (0 < N)%Z -> wavenumber N d (negm N i) = wavenumber N d i.
  Proof. intros E H. unfold negm. destruct (Z.eqb_spec i 0); [lia|]. replace (N - i)%Z with i by lia. reflexivity. Qed.

  Lemma poisson :
    let E1 := fst (fft_poisson_E g dq1 dq2 eps rho) in
    let E2 := snd (fft_poisson_E g dq1 dq2 eps rho) in
    let hat (x : Z -> Z -> R) := dft2 N1 N2 (fun i j => RtoC (x i j)) in
    let e1 i j := el E1 0 0 i j in
    let e2 i j := el E2 0 0 i j in
    let r i j := el rho 0 0 (g + i)%Z (g + j)%Z in
    dims4 E1 1 1 N1 N2 /\ dims4 E2 1 1 N1 N2
    /\ mean2 N1 N2 e1 = 0 /\ mean2 N1 N2 e2 = 0
    /\ (forall i j, (0 <= i < N1)%Z -> (0 <= j < N2)%Z -> resolved N1 N2 i j ->
         let k1 := wavenumber N1 dq1 i in let k2 := wavenumber N2 dq2 j in
         cmul ci (cadd (cscale k1 (hat e1 i j)) (cscale k2 (hat e2 i j)))
           = cscale (/ eps) (hat (fun m n => r m n - mean2 N1 N2 r) i j)
         /\ csub (cscale k1 (hat e2 i j)) (cscale k2 (hat e1 i j)) = c0)
    /\ (forall i j, (0 <= i < N1)%Z -> (0 <= j < N2)%Z -> (2 * i)%Z = N1 -> hat e1 i j = c0)
    /\ (forall i j, (0 <= i < N1)%Z -> (0 <= j < N2)%Z -> (2 * j)%Z = N2 -> hat e2 i j = c0).
  Proof.
    intros E1 E2 hat e1 e2 r'.
    assert (F1 : forall i j, (0 <= i < N1)%Z -> (0 <= j < N2)%Z -> 2 * PI * fftfreq (d0 rin) dq1 i = k1 i).
    { intros. destruct rin_dims as (A&_). rewrite A. apply freq_wave; auto. }
    assert (F2 : forall i j, (0 <= i < N1)%Z -> (0 <= j < N2)%Z -> 2 * PI * fftfreq (d1 rin) dq2 j = k2 j).
    { intros. destruct rin_dims as (_&B). rewrite B. apply freq_wave; auto. }
    split.
    { destruct rin_dims as (A&B). split; [|split; [|split]]; [| |exact A|exact B]; destruct D as (X&Y&_); [exact X|exact Y]. }
    split.
    { destruct rin_dims as (A&B). split; [|split; [|split]]; [| |exact A|exact B]; destruct D as (X&Y&_); [exact X|exact Y]. }
    split; [exact (E_mean (fun i _ => k1 i) (fun i _ => fftfreq (d0 rin) dq1 i) F1)|].
    split; [exact (E_mean (fun _ j => k2 j) (fun _ j => fftfreq (d1 rin) dq2 j) F2)|].
    split; [|split].
    - intros i j Hi Hj (R1&R2) kk1 kk2.
      pose proof (E_odd (fun i _ => k1 i) (fun i _ => fftfreq (d0 rin) dq1 i) F1 i j Hi Hj (wave_odd N1 dq1 i P1 Hi R1)) as V1.
      pose proof (E_odd (fun _ j => k2 j) (fun _ j => fftfreq (d1 rin) dq2 j) F2 i j Hi Hj (wave_odd N2 dq2 j P2 Hj R2)) as V2.
      unfold hat. unfold e1, e2. change E1 with (amap (fun x => x / eps) (reorder2301 (real_ifft (electric_hat (fun i _ => fftfreq (d0 rin) dq1 i) P)))).
      change E2 with (amap (fun x => x / eps) (reorder2301 (real_ifft (electric_hat (fun _ j => fftfreq (d1 rin) dq2 j) P)))).
      rewrite V1, V2. fold (k1 i) in kk1. fold (k2 j) in kk2.
      change (dft2 N1 N2 (fun m n => RtoC (r' m n - mean2 N1 N2 r')) i j) with (rh i j).
      split.
      + unfold ph. destruct (Z.eqb_spec i 0) as [Ei|Ei]; destruct (Z.eqb_spec j 0) as [Ej|Ej]; cbn [andb].
        * subst i j. unfold rh. rewrite dft2_00.
          replace (zsum N1 (fun i => zsum N2 (fun j => r i j - mean2 N1 N2 r))) with 0; [cplx_ring|].
          symmetry. rewrite (zsum_ext N1 _ (fun i => zsum N2 (fun j => r i j) - IZR N2 * mean2 N1 N2 r)).
          2:{ intros. rewrite zsum_minus, zsum_const by lia. reflexivity. }
          rewrite zsum_minus, zsum_const by lia. unfold mean2. field. split; apply IZR_neq; lia.
        * pose proof (wave_sq N1 N2 dq1 dq2 i j P1 P2 Q1 Q2 Hi Hj ltac:(auto)) as W. fold (k1 i) (k2 j) in W.
          exact (gauss_alg (rh i j) (k1 i) (k2 j) eps W Qe).
        * pose proof (wave_sq N1 N2 dq1 dq2 i j P1 P2 Q1 Q2 Hi Hj ltac:(auto)) as W. fold (k1 i) (k2 j) in W.
          exact (gauss_alg (rh i j) (k1 i) (k2 j) eps W Qe).
        * pose proof (wave_sq N1 N2 dq1 dq2 i j P1 P2 Q1 Q2 Hi Hj ltac:(auto)) as W. fold (k1 i) (k2 j) in W.
          exact (gauss_alg (rh i j) (k1 i) (k2 j) eps W Qe).
      + unfold kk1, kk2. generalize (ph i j) (k1 i) (k2 j). intros z a b. cplx_ring; field; exact Qe.
    - intros i j Hi Hj R1.
      exact (E_even (fun i _ => k1 i) (fun i _ => fftfreq (d0 rin) dq1 i) F1 i j Hi Hj (wave_even N1 dq1 i R1 P1)).
    - intros i j Hi Hj R2.
      exact (E_even (fun _ j => k2 j) (fun _ j => fftfreq (d1 rin) dq2 j) F2 i j Hi Hj (wave_even N2 dq2 j R2 P2)).
  Qed.
End P.
