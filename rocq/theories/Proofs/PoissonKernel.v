(** The FFT Poisson solver as a sum over charges. *)
From Coq Require Import ZArith Reals Lra Lia Bool String List.
From Verif Require Import Base.Prelude Base.ZSum Base.Cplx Model.Af Model.Petsc Model.Config Model.Fft Model.Em
  Spec.Dft Spec.Waves Spec.Yee Spec.Poisson Proofs.DftLemmas Proofs.MomentLemmas Proofs.FourierLemmas Proofs.PoissonLemmas.
Local Open Scope R_scope.

Section Kernel.
  Context (N1 N2 : Z) (P1 : (0 < N1)%Z) (P2 : (0 < N2)%Z) (dq1 dq2 eps : R) (kk : Z -> Z -> R).
  Let K := coulomb N1 N2 dq1 dq2 eps kk.

  Lemma nz1 : IZR N1 <> 0. Proof using P1. apply not_0_IZR; lia. Qed.
  Lemma nz2 : IZR N2 <> 0. Proof using P2. apply not_0_IZR; lia. Qed.

  Lemma coulomb_ext m n m' n' : (forall i j, inb N1 i -> inb N2 j ->
      sin (2 * PI * (IZR i * IZR m / IZR N1 + IZR j * IZR n / IZR N2))
      = sin (2 * PI * (IZR i * IZR m' / IZR N1 + IZR j * IZR n' / IZR N2))) -> K m n = K m' n'.
  Proof using.
    intros H. unfold K, coulomb. f_equal. apply zsum_ext; intros i Hi. apply zsum_ext; intros j Hj.
    rewrite H by auto. reflexivity.
  Qed.
  Lemma sin_turns x k : sin (x + 2 * PI * IZR k) = sin x.
  Proof using. pose proof (cis_period x k) as H. apply (f_equal im) in H. exact H. Qed.

  Lemma coulomb_odd m n : K (- m)%Z (- n)%Z = - K m n.
  Proof using.
    unfold K, coulomb. match goal with |- ?a / ?d = - (?b / ?d) => replace a with (- b); [unfold Rdiv; ring|] end.
    symmetry. rewrite <- zsum_opp. apply zsum_ext; intros i Hi. rewrite <- zsum_opp. apply zsum_ext; intros j Hj.
    destruct ((i =? 0) && (j =? 0))%Z%bool; [ring|]. rewrite !opp_IZR.
    replace (2 * PI * (IZR i * - IZR m / IZR N1 + IZR j * - IZR n / IZR N2))
      with (- (2 * PI * (IZR i * IZR m / IZR N1 + IZR j * IZR n / IZR N2))) by (unfold Rdiv; ring).
    rewrite sin_neg. ring.
  Qed.
  Lemma coulomb_period1 m n k : K (m + k * N1)%Z n = K m n.
  Proof using P1.
    apply coulomb_ext. intros i j Hi Hj. rewrite plus_IZR, mult_IZR.
    replace (2 * PI * (IZR i * (IZR m + IZR k * IZR N1) / IZR N1 + IZR j * IZR n / IZR N2))
      with (2 * PI * (IZR i * IZR m / IZR N1 + IZR j * IZR n / IZR N2) + 2 * PI * IZR (i * k)).
    - apply sin_turns.
    - rewrite mult_IZR. pose proof nz1. unfold Rdiv. generalize (IZR j * IZR n * / IZR N2). intros. field. auto.
  Qed.
  Lemma coulomb_period2 m n k : K m (n + k * N2)%Z = K m n.
  Proof using P2.
    apply coulomb_ext. intros i j Hi Hj. rewrite plus_IZR, mult_IZR.
    replace (2 * PI * (IZR i * IZR m / IZR N1 + IZR j * (IZR n + IZR k * IZR N2) / IZR N2))
      with (2 * PI * (IZR i * IZR m / IZR N1 + IZR j * IZR n / IZR N2) + 2 * PI * IZR (j * k)).
    - apply sin_turns.
    - rewrite mult_IZR. pose proof nz2. unfold Rdiv. generalize (IZR i * IZR m * / IZR N1). intros. field. auto.
  Qed.
  Lemma coulomb_mod m n : K (m mod N1)%Z (n mod N2)%Z = K m n.
  Proof using P1 P2.
    rewrite <- (coulomb_period1 (m mod N1) _ (m / N1)), <- (coulomb_period2 _ (n mod N2) (n / N2)).
    f_equal; rewrite Zmod_eq_full by lia; lia.
  Qed.

  (** The charges of a whole wave cancel. *)
  Lemma wave_total i j x y : inb N1 i -> inb N2 j -> ((i =? 0) && (j =? 0))%Z%bool = false ->
    zsum N1 (fun a => zsum N2 (fun b => sin (2 * PI * (IZR i * IZR (x - a) / IZR N1 + IZR j * IZR (y - b) / IZR N2)))) = 0.
  Proof using P1 P2.
    intros Hi Hj NZ.
    set (A a := cis (2 * PI * IZR (- i) * IZR a / IZR N1)). set (B b := cis (2 * PI * IZR (- j) * IZR b / IZR N2)).
    set (Q := cis (2 * PI * (IZR i * IZR x / IZR N1 + IZR j * IZR y / IZR N2))).
    assert (S : csum N1 (fun a => csum N2 (fun b => cmul Q (cmul (A a) (B b)))) = cmul Q (cmul (csum N1 A) (csum N2 B))).
    { rewrite (csum_ext N1 _ (fun a => cmul (A a) (cmul Q (csum N2 B)))).
      - rewrite csum_mul_r. ring.
      - intros a Ha. rewrite (csum_ext N2 _ (fun b => cmul (cmul Q (A a)) (B b))) by (intros; ring).
        rewrite csum_mul_l. ring. }
    assert (Z : cmul (csum N1 A) (csum N2 B) = c0).
    { destruct (Z.eq_dec i 0) as [Ei|Ei].
      - assert (Ej : j <> 0%Z) by (intros ->; subst i; discriminate).
        unfold B. rewrite roots by (unfold inb in *; lia). ring.
      - unfold A. rewrite roots by (unfold inb in *; lia). ring. }
    rewrite Z in S. apply (f_equal im) in S.
    replace (im (cmul Q c0)) with 0 in S by (unfold cmul, c0, im, re; simpl; ring). rewrite <- S.
    unfold csum at 1. cbn [im snd]. apply zsum_ext; intros a Ha. unfold csum. cbn [im snd]. apply zsum_ext; intros b Hb.
    unfold Q, A, B. rewrite <- !cis_add. unfold cis, im. cbn [snd]. f_equal. rewrite !minus_IZR, !opp_IZR. unfold Rdiv. ring.
  Qed.

  Lemma coulomb_total x y : zsum N1 (fun a => zsum N2 (fun b => K (x - a)%Z (y - b)%Z)) = 0.
  Proof using P1 P2.
    unfold K, coulomb.
    rewrite (zsum_ext N1 _ (fun a => zsum N2 (fun b => zsum N1 (fun i => zsum N2 (fun j =>
       if ((i =? 0) && (j =? 0))%Z%bool then 0
       else kk i j / (wavenumber N1 dq1 i ^ 2 + wavenumber N2 dq2 j ^ 2)
         * sin (2 * PI * (IZR i * IZR (x - a) / IZR N1 + IZR j * IZR (y - b) / IZR N2))))) * / (IZR N1 * IZR N2 * eps))).
    2:{ intros a Ha. rewrite <- zsum_scal_r. reflexivity. }
    rewrite zsum_scal_r. apply Rmult_eq_0_compat_r.
    rewrite (zsum_ext N1 _ (fun a => zsum N1 (fun i => zsum N2 (fun b => zsum N2 (fun j =>
       if ((i =? 0) && (j =? 0))%Z%bool then 0
       else kk i j / (wavenumber N1 dq1 i ^ 2 + wavenumber N2 dq2 j ^ 2)
         * sin (2 * PI * (IZR i * IZR (x - a) / IZR N1 + IZR j * IZR (y - b) / IZR N2))))))) by (intros; apply zsum_swap).
    rewrite zsum_swap. rewrite (zsum_ext N1 _ (fun _ => 0)); [apply zsum_zero|]. intros i Hi.
    rewrite (zsum_ext N1 _ (fun a => zsum N2 (fun j => zsum N2 (fun b =>
       if ((i =? 0) && (j =? 0))%Z%bool then 0
       else kk i j / (wavenumber N1 dq1 i ^ 2 + wavenumber N2 dq2 j ^ 2)
         * sin (2 * PI * (IZR i * IZR (x - a) / IZR N1 + IZR j * IZR (y - b) / IZR N2)))))) by (intros; apply zsum_swap).
    rewrite zsum_swap. rewrite (zsum_ext N2 _ (fun _ => 0)); [apply zsum_zero|]. intros j Hj.
    destruct ((i =? 0) && (j =? 0))%Z%bool eqn:NZ.
    - rewrite (zsum_ext N1 _ (fun _ => 0)); [apply zsum_zero|]. intros. apply zsum_zero.
    - rewrite (zsum_ext N1 _ (fun a => kk i j / (wavenumber N1 dq1 i ^ 2 + wavenumber N2 dq2 j ^ 2)
         * zsum N2 (fun b => sin (2 * PI * (IZR i * IZR (x - a) / IZR N1 + IZR j * IZR (y - b) / IZR N2)))))
        by (intros; apply zsum_scal).
      rewrite zsum_scal, wave_total by auto. ring.
  Qed.

  (** ** No self-force *)
  Lemma no_self_force (rho : Z -> Z -> R) :
    zsum N1 (fun i => zsum N2 (fun j => rho i j * field_of N1 N2 K rho i j)) = 0.
  Proof using.
    set (F a b i j := rho i j * (K (i - a)%Z (j - b)%Z * rho a b)).
    assert (E : zsum N1 (fun i => zsum N2 (fun j => rho i j * field_of N1 N2 K rho i j))
       = zsum N1 (fun i => zsum N2 (fun j => zsum N1 (fun a => zsum N2 (fun b => F a b i j))))).
    { apply zsum_ext; intros i Hi. apply zsum_ext; intros j Hj. unfold field_of. rewrite <- zsum_scal.
      apply zsum_ext; intros a Ha. rewrite <- zsum_scal. reflexivity. }
    assert (SW : zsum N1 (fun i => zsum N2 (fun j => zsum N1 (fun a => zsum N2 (fun b => F a b i j))))
       = zsum N1 (fun a => zsum N2 (fun b => zsum N1 (fun i => zsum N2 (fun j => F a b i j))))).
    { rewrite (zsum_ext N1 _ (fun i => zsum N1 (fun a => zsum N2 (fun j => zsum N2 (fun b => F a b i j))))) by (intros; apply zsum_swap).
      rewrite zsum_swap. apply zsum_ext; intros a Ha.
      rewrite (zsum_ext N1 _ (fun i => zsum N2 (fun b => zsum N2 (fun j => F a b i j)))) by (intros; apply zsum_swap).
      apply zsum_swap. }
    assert (OP : zsum N1 (fun a => zsum N2 (fun b => zsum N1 (fun i => zsum N2 (fun j => F a b i j))))
       = - zsum N1 (fun a => zsum N2 (fun b => zsum N1 (fun i => zsum N2 (fun j => F i j a b))))).
    { rewrite <- zsum_opp. apply zsum_ext; intros a Ha. rewrite <- zsum_opp. apply zsum_ext; intros b Hb.
      rewrite <- zsum_opp. apply zsum_ext; intros i Hi. rewrite <- zsum_opp. apply zsum_ext; intros j Hj.
      unfold F. replace (a - i)%Z with (- (i - a))%Z by lia. replace (b - j)%Z with (- (j - b))%Z by lia.
      rewrite coulomb_odd. ring. }
    rewrite E. set (T := zsum N1 (fun i => zsum N2 (fun j => zsum N1 (fun a => zsum N2 (fun b => F a b i j))))) in *.
    rewrite OP in SW. change (T = - T) in SW. lra.
  Qed.
End Kernel.

(** ** The solver computes this sum *)
Section Solver.
  Context (g N1 N2 : Z) (Pg : (0 < g)%Z) (P1 : (0 < N1)%Z) (P2 : (0 < N2)%Z).
  Context (dq1 dq2 eps : R) (Q1 : 0 < dq1) (Q2 : 0 < dq2) (Qe : eps <> 0).
  Context (rho : arr R) (D : dims4 rho 1 1 (N1 + 2 * g) (N2 + 2 * g)).
  Let r i j := el rho 0 0 (g + i)%Z (g + j)%Z.
  Let k2 i j := (wavenumber N1 dq1 i ^ 2 + wavenumber N2 dq2 j ^ 2).

  Lemma re_wave (kk w : R) z phi : re (cmul (cmul (cscale kk (copp ci)) (cscale w z)) (cis phi)) = kk * w * im (cmul z (cis phi)).
  Proof using. unfold re, im, cmul, cscale, copp, ci, cis. simpl. unfold re, im. simpl. ring. Qed.

  Lemma component (kk : Z -> Z -> R) (X : Z -> Z -> cplx) :
    (forall i j, inb N1 i -> inb N2 j -> X i j = cmul (cscale (kk i j) (copp ci))
       (if ((i =? 0) && (j =? 0))%Z%bool then c0 else cscale (/ k2 i j) (dft2 N1 N2 (fun m n => RtoC (r m n - mean2 N1 N2 r)) i j))) ->
    forall x y, inb N1 x -> inb N2 y ->
    re (idft2 N1 N2 X x y) / eps = field_of N1 N2 (coulomb N1 N2 dq1 dq2 eps kk) r x y.
  Proof using P1 P2 Qe.
    intros HX x y Hx Hy. rewrite idft2_sum by auto.
    set (M := mean2 N1 N2 r) in *. set (n12 := IZR N1 * IZR N2).
    assert (NZ1 := nz1 N1 P1). assert (NZ2 := nz2 N2 P2).
    set (S a b i j := if ((i =? 0) && (j =? 0))%Z%bool then 0
       else kk i j / k2 i j * sin (2 * PI * (IZR i * IZR (x - a) / IZR N1 + IZR j * IZR (y - b) / IZR N2))).
    transitivity (zsum N1 (fun i => zsum N2 (fun j => zsum N1 (fun a => zsum N2 (fun b => S a b i j * (r a b - M))))) / (n12 * eps)).
    - change (re (cscale ?a ?z)) with (a * re z).
      match goal with |- _ * ?s / _ = ?t / _ => replace s with t; [unfold n12; field; auto|] end.
      unfold csum at 1. cbn [re fst]. apply zsum_ext; intros i Hi. unfold csum at 1. cbn [re fst]. apply zsum_ext; intros j Hj.
      rewrite HX by auto. unfold S. destruct ((i =? 0) && (j =? 0))%Z%bool.
      + replace (re _) with 0 by (unfold re, im, cmul, cscale, copp, ci, c0, cis; simpl; ring).
        rewrite (zsum_ext N1 _ (fun _ => 0)); [apply zsum_zero|]. intros a Ha.
        rewrite (zsum_ext N2 _ (fun _ => 0)); [apply zsum_zero|]. intros; ring.
      + rewrite re_wave, dft2_sum, <- csum_mul_r.
        unfold csum at 1. cbn [im snd]. rewrite <- zsum_scal. apply zsum_ext; intros a Ha.
        rewrite <- csum_mul_r. unfold csum. cbn [im snd]. rewrite <- zsum_scal. apply zsum_ext; intros b Hb.
        match goal with |- context [cmul (cmul (RtoC ?q) (cis ?u)) (cis ?v)] =>
          replace (cmul (cmul (RtoC q) (cis u)) (cis v)) with (cscale q (cis (u + v)))
            by (rewrite cis_add, cscale_mul; ring) end.
        unfold cscale, cis, im, re. cbn [fst snd].
        match goal with |- _ * sin ?v * _ = _ * (_ * sin ?u) => replace u with v; [unfold Rdiv; ring|] end.
        unfold phase. rewrite !minus_IZR. unfold Rdiv. ring.
    - transitivity (zsum N1 (fun a => zsum N2 (fun b => coulomb N1 N2 dq1 dq2 eps kk (x - a) (y - b) * (r a b - M)))).
      + rewrite (zsum_ext N1 _ (fun i => zsum N1 (fun a => zsum N2 (fun j => zsum N2 (fun b => S a b i j * (r a b - M))))))
          by (intros; apply zsum_swap).
        rewrite zsum_swap. unfold Rdiv. rewrite <- zsum_scal_r. apply zsum_ext; intros a Ha.
        rewrite (zsum_ext N1 _ (fun i => zsum N2 (fun b => zsum N2 (fun j => S a b i j * (r a b - M))))) by (intros; apply zsum_swap).
        rewrite zsum_swap, <- zsum_scal_r. apply zsum_ext; intros b Hb.
        rewrite (zsum_ext N1 _ (fun i => zsum N2 (fun j => S a b i j) * (r a b - M))) by (intros; apply zsum_scal_r).
        rewrite zsum_scal_r. unfold coulomb. fold n12. unfold Rdiv at 1.
        change (zsum N1 (fun i => zsum N2 (fun j => S a b i j)) * (r a b - M) * / (n12 * eps)
          = zsum N1 (fun i => zsum N2 (fun j => S a b i j)) * / (n12 * eps) * (r a b - M)). ring.
      + unfold field_of.
        rewrite (zsum_ext N1 _ (fun a => zsum N2 (fun b => coulomb N1 N2 dq1 dq2 eps kk (x - a) (y - b) * r a b)
            - M * zsum N2 (fun b => coulomb N1 N2 dq1 dq2 eps kk (x - a) (y - b)))).
        2:{ intros a Ha. rewrite <- zsum_scal, <- zsum_minus. apply zsum_ext; intros; ring. }
        rewrite zsum_minus, zsum_scal, coulomb_total by auto. ring.
  Qed.

  Lemma fft_kernel x y : inb N1 x -> inb N2 y ->
    el (fst (fft_poisson_E g dq1 dq2 eps rho)) 0 0 x y = field_of N1 N2 (coulomb1 N1 N2 dq1 dq2 eps) r x y
    /\ el (snd (fft_poisson_E g dq1 dq2 eps rho)) 0 0 x y = field_of N1 N2 (coulomb2 N1 N2 dq1 dq2 eps) r x y.
  Proof using Pg P1 P2 Q1 Q2 Qe D.
    intros Hx Hy. pose proof (rin_dims g N1 N2 Pg P1 P2 rho D) as (A&B).
    unfold fft_poisson_E. rewrite A, B. cbv zeta. cbn [fst snd].
    pose proof (E_el g N1 N2 Pg P1 P2 dq1 dq2 eps rho D (fun i _ => wavenumber N1 dq1 i) (fun i _ => fftfreq N1 dq1 i)) as E1.
    pose proof (E_el g N1 N2 Pg P1 P2 dq1 dq2 eps rho D (fun _ j => wavenumber N2 dq2 j) (fun _ j => fftfreq N2 dq2 j)) as E2.
    split.
    - rewrite E1 by (auto; intros; apply freq_wave; auto). apply component; auto.
    - rewrite E2 by (auto; intros; apply freq_wave; auto). apply component; auto.
  Qed.
End Solver.
