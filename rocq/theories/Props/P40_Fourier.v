(** C40, C58, C59: the Fourier transforms, the wave numbers and the FFT Poisson solver. *)
From Coq Require Import ZArith Reals Lra Lia.
From Verif Require Import Base.ZSum Base.Cplx Model.Af Model.Fft Model.Linear Spec.Dft Spec.Waves
  Proofs.AfLemmas Proofs.MomentLemmas Proofs.FourierLemmas Proofs.PoissonLemmas.
Local Open Scope R_scope.

(** C59.  The transforms used by the linear solver act on the last two axes and
    are the textbook ones. *)
Theorem C59_is_dft : forall (a : arr cplx) x s i j, (0 < d2 a)%Z -> (0 < d3 a)%Z ->
  el (fft2q a) x s i j = dft2 (d2 a) (d3 a) (fun m n => el a x s m n) i j
  /\ el (ifft2q a) x s i j = idft2 (d2 a) (d3 a) (fun m n => el a x s m n) i j
  /\ same_dims (fft2q a) a /\ same_dims (ifft2q a) a.
Proof. exact fft_is_dft. Qed.
Print Assumptions C59_is_dft.

Theorem C59_inverse_pair : forall a : arr cplx, (0 < d2 a)%Z -> (0 < d3 a)%Z ->
  aeq (ifft2q (fft2q a)) a /\ aeq (fft2q (ifft2q a)) a.
Proof. exact fft_pair. Qed.
Print Assumptions C59_inverse_pair.

Theorem C59_linear : forall (al be : cplx) (a b : arr cplx), same_dims a b -> (0 < d2 a)%Z -> (0 < d3 a)%Z ->
  let comb u v := amap2 (fun z w => cadd (cmul al z) (cmul be w)) u v in
  aeq (fft2q (comb a b)) (comb (fft2q a) (fft2q b))
  /\ aeq (ifft2q (comb a b)) (comb (ifft2q a) (ifft2q b)).
Proof. exact fft_linear. Qed.
Print Assumptions C59_linear.

Definition ex_wave : arr cplx := Arr 2 1 3 4 (fun x _ i j => (IZR (x + i * j), IZR (i - j))).
Example C59_applies : aeq (ifft2q (fft2q ex_wave)) ex_wave /\ el ex_wave 1 0 2 3 = (7, -1).
Proof. split; [apply C59_inverse_pair; reflexivity|]. cbn. f_equal; lra. Qed.

(** C58.  [calculate_k] returns the wave numbers of the modes in the order of the
    transform: each mode is periodic over the domain, agrees with the transform's
    exponential on the grid, is at most the grid frequency, and no two modes share a wave number. *)
Theorem C58_wave_numbers : forall N1 N2 d1' d2', (0 < N1)%Z -> (0 < N2)%Z -> 0 < d1' -> 0 < d2' ->
  let K1 := fst (calculate_k N1 N2 d1' d2') in
  let K2 := snd (calculate_k N1 N2 d1' d2') in
  dims4 K1 1 1 N1 N2 /\ dims4 K2 1 1 N1 N2
  /\ forall i j, (0 <= i < N1)%Z -> (0 <= j < N2)%Z ->
     let k1 := el K1 0 0 i j in let k2 := el K2 0 0 i j in
     k1 = wavenumber N1 d1' i /\ k2 = wavenumber N2 d2' j
     /\ (forall q, cis (k1 * (q + IZR N1 * d1')) = cis (k1 * q))
     /\ (forall q, cis (k2 * (q + IZR N2 * d2')) = cis (k2 * q))
     /\ (forall n1 n2, cmul (cis (k1 * (IZR n1 * d1'))) (cis (k2 * (IZR n2 * d2')))
         = cis (2 * PI * (IZR i * IZR n1 / IZR N1 + IZR j * IZR n2 / IZR N2)))
     /\ Rabs k1 <= PI / d1' /\ Rabs k2 <= PI / d2'.
Proof. exact wave_grid. Qed.
Print Assumptions C58_wave_numbers.

Theorem C58_distinct : forall N d i j, (0 < N)%Z -> 0 < d -> (0 <= i < N)%Z -> (0 <= j < N)%Z ->
  wavenumber N d i = wavenumber N d j -> i = j.
Proof. exact wave_inj. Qed.
Print Assumptions C58_distinct.

Example C58_applies : el (fst (calculate_k 4 3 (1/4) 1)) 0 0 3 1 = - (2 * PI).
Proof.
  destruct (C58_wave_numbers 4 3 (1/4) 1 eq_refl eq_refl ltac:(lra) ltac:(lra)) as (_&_&H).
  destruct (H 3%Z 1%Z ltac:(lia) ltac:(lia)) as (E&_). cbv zeta in E. rewrite E.
  unfold wavenumber, signed_mode. cbn. field.
Qed.

(** C40.  [rho] has g ghost cells on each side of N1 x N2 cells.  At every
    resolved mode i k . E = (rho - mean rho)^ / eps and k x E = 0; the mean of E
    vanishes, and so does its component along a direction whose mode is at the
    grid frequency. *)
Theorem C40_fft_poisson : forall g N1 N2, (0 < g)%Z -> (0 < N1)%Z -> (0 < N2)%Z ->
  forall dq1 dq2 eps, 0 < dq1 -> 0 < dq2 -> eps <> 0 ->
  forall rho : arr R, dims4 rho 1 1 (N1 + 2 * g) (N2 + 2 * g) ->
  let E1 := fst (fft_poisson_E g dq1 dq2 eps rho) in
  let E2 := snd (fft_poisson_E g dq1 dq2 eps rho) in
  let hat (x : Z -> Z -> R) := dft2 N1 N2 (fun i j => RtoC (x i j)) in
  let e1 i j := el E1 0 0 i j in
  let e2 i j := el E2 0 0 i j in
  let r i j := el rho 0 0 (g + i)%Z (g + j)%Z in
  dims4 E1 1 1 N1 N2 /\ dims4 E2 1 1 N1 N2
  /\ mean2 N1 N2 e1 = 0 /\ mean2 N1 N2 e2 = 0
  /\ (forall i j, (0 <= i < N1)%Z -> (0 <= j < N2)%Z -> resolved N1 N2 i j ->
       let k1 := wavenumber N1 dq1 i in let k2 := wavenumber N2 dq2 j in
       cmul ci (cadd (cscale k1 (hat e1 i j)) (cscale k2 (hat e2 i j)))
         = cscale (/ eps) (hat (fun m n => r m n - mean2 N1 N2 r) i j)
       /\ csub (cscale k1 (hat e2 i j)) (cscale k2 (hat e1 i j)) = c0)
  /\ (forall i j, (0 <= i < N1)%Z -> (0 <= j < N2)%Z -> (2 * i)%Z = N1 -> hat e1 i j = c0)
  /\ (forall i j, (0 <= i < N1)%Z -> (0 <= j < N2)%Z -> (2 * j)%Z = N2 -> hat e2 i j = c0).
Proof. exact poisson. Qed.
Print Assumptions C40_fft_poisson.

(** A charge density that varies in both directions on 3 x 4 cells. *)
Definition ex_rho : arr R := Arr 1 1 9 10 (fun _ _ i j => IZR (i * i - 2 * j)).
Example C40_applies : dims4 ex_rho 1 1 (3 + 2 * 3) (4 + 2 * 3) /\ resolved 3 4 1 1
  /\ el ex_rho 0 0 3 3 <> el ex_rho 0 0 4 3 /\ el ex_rho 0 0 3 3 <> el ex_rho 0 0 3 4.
Proof. repeat split; try (cbn; lia); cbn; lra. Qed.
