(** Discrete Fourier transforms and the FFT Poisson solver.
    Models the ArrayFire and NumPy routines used by
    /repo/bolt/lib/nonlinear/fields/electrostatic/fft.py and /repo/bolt/lib/linear,
    and fft_poisson itself. *)
From Coq Require Import ZArith Reals Bool.
From Verif Require Import Base.Prelude Base.ZSum Base.Cplx Model.Af Model.Petsc.
Local Open Scope R_scope.

(** af.fft2 and af.ifft2 on the first two axes:
    X[k1,k2] = sum x[n1,n2] exp(-2 pi i (k1 n1/N1 + k2 n2/N2)), and the same with
    the opposite sign times [scale]. *)
Definition phase (N k n : Z) : R := 2 * PI * IZR k * IZR n / IZR N.

Definition fft2 (a : arr cplx) : arr cplx :=
  Arr (d0 a) (d1 a) (d2 a) (d3 a) (fun k1 k2 s x =>
    csum (d0 a) (fun n1 => csum (d1 a) (fun n2 =>
      cmul (el a n1 n2 s x) (cis (- (phase (d0 a) k1 n1 + phase (d1 a) k2 n2)))))).

Definition ifft2_scaled (scale : R) (a : arr cplx) : arr cplx :=
  Arr (d0 a) (d1 a) (d2 a) (d3 a) (fun n1 n2 s x =>
    cscale scale (csum (d0 a) (fun k1 => csum (d1 a) (fun k2 =>
      cmul (el a k1 k2 s x) (cis (phase (d0 a) k1 n1 + phase (d1 a) k2 n2)))))).

(** af.ifft2(a): the default scale is 1 over the number of points. *)
Definition ifft2 (a : arr cplx) : arr cplx :=
  ifft2_scaled (/ (IZR (d0 a) * IZR (d1 a))) a.

(** np.fft.fftfreq(n, d): 0, 1, ..., (n-1)/2, -(n/2), ..., -1, divided by n*d. *)
Definition fftfreq_index (n i : Z) : Z :=
  if (i <? (n - 1) / 2 + 1)%Z then i else (i - n)%Z.

Definition fftfreq (n : Z) (d : R) (i : Z) : R := IZR (fftfreq_index n i) / (IZR n * d).

(** fft_poisson on one rank, fft.py:26-71: the two electric field components on
    the interior cells as (N_q1, N_q2, 1, 1) arrays, before they are written into
    cell_centered_EM_fields.  [rho] is the charge density with ghost zones,
    extents (1, 1, n1, n2).  Division of a complex number by a real one is
    element-wise; the zero mode, where the code divides by zero, is overwritten
    (line 56). *)
Definition interior_g {A} (g : Z) (a : arr A) : arr A := slice23 a g (- g) g (- g).

Definition amean2 (a : arr R) : R :=
  zsum (d0 a) (fun i => zsum (d1 a) (fun j => el a i j 0%Z 0%Z)) / (IZR (d0 a) * IZR (d1 a)).

Definition poisson_hat (dq1 dq2 : R) (rho : arr R) : arr cplx :=
  let rho_hat := fft2 (amap RtoC (amap (fun x => x - amean2 rho) rho)) in
  let potential_hat :=
    Arr (d0 rho_hat) (d1 rho_hat) (d2 rho_hat) (d3 rho_hat) (fun i j k l =>
      let k1 := fftfreq (d0 rho) dq1 i in
      let k2 := fftfreq (d1 rho) dq2 j in
      cscale (/ (4 * PI ^ 2 * (k1 ^ 2 + k2 ^ 2))) (el rho_hat i j k l)) in
  Arr (d0 rho_hat) (d1 rho_hat) (d2 rho_hat) (d3 rho_hat) (fun i j k l =>
      if ((i =? 0) && (j =? 0))%Z%bool then c0 else el potential_hat i j k l).

Definition electric_hat (kk : Z -> Z -> R) (potential_hat : arr cplx) : arr cplx :=
  Arr (d0 potential_hat) (d1 potential_hat) (d2 potential_hat) (d3 potential_hat)
      (fun i j k l => cmul (cscale (2 * PI * kk i j) (copp ci)) (el potential_hat i j k l)).

Definition real_ifft (a : arr cplx) : arr R :=
  amap re (amap (cscale (/ (IZR (d0 a) * IZR (d1 a)))) (ifft2_scaled 1 a)).

Definition fft_poisson_E (g : Z) (dq1 dq2 eps : R) (rho : arr R) : arr R * arr R :=
  let rho := reorder2301 (interior_g g rho) in
  let n1 := d0 rho in
  let n2 := d1 rho in
  let p := poisson_hat dq1 dq2 rho in
  let E1 := real_ifft (electric_hat (fun i _ => fftfreq n1 dq1 i) p) in
  let E2 := real_ifft (electric_hat (fun _ j => fftfreq n2 dq2 j) p) in
  (amap (fun x => x / eps) (reorder2301 E1), amap (fun x => x / eps) (reorder2301 E2)).
