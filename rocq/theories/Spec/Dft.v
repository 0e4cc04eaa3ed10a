(** The discrete Fourier transform of one and two variables, as in textbooks. *)
From Coq Require Import ZArith Reals.
From Verif Require Import Base.ZSum Base.Cplx.
Local Open Scope R_scope.

(** X_k = sum_n x_n exp(-2 pi i k n / N) *)
Definition dft (N : Z) (x : Z -> cplx) (k : Z) : cplx :=
  csum N (fun n => cmul (x n) (cis (- (2 * PI * IZR k * IZR n / IZR N)))).

(** x_n = 1/N sum_k X_k exp(2 pi i k n / N) *)
Definition idft (N : Z) (X : Z -> cplx) (n : Z) : cplx :=
  cscale (/ IZR N) (csum N (fun k => cmul (X k) (cis (2 * PI * IZR k * IZR n / IZR N)))).

Definition dft2 (N1 N2 : Z) (x : Z -> Z -> cplx) (k1 k2 : Z) : cplx :=
  dft N1 (fun n1 => dft N2 (fun n2 => x n1 n2) k2) k1.
Definition idft2 (N1 N2 : Z) (X : Z -> Z -> cplx) (n1 n2 : Z) : cplx :=
  idft N1 (fun k1 => idft N2 (fun k2 => X k1 k2) n2) n1.
