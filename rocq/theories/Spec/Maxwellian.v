(** The Maxwell-Boltzmann distribution in d velocity dimensions, and the fluid
    quantities of a distribution. *)
From Coq Require Import ZArith Reals.
From Verif Require Import Base.ZSum Spec.MomentSpec.
Local Open Scope R_scope.

(** One-dimensional Gaussian with thermal speed squared [th] = kT/m. *)
Definition gaussian (th w : R) : R := exp (- (w * w) / (2 * th)) / sqrt (2 * PI * th).

Definition maxwellian (d : Z) (n th u1 u2 u3 x y z : R) : R :=
  match d with
  | 1%Z => n * gaussian th (x - u1)
  | 2%Z => n * gaussian th (x - u1) * gaussian th (y - u2)
  | _ => n * gaussian th (x - u1) * gaussian th (y - u2) * gaussian th (z - u3)
  end.

(** Density, momentum and thermal energy per degree of freedom (k_B T) of g. *)
Definition fluid_n (G : momentum_grid) g : R := integral G (fun _ _ _ => 1) g.
Definition fluid_m1 (G : momentum_grid) g : R := integral G (fun x _ _ => x) g.
Definition fluid_m2 (G : momentum_grid) g : R := integral G (fun _ y _ => y) g.
Definition fluid_m3 (G : momentum_grid) g : R := integral G (fun _ _ z => z) g.
Definition fluid_u1 G g : R := fluid_m1 G g / fluid_n G g.
Definition fluid_u2 G g : R := fluid_m2 G g / fluid_n G g.
Definition fluid_u3 G g : R := fluid_m3 G g / fluid_n G g.

(** k_B T = m/d * <|v - u|^2> *)
Definition fluid_kT (d : Z) (m : R) (G : momentum_grid) g : R :=
  m / IZR d * (integral G (fun x y z => (x - fluid_u1 G g) ^ 2 + (y - fluid_u2 G g) ^ 2 + (z - fluid_u3 G g) ^ 2) g
               / fluid_n G g).
