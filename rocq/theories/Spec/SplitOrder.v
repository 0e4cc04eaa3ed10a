(** Order of accuracy of a splitting of exp(h (A + B)): the local error, measured
    in any seminorm in which A and B are bounded. *)
From Coq Require Import Reals.
From Verif Require Import Spec.RungeKutta.
Local Open Scope R_scope.

Definition seminorm {I} (N : (I -> R) -> R) : Prop :=
  (forall x y, (forall i, x i = y i) -> N x = N y)
  /\ (forall x y, N (fun i => x i + y i) <= N x + N y)
  /\ (forall c x, N (fun i => c * x i) = Rabs c * N x).

Definition bounded_by {I} (N : (I -> R) -> R) (L : (I -> R) -> (I -> R)) : Prop :=
  exists c, forall x, N (L x) <= c * N x.

(** F and G differ by O(h^n), uniformly over states of unit size. *)
Definition agree_to {I} (N : (I -> R) -> R) (n : nat) (F G : R -> (I -> R) -> (I -> R)) : Prop :=
  exists K, forall h x, Rabs h <= 1 -> N (fun i => F h x i - G h x i) <= K * Rabs h ^ n * N x.

(** F advances dx/dt = L x with local error O(h^n). *)
Definition solves_to {I} (N : (I -> R) -> R) (n : nat) (L : (I -> R) -> (I -> R))
    (F : R -> (I -> R) -> (I -> R)) : Prop := agree_to N n F (taylor n L).

Definition plus_op {I} (A B : (I -> R) -> (I -> R)) : (I -> R) -> (I -> R) :=
  fun x i => A x i + B x i.
