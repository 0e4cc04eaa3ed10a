(** What the electronic collision operator should compute, stated without the code. *)
From Coq Require Import ZArith Reals List.
From Verif Require Import Base.ZSum.
Import ListNotations.
Local Open Scope R_scope.

(** ** Square matrices *)
Fixpoint upto (n : nat) (g : nat -> R) : R :=
  match n with O => 0 | S n => upto n g + g n end.

(** The matrix without row 0 and column c *)
Definition minor (A : nat -> nat -> R) (c : nat) : nat -> nat -> R :=
  fun i j => A (S i) (if Nat.ltb j c then j else S j).

(** Expansion along the first row *)
Fixpoint det (n : nat) (A : nat -> nat -> R) : R :=
  match n with
  | O => 1
  | S n => upto (S n) (fun c => (-1)^c * A O c * det n (minor A c))
  end.

Definition product (n : nat) (A B : nat -> nat -> R) : nat -> nat -> R :=
  fun i j => upto n (fun m => A i m * B m j).

Definition identity (i j : nat) : R := if Nat.eqb i j then 1 else 0.

Definition inverse_of (n : nat) (A B : nat -> nat -> R) : Prop :=
  forall i j, (i < n)%nat -> (j < n)%nat ->
    product n A B i j = identity i j /\ product n B A i j = identity i j.

(** ** Local equilibria: chemical potential, temperature, drift velocity *)
Record equilibrium : Type := Equilibrium { mu : R; temp : R; drift_x : R; drift_y : R }.

Section Momenta.
  (** N momenta, their energies and components *)
  Context (k : R) (N : Z) (E px py : Z -> R).

  (** The Fermi-Dirac distribution in the drifting frame *)
  Definition occupation (e : equilibrium) (x : Z) : R :=
    / (1 + exp ((E x - mu e - (drift_x e * px x + drift_y e * py x)) / (k * temp e))).

  (** By how much the moment with weight w of f exceeds that of the equilibrium *)
  Definition excess (f w : Z -> R) (e : equilibrium) : R :=
    zsum N (fun x => w x * f x) - zsum N (fun x => w x * occupation e x).

  (** The point at parameter h of the line from e to e' *)
  Definition along (e e' : equilibrium) (h : R) : equilibrium :=
    Equilibrium (mu e + h * (mu e' - mu e)) (temp e + h * (temp e' - temp e))
      (drift_x e + h * (drift_x e' - drift_x e)) (drift_y e + h * (drift_y e' - drift_y e)).

  (** [e'] is Newton's next guess for the equations "excess = 0": the equations
      linearised at e vanish at e'.  That is, the derivative at e in the direction
      e' - e is minus the value at e. *)
  Definition newton (f : Z -> R) (ws : list (Z -> R)) (e e' : equilibrium) : Prop :=
    Forall (fun w => derivable_pt_lim (fun h => excess f w (along e e' h)) 0 (- excess f w e)) ws.

  Definition matches (f : Z -> R) (ws : list (Z -> R)) (e : equilibrium) : Prop :=
    Forall (fun w => excess f w e = 0) ws.

  (** A linear combination of the weights that vanishes at every momentum is trivial. *)
  Definition independent (ws : list (Z -> R)) : Prop :=
    forall cs, length cs = length ws ->
      (forall x, (0 <= x < N)%Z -> fold_right Rplus 0 (map (fun cw => fst cw * snd cw x) (combine cs ws)) = 0) ->
      Forall (fun c => c = 0) cs.
End Momenta.

Definition one : Z -> R := fun _ => 1.

(** The same relation along a sequence of n guesses *)
Inductive steps {A : Type} (next : A -> A -> Prop) : nat -> A -> A -> Prop :=
| steps_0 : forall a, steps next 0 a a
| steps_S : forall n a b c, steps next n a b -> next b c -> steps next (S n) a c.
