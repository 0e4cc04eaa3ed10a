(** Python results and exceptions as values, and small helpers shared by the
    model.  Nothing here is specific to Bolt. *)
From Coq Require Import ZArith List String Lia.
Import ListNotations.

(** The exception classes raised (explicitly or implicitly) by the modelled
    Python code. *)
Inductive exn : Type :=
| NotImplementedError | SystemExit | NameError | AttributeError | TypeError
| ValueError | IndexError | ZeroDivisionError | UnboundLocalError | ImportError
| PySyntaxError | AssertionError | GenericException | PetscError.

(** Outcome of running a piece of Python: a value, or a raised exception. *)
Inductive res (A : Type) : Type :=
| Ok (a : A)
| Err (e : exn).
Arguments Ok {A} a.
Arguments Err {A} e.

Definition rbind {A B} (x : res A) (f : A -> res B) : res B :=
  match x with Ok a => f a | Err e => Err e end.

Definition rmap {A B} (f : A -> B) (x : res A) : res B :=
  match x with Ok a => Ok (f a) | Err e => Err e end.

Notation "'let?' x ':=' e1 'in' e2" := (rbind e1 (fun x => e2))
  (at level 200, x pattern, e1 at level 100, e2 at level 200).

(** Two states that agree as outcomes. *)
Definition is_ok {A} (x : res A) : Prop := exists a, x = Ok a.

(** Python slice bound resolution on an axis of length [n] (step 1):
    a negative bound counts from the end; bounds are clipped to [0,n]. *)
Definition slice_bound (n b : Z) : Z :=
  if (b <? 0)%Z then Z.max 0 (n + b) else Z.min n b.

Definition slice_len (n lo hi : Z) : Z :=
  Z.max 0 (slice_bound n hi - slice_bound n lo).

(** Python exponent-free [range(n)] as a list of integers. *)
Fixpoint zrange (lo : Z) (n : nat) : list Z :=
  match n with O => nil | S k => lo :: zrange (lo + 1) k end.

Lemma zrange_length lo n : List.length (zrange lo n) = n.
Proof. revert lo; induction n; simpl; auto. Qed.

Lemma zrange_In lo n x : In x (zrange lo n) <-> (lo <= x < lo + Z.of_nat n)%Z.
Proof.
  revert lo; induction n; intros lo; simpl.
  - split; [tauto|lia].
  - rewrite IHn. lia.
Qed.

Lemma zrange_nth lo n k d : (k < n)%nat -> nth k (zrange lo n) d = (lo + Z.of_nat k)%Z.
Proof.
  revert lo k; induction n; intros lo k H; [lia|].
  destruct k; simpl; [lia|]. rewrite IHn by lia. lia.
Qed.
