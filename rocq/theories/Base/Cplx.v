(** Complex numbers as pairs of reals. *)
From Coq Require Import ZArith Reals Lra Lia Ring.
From Verif Require Import Base.ZSum.
Local Open Scope R_scope.

Definition cplx : Type := (R * R)%type.
Definition re (z : cplx) : R := fst z.
Definition im (z : cplx) : R := snd z.
Definition RtoC (x : R) : cplx := (x, 0).
Definition c0 : cplx := (0, 0).
Definition c1 : cplx := (1, 0).
Definition ci : cplx := (0, 1).
Definition cadd (z w : cplx) : cplx := (re z + re w, im z + im w).
Definition csub (z w : cplx) : cplx := (re z - re w, im z - im w).
Definition copp (z : cplx) : cplx := (- re z, - im z).
Definition cmul (z w : cplx) : cplx := (re z * re w - im z * im w, re z * im w + im z * re w).
Definition cscale (c : R) (z : cplx) : cplx := (c * re z, c * im z).
Definition cconj (z : cplx) : cplx := (re z, - im z).

(** exp(i t) *)
Definition cis (t : R) : cplx := (cos t, sin t).

(** Sum over 0 <= n < N. *)
Definition csum (n : Z) (f : Z -> cplx) : cplx :=
  (zsum n (fun i => re (f i)), zsum n (fun i => im (f i))).

Lemma cplx_eq (z w : cplx) : re z = re w -> im z = im w -> z = w.
Proof. destruct z, w; simpl; intros; subst; reflexivity. Qed.

Ltac cplx_ring := apply cplx_eq; unfold cadd, csub, copp, cmul, cscale, cconj, RtoC, c0, c1, ci, re, im in *; simpl in *; try ring.

Lemma cplx_ring_theory : ring_theory c0 c1 cadd cmul csub copp eq.
Proof. constructor; intros; cplx_ring. Qed.
Add Ring CplxRing : cplx_ring_theory.

Declare Scope cplx_scope.
Delimit Scope cplx_scope with C.
Infix "+" := cadd : cplx_scope.
Infix "-" := csub : cplx_scope.
Infix "*" := cmul : cplx_scope.
Notation "- z" := (copp z) : cplx_scope.
