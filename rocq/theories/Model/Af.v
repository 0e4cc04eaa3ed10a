(** Four-dimensional ArrayFire arrays, as used throughout /repo/bolt/lib.

    An array is its four extents and its elements as a function of the logical
    index.  Only elements with indices inside the extents are meaningful; two
    arrays are the same array when they are related by [aeq].  Device, dtype and
    lazy evaluation ([af.eval]) are not modelled. *)
From Coq Require Import ZArith Reals Bool Lia.
From Verif Require Import Base.Prelude Base.ZSum.
Local Open Scope Z_scope.

Record arr (A : Type) : Type := Arr {
  d0 : Z; d1 : Z; d2 : Z; d3 : Z;
  el : Z -> Z -> Z -> Z -> A }.
Arguments Arr {A} _ _ _ _ _.
Arguments d0 {A} _. Arguments d1 {A} _. Arguments d2 {A} _. Arguments d3 {A} _.
Arguments el {A} _ _ _ _ _.

Definition inb (n i : Z) : Prop := 0 <= i < n.

(** Indices inside the extents of [a]. *)
Definition inside {A} (a : arr A) (i j k l : Z) : Prop :=
  inb (d0 a) i /\ inb (d1 a) j /\ inb (d2 a) k /\ inb (d3 a) l.

Definition same_dims {A B} (a : arr A) (b : arr B) : Prop :=
  d0 a = d0 b /\ d1 a = d1 b /\ d2 a = d2 b /\ d3 a = d3 b.

(** Equality of arrays: same extents, same elements. *)
Definition aeq {A} (a b : arr A) : Prop :=
  same_dims a b /\ forall i j k l, inside a i j k l -> el a i j k l = el b i j k l.

(** Element-wise operations on arrays of equal extents. *)
Definition amap {A B} (f : A -> B) (a : arr A) : arr B :=
  Arr (d0 a) (d1 a) (d2 a) (d3 a) (fun i j k l => f (el a i j k l)).

Definition amap2 {A B C} (f : A -> B -> C) (a : arr A) (b : arr B) : arr C :=
  Arr (d0 a) (d1 a) (d2 a) (d3 a) (fun i j k l => f (el a i j k l) (el b i j k l)).

(** af.select(cond, a, b) *)
Definition aselect {A} (c : arr bool) (a b : arr A) : arr A :=
  Arr (d0 a) (d1 a) (d2 a) (d3 a)
      (fun i j k l => if el c i j k l then el a i j k l else el b i j k l).

(** af.shift(a, s0, s1, s2, s3): circular shift along every axis. *)
Definition shift {A} (a : arr A) (s0 s1 s2 s3 : Z) : arr A :=
  Arr (d0 a) (d1 a) (d2 a) (d3 a)
      (fun i j k l => el a ((i - s0) mod d0 a) ((j - s1) mod d1 a)
                           ((k - s2) mod d2 a) ((l - s3) mod d3 a)).

(** Broadcasting ([af.broadcast]): an axis of extent 1 is repeated. *)
Definition bidx (n i : Z) : Z := if n =? 1 then 0 else i.

Definition bel {A} (a : arr A) (i j k l : Z) : A :=
  el a (bidx (d0 a) i) (bidx (d1 a) j) (bidx (d2 a) k) (bidx (d3 a) l).

Definition bcast2 {A B C} (f : A -> B -> C) (a : arr A) (b : arr B) : arr C :=
  Arr (Z.max (d0 a) (d0 b)) (Z.max (d1 a) (d1 b)) (Z.max (d2 a) (d2 b)) (Z.max (d3 a) (d3 b))
      (fun i j k l => f (bel a i j k l) (bel b i j k l)).

(** Column-major position of an index, as used by af.flat, af.moddims and
    to_ndarray. *)
Definition lin (n0 n1 n2 : Z) (i j k l : Z) : Z := i + n0 * (j + n1 * (k + n2 * l)).

Definition unlin0 (n0 : Z) (x : Z) : Z := x mod n0.
Definition unlin1 (n0 n1 : Z) (x : Z) : Z := (x / n0) mod n1.
Definition unlin2 (n0 n1 n2 : Z) (x : Z) : Z := (x / n0 / n1) mod n2.
Definition unlin3 (n0 n1 n2 : Z) (x : Z) : Z := x / n0 / n1 / n2.

(** af.flat(a) followed by to_ndarray: the flat buffer, indexed from 0. *)
Definition flat {A} (a : arr A) : Z -> A :=
  fun x => el a (unlin0 (d0 a) x) (unlin1 (d0 a) (d1 a) x)
                (unlin2 (d0 a) (d1 a) (d2 a) x) (unlin3 (d0 a) (d1 a) (d2 a) x).

(** af.to_array of a flat buffer followed by af.moddims(n0,n1,n2,n3). *)
Definition of_flat {A} (n0 n1 n2 n3 : Z) (b : Z -> A) : arr A :=
  Arr n0 n1 n2 n3 (fun i j k l => b (lin n0 n1 n2 i j k l)).

(** af.moddims(a, n0, n1, n2, n3).  ArrayFire raises an error when the number
    of elements differs. *)
Definition size {A} (a : arr A) : Z := d0 a * d1 a * d2 a * d3 a.

Definition moddims {A} (a : arr A) (n0 n1 n2 n3 : Z) : arr A :=
  of_flat n0 n1 n2 n3 (flat a).

(** Python slicing of the two spatial axes: a[:, :, lo2:hi2, lo3:hi3]. *)
Definition slice23 {A} (a : arr A) (lo2 hi2 lo3 hi3 : Z) : arr A :=
  Arr (d0 a) (d1 a) (slice_len (d2 a) lo2 hi2) (slice_len (d3 a) lo3 hi3)
      (fun i j k l => el a i j (slice_bound (d2 a) lo2 + k) (slice_bound (d3 a) lo3 + l)).

(** Slice assignment a[:, :, lo2:hi2, lo3:hi3] = v. *)
Definition in_slice (n lo hi i : Z) : bool :=
  (slice_bound n lo <=? i) && (i <? slice_bound n hi).

Definition set_slice23 {A} (a : arr A) (lo2 hi2 lo3 hi3 : Z) (v : arr A) : arr A :=
  Arr (d0 a) (d1 a) (d2 a) (d3 a)
      (fun i j k l =>
         if in_slice (d2 a) lo2 hi2 k && in_slice (d3 a) lo3 hi3 l
         then el v i j (k - slice_bound (d2 a) lo2) (l - slice_bound (d3 a) lo3)
         else el a i j k l).

(** af.flip(a, axis) *)
Definition flip0 {A} (a : arr A) : arr A :=
  Arr (d0 a) (d1 a) (d2 a) (d3 a) (fun i j k l => el a (d0 a - 1 - i) j k l).
Definition flip1 {A} (a : arr A) : arr A :=
  Arr (d0 a) (d1 a) (d2 a) (d3 a) (fun i j k l => el a i (d1 a - 1 - j) k l).
Definition flip2 {A} (a : arr A) : arr A :=
  Arr (d0 a) (d1 a) (d2 a) (d3 a) (fun i j k l => el a i j (d2 a - 1 - k) l).
Definition flip3 {A} (a : arr A) : arr A :=
  Arr (d0 a) (d1 a) (d2 a) (d3 a) (fun i j k l => el a i j k (d3 a - 1 - l)).

(** af.join(axis, a, b) *)
Definition join0 {A} (a b : arr A) : arr A :=
  Arr (d0 a + d0 b) (d1 a) (d2 a) (d3 a)
      (fun i j k l => if i <? d0 a then el a i j k l else el b (i - d0 a) j k l).
Definition join1 {A} (a b : arr A) : arr A :=
  Arr (d0 a) (d1 a + d1 b) (d2 a) (d3 a)
      (fun i j k l => if j <? d1 a then el a i j k l else el b i (j - d1 a) k l).

(** af.reorder(a, 2, 3, 0, 1): result axis m is source axis given at place m. *)
Definition reorder2301 {A} (a : arr A) : arr A :=
  Arr (d2 a) (d3 a) (d0 a) (d1 a) (fun i j k l => el a k l i j).

(** af.sum(a, 0) and af.sum(a, 1) *)
Definition asum0 (a : arr R) : arr R :=
  Arr 1 (d1 a) (d2 a) (d3 a) (fun _ j k l => zsum (d0 a) (fun i => el a i j k l)).
Definition asum1 (a : arr R) : arr R :=
  Arr (d0 a) 1 (d2 a) (d3 a) (fun i _ k l => zsum (d1 a) (fun j => el a i j k l)).

(** A boolean used as a number, as in (x <= 0) * y. *)
Definition b2r (b : bool) : R := if b then 1%R else 0%R.

(** Comparisons on the reals as booleans. *)
Definition Rltb (x y : R) : bool := if Rlt_dec x y then true else false.
Definition Rleb (x y : R) : bool := if Rle_dec x y then true else false.
Definition Rgtb (x y : R) : bool := Rltb y x.

(** af.sign(x): 1 for negative numbers, 0 otherwise. *)
Definition af_sign (x : R) : R := b2r (Rltb x 0).

Infix "[+]" := (amap2 Rplus) (at level 50, left associativity).
Infix "[-]" := (amap2 Rminus) (at level 50, left associativity).
Infix "[*]" := (amap2 Rmult) (at level 40, left associativity).
Definition ascale (c : R) (a : arr R) : arr R := amap (Rmult c) a.
