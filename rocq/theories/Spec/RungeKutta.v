(** Explicit Runge-Kutta methods: tableaux, Butcher's order conditions and the
    Taylor polynomial of the exact solution of a linear system. *)
From Coq Require Import Reals List.
Import ListNotations.
Local Open Scope R_scope.

(** Row i of [rows] holds a_(i,1) ... a_(i,i-1); the nodes are the row sums. *)
Record tableau : Type := Tableau { rows : list (list R); weights : list R }.

Fixpoint dot (a b : list R) : R :=
  match a, b with x :: a, y :: b => x * y + dot a b | _, _ => 0 end.
Definition total (a : list R) : R := fold_right Rplus 0 a.

(** c_1 k_1 + c_2 k_2 + ... for vectors k. *)
Definition combine_stages {I} (cs : list R) (ks : list (I -> R)) : I -> R :=
  fun i => dot cs (map (fun k => k i) ks).

(** The stages k_i = f (t + c_i dt) (x + dt sum_j a_ij k_j). *)
Fixpoint stages {I} (f : R -> (I -> R) -> (I -> R)) (t : R) (x : I -> R) (dt : R)
    (rs : list (list R)) (ks : list (I -> R)) : list (I -> R) :=
  match rs with
  | [] => ks
  | r :: rs =>
      let k := f (t + total r * dt) (fun i => x i + dt * combine_stages r ks i) in
      stages f t x dt rs (ks ++ [k])
  end.

Definition rk_step {I} (T : tableau) (f : R -> (I -> R) -> (I -> R)) (t : R) (x : I -> R)
    (dt : R) : I -> R :=
  fun i => x i + dt * combine_stages (weights T) (stages f t x dt (rows T) []) i.

(** Rooted trees; [Graft t u] hangs [u] below the root of [t]. *)
Inductive tree : Type := Root : tree | Graft : tree -> tree -> tree.

Fixpoint order (t : tree) : nat :=
  match t with Root => 1 | Graft t u => order t + order u end.

(** Density: the order of the tree times the densities of the subtrees of its root. *)
Fixpoint density_below (t : tree) : R :=
  match t with Root => 1 | Graft t u => density_below t * (INR (order u) * density_below u) end.
Definition density (t : tree) : R := INR (order t) * density_below t.

(** Elementary weight of a tree at every stage. *)
Fixpoint elementary (rs : list (list R)) (t : tree) : list R :=
  match t with
  | Root => map (fun _ => 1) rs
  | Graft t u => map (fun p => fst p * dot (snd p) (elementary rs u))
                     (List.combine (elementary rs t) rs)
  end.

(** Order conditions up to order [p], one for every rooted tree. *)
Definition order_conditions (p : nat) (T : tableau) : Prop :=
  forall t, (order t <= p)%nat -> dot (weights T) (elementary (rows T) t) = 1 / density t.

(** Right-hand sides that depend on the elements of the vector only. *)
Definition extensional {I J} (f : (I -> R) -> (J -> R)) : Prop :=
  forall x y, (forall i, x i = y i) -> forall i, f x i = f y i.

Definition linear {I J} (L : (I -> R) -> (J -> R)) : Prop :=
  extensional L /\
  forall a x b y i, L (fun j => a * x j + b * y j) i = a * L x i + b * L y i.

Fixpoint iter {I} (n : nat) (L : (I -> R) -> (I -> R)) (x : I -> R) : I -> R :=
  match n with O => x | S n => L (iter n L x) end.

(** Sum of the first [n] terms of exp(h L) x. *)
Fixpoint taylor {I} (n : nat) (L : (I -> R) -> (I -> R)) (h : R) (x : I -> R) : I -> R :=
  match n with
  | O => fun _ => 0
  | S n => fun i => taylor n L h x i + h ^ n / INR (fact n) * iter n L x i
  end.

(** A polynomial in the time with coefficients [cs], lowest first, and its
    antiderivative. *)
Fixpoint poly (cs : list R) (t : R) : R :=
  match cs with [] => 0 | c :: cs => c + t * poly cs t end.
Fixpoint poly_int_from (k : nat) (cs : list R) (t : R) : R :=
  match cs with [] => 0 | c :: cs => c * t ^ (k + 1) / INR (k + 1) + poly_int_from (k + 1) cs t end.
Definition poly_int (cs : list R) (t : R) : R := poly_int_from 0 cs t.

(** The tableaux the methods are documented by: explicit midpoint, classical
    fourth order, Fehlberg's and Butcher's fifth order. *)
Definition midpoint_tableau : tableau := Tableau [[]; [1 / 2]] [0; 1].
Definition classical_tableau : tableau :=
  Tableau [[]; [1 / 2]; [0; 1 / 2]; [0; 0; 1]] [1 / 6; 1 / 3; 1 / 3; 1 / 6].
Definition fehlberg_tableau : tableau :=
  Tableau [ [];
            [1 / 4];
            [3 / 32; 9 / 32];
            [1932 / 2197; - (7200 / 2197); 7296 / 2197];
            [439 / 216; - 8; 3680 / 513; - (845 / 4104)];
            [- (8 / 27); 2; - (3544 / 2565); 1859 / 4104; - (11 / 40)] ]
          [16 / 135; 0; 6656 / 12825; 28561 / 56430; - (9 / 50); 2 / 55].
Definition butcher_tableau : tableau :=
  Tableau [ [];
            [1 / 4];
            [1 / 8; 1 / 8];
            [0; - (1 / 2); 1];
            [3 / 16; 0; 0; 9 / 16];
            [- (3 / 7); 2 / 7; 12 / 7; - (12 / 7); 8 / 7] ]
          [7 / 90; 0; 32 / 90; 12 / 90; 32 / 90; 7 / 90].

(** Two systems solved together as one, on the disjoint union of the indices. *)
Definition both {I J} (x : I -> R) (y : J -> R) : I + J -> R :=
  fun k => match k with inl i => x i | inr j => y j end.
Definition coupled {I J} (fx : R -> (I -> R) -> (J -> R) -> (I -> R))
    (fy : R -> (I -> R) -> (J -> R) -> (J -> R)) : R -> (I + J -> R) -> (I + J -> R) :=
  fun t z => both (fx t (fun i => z (inl i)) (fun j => z (inr j)))
                  (fy t (fun i => z (inl i)) (fun j => z (inr j))).
Definition extensional2 {I J K} (f : (I -> R) -> (J -> R) -> (K -> R)) : Prop :=
  forall x x' y y', (forall i, x i = x' i) -> (forall j, y j = y' j) ->
  forall k, f x y k = f x' y' k.
