(** Symmetries of the linear solver: modes, translations, real functions. *)
From Coq Require Import ZArith Reals String List Bool.
From Verif Require Import Base.Prelude Base.Cplx Model.Af Model.Grid Model.Petsc Model.Config Model.Linear Spec.LinearSpec Spec.Waves Spec.Dft Spec.MomentSpec.
Import ListNotations.
Local Open Scope R_scope.

(** Velocities do not depend on position; the force is a combination of the fields with
    real coefficients that do not depend on position, as the Lorentz force. *)
Definition weighted (g : Z -> R) (e1 e2 e3 b1 b2 b3 : cplx) : cplx :=
  cadd (cadd (cadd (cscale (g 0%Z) e1) (cscale (g 1%Z) e2)) (cscale (g 2%Z) e3))
       (cadd (cadd (cscale (g 3%Z) b1) (cscale (g 4%Z) b2)) (cscale (g 5%Z) b3)).
Definition homogeneous (c : lcfg) : Prop :=
  (forall s t q1 q2 q1' q2' p1 p2 p3, A_q (ph c) s t q1 q2 p1 p2 p3 = A_q (ph c) s t q1' q2' p1 p2 p3)
  /\ exists g1 g2 g3 : Z -> R -> R -> R -> R -> Z -> R, forall s t q1 q2 p1 p2 p3 e1 e2 e3 b1 b2 b3,
     lA_p c s t q1 q2 p1 p2 p3 e1 e2 e3 b1 b2 b3
     = (weighted (g1 s t p1 p2 p3) e1 e2 e3 b1 b2 b3, weighted (g2 s t p1 p2 p3) e1 e2 e3 b1 b2 b3, weighted (g3 s t p1 p2 p3) e1 e2 e3 b1 b2 b3).

(** The extents of f. *)
Definition f_shaped {A} (c : lcfg) (a : arr A) : Prop :=
  d0 a = N_p (ph c) /\ d1 a = N_species (ph c) /\ d2 a = lN1 c /\ d3 a = lN2 c.

Definition collisionless (c : lcfg) : Prop := source_enabled (ph c) = false /\ instantaneous c = false.

(** The source acts on real arrays of the extents of f, and keeps them. *)
Definition source_shaped (c : lcfg) : Prop := forall f t i,
  f_shaped c f -> f_shaped c (lsource c f t i).

(** Two states hold the same in mode (k, l), and have the same mean magnetic field. *)
Definition same_mode (c : lcfg) (k l : Z) (s s' : lstate) : Prop :=
  lt s' = lt s
  /\ (forall x sp, (0 <= x < N_p (ph c))%Z -> (0 <= sp < N_species (ph c))%Z -> el (f_hat s') x sp k l = el (f_hat s) x sp k l)
  /\ (forall i, (0 <= i < 6)%Z -> el (fields_hat (fsol s')) i 0 k l = el (fields_hat (fsol s)) i 0 k l)
  /\ el (E1h (fsol s')) 0 0 k l = el (E1h (fsol s)) 0 0 k l /\ el (E2h (fsol s')) 0 0 k l = el (E2h (fsol s)) 0 0 k l
  /\ el (E3h (fsol s')) 0 0 k l = el (E3h (fsol s)) 0 0 k l /\ el (B1h (fsol s')) 0 0 k l = el (B1h (fsol s)) 0 0 k l
  /\ el (B2h (fsol s')) 0 0 k l = el (B2h (fsol s)) 0 0 k l /\ el (B3h (fsol s')) 0 0 k l = el (B3h (fsol s)) 0 0 k l
  /\ (forall i, (3 <= i < 6)%Z -> el (fields_hat (fsol s')) i 0 0 0 = el (fields_hat (fsol s)) i 0 0 0).

(** Nothing in mode (k, l): neither particles nor fields. *)
Definition empty_mode (c : lcfg) (k l : Z) (s : lstate) : Prop :=
  (forall x sp, (0 <= x < N_p (ph c))%Z -> (0 <= sp < N_species (ph c))%Z -> el (f_hat s) x sp k l = c0)
  /\ (forall i, (0 <= i < 6)%Z -> el (fields_hat (fsol s)) i 0 k l = c0)
  /\ el (E1h (fsol s)) 0 0 k l = c0 /\ el (E2h (fsol s)) 0 0 k l = c0 /\ el (E3h (fsol s)) 0 0 k l = c0
  /\ el (B1h (fsol s)) 0 0 k l = c0 /\ el (B2h (fsol s)) 0 0 k l = c0 /\ el (B3h (fsol s)) 0 0 k l = c0.

(** The amplitude of mode (k, l) of a function on the cells. *)
Definition has_mode (c : lcfg) (g : Z -> Z -> R) (k l : Z) : Prop :=
  dft2 (lN1 c) (lN2 c) (fun i j => RtoC (g i j)) k l <> c0.

(** ** Translations *)

(** The array moved by (d1, d2) cells round the box. *)
Definition moved (c : lcfg) (m n : Z) (f f' : arr R) : Prop := forall x s i j,
  (0 <= x < N_p (ph c))%Z -> (0 <= s < N_species (ph c))%Z -> (0 <= i < lN1 c)%Z -> (0 <= j < lN2 c)%Z ->
  el f' x s i j = el f x s ((i - m) mod lN1 c)%Z ((j - n) mod lN2 c)%Z.
(** The same of the six field components on the cells. *)
Definition moved_fields (c : lcfg) (m n : Z) (F F' : arr R) : Prop := forall e i j,
  (0 <= e < 6)%Z -> (0 <= i < lN1 c)%Z -> (0 <= j < lN2 c)%Z ->
  el F' e 0 i j = el F e 0 ((i - m) mod lN1 c)%Z ((j - n) mod lN2 c)%Z.
Definition moved_fn (c : lcfg) (m n : Z) (g g' : R -> R -> R) : Prop := forall i j,
  (0 <= i < lN1 c)%Z -> (0 <= j < lN2 c)%Z -> g' (lq1 c i) (lq2 c j) = g (lq1 c ((i - m) mod lN1 c)%Z) (lq2 c ((j - n) mod lN2 c)%Z).
Definition moved_E (c : lcfg) (m n : Z) (E E' : (R -> R -> R) * (R -> R -> R) * (R -> R -> R)) : Prop :=
  moved_fn c m n (fst (fst E)) (fst (fst E')) /\ moved_fn c m n (snd (fst E)) (snd (fst E')) /\ moved_fn c m n (snd E) (snd E').
Definition moved_B (c : lcfg) (m n : Z) (B B' : b_init) : Prop :=
  match B, B' with
  | InitB a b d, InitB a' b' d' => moved_fn c m n a a' /\ moved_fn c m n b b' /\ moved_fn c m n d d'
  | InitA3B3 a b, InitA3B3 a' b' => moved_fn c m n a a' /\ moved_fn c m n b b'
  | InitNone, InitNone => True
  | _, _ => False
  end.

(** The same problem with other initial data. *)
Definition starting_from (c : lcfg) (f : arr R) (E : (R -> R -> R) * (R -> R -> R) * (R -> R -> R)) (B : b_init) : lcfg :=
  LCfg (ph c) (charge c) (mass c) (eps c) (mu c) (fields_type c) (fields_initialize c) (instantaneous c) (lA_p c) (lsource c) f E B.

(** The source, if any, acts alike at all positions. *)
Definition source_homogeneous (c : lcfg) : Prop := forall m n f f' t i,
  f_shaped c f -> f_shaped c f' -> moved c m n f f' -> moved c m n (lsource c f t i) (lsource c f' t i).

(** ** Real functions *)

(** What the solver holds is the transform of what it hands out: nothing is lost when the
    modes are turned into a distribution function and back.  The same of the fields. *)
Definition holds_what_it_shows (c : lcfg) (s : lstate) : Prop :=
  forall x sp k l, (0 <= x < N_p (ph c))%Z -> (0 <= sp < N_species (ph c))%Z -> mode_in c k l ->
    el (to_hat c (amap RtoC (get_dist_func c (f_hat s)))) x sp k l = el (f_hat s) x sp k l.
Definition fields_shown (c : lcfg) (s : lstate) : Prop :=
  forall i k l, (0 <= i < 6)%Z -> mode_in c k l ->
    el (to_hat c (amap RtoC (from_hat c (fields_hat (fsol s))))) i 0 k l = el (fields_hat (fsol s)) i 0 k l.
(** The same of the modes other than those at the grid frequency. *)
Definition holds_resolved (c : lcfg) (s : lstate) : Prop :=
  forall x sp k l, (0 <= x < N_p (ph c))%Z -> (0 <= sp < N_species (ph c))%Z -> mode_in c k l -> resolved (lN1 c) (lN2 c) k l ->
    el (to_hat c (amap RtoC (get_dist_func c (f_hat s)))) x sp k l = el (f_hat s) x sp k l.
Definition fields_resolved (c : lcfg) (s : lstate) : Prop :=
  forall i k l, (0 <= i < 6)%Z -> mode_in c k l -> resolved (lN1 c) (lN2 c) k l ->
    el (to_hat c (amap RtoC (from_hat c (fields_hat (fsol s))))) i 0 k l = el (fields_hat (fsol s)) i 0 k l.
