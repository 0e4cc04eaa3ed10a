(** Stages of a step of the linear hybrid model. *)
From Coq Require Import ZArith Reals String List Bool.
From Verif Require Import Base.Prelude Base.Cplx Model.Af Model.Config Model.Linear Model.LinearHybrid.
Import ListNotations.
Local Open Scope R_scope.

(** Where slopes are evaluated: time, fields acting on f, f, and the fields B is advanced with. *)
Record point := Point { p_time : R; p_acting : fields; p_f : arr cplx; p_F : arr cplx }.

(** [f'] and the magnetic field of [F'] are those at the beginning of the step plus dt times
    a combination of slopes.  The magnetic field acting on f is that of the beginning. *)
Definition stage (c : lcfg) (Te : R) (b : background) (dt : R) (s : lstate) (sl : list (R * point)) (f' F' : arr cplx) : Prop :=
  (d0 f' = d0 (f_hat s) /\ d1 f' = d1 (f_hat s) /\ d2 f' = d2 (f_hat s) /\ d3 f' = d3 (f_hat s))
  /\ (d0 F' = 6 /\ d1 F' = 1 /\ d2 F' = lN1 c /\ d3 F' = lN2 c)%Z
  /\ Forall (fun ap => forall i k l, (3 <= i < 6)%Z ->
       el (fields_hat (p_acting (snd ap))) i 0 k l = el (fields_hat (fsol s)) i 0 k l) sl
  /\ (forall x sp k l, el f' x sp k l = fold_left (fun z ap =>
       cadd z (cscale (fst ap * dt) (el (df_hat_value c b (p_acting (snd ap)) (p_time (snd ap)) (p_f (snd ap))) x sp k l)))
       sl (el (f_hat s) x sp k l))
  /\ (forall i k l, (3 <= i < 6)%Z -> el F' i 0 k l = fold_left (fun z ap =>
       cadd z (cscale (fst ap * dt) (el (dfields_hybrid c Te (p_f (snd ap)) (p_F (snd ap))) i 0 k l)))
       sl (el (fields_hat (fsol s)) i 0 k l)).
