(** Relaxation of a gas that is the same everywhere, and histories of steps with other
    splittings. *)
From Coq Require Import ZArith Reals String List Bool.
From Verif Require Import Base.Prelude Model.Config Model.Timestep Model.Solver Spec.Interp.
Import ListNotations.
Local Open Scope R_scope.

(** The sources are the same everywhere; the velocities need not be. *)
Definition same_sources (P : params) : Prop :=
  (forall t q1 q2 w x s, source (pc P) t q1 q2 w x s = source (pc P) t 0 0 w x s)
  /\ (forall t q1 q2 w x s, source_inst P t q1 q2 w x s = source_inst P t 0 0 w x s).

(** [a x s]: f at momentum x for species s.  One midpoint step of da/dt = S(a), the
    equilibrium if collisions are instantaneous, nothing without collisions. *)
Definition relaxed (P : params) (t dt : R) (a : Z -> Z -> R) : Z -> Z -> R :=
  let S := source (pc P) t 0 0 in
  if instantaneous P then source_inst P t 0 0 a
  else if source_enabled (pc P) then fun x s => a x s + dt * S (fun x s => a x s + dt / 2 * S a x s) x s
  else a.

(** Every splitting makes one such step, Jia's adds two thirds of the difference two half
    steps make. *)
Definition relax_step (P : params) (t : R) (m : method) (dt : R) (a : Z -> Z -> R) : Z -> Z -> R :=
  match m with
  | Jia => fun x s => relaxed P t dt a x s
      + 2/3 * (relaxed P t (1/2 * dt) (relaxed P t (1/2 * dt) a) x s - relaxed P t dt a x s)
  | _ => relaxed P t dt a
  end.
Fixpoint relax (P : params) (t : R) (h : list (method * R)) (a : Z -> Z -> R) : Z -> Z -> R :=
  match h with
  | [] => a
  | (m, dt) :: h => relax P (t + dt) h (relax_step P t m dt a)
  end.

(** Histories with the same step sizes, made of Lie and Swss steps. *)
Inductive same_sizes : list (method * R) -> list (method * R) -> Prop :=
| same_nil : same_sizes [] []
| same_cons m m' dt h h' : (m = Lie \/ m = Swss) -> (m' = Lie \/ m' = Swss) -> same_sizes h h' ->
    same_sizes ((m, dt) :: h) ((m', dt) :: h').

(** Each Strang step replaced by two Lie steps of half the size. *)
Definition halved (h : list R) : list (method * R) := flat_map (fun dt => [(Lie, 1/2 * dt); (Lie, 1/2 * dt)]) h.
Definition all_strang (h : list R) : list (method * R) := map (fun dt => (Strang, dt)) h.
Definition steady (c : cfg) : Prop := forall s t t' q1 q2 p1 p2 p3, A_q c s t q1 q2 p1 p2 p3 = A_q c s t' q1 q2 p1 p2 p3.
