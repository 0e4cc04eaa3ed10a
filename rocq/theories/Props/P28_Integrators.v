(** Time integrators and operator splitting: C28, C29, C48. *)
From Coq Require Import Reals List Lra Lia.
From Verif Require Import Base.Prelude Model.Integrators Model.Splitting Spec.RungeKutta Spec.SplitOrder
  Proofs.IntegratorLemmas Proofs.SplitLemmas Proofs.IntegratorProps.
Import ListNotations.
Local Open Scope R_scope.

(** C28.  RK2, RK4 and RK5 of the nonlinear solver are the explicit midpoint rule,
    the classical fourth-order and Fehlberg's fifth-order method, which satisfy the
    order conditions for every rooted tree up to order 2, 4 and 5. *)
Theorem C28_methods_and_orders :
  (forall I (dx_dt : vec I -> vec I) x dt i, extensional dx_dt ->
     RK2 dx_dt x dt i = rk_step midpoint_tableau (fun _ => dx_dt) 0 x dt i
     /\ RK4 dx_dt x dt i = rk_step classical_tableau (fun _ => dx_dt) 0 x dt i
     /\ RK5 dx_dt x dt i = rk_step fehlberg_tableau (fun _ => dx_dt) 0 x dt i)
  /\ order_conditions 2 midpoint_tableau
  /\ order_conditions 4 classical_tableau
  /\ order_conditions 5 fehlberg_tableau.
Proof. exact methods_and_orders. Qed.
Print Assumptions C28_methods_and_orders.

(** For dx/dt = L x they agree with the Taylor polynomial of exp(dt L) x to order
    2, 4 and 5. *)
Theorem C28_taylor :
  exists c5, forall I (L : vec I -> vec I) x dt i, linear L ->
    RK2 L x dt i = taylor 3 L dt x i
    /\ RK4 L x dt i = taylor 5 L dt x i
    /\ RK5 L x dt i = taylor 6 L dt x i + c5 * dt ^ 6 * iter 6 L x i.
Proof. exact nonlinear_taylor. Qed.
Print Assumptions C28_taylor.

(** Exact for a constant slope. *)
Theorem C28_constant_slope : forall I (v x : vec I) dt i,
  RK2 (fun _ => v) x dt i = x i + dt * v i
  /\ RK4 (fun _ => v) x dt i = x i + dt * v i
  /\ RK5 (fun _ => v) x dt i = x i + dt * v i.
Proof. exact constant_slope. Qed.
Print Assumptions C28_constant_slope.

(** A rotation: dx/dt = y, dy/dt = -x is linear; a quadratic slope is extensional. *)
Example C28_rotation_linear : linear (fun (x : vec bool) (b : bool) => if b then x false else - x true).
Proof.
  split.
  - intros x y H [|]; rewrite !H; reflexivity.
  - intros a x b y [|]; ring.
Qed.
Example C28_quadratic_extensional : extensional (fun (x : vec bool) b => x b * x (negb b)).
Proof. intros x y H b. rewrite !H. reflexivity. Qed.
Example C28_rotation_step :
  RK4 (fun (x : vec bool) (b : bool) => if b then x false else - x true)
      (fun b => if b then 1 else 0) 1 true = 13 / 24.
Proof. unfold RK4; cbn. lra. Qed.
(** The midpoint rule has order exactly two. *)
Example C28_midpoint_sharp : ~ order_conditions 3 midpoint_tableau.
Proof. exact midpoint_not3. Qed.

(** C29.  Let A and B be any linear operators, bounded in a seminorm N, that need
    not commute.  If the sub-steps solve dx/dt = A x and dx/dt = B x with local error
    O(dt^2) (O(dt^3), O(dt^4)), then lie (strang and swss, jia) solves
    dx/dt = (A + B) x with local error O(dt^2) (O(dt^3), O(dt^4)): first, second and
    third order.  Fields are disabled. *)
Theorem C29_orders : forall I (N : vec I -> R) (A B : vec I -> vec I)
    (flow_A flow_B flow_AB : R -> vec I -> vec I),
  seminorm N -> linear A -> linear B -> bounded_by N A -> bounded_by N B ->
  let solve n := solves_to N n A flow_A /\ solves_to N n B flow_B
                 /\ solves_to N n (plus_op A B) flow_AB in
  let accurate n (m : operator (vec I)) :=
    exists F, (forall dt x, m dt x = Ok (F dt x)) /\ agree_to N n F flow_AB in
  (solve 2%nat -> accurate 2%nat (lie (plain flow_A) (plain flow_B)))
  /\ (solve 3%nat -> accurate 3%nat (strang (plain flow_A) (plain flow_B)))
  /\ (solve 3%nat -> accurate 3%nat (swss (f_only I) (plain flow_A) (plain flow_B)))
  /\ (solve 4%nat -> accurate 4%nat (jia (f_only I) (plain flow_A) (plain flow_B))).
Proof. exact splitting_orders. Qed.
Print Assumptions C29_orders.

(** When the two flows commute all four methods are exact. *)
Theorem C29_commuting : forall I (flow_A flow_B : R -> vec I -> vec I) dt x,
  (forall h, extensional (flow_A h)) -> (forall h, extensional (flow_B h)) ->
  (forall a b y i, flow_A a (flow_A b y) i = flow_A (a + b) y i) ->
  (forall a b y i, flow_B a (flow_B b y) i = flow_B (a + b) y i) ->
  (forall a b y i, flow_A a (flow_B b y) i = flow_B b (flow_A a y) i) ->
  forall m, In m [lie (plain flow_A) (plain flow_B); strang (plain flow_A) (plain flow_B);
                  swss (f_only I) (plain flow_A) (plain flow_B);
                  jia (f_only I) (plain flow_A) (plain flow_B)] ->
  exists y, m dt x = Ok y /\ forall i, y i = flow_B dt (flow_A dt x) i.
Proof. intros I. exact commuting_exact. Qed.
Print Assumptions C29_commuting.

(** Two operators that do not commute, with their exact flows: A moves component 1
    into component 0, B moves component 2 into component 1. *)
Example C29_heisenberg : forall n, (2 <= n <= 4)%nat ->
  seminorm hN /\ linear hA /\ linear hB /\ bounded_by hN hA /\ bounded_by hN hB
  /\ solves_to hN n hA hflowA /\ solves_to hN n hB hflowB /\ solves_to hN n (plus_op hA hB) hflow.
Proof. exact heisenberg_ok. Qed.
(** On it lie is not second order. *)
Example C29_lie_sharp : ~ agree_to hN 3 (fun h x => hflowB h (hflowA h x)) hflow.
Proof. exact lie_not_second. Qed.
(** Growth at two rates: the flows commute. *)
Example C29_commuting_case :
  let fA h (x : vec bool) : vec bool := fun b => if b then x b + h else x b in
  let fB h (x : vec bool) : vec bool := fun b => x b + 2 * h in
  (forall h, extensional (fA h)) /\ (forall h, extensional (fB h))
  /\ (forall a b y i, fA a (fA b y) i = fA (a + b) y i)
  /\ (forall a b y i, fB a (fB b y) i = fB (a + b) y i)
  /\ (forall a b y i, fA a (fB b y) i = fB b (fA a y) i).
Proof.
  split; [intros h x y H [|]; rewrite H; reflexivity|].
  split; [intros h x y H i; rewrite H; reflexivity|].
  split; [intros a b y [|]; ring|]. split; [intros; ring|]. intros a b y [|]; ring.
Qed.

(** C48.  RK2, RK4 and RK5 of the linear solver, including the clock they advance
    between stages, are the explicit midpoint rule, the classical fourth-order and
    Butcher's fifth-order method for dx/dt = f(t, x), and advance the clock by dt.
    The coupled versions are the same methods on the combined system. *)
Theorem C48_methods_and_orders :
  (forall I (f : R -> vec I -> vec I) x dt t, (forall s, extensional (f s)) ->
     (forall i, fst (lin_RK2 f x dt t) i = rk_step midpoint_tableau f t x dt i)
     /\ (forall i, fst (lin_RK4 f x dt t) i = rk_step classical_tableau f t x dt i)
     /\ (forall i, fst (lin_RK5 f x dt t) i = rk_step butcher_tableau f t x dt i)
     /\ snd (lin_RK2 f x dt t) = t + dt /\ snd (lin_RK4 f x dt t) = t + dt
     /\ snd (lin_RK5 f x dt t) = t + dt)
  /\ (forall I J (fx : R -> vec I -> vec J -> vec I) (fy : R -> vec I -> vec J -> vec J) x y dt t,
     (forall s, extensional2 (fx s)) -> (forall s, extensional2 (fy s)) ->
     let agrees T (r : vec I * vec J * R) :=
       (forall k, both (fst (fst r)) (snd (fst r)) k = rk_step T (coupled fx fy) t (both x y) dt k)
       /\ snd r = t + dt in
     agrees midpoint_tableau (lin_RK2_coupled fx x fy y dt t)
     /\ agrees classical_tableau (lin_RK4_coupled fx x fy y dt t)
     /\ agrees butcher_tableau (lin_RK5_coupled fx x fy y dt t))
  /\ order_conditions 2 midpoint_tableau
  /\ order_conditions 4 classical_tableau
  /\ order_conditions 5 butcher_tableau.
Proof. exact linear_methods. Qed.
Print Assumptions C48_methods_and_orders.

(** Autonomous linear systems: Taylor polynomial to order 2, 4, 5. *)
Theorem C48_taylor :
  exists c5, forall I (L : vec I -> vec I) x dt t i, linear L ->
    fst (lin_RK2 (fun _ => L) x dt t) i = taylor 3 L dt x i
    /\ fst (lin_RK4 (fun _ => L) x dt t) i = taylor 5 L dt x i
    /\ fst (lin_RK5 (fun _ => L) x dt t) i = taylor 6 L dt x i + c5 * dt ^ 6 * iter 6 L x i.
Proof. exact linear_taylor. Qed.
Print Assumptions C48_taylor.

(** Slopes that are polynomials in the time, of degree below the order, are
    integrated exactly: the clock is right at every stage. *)
Theorem C48_time_dependent : forall I (cs : I -> list R) x dt t i,
  let slope := fun s (_ : vec I) i => poly (cs i) s in
  let exact := x i + (poly_int (cs i) (t + dt) - poly_int (cs i) t) in
  ((forall i, (length (cs i) <= 2)%nat) -> fst (lin_RK2 slope x dt t) i = exact)
  /\ ((forall i, (length (cs i) <= 4)%nat) -> fst (lin_RK4 slope x dt t) i = exact)
  /\ ((forall i, (length (cs i) <= 5)%nat) -> fst (lin_RK5 slope x dt t) i = exact).
Proof. exact linear_time_dependent. Qed.
Print Assumptions C48_time_dependent.

Example C48_cubic_slope : fst (lin_RK4 (fun s (_ : vec unit) _ => s ^ 3) (fun _ => 0) 1 0) tt = 1 / 4.
Proof. unfold lin_RK4; cbn. lra. Qed.
