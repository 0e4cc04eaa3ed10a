(** What time steps do to the clock, and when a run stops. *)
From Coq Require Import ZArith Reals List.
From Verif Require Import Base.Prelude Model.Af Model.Petsc Model.Fvm Model.Splitting Model.Timestep.
Import ListNotations.
Local Open Scope R_scope.

(** Total of the step sizes of a history. *)
Fixpoint elapsed (h : list (method * R)) : R :=
  match h with [] => 0 | (_, dt) :: h => dt + elapsed h end.

(** The same program with every operator writing down the value of the clock when
    it is called. *)
Definition noting {S} (clk : S -> R) (op : operator S) : operator (S * list R) := fun dt s =>
  let? s' := op dt (fst s) in Ok (s', snd s ++ [clk (fst s)]).

Definition noting_host {S V} (H : host S V) : host (S * list R) V :=
  Host (fun s => get_f H (fst s)) (fun v s => (set_f H v (fst s), snd s)) (axpby H) (fields_on H)
       (fun s => get_refs H (fst s)) (fun l s => (set_refs H l (fst s), snd s))
       (fun a l b m s => (mix_refs H a l b m (fst s), snd s)).

Definition noting_stepper {S A V} (M : stepper S A V) : stepper (S * list R) A V :=
  Stepper (st_lay M) (method_q M) (method_p M) (with_fields M) (noting_host (st_host M))
    (fun s => local_f M (fst s)) (isinf M) (isnan M)
    (fun dt s => (set_dt M dt (fst s), snd s)) (fun s => clock M (fst s))
    (fun t s => (set_clock M t (fst s), snd s))
    (noting (clock M) (op_fvm M)) (noting (clock M) (op_advect_q M))
    (noting (clock M) (op_solve_src M)) (noting (clock M) (op_fields M)).

(** Every value of f, on every rank and in the ghost zones too, is finite. *)
Definition finite_value {S A V} (M : stepper S A V) (x : A) : Prop :=
  isinf M x = false /\ isnan M x = false.
Definition finite_everywhere {S A V} (M : stepper S A V) (s : S) : Prop :=
  forall r1 r2 x sp i j, (r1 < length (blk1 (st_lay M)))%nat -> (r2 < length (blk2 (st_lay M)))%nat ->
    inside (local_f M s r1 r2) x sp i j -> finite_value M (el (local_f M s r1 r2) x sp i j).

(** Operators and the accesses of the splitting methods leave the clock alone. *)
Definition keeps_clock {S A V} (M : stepper S A V) (op : operator S) : Prop :=
  forall dt s s', op dt s = Ok s' -> clock M s' = clock M s.
Record clock_kept {S A V} (M : stepper S A V) : Prop := ClockKept {
  ck_fvm : keeps_clock M (op_fvm M);
  ck_advect : keeps_clock M (op_advect_q M);
  ck_source : keeps_clock M (op_solve_src M);
  ck_fields : keeps_clock M (op_fields M);
  ck_set_f : forall v s, clock M (set_f (st_host M) v s) = clock M s;
  ck_set_refs : forall l s, clock M (set_refs (st_host M) l s) = clock M s;
  ck_mix_refs : forall a l b m s, clock M (mix_refs (st_host M) a l b m s) = clock M s;
  ck_set_dt : forall dt s, clock M (set_dt M dt s) = clock M s;
  ck_set_clock : forall t s, clock M (set_clock M t s) = t;
  ck_f : forall t s, local_f M (set_clock M t s) = local_f M s }.

(** Times and sizes of the steps of a history that starts at [t]. *)
Fixpoint schedule (t : R) (h : list (method * R)) : list (R * R) :=
  match h with [] => [] | (_, dt) :: h => (t, dt) :: schedule (t + dt) h end.

(** How many times a step of each method applies the field update. *)
Definition count (m : method) : R := match m with Swss => 2 | _ => 1 end.
Fixpoint counted (h : list (method * R)) : R :=
  match h with [] => 0 | (m, dt) :: h => count m * dt + counted h end.

(** [op] always succeeds and acts on f alone, as [g]. *)
Definition acts {S V} (H : host S V) (g : R -> V -> V) (op : operator S) : Prop :=
  forall dt s, exists s', op dt s = Ok s' /\ get_f H s' = g dt (get_f H s).

(** The composite methods, on functions of f. *)
Definition lie_f {V} (g1 g2 : R -> V -> V) dt x := g2 dt (g1 dt x).
Definition strang_f {V} (g1 g2 : R -> V -> V) dt x := g1 (1/2 * dt) (g2 dt (g1 (1/2 * dt) x)).
Definition swss_f {S V} (H : host S V) (g1 g2 : R -> V -> V) dt x :=
  axpby H (1/2) (lie_f g2 g1 dt x) (1/2) (lie_f g1 g2 dt x).
Definition jia_f {S V} (H : host S V) (g1 g2 : R -> V -> V) dt x :=
  axpby H 1 (axpby H (2/3) (strang_f g1 g2 dt x) (2/3) (strang_f g2 g1 dt x)) (- (1/3)) (swss_f H g1 g2 dt x).
