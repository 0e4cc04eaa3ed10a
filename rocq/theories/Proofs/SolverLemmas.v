(** Lemmas about the solver object and its operators. *)
From Coq Require Import ZArith Reals Lia Lra String List Bool.
From Verif Require Import Base.Prelude Base.ZSum Model.Af Model.Petsc Model.Config Model.Boundaries
  Model.Fvm Model.Em Model.Moments Model.Integrators Model.Splitting Model.SemiLag Model.Timestep
  Model.Solver Spec.Clock Proofs.TimestepLemmas.
Import ListNotations.
Local Open Scope R_scope.

Lemma rbind_inv {A B} (x : res A) (g : A -> res B) y : rbind x g = Ok y -> exists a, x = Ok a /\ g a = Ok y.
Proof. destruct x as [a|]; cbn; [eauto|discriminate]. Qed.

(** Take apart the binds of a hypothesis [H : ... = Ok _]. *)
Ltac binds H :=
  repeat (match type of H with
    | rbind ?x _ = Ok _ =>
        let a := fresh "x" in let E := fresh "E" in
        apply rbind_inv in H; destruct H as (a&E&H); cbv beta in H
    end).

Section Params.
  Context (P : params).
  Let c := pc P.

  Lemma op_fvm_inv dt s s' : op_fvm P dt s = Ok s' -> exists E0 e0 Eh eh,
    timestep_fvm c (time_elapsed s) dt E0 Eh (fpart s) = Ok (fpart s')
    /\ (exists x0, refresh_f P (time_elapsed s) (fpart s) = Ok x0
        /\ fields_seen P (time_elapsed s) (cur_dt s) (sf x0) (fields s) = Ok (E0, e0)
        /\ exists fh x1, half_update P (time_elapsed s) (dt / 2) E0 (sf x0) (sf x0) = Ok fh
        /\ refresh_f P (time_elapsed s) (FState fh (sbuf x0)) = Ok x1
        /\ fields_seen P (time_elapsed s) (cur_dt s) (sf x1) e0 = Ok (Eh, eh))
    /\ fields s' = eh /\ time_elapsed s' = time_elapsed s /\ cur_dt s' = cur_dt s.
  Proof.
    unfold op_fvm. intros H.
    apply rbind_inv in H. destruct H as (x0&R0&H). cbv beta in H.
    apply rbind_inv in H. destruct H as ((E0&e0)&F0&H). cbv beta iota in H.
    apply rbind_inv in H. destruct H as (fh&U0&H). cbv beta in H.
    apply rbind_inv in H. destruct H as (x1&R1&H). cbv beta in H.
    apply rbind_inv in H. destruct H as ((Eh&eh)&F1&H). cbv beta iota in H.
    apply rbind_inv in H. destruct H as (f1&U1&H). cbv beta in H.
    injection H as <-. exists E0, e0, Eh, eh. cbn [fpart fields time_elapsed cur_dt set_fields set_fpart].
    split; [|split; [|auto]].
    - unfold timestep_fvm. unfold refresh_f in R0. fold c in R0.
      generalize dependent (communicate_f c (fpart s)). intros y0 R0.
      apply rbind_inv in R0. destruct R0 as (g0&A0&R0). cbv beta in R0. rewrite A0. cbn [rbind].
      injection R0 as <-. cbn [sf sbuf] in *.
      unfold half_update in U0. fold c in U0. rewrite U0. cbn [rbind].
      unfold refresh_f in R1. fold c in R1.
      generalize dependent (communicate_f c (FState fh (sbuf y0))). intros y1 R1. apply rbind_inv in R1. destruct R1 as (g1&A1&R1). cbv beta in R1.
      rewrite A1. cbn [rbind]. injection R1 as <-. cbn [sf sbuf] in *.
      unfold half_update in U1. fold c in U1. rewrite U1. reflexivity.
    - exists x0. split; [exact R0|]. split; [exact F0|]. exists fh, x1. auto.
  Qed.

  Lemma op_advect_q_inv dt s s' : op_advect_q P dt s = Ok s' ->
    exists x, refresh_f P (time_elapsed s) (fpart s) = Ok x
    /\ fpart s' = FState (fun r1 r2 => f_interp_2d c r1 r2 (time_elapsed s) dt (sf x r1 r2)) (sbuf x)
    /\ fields s' = fields s /\ time_elapsed s' = time_elapsed s /\ cur_dt s' = cur_dt s.
  Proof.
    unfold op_advect_q. intros H. apply rbind_inv in H. destruct H as (x&R0&H). cbv beta in H.
    injection H as <-. exists x. auto.
  Qed.

  Lemma op_solve_src_inv dt s s' : op_solve_src P dt s = Ok s' ->
    fields s' = fields s /\ time_elapsed s' = time_elapsed s /\ cur_dt s' = cur_dt s.
  Proof.
    unfold op_solve_src. destruct (instantaneous P); [rewrite andb_false_r|rewrite andb_true_r; destruct (source_enabled (pc P))];
      intros H; injection H as <-; auto.
  Qed.

  Lemma op_fields_inv dt s s' : op_fields P dt s = Ok s' ->
    time_elapsed s' = time_elapsed s /\ cur_dt s' = cur_dt s.
  Proof.
    unfold op_fields. intros H. apply rbind_inv in H. destruct H as (e1&_&H). cbv beta in H.
    apply rbind_inv in H. destruct H as (e2&_&H). cbv beta in H.
    do 3 (match type of H with context [get_fields ?x ?y] => destruct (get_fields x y) end).
    apply rbind_inv in H. destruct H as (f'&_&H). cbv beta in H. injection H as <-. auto.
  Qed.

  Lemma solver_clock_kept : clock_kept (solver_stepper P).
  Proof.
    constructor; cbn; try reflexivity; intros dt s s' H.
    - apply op_fvm_inv in H. destruct H as (E0&e0&Eh&eh&_&_&_&T&_). exact T.
    - apply op_advect_q_inv in H. destruct H as (x&_&_&_&T&_). exact T.
    - apply op_solve_src_inv in H. apply H.
    - apply op_fields_inv in H. apply H.
  Qed.

  Lemma solver_finite s : finite_everywhere (solver_stepper P) s.
  Proof. intros r1 r2 x sp i j _ _ _. split; reflexivity. Qed.
End Params.

(** ** Jia steps with fields *)
Lemma jia_fails {S V} (H : host S V) o1 o2 dt s : fields_on H = true -> exists e, jia H o1 o2 dt s = Err e.
Proof.
  intros F. unfold jia.
  destruct (strang o1 o2 dt s); cbn [rbind]; [|eauto].
  destruct (strang o2 o1 dt _); cbn [rbind]; [|eauto].
  destruct (swss H o1 o2 dt _); cbn [rbind]; [|eauto]. rewrite F. eauto.
Qed.

(** The step that would give the wrong name error: when everything before it
    succeeds, the exception is AttributeError. *)
Lemma jia_attribute_error {S V} (H : host S V) o1 o2 dt s : fields_on H = true ->
  (forall dt s, is_ok (o1 dt s)) -> (forall dt s, is_ok (o2 dt s)) -> jia H o1 o2 dt s = Err AttributeError.
Proof.
  intros F K1 K2.
  assert (L : forall a b : operator S, (forall dt s, is_ok (a dt s)) -> (forall dt s, is_ok (b dt s)) ->
              forall dt s, is_ok (strang a b dt s)).
  { intros a b A B h x. unfold strang. destruct (A (1/2*h) x) as (y&->). cbn. destruct (B h y) as (z&->). cbn. apply A. }
  unfold jia. destruct (L o1 o2 K1 K2 dt s) as (y&->). cbn [rbind].
  match goal with |- context [strang o2 o1 dt ?x] => destruct (L o2 o1 K2 K1 dt x) as (z&->) end. cbn [rbind].
  match goal with |- context [swss H o1 o2 dt ?x] => set (w := x) end.
  assert (Ex : is_ok (swss H o1 o2 dt w)).
  { unfold swss. destruct (K1 dt w) as (a&->). cbn [rbind]. destruct (K2 dt a) as (b&->). cbn [rbind].
    match goal with |- context [o2 dt ?x] => destruct (K2 dt x) as (d&->) end. cbn [rbind].
    destruct (K1 dt d) as (g&->). cbn [rbind]. eexists. reflexivity. }
  destruct Ex as (g&->). cbn [rbind]. rewrite F. reflexivity.
Qed.
