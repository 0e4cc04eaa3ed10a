(** C134: the two solvers agree on free particles. *)
From Coq Require Import ZArith Reals Lra Lia Psatz String List Bool.
From Verif Require Import Base.Prelude Base.ZSum Base.Cplx Model.Af Model.Petsc Model.Config Model.Boundaries Model.Fvm Model.Em Model.Moments Model.Splitting Model.Integrators
  Model.Timestep Model.Linear Model.Solver Spec.MomentSpec Spec.Lattice Spec.Domain Spec.FvmProblem Spec.FvmRun Spec.Clock Spec.LinearSpec
  Spec.FreeStream Spec.Agree Proofs.MomentLemmas Proofs.Converge Proofs.Agree Props.ExFvm Props.ExEm Props.ExSolver Props.ExMaxwell Props.ExSymmetry.
Import ListNotations.
Local Open Scope R_scope.

(** C134.  The same physical system (free particles, periodic domain) with the same
    initial data, given to both solvers: after equal times their distribution
    functions differ by at most the first-order error of the nonlinear solver plus
    the phase error of the linear one. *)
Theorem C134_solvers_agree : forall P cl k2, pc P = ph cl ->
  wf_cfg (ph cl) FirstOrder k2 -> periodic_fvm (ph cl) FirstOrder -> lin_ok cl -> streams_freely cl -> moves_with_p (ph cl) ->
  dims4 (init_f cl) (N_p (ph cl)) (N_species (ph cl)) (lN1 cl) (lN2 cl) ->
  forall s b l0 h steps M,
  linear_solver cl = Ok (b, l0) -> holds (ph cl) (f_of s) (fun x sp g1 g2 => el (init_f cl) x sp g1 g2) ->
  elapsed h = lin_duration steps ->
  (forall m dt, In (m, dt) h -> courant (ph cl) dt) ->
  (forall m dt x sp k l, inb (N_p (ph cl)) x -> inb (N_species (ph cl)) sp -> mode_in cl k l -> In (m, dt) steps ->
     small_step m (omega cl x sp k l * dt)) ->
  (forall x sp, inb (N_p (ph cl)) x -> inb (N_species (ph cl)) sp -> roughness cl x sp <= M) ->
  exists s' l', run_steps (solver_stepper P) h s = Ok (s', None) /\ lin_run cl b steps l0 = Ok l'
  /\ forall x sp g1 g2, inb (N_p (ph cl)) x -> inb (N_species (ph cl)) sp ->
     inb (gN1 (lay (ph cl))) g1 -> inb (gN2 (lay (ph cl))) g2 ->
     Rabs (gval (lay (ph cl)) (f_of s') x sp g1 g2 - el (get_dist_func cl (f_hat l')) x sp g1 g2)
     <= 3 * M * elapsed h * (Rabs (mom1 (ph cl) (1/2) x sp) * dq1 (ph cl) + Rabs (mom2 (ph cl) (1/2) x sp) * dq2 (ph cl))
        + phase_error cl steps x sp.
Proof. exact agree. Qed.
Print Assumptions C134_solvers_agree.

(** The linear solver alone: its error does not depend on the size of the cells. *)
Theorem C134_linear_is_spectral : forall cl, lin_ok cl -> forall b steps l0 x s i j, streams_freely cl ->
  dims4 (init_f cl) (N_p (ph cl)) (N_species (ph cl)) (lN1 cl) (lN2 cl) -> linear_solver cl = Ok (b, l0) ->
  (forall k l m dt, mode_in cl k l -> In (m, dt) steps -> small_step m (omega cl x s k l * dt)) ->
  inb (lN1 cl) i -> inb (lN2 cl) j ->
  forall l', lin_run cl b steps l0 = Ok l' ->
  Rabs (el (get_dist_func cl (f_hat l')) x s i j
        - waves cl x s (lq1 cl i - el (p1_center (ph cl)) x s 0 0 * lin_duration steps)
                       (lq2 cl j - el (p2_center (ph cl)) x s 0 0 * lin_duration steps))
  <= phase_error cl steps x s.
Proof. exact spectral. Qed.
Print Assumptions C134_linear_is_spectral.

(** [waves] is a function through the initial data. *)
Theorem C134_waves_interpolate : forall cl, lin_ok cl -> forall x s i j,
  dims4 (init_f cl) (d0 (init_f cl)) (d1 (init_f cl)) (lN1 cl) (lN2 cl) -> inb (lN1 cl) i -> inb (lN2 cl) j ->
  waves cl x s (lq1 cl i) (lq2 cl j) = el (init_f cl) x s i j.
Proof. exact waves_data. Qed.
Print Assumptions C134_waves_interpolate.

(** A cosine along q1 on the 4 x 3 grid of ExFvm, two momenta per axis, two species. *)
Definition cos_f : arr R := Arr 4 2 4 3 (fun _ _ i _ => cos (PI / 2 * IZR i)).
Definition free_cfg : cfg := ex_cfg "piecewise-constant" false.
Definition free_lin : lcfg :=
  LCfg free_cfg [1; 1] [1; 1] 1 1 "None" "fft" false
    (fun s t q1 q2 p1 p2 p3 e1 e2 e3 b1 b2 b3 => (e1, e2, e3)) (fun f _ _ => f) cos_f
    ((fun _ _ => 0), (fun _ _ => 0), (fun _ _ => 0)) InitNone.
Definition free_params (e : Em.fcfg) : params := Params free_cfg e "None" [1; 1] nonrel_moments 0 1 false mean_inst (fun a _ _ => a).
Lemma free_lin_ok : lin_ok free_lin.
Proof. unfold lin_ok, momentum_grid_ok, lN1, lN2. cbn. repeat split; lia || lra. Qed.
Lemma free_small m dt x s k l : inb 4 x -> inb 2 s -> mode_in free_lin k l ->
  In (m, dt) [(RK4_, 1/10); (RK5_, 1/20); (RK5_, 1/20)] -> small_step m (omega free_lin x s k l * dt).
Proof.
  intros Hx Hs Hm Hd. destruct (wavenumber_le _ k l free_lin_ok Hm) as (A&B).
  change (dq1 (ph free_lin)) with 1 in A. change (dq2 (ph free_lin)) with 1 in B. replace (PI / 1) with PI in A, B by field.
  assert (V : Rabs (el (p1_center (ph free_lin)) x s 0 0) <= 1 /\ Rabs (el (p2_center (ph free_lin)) x s 0 0) <= 1).
  { unfold inb in *. assert (X : x = 0%Z \/ x = 1%Z \/ x = 2%Z \/ x = 3%Z) by lia. assert (S : s = 0%Z \/ s = 1%Z) by lia.
    destruct X as [->|[->|[->| ->]]], S as [->| ->]; cbv -[Rplus Rmult Ropp Rdiv Rinv IZR Rminus Rabs Rle]; split; apply Rabs_le; lra. }
  destruct V as (V1&V2). assert (O : Rabs (omega free_lin x s k l) <= 8).
  { unfold omega. eapply Rle_trans; [apply Rabs_triang|]. rewrite !Rabs_mult.
    assert (P4 := PI_4). assert (Q1 := Rabs_pos (kx free_lin k)). assert (Q2 := Rabs_pos (ky free_lin l)).
    assert (Q3 := Rabs_pos (el (p1_center (ph free_lin)) x s 0 0)). assert (Q4 := Rabs_pos (el (p2_center (ph free_lin)) x s 0 0)). nra. }
  destruct Hd as [E|[E|[E|[]]]]; injection E as <- <-; unfold small_step; apply Converge.abs_between in O.
  - apply Rabs_le. lra.
  - nra.
  - nra.
Qed.

Example C134_applies : forall e em, exists s s' b l0 l',
  f_of s = sf (state_of free_cfg (fun x sp g1 g2 => cos (PI / 2 * IZR g1))) /\ fields s = em
  /\ run_steps (solver_stepper (free_params e)) [(Strang, 1/10); (Lie, 1/10)] s = Ok (s', None)
  /\ linear_solver free_lin = Ok (b, l0) /\ lin_run free_lin b [(RK4_, 1/10); (RK5_, 1/20); (RK5_, 1/20)] l0 = Ok l'
  /\ Rabs (gval ex_lay (f_of s') 3 1 2 1 - el (get_dist_func free_lin (f_hat l')) 3 1 2 1)
     <= 3 * (24 * (2 * PI) ^ 2) * (1/5) * 2 + phase_error free_lin [(RK4_, 1/10); (RK5_, 1/20); (RK5_, 1/20)] 3 1.
Proof.
  intros e em.
  set (s0 := Solver (state_of free_cfg (fun x sp g1 g2 => cos (PI / 2 * IZR g1))) em 0 0).
  assert (L0 : exists b l0, linear_solver free_lin = Ok (b, l0)) by (eexists; eexists; reflexivity).
  destruct L0 as (b&l0&L0).
  destruct (C134_solvers_agree (free_params e) free_lin PPM eq_refl (ex_wf "piecewise-constant" false FirstOrder eq_refl)
    (ex_periodic "piecewise-constant" false FirstOrder) free_lin_ok ltac:(repeat split) ltac:(repeat intro; reflexivity) ltac:(repeat split)
    s0 b l0 [(Strang, 1/10); (Lie, 1/10)] [(RK4_, 1/10); (RK5_, 1/20); (RK5_, 1/20)] (24 * (2 * PI) ^ 2) L0) as (s'&l'&R1&R2&A).
  - apply state_of_holds.
  - cbn. lra.
  - intros m dt Hm. assert (D : dt = 1/10) by (destruct Hm as [E|[E|[]]]; injection E; auto). subst dt. split; [lra|].
    intros x s Hx Hs. unfold inb in *. change (N_p (ph free_lin)) with 4%Z in Hx. change (N_species (ph free_lin)) with 2%Z in Hs.
    assert (X : x = 0%Z \/ x = 1%Z \/ x = 2%Z \/ x = 3%Z) by lia. assert (S : s = 0%Z \/ s = 1%Z) by lia.
    assert (V : Rabs (mom1 (ph free_lin) (1/2) x s) <= 1 /\ Rabs (mom2 (ph free_lin) (1/2) x s) <= 1).
    { destruct X as [->|[->|[->| ->]]], S as [->| ->]; cbv -[Rplus Rmult Ropp Rdiv Rinv IZR Rminus Rabs Rle]; split; apply Rabs_le; lra. }
    change (dq1 (ph free_lin)) with 1. change (dq2 (ph free_lin)) with 1. lra.
  - intros m dt x s k l Hx Hs. apply free_small; auto.
  - intros x s _ _. eapply Rle_trans; [apply (roughness_le free_lin x s 1 free_lin_ok)|].
    + intros i j _ _. cbn [init_f free_lin cos_f el]. apply Rabs_le. apply COS_bound.
    + change (lN1 free_lin) with 4%Z. change (lN2 free_lin) with 3%Z. change (dq1 (ph free_lin)) with 1. change (dq2 (ph free_lin)) with 1.
      right. field.
  - exists s0, s', b, l0, l'. split; [reflexivity|]. split; [reflexivity|]. split; [exact R1|]. split; [exact L0|]. split; [exact R2|].
    specialize (A 3 1 2 1 ltac:(split; [discriminate|reflexivity]) ltac:(split; [discriminate|reflexivity])
                  ltac:(split; [discriminate|reflexivity]) ltac:(split; [discriminate|reflexivity]))%Z.
    assert (V1 : mom1 (ph free_lin) (1/2) 3 1 = 1) by (cbv -[Rplus Rmult Ropp Rdiv Rinv IZR Rminus]; lra).
    assert (V2 : mom2 (ph free_lin) (1/2) 3 1 = 1) by (cbv -[Rplus Rmult Ropp Rdiv Rinv IZR Rminus]; lra).
    rewrite V1, V2, Rabs_R1 in A. change (dq1 (ph free_lin)) with 1 in A. change (dq2 (ph free_lin)) with 1 in A. cbn [elapsed] in A.
    change (lay (ph free_lin)) with ex_lay in A.
    eapply Rle_trans; [exact A|]. apply Rplus_le_compat_r. right. field.
Qed.
