(** C30-C33, C41, C60, C69, C70: time steps of the coupled solver. *)
From Coq Require Import ZArith Reals Lra Lia String List Bool.
From Verif Require Import Base.Prelude Base.ZSum Model.Af Model.Petsc Model.Config Model.Fvm Model.Em
  Model.Moments Model.Splitting Model.Timestep Model.Solver
  Spec.Domain Spec.Lattice Spec.FvmProblem Spec.FvmRun Spec.Yee Spec.EmRun Spec.Clock Spec.SolverSpec Spec.Swss
  Proofs.EmStep Proofs.EmInit Proofs.EmProps Proofs.EmWitness Proofs.Electrostatic Proofs.FileWitness
  Proofs.TimestepLemmas Proofs.SolverLemmas Proofs.HybridLemmas Proofs.FieldRun Proofs.CoupledLemmas
  Proofs.VlasovPoisson Proofs.SourceLemmas Proofs.SwssFields Props.ExFvm Props.ExEm Props.ExSolver.
Import ListNotations.
Local Open Scope R_scope.

(** C30.  Histories with the same step sizes, whatever the methods, end the same
    way: same state or same exception. *)
Theorem C30_methods_agree : forall P h h' s,
  solver_method_in_q (pc P) = "FVM"%string -> solver_method_in_p (pc P) = "FVM"%string \/ fields_enabled (pc P) = false ->
  map snd h = map snd h' -> run_steps (solver_stepper P) h s = run_steps (solver_stepper P) h' s.
Proof. exact (fun P => fvm_run_eq (solver_stepper P)). Qed.
Print Assumptions C30_methods_agree.

(** The same for any solver, whatever its operators do. *)
Theorem C30_any_operators : forall S A V (M : stepper S A V) m m' dt s,
  method_q M = "FVM"%string -> method_p M = "FVM"%string -> step_of M m dt s = step_of M m' dt s.
Proof. exact fvm_methods. Qed.
Print Assumptions C30_any_operators.

(** The common result: each step is one finite-volume step in the fields the
    solver computes, at the time the step starts. *)
Theorem C30_finite_volume_steps : forall P,
  solver_method_in_q (pc P) = "FVM"%string -> solver_method_in_p (pc P) = "FVM"%string \/ fields_enabled (pc P) = false ->
  forall h s s' e, run_steps (solver_stepper P) h s = Ok (s', e) -> e = None /\
  exists l, run_fvm (pc P) l (fpart s) = Ok (fpart s')
  /\ map (fun k => (ct k, cdt k)) l = schedule (time_elapsed s) h.
Proof. exact coupled_run. Qed.
Print Assumptions C30_finite_volume_steps.

Definition ex_coupled : params :=
  Params (ex_cfg "ppm" false) ex_em "electrodynamic" [1; -2] nonrel_moments 0 1 false mean_inst (fun a _ _ => a).
Example C30_applies : exists s', run_steps (solver_stepper ex_coupled) [(Jia, 1/10); (Swss, 1/5)]
    (Solver (ex_state ex_lay) (fresh ex_em) 0 0) = Ok (s', None)
  /\ run_steps (solver_stepper ex_coupled) [(Lie, 1/10); (Strang, 1/5)] (Solver (ex_state ex_lay) (fresh ex_em) 0 0) = Ok (s', None).
Proof.
  destruct (off_total ex_coupled eq_refl (or_introl eq_refl) PPM PPM [(Jia, 1/10); (Swss, 1/5)]
              (Solver (ex_state ex_lay) (fresh ex_em) 0 0)) as (s'&H).
  - reflexivity.
  - apply ex_wf. reflexivity.
  - apply ex_periodic.
  - apply ex_vel.
  - apply ex_source.
  - exact (ex_shaped "ppm" false).
  - exists s'. split; [exact H|]. rewrite <- H. apply C30_methods_agree; [reflexivity|left; reflexivity|reflexivity].
Qed.

(** C31.  [elapsed h] is the sum of the step sizes. *)
Theorem C31_clock : forall P h s s',
  run_steps (solver_stepper P) h s = Ok (s', None) -> time_elapsed s' = time_elapsed s + elapsed h.
Proof. exact (fun P => run_clock (solver_stepper P) (solver_clock_kept P)). Qed.
Print Assumptions C31_clock.

(** [noting_stepper] is the same program, with each operator call appending the
    value of the clock it finds to a log: every entry a step makes is the time at
    the start of the step. *)
Theorem C31_operators_see_start : forall P m dt s log0 s' log e,
  step_of (noting_stepper (solver_stepper P)) m dt (s, log0) = Ok ((s', log), e) ->
  step_of (solver_stepper P) m dt s = Ok (s', e)
  /\ exists l, log = log0 ++ l /\ Forall (fun t => t = time_elapsed s) l.
Proof. exact (fun P => step_sees_start (solver_stepper P) (solver_clock_kept P)). Qed.
Print Assumptions C31_operators_see_start.

Example C31_applies : forall s, wf_em (pf ex_hybrid) (fields s) ->
  exists s', run_steps (solver_stepper ex_hybrid) [(Strang, 1/10); (Swss, 1/5)] s = Ok (s', None)
  /\ time_elapsed s' = time_elapsed s + 3/10.
Proof.
  intros s W. destruct (hybrid_run_total ex_hybrid ex_hybrid_ok [(Strang, 1/10); (Swss, 1/5)] s) as (s'&H&_); auto.
  { repeat constructor; discriminate. }
  exists s'. split; [exact H|]. rewrite (C31_clock _ _ _ _ H). cbn [elapsed]. lra.
Qed.

(** C32.  For every solver whose operators leave the clock alone, over any type
    of values: a step that returns leaves f finite everywhere and the clock
    advanced, and one that raises SystemExit leaves a value that is not finite
    and the clock where it was. *)
Theorem C32_step : forall S A V (M : stepper S A V), clock_kept M -> forall m dt s s' e,
  step_of M m dt s = Ok (s', e) ->
  (e = None /\ finite_everywhere M s' /\ clock M s' = clock M s + dt)
  \/ (e = Some SystemExit /\ ~ finite_everywhere M s' /\ clock M s' = clock M s).
Proof. exact (fun S A V => @step_outcome S A V). Qed.
Print Assumptions C32_step.

(** A run stops at the first such step: those before it returned normally. *)
Theorem C32_run : forall S A V (M : stepper S A V), clock_kept M -> forall h s s' e,
  run_steps M h s = Ok (s', Some e) ->
  exists h1 m dt h2 s1, h = h1 ++ (m, dt) :: h2 /\ run_steps M h1 s = Ok (s1, None)
    /\ step_of M m dt s1 = Ok (s', Some e) /\ e = SystemExit
    /\ ~ finite_everywhere M s' /\ clock M s' = clock M s + elapsed h1.
Proof. exact (fun S A V => @run_stops S A V). Qed.
Print Assumptions C32_run.

(** Bolt's own operators leave the clock alone. *)
Theorem C32_bolt : forall P, clock_kept (solver_stepper P).
Proof. exact solver_clock_kept. Qed.
Print Assumptions C32_bolt.

(** A solver over numbers with infinities: values above 1000 overflow. *)
Inductive number := Fin (n : Z) | Inf | Nan.
Definition grow : operator (number * R) := fun _ s =>
  Ok (match fst s with Fin n => if (n <? 1000)%Z then Fin (n * 10) else Inf | x => x end, snd s).
Definition toy : stepper (number * R) number number :=
  Stepper (Layout 1 1 [1]%Z [1]%Z 0 0 PPeriodic PPeriodic) "FVM" "FVM" false
    (Host fst (fun v s => (v, snd s)) (fun _ x _ _ => x) false (fun _ => (0%nat, 0%nat)) (fun _ s => s) (fun _ _ _ _ s => s))
    (fun s _ _ => Arr 1 1 1 1 (fun _ _ _ _ => fst s))
    (fun x => match x with Inf => true | _ => false end) (fun x => match x with Nan => true | _ => false end)
    (fun _ s => s) snd (fun t s => (fst s, t)) grow grow grow grow.
Example C32_applies : clock_kept toy
  /\ run_steps toy [(Lie, 1); (Jia, 2)] (Fin 10, 0) = Ok ((Fin 1000, 0 + 1 + 2), None)
  /\ run_steps toy [(Lie, 1); (Jia, 2); (Lie, 1); (Lie, 5)] (Fin 10, 0) = Ok ((Inf, 0 + 1 + 2), Some SystemExit).
Proof.
  split; [|split; reflexivity].
  constructor; intros; try reflexivity; intros dt s s' H; apply Ok_inj in H; subst s'; reflexivity.
Qed.

(** C33, false: with fields a jia step never returns. *)
Theorem C33_refuted : forall P, fields_enabled (pc P) = true -> solver_method_in_p (pc P) = "ASL"%string ->
  solver_method_in_q (pc P) = "FVM"%string \/ solver_method_in_q (pc P) = "ASL"%string ->
  forall dt s r, step_of (solver_stepper P) Jia dt s <> Ok r.
Proof. exact no_jia. Qed.
Print Assumptions C33_refuted.

(** And a swss step advances the field solver by two dt: [count] is 2 for swss
    and 1 for lie and strang. *)
Theorem C33_fields_refuted : forall P, fields_enabled (pc P) = true -> fields_solver (pf P) = "fdtd"%string ->
  solver_method_in_p (pc P) = "ASL"%string ->
  solver_method_in_q (pc P) = "FVM"%string \/ solver_method_in_q (pc P) = "ASL"%string ->
  forall h s s' e, run_steps (solver_stepper P) h s = Ok (s', e) ->
  Forall (fun x => fst x <> Jia) h /\ e = None
  /\ ftime (fields s') = ftime (fields s) + counted h /\ time_elapsed s' = time_elapsed s + elapsed h.
Proof. exact field_run. Qed.
Print Assumptions C33_fields_refuted.

Example C33_refuted_applies : exists s s', fields_solver_init hyb_em zeroJ = Ok (fields s)
  /\ step_of (solver_stepper ex_hybrid) Swss (1/10) s = Ok (s', None)
  /\ time_elapsed s' = time_elapsed s + 1/10 /\ ftime (fields s') = ftime (fields s) + 2/10.
Proof.
  destruct ex_hybrid_start as (s&W&_&I&_).
  destruct (hybrid_step_total ex_hybrid ex_hybrid_ok Swss (1/10) s ltac:(discriminate) W) as (s'&H&_).
  exists s, s'. split; [exact I|]. split; [exact H|].
  assert (X : run_steps (solver_stepper ex_hybrid) [(Swss, 1/10)] s = Ok (s', None)) by (cbn [run_steps]; rewrite H; reflexivity).
  destruct (C33_fields_refuted ex_hybrid eq_refl eq_refl eq_refl (or_intror eq_refl) _ _ _ _ X) as (_&_&A&B).
  cbn [counted elapsed count] in A, B. split; lra.
Qed.

(** What holds with fields: the second ordering starts from f and from the field arrays
    of the start, and f and both field arrays end as the means of the two orderings. *)
Theorem C33_swss_average_partial : forall P o1 o2 dt s s', fields_enabled (pc P) = true -> swss (solver_host P) o1 o2 dt s = Ok s' ->
  exists a1 a2 b1 b2, o1 dt s = Ok a1 /\ o2 dt a1 = Ok a2 /\ o2 dt (rewound s a2) = Ok b1 /\ o1 dt b1 = Ok b2
  /\ halfway (f_of b2) (f_of a2) (f_of s')
  /\ halfway (cc_val (fields b2)) (mem (fields b2) (cc (fields a2))) (cc_val (fields s'))
  /\ halfway (yee_val (fields b2)) (mem (fields b2) (yee (fields a2))) (yee_val (fields s'))
  /\ time_elapsed s' = time_elapsed b2 /\ ftime (fields s') = ftime (fields b2).
Proof. exact swss_fields. Qed.
Print Assumptions C33_swss_average_partial.

(** One operator adds dt to the staggered fields, the other doubles them. *)
Example C33_average_applies : forall s,
  let on g : operator solver := fun dt s => Ok (set_fields (bind_yee (dmap (amap (g dt)) (yee_val (fields s))) (fields s)) s) in
  (yee (fields s) < next (fields s))%nat ->
  exists s', swss (solver_host ex_hybrid) (on (fun dt x => x + dt)) (on (fun _ x => x * 2)) 4 s = Ok s'
  /\ el (yee_val (fields s') 0 0)%nat 1 0 2 1 = 2 * el (yee_val (fields s) 0 0)%nat 1 0 2 1 + 6.
Proof.
  intros s on Y. eexists. split; [reflexivity|].
  destruct (C33_swss_average_partial ex_hybrid _ _ 4 s _ eq_refl (eq_refl : swss (solver_host ex_hybrid) (on (fun dt x => x + dt)) (on (fun _ x => x * 2)) 4 s = Ok _))
    as (a1&a2&b1&b2&A1&A2&B1&B2&_&_&H&_).
  rewrite (proj2 (H 0%nat 0%nat)). apply Ok_inj in A1, A2, B1, B2. subst b2 b1 a2 a1. clear H.
  destruct s as [fp [m nx l k l1 l2 a fb ft] te cd]. cbn [fields yee next] in Y.
  cbn -[Nat.eqb Rmult Rplus]. unfold yee_val. cbn -[Nat.eqb Rmult Rplus].
  rewrite ?Nat.eqb_refl. cbn [dmap amap el]. unfold dmap, amap; cbn [el].
  repeat match goal with |- context [Nat.eqb ?u ?v] => first [rewrite (proj2 (Nat.eqb_neq u v)) by lia | rewrite (proj2 (Nat.eqb_eq u v)) by lia] end.
  cbn [el]. lra.
Qed.

(** What holds: without fields, both trial orderings start from the f the step
    began with, for swss and for jia.  [acts H g op]: op always succeeds and maps
    f to [g dt f]. *)
Theorem C33_without_fields_partial : forall S V (H : host S V),
  (forall v s, get_f H (set_f H v s) = v) -> fields_on H = false ->
  forall g1 g2 o1 o2, acts H g1 o1 -> acts H g2 o2 ->
  acts H (swss_f H g1 g2) (swss H o1 o2) /\ acts H (jia_f H g1 g2) (jia H o1 o2).
Proof. exact trial_orderings. Qed.
Print Assumptions C33_without_fields_partial.

Example C33_applies : let H := solver_host ex_coupled in
  let g1 dt (f : dist R) := dmap (amap (fun x => x + dt)) f in
  let g2 dt (f : dist R) := dmap (amap (fun x => x * (1 + dt))) f in
  let op g : operator solver := fun dt s => Ok (set_f_of (g dt (f_of s)) s) in
  acts H (swss_f H g1 g2) (swss H (op g1) (op g2)) /\ acts H (jia_f H g1 g2) (jia H (op g1) (op g2)).
Proof.
  cbv zeta. apply C33_without_fields_partial; try reflexivity; intros dt s; eexists; split; reflexivity.
Qed.

(** C41.  With FVM in momentum space every history succeeds and refines the
    relation [vlasov_poisson]: in each step the field of either evaluation solves
    the Poisson equation for the charge density of the state it acts on. *)
Theorem C41_fvm_partial : forall P k1 k2,
  wf_cfg (pc P) k1 k2 -> periodic_fvm (pc P) k1 -> plasma P ->
  fields_type P = "electrostatic"%string -> electrostatic_ok (pf P) ->
  forall bg h s u, holds (pc P) (f_of s) u -> wf_em (pf P) (fields s) ->
  (forall n i j, (2 <= n < 6)%Z -> inb (gN1 (lay (pc P))) i -> inb (gN2 (lay (pc P))) j ->
     gval (lay (pc P)) (cc_val (fields s)) n 0 i j = bg n i j) ->
  exists s' v, run_steps (solver_stepper P) h s = Ok (s', None)
    /\ vlasov_poisson P k1 k2 bg (time_elapsed s) h u v
    /\ holds (pc P) (f_of s') v /\ wf_em (pf P) (fields s') /\ time_elapsed s' = time_elapsed s + elapsed h.
Proof. exact vlasov_poisson_run. Qed.
Print Assumptions C41_fvm_partial.

Example C41_applies : exists e bg s' v, fields_solver_init (es_em "FVM") zeroJ = Ok e
  /\ run_steps (solver_stepper ex_poisson) [(Lie, 1/10); (Strang, 1/20)] (Solver (ex_state lay43) e 0 0) = Ok (s', None)
  /\ vlasov_poisson ex_poisson MC PPM bg 0 [(Lie, 1/10); (Strang, 1/20)] (gval lay43 (sf (ex_state lay43))) v
  /\ holds (pc ex_poisson) (f_of s') v.
Proof.
  destruct (es_start "FVM" zeroJ) as (e&H&W). destruct ex_poisson_ok as (A&B&C).
  set (bg := fun n i j => gval lay43 (cc_val e) n 0 i j).
  destruct (C41_fvm_partial ex_poisson MC PPM A B C eq_refl (es_em_ok "FVM") bg [(Lie, 1/10); (Strang, 1/20)]
     (Solver (ex_state lay43) e 0 0) (gval lay43 (sf (ex_state lay43)))) as (s'&v&R1&R2&R3&_).
  - split; [intros r1 r2 _; repeat split|]. intros; reflexivity.
  - exact W.
  - intros; reflexivity.
  - exists e, bg, s', v. auto.
Qed.

(** False for semi-Lagrangian momentum advection: the field is never recomputed.
    A run that starts with a field E1 = e <> 0 everywhere keeps it, although no
    charge density at all has such a field. *)
Theorem C41_refuted : forall P, asl_fft P -> forall h s e, Forall (fun x => fst x = Lie \/ fst x = Strang) h ->
  (0 < gN1 (flay (pf P)))%Z -> (0 < gN2 (flay (pf P)))%Z -> e <> 0 ->
  (forall i j, inb (gN1 (flay (pf P))) i -> inb (gN2 (flay (pf P))) j -> gval (flay (pf P)) (cc_val (fields s)) 0 0 i j = e) ->
  exists s', run_steps (solver_stepper P) h s = Ok (s', None)
  /\ let F := fst (get_fields (pf P) (fields s')) in
     forall rho, ~ poisson_field (gN1 (flay (pf P))) (gN2 (flay (pf P))) (fdq1 (pf P)) (fdq2 (pf P)) (eps (pf P)) rho
         (gval (flay (pf P)) F 0 0) (gval (flay (pf P)) F 1 0).
Proof. exact stale_wrong. Qed.
Print Assumptions C41_refuted.

Definition uniform_em : em :=
  Em (fun _ r1 r2 => Arr 6 1 (n1g lay43 r1) (n2g lay43 r2) (fun k _ _ _ => if (k =? 0)%Z then 1 else 0)) 4 0 1 2 3 true
     (fun _ _ _ => 0) 0.
Example C41_refuted_applies : exists s',
  run_steps (solver_stepper ex_stale) [(Lie, 1/10); (Strang, 1/10)] (Solver (one_species lay43) uniform_em 0 0) = Ok (s', None)
  /\ let F := fst (get_fields (pf ex_stale) (fields s')) in
     forall rho, ~ poisson_field 4 4 (1/4) (1/4) 1 rho (gval lay43 F 0 0) (gval lay43 F 1 0).
Proof.
  apply (C41_refuted ex_stale ex_stale_ok [(Lie, 1/10); (Strang, 1/10)] (Solver (one_species lay43) uniform_em 0 0) 1).
  - apply Forall_cons; [left; reflexivity|]. apply Forall_cons; [right; reflexivity|]. constructor.
  - reflexivity.
  - reflexivity.
  - lra.
  - intros; reflexivity.
Qed.

(** C60.  The source sub-step at every global cell: [w] is f at the cell, [Src]
    the source at the cell's centre and the current time. *)
Theorem C60_source_step : forall P dt s, let L := lay (pc P) in
  tiles (gN1 L) (blk1 L) -> tiles (gN2 L) (blk2 L) -> (0 <= ng1 L)%Z -> (0 <= ng2 L)%Z ->
  exists s', op_solve_src P dt s = Ok s'
  /\ fields s' = fields s /\ time_elapsed s' = time_elapsed s
  /\ forall x sp i j, inb (gN1 L) i -> inb (gN2 L) j ->
     let t := time_elapsed s in
     let w y r := gval L (f_of s) y r i j in
     let Src v := source (pc P) t (pos1 (pc P) (1/2) i) (pos2 (pc P) (1/2) j) v in
     gval L (f_of s') x sp i j =
       if instantaneous P then source_inst P t (pos1 (pc P) (1/2) i) (pos2 (pc P) (1/2) j) w x sp
       else if source_enabled (pc P) then w x sp + Src (fun y r => w y r + Src w y r * (dt / 2)) x sp * dt
       else w x sp.
Proof. exact source_step. Qed.
Print Assumptions C60_source_step.

Example C60_applies : exists s', op_solve_src ex_hybrid (1/10) (Solver (one_species ex_lay) (fresh hyb_em) 0 0) = Ok s'
  /\ gval ex_lay (f_of s') 0 0 0 0 <> gval ex_lay (sf (one_species ex_lay)) 0 0 0 0.
Proof.
  destruct (C60_source_step ex_hybrid (1/10) (Solver (one_species ex_lay) (fresh hyb_em) 0 0)) as (s'&H&_&_&G).
  - split; [reflexivity|split; [repeat constructor|reflexivity]].
  - split; [reflexivity|split; [repeat constructor|reflexivity]].
  - discriminate.
  - discriminate.
  - exists s'. split; [exact H|]. specialize (G 0%Z 0%Z 0%Z 0%Z ltac:(unfold inb; cbn; lia) ltac:(unfold inb; cbn; lia)).
    change (lay (pc ex_hybrid)) with ex_lay in G. rewrite G. clear G.
    assert (Z4 : forall g : Z -> R, zsum 4 g = g 0%Z + g 1%Z + g 2%Z + g 3%Z).
    { intros g. unfold zsum. change (Z.to_nat 4) with 4%nat. cbn [nsum Z.of_nat Pos.of_succ_nat Pos.succ]. ring. }
    change (instantaneous ex_hybrid) with false. change (source_enabled (pc ex_hybrid)) with true.
    cbn [source ex_hybrid pc asl_cfg]. rewrite !Z4. unfold one_species, gval; cbn. lra.
Qed.

(** C69.  Self-consistent electromagnetic fields and any mixture of the four
    methods: the total of every species is conserved. *)
Theorem C69_coupled_conservation : forall P,
  solver_method_in_q (pc P) = "FVM"%string -> solver_method_in_p (pc P) = "FVM"%string \/ fields_enabled (pc P) = false ->
  forall k1 k2 h s s' e, wf_cfg (pc P) k1 k2 -> periodic_fvm (pc P) k1 ->
  velocity_periodic (pc P) -> source_conserves (pc P) ->
  shaped (lay (pc P)) (N_p (pc P)) (N_species (pc P)) (f_of s) ->
  run_steps (solver_stepper P) h s = Ok (s', e) ->
  shaped (lay (pc P)) (N_p (pc P)) (N_species (pc P)) (f_of s')
  /\ forall sp, inb (N_species (pc P)) sp ->
     zsum (N_p (pc P)) (fun x => gtotal (lay (pc P)) (f_of s') x sp)
     = zsum (N_p (pc P)) (fun x => gtotal (lay (pc P)) (f_of s) x sp).
Proof. exact coupled_mass. Qed.
Print Assumptions C69_coupled_conservation.

Example C69_applies : exists e s', fields_solver_init (es_em "FVM") zeroJ = Ok e
  /\ run_steps (solver_stepper ex_poisson) [(Swss, 1/10); (Jia, 1/20)] (Solver (ex_state lay43) e 0 0) = Ok (s', None)
  /\ forall sp, inb 2 sp -> zsum 4 (fun x => gtotal lay43 (f_of s') x sp) = zsum 4 (fun x => gtotal lay43 (sf (ex_state lay43)) x sp).
Proof.
  destruct (es_start "FVM" zeroJ) as (e&H&W). destruct ex_poisson_ok as (A&B&C).
  set (bg := fun n i j => gval lay43 (cc_val e) n 0 i j).
  destruct (C41_fvm_partial ex_poisson MC PPM A B C eq_refl (es_em_ok "FVM") bg [(Swss, 1/10); (Jia, 1/20)]
     (Solver (ex_state lay43) e 0 0) (gval lay43 (sf (ex_state lay43)))) as (s'&v&R1&R2&R3&_).
  - split; [intros r1 r2 _; repeat split|]. intros; reflexivity.
  - exact W.
  - intros; reflexivity.
  - exists e, s'. split; [exact H|]. split; [exact R1|].
    refine (proj2 (C69_coupled_conservation ex_poisson eq_refl (or_introl eq_refl) MC PPM _ _ _ _ A B _ _ _ R1)).
    + apply (ex_vel "minmod" true).
    + apply (ex_source "minmod" true).
    + intros r1 r2 _; repeat split.
Qed.

(** C70.  Hybrid runs with lie, strang and swss steps never raise. *)
Theorem C70_hybrid_total : forall P, hybrid_asl P -> forall h s, Forall (fun x => fst x <> Jia) h ->
  wf_em (pf P) (fields s) ->
  exists s', run_steps (solver_stepper P) h s = Ok (s', None) /\ wf_em (pf P) (fields s').
Proof. exact hybrid_run_total. Qed.
Print Assumptions C70_hybrid_total.

Example C70_applies : exists s s', fields_solver_init hyb_em zeroJ = Ok (fields s)
  /\ run_steps (solver_stepper ex_hybrid) [(Lie, 1/10); (Swss, 1/10); (Strang, 1/5)] s = Ok (s', None).
Proof.
  destruct ex_hybrid_start as (s&W&_&I&_).
  destruct (C70_hybrid_total ex_hybrid ex_hybrid_ok [(Lie, 1/10); (Swss, 1/10); (Strang, 1/5)] s) as (s'&H&_); auto.
  { repeat constructor; discriminate. }
  exists s, s'. auto.
Qed.
