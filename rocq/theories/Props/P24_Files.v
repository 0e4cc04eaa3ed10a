(** C24-C27, C67, C68: dumps, loads and restarts of the non-linear solver. *)
From Coq Require Import ZArith Reals Lra Lia String List Bool Sorted.
From Verif Require Import Base.Prelude Base.ZSum Model.Af Model.Petsc Model.Config Model.Fvm Model.Em
  Model.Moments Model.FileIO Spec.Domain Spec.Lattice Spec.FvmProblem Spec.FvmRun Spec.Yee Spec.EmRun Spec.MomentSpec Spec.Files
  Proofs.EmLemmas Proofs.EmGrids Proofs.EmInit Proofs.EmVector Proofs.MomentLemmas Proofs.EmWitness Proofs.EmProps
  Proofs.FileLemmas Proofs.FileMore Proofs.Electrostatic Proofs.FileWitness Proofs.FileProps Props.ExFvm Props.ExEm.
Import ListNotations.
Local Open Scope R_scope.

(** C24.  [gval L F x sp g1 g2] is the value at global cell (g1, g2).  A load by a
    run with any other process grid [L'] and any previous state [old] restores
    every cell. *)
Theorem C24_round_trip : forall c L' s old, layout_ok (lay c) -> layout_ok L' -> same_grid (lay c) L' ->
  shaped (lay c) (N_p c) (N_species c) (sf s) ->
  exists r, load_distribution_function (with_layout c L') (dump_distribution_function c s) old = Ok r
  /\ shaped L' (N_p c) (N_species c) (sf r)
  /\ forall x sp g1 g2, inb (N_p c) x -> inb (N_species c) sp -> inb (gN1 L') g1 -> inb (gN2 L') g2 ->
     gval L' (sf r) x sp g1 g2 = gval (lay c) (sf s) x sp g1 g2.
Proof. exact dump_load. Qed.
Print Assumptions C24_round_trip.

(** The file itself does not depend on the process grid: momentum fastest, then
    species, then q1, then q2. *)
Theorem C24_file_contents : forall c s x sp g1 g2,
  layout_ok (lay c) -> shaped (lay c) (N_p c) (N_species c) (sf s) ->
  inb (N_p c) x -> inb (N_species c) sp -> inb (gN1 (lay c)) g1 -> inb (gN2 (lay c)) g2 ->
  component (dump_distribution_function c s) (gN1 (lay c)) (N_p c * N_species c) (x + N_p c * sp) g1 g2
  = gval (lay c) (sf s) x sp g1 g2.
Proof. exact dump_cells. Qed.
Print Assumptions C24_file_contents.

Theorem C24_ghosts_filled : forall c F old r, periodic_layout (lay c) ->
  load_distribution_function c F old = Ok r -> ghosts_filled c (sf r).
Proof. exact load_ghosts. Qed.
Print Assumptions C24_ghosts_filled.

Theorem C24_wrong_size : forall c F old,
  (flen F <> N_p c * N_species c * gN1 (lay c) * gN2 (lay c))%Z ->
  load_distribution_function c F old = Err PetscError.
Proof. exact load_wrong_size. Qed.
Print Assumptions C24_wrong_size.

(** A run stopped after [l1] and continued by [l2] (as [l2'] on another process
    grid, with the same times, steps and fields) ends with the values of the run
    that was not stopped. *)
Theorem C24_restart : forall c L' k1 k2 (l1 l2 l2' : list (call * fields3 * fields3)) s old,
  wf_cfg c k1 k2 -> periodic_fvm c k1 -> periodic_fvm (with_layout c L') k1 -> same_grid (lay c) L' ->
  (forall k E0 Eh, In (k, E0, Eh) (l1 ++ l2) -> shows3 (lay c) (cE0 k) E0 /\ shows3 (lay c) (cEh k) Eh) ->
  (forall k E0 Eh, In (k, E0, Eh) l2' -> shows3 L' (cE0 k) E0 /\ shows3 L' (cEh k) Eh) ->
  Forall2 (fun a b => ct (fst (fst a)) = ct (fst (fst b)) /\ cdt (fst (fst a)) = cdt (fst (fst b))
                      /\ snd (fst a) = snd (fst b) /\ snd a = snd b) l2 l2' ->
  shaped (lay c) (N_p c) (N_species c) (sf s) ->
  exists s1 s2 r r2, run_fvm c (map (fun x => fst (fst x)) l1) s = Ok s1
  /\ run_fvm c (map (fun x => fst (fst x)) (l1 ++ l2)) s = Ok s2
  /\ load_distribution_function (with_layout c L') (dump_distribution_function c s1) old = Ok r
  /\ run_fvm (with_layout c L') (map (fun x => fst (fst x)) l2') r = Ok r2
  /\ forall x sp g1 g2, inb (N_p c) x -> inb (N_species c) sp -> inb (gN1 (lay c)) g1 -> inb (gN2 (lay c)) g2 ->
     gval L' (sf r2) x sp g1 g2 = gval (lay c) (sf s2) x sp g1 g2.
Proof. exact restart. Qed.
Print Assumptions C24_restart.

(** From 2 x 2 ranks to one. *)
Lemma ex_lay_ok : layout_ok ex_lay.
Proof. unfold layout_ok, axis_ok, tiles; cbn. repeat split; try lia; repeat constructor; lia. Qed.
Lemma ex_serial_ok : layout_ok ex_serial.
Proof. unfold layout_ok, axis_ok, tiles; cbn. repeat split; try lia; repeat constructor; lia. Qed.
Example C24_applies : forall old, exists r,
  load_distribution_function (with_layout (ex_cfg "ppm" true) ex_serial)
    (dump_distribution_function (ex_cfg "ppm" true) (ex_state ex_lay)) old = Ok r
  /\ gval ex_serial (sf r) 3 1 2 1 = 25.
Proof.
  intros old. destruct (C24_round_trip (ex_cfg "ppm" true) ex_serial (ex_state ex_lay) old ex_lay_ok ex_serial_ok)
    as (r&H&_&V); [split; reflexivity|apply ex_shaped|].
  exists r. split; [exact H|]. rewrite V by (unfold inb; cbn; lia). cbn. reflexivity.
Qed.
Definition zeros (L : layout) (r1 r2 : nat) : arr R := Arr 6 1 (n1g L r1) (n2g L r2) (fun _ _ _ _ => 0).
Definition no_E (L : layout) : fieldseq := fun r1 r2 => (zeros L r1 r2, zeros L r1 r2, zeros L r1 r2).
Definition no_call (L : layout) (t dt : R) : call := Call t dt (no_E L) (no_E L).
Example C24_restart_applies : forall old, exists s1 s2 r r2,
  let c := ex_cfg "ppm" true in let c' := with_layout c ex_serial in
  let k := no_call ex_lay in
  run_fvm c [k 0 (1/10); k (1/10) (1/5)] (ex_state ex_lay) = Ok s1
  /\ run_fvm c [k 0 (1/10); k (1/10) (1/5); k (3/10) 1] (ex_state ex_lay) = Ok s2
  /\ load_distribution_function c' (dump_distribution_function c s1) old = Ok r
  /\ run_fvm c' [no_call ex_serial (3/10) 1] r = Ok r2
  /\ gval ex_serial (sf r2) 3 1 2 1 = gval ex_lay (sf s2) 3 1 2 1.
Proof.
  intros old.
  set (E := (((fun _ _ _ => 0), (fun _ _ _ => 0)), (fun _ _ _ => 0)) : fields3).
  assert (Z : forall L, shows3 L (no_E L) E) by (intros; repeat split; repeat intro; reflexivity).
  destruct (C24_restart (ex_cfg "ppm" true) ex_serial PPM PPM
    [(no_call ex_lay 0 (1/10), E, E); (no_call ex_lay (1/10) (1/5), E, E)] [(no_call ex_lay (3/10) 1, E, E)]
    [(no_call ex_serial (3/10) 1, E, E)] (ex_state ex_lay) old (ex_wf "ppm" _ PPM eq_refl) (ex_periodic _ _ _) (ex_periodic_serial _ _ _))
    as (s1&s2&r&r2&A&B&C&D&V).
  - split; reflexivity.
  - intros k E0 Eh H. repeat (destruct H as [H|H]; [injection H as <- <- <-; split; apply Z|]). destruct H.
  - intros k E0 Eh H. repeat (destruct H as [H|H]; [injection H as <- <- <-; split; apply Z|]). destruct H.
  - repeat constructor.
  - apply ex_shaped.
  - exists s1, s2, r, r2. cbv zeta. repeat (split; [assumption|]). apply V; unfold inb; cbn; lia.
Qed.

(** C25.  Any two process grids [flay c], [flay c'] of the same domain; [s'] is any
    state of the run that loads.  The staggered fields are restored. *)
Theorem C25_round_trip : forall c c' s s', layout_ok (flay c) -> layout_ok (flay c') -> same_grid (flay c) (flay c') ->
  shaped (flay c) 6 1 (yee_val s) -> EmStep.wf_em c' s' ->
  exists r, load_EM_fields c' (dump_EM_fields c s) s' = Ok r
  /\ shaped (flay c') 6 1 (yee_val r)
  /\ forall k i j, inb 6 k -> inb (gN1 (flay c)) i -> inb (gN2 (flay c)) j ->
     gval (flay c') (yee_val r) k 0 i j = gval (flay c) (yee_val s) k 0 i j.
Proof. exact em_dump_load. Qed.
Print Assumptions C25_round_trip.

(** On a periodic domain: [view] is the staggered lattice, periodically extended;
    [centred] averages it to cell centres.  After any history of either run the
    fields the restarted run gets are the averages of the dumped ones. *)
Theorem C25_restart_sees_dumped_fields : forall c c' rho rho' hist hist' s0 s s0' s',
  regular c -> regular c' -> same_grid (flay c) (flay c') ->
  fields_solver_init c rho = Ok s0 -> do_events c hist s0 = Ok s ->
  fields_solver_init c' rho' = Ok s0' -> do_events c' hist' s0' = Ok s' ->
  exists r, load_EM_fields c' (dump_EM_fields c s) s' = Ok r /\ good c' r
  /\ same (view (flay c') (yee_val r)) (view (flay c) (yee_val s))
  /\ same (view (flay c') (fst (get_fields c' r))) (centred (view (flay c) (yee_val s))).
Proof. exact em_restart. Qed.
Print Assumptions C25_restart_sees_dumped_fields.

(** ... and it goes on from them as the Yee scheme does. *)
Theorem C25_restarted_run : forall c c' rho rho' hist hist' hist2 s0 s s0' s' r r',
  regular c -> regular c' -> same_grid (flay c) (flay c') -> hybrid c' = false ->
  fields_solver_init c rho = Ok s0 -> do_events c hist s0 = Ok s ->
  fields_solver_init c' rho' = Ok s0' -> do_events c' hist' s0' = Ok s' ->
  load_EM_fields c' (dump_EM_fields c s) s' = Ok r -> do_events c' hist2 r = Ok r' ->
  same (view (flay c') (yee_val r'))
       (yee_run (fdq1 c') (fdq2 c') (eps c') (mu c') (currents_of (flay c') hist2) (view (flay c) (yee_val s))).
Proof. exact em_restart_run. Qed.
Print Assumptions C25_restarted_run.

(** The same problem on one rank. *)
Definition ex_em_serial : fcfg :=
  FCfg ex_serial 3 0 0 1 (1/2) 2 1 (fun _ => "periodic"%string) (fun _ _ _ _ _ a => a)
    "fdtd" "user-defined" "FVM" false
    (Some (fun x y => (x, x * y, y))) None None None (Some (fun x y => (wave x y, 1))).
Lemma ex_em_serial_regular : regular ex_em_serial.
Proof.
  unfold regular, periodic_fields, periodic_layout, tiles; cbn.
  repeat split; try lia; try lra; repeat constructor; try lia.
Qed.
Example C25_applies : exists s0 s s0' r r', fields_solver_init ex_em zeroJ = Ok s0
  /\ do_events ex_em ex_hist s0 = Ok s /\ fields_solver_init ex_em_serial zeroJ = Ok s0'
  /\ load_EM_fields ex_em_serial (dump_EM_fields ex_em s) s0' = Ok r
  /\ do_events ex_em_serial [GetFields; Evolve zeroJ zeroJ zeroJ (1/10)] r = Ok r'
  /\ same (view ex_serial (yee_val r'))
       (yee_run 1 (1/2) 2 1 (currents_of ex_serial [GetFields; Evolve zeroJ zeroJ zeroJ (1/10)]) (view ex_lay (yee_val s))).
Proof.
  destruct (ex_em_run ex_hist zeroJ) as (s0&s&H0&H).
  destruct (init_total ex_em_serial zeroJ) as (_&s0'&_&H0'); [reflexivity|left; discriminate|right; split; [reflexivity|right; discriminate]|].
  destruct (C25_restart_sees_dumped_fields ex_em ex_em_serial zeroJ zeroJ ex_hist [] s0 s s0' s0'
    ex_em_regular ex_em_serial_regular (conj eq_refl eq_refl) H0 H H0' eq_refl) as (r&HR&_).
  destruct (events_total ex_em_serial [GetFields; Evolve zeroJ zeroJ zeroJ (1/10)] r ex_em_serial_regular eq_refl) as (r'&HR').
  exists s0, s, s0', r, r'. repeat (split; [assumption|]).
  exact (C25_restarted_run ex_em ex_em_serial zeroJ zeroJ ex_hist [] _ s0 s s0' s0' r r'
    ex_em_regular ex_em_serial_regular (conj eq_refl eq_refl) eq_refl H0 H H0' eq_refl HR HR').
Qed.

(** C26.  [names] is what dir() lists for the moments module.  The moments written
    are its public names except the utility, each once, in increasing order; ... *)
Theorem C26_alphabetical : forall names, NoDup names ->
  StronglySorted (fun a b => String.leb a b = true) (attributes names) /\ NoDup (attributes names)
  /\ forall a, In a (attributes names) <-> public names a.
Proof. exact attributes_spec. Qed.
Print Assumptions C26_alphabetical.

(** ... species [sp] of the k-th of them is component k * N_species + sp, for any
    moments module all of whose moments can be computed. *)
Theorem C26_components : forall c names T mu s, layout_ok (lay c) -> (0 < N_species c)%Z -> attributes names <> [] ->
  (forall a r1 r2, In a (attributes names) -> rank_ok (lay c) r1 r2 ->
     exists M, compute_moments c T mu a (sf s r1 r2) = Ok M
     /\ dims4 M 1 (N_species c) (n1g (lay c) r1) (n2g (lay c) r2)) ->
  let n := Z.of_nat (List.length (attributes names)) in
  exists F, dump_moments c names T mu s = Ok F
  /\ flen F = (N_species c * n * gN1 (lay c) * gN2 (lay c))%Z
  /\ forall k a V, nth_error (attributes names) k = Some a ->
     (forall r1 r2, rank_ok (lay c) r1 r2 -> compute_moments c T mu a (sf s r1 r2) = Ok (V r1 r2)) ->
     forall sp g1 g2, inb (N_species c) sp -> inb (gN1 (lay c)) g1 -> inb (gN2 (lay c)) g2 ->
     component F (gN1 (lay c)) (N_species c * n) (Z.of_nat k * N_species c + sp) g1 g2
     = gval (lay c) V 0 sp g1 g2.
Proof. exact dump_moments_spec. Qed.
Print Assumptions C26_components.

(** For the shipped non-relativistic moments these are the integrals of f. *)
Theorem C26_integrals : forall c names mu s, layout_ok (lay c) -> momentum_grid_ok c ->
  p_space_grid c = "cartesian"%string -> NoDup names -> attributes names <> [] ->
  (forall a, public names a -> exists w, forall x y z, moment_weight a x y z = Some (w x y z)) ->
  shaped (lay c) (N_p c) (N_species c) (sf s) ->
  let n := Z.of_nat (List.length (attributes names)) in
  exists F, dump_moments c names nonrel_moments mu s = Ok F
  /\ flen F = (N_species c * n * gN1 (lay c) * gN2 (lay c))%Z
  /\ forall k a w, nth_error (attributes names) k = Some a ->
     (forall x y z, moment_weight a x y z = Some (w x y z)) ->
     forall sp g1 g2, inb (N_species c) sp -> inb (gN1 (lay c)) g1 -> inb (gN2 (lay c)) g2 ->
     component F (gN1 (lay c)) (N_species c * n) (Z.of_nat k * N_species c + sp) g1 g2
     = integral (species_grid c sp) w (fun i1 i2 i3 => gval (lay c) (sf s) (row c i1 i2 i3) sp g1 g2).
Proof. exact nonrel_dump. Qed.
Print Assumptions C26_integrals.

(** dir() of /repo/bolt/src/nonrelativistic_boltzmann/moments.py, in another order. *)
Definition ex_names : list string :=
  ["integral_over_v"; "density"; "mom_v1_bulk"; "mom_v2_bulk"; "mom_v3_bulk"; "energy"; "q_q1"; "q_q2"; "q_q3";
   "energy_q1"; "energy_q2"; "energy_q3"; "__name__"; "__builtins__"; "__doc__"]%string.
Example C26_names : attributes ex_names =
  ["density"; "energy"; "energy_q1"; "energy_q2"; "energy_q3"; "mom_v1_bulk"; "mom_v2_bulk"; "mom_v3_bulk";
   "q_q1"; "q_q2"; "q_q3"]%string.
Proof. reflexivity. Qed.
Lemma ex_names_nodup : NoDup ex_names.
Proof. repeat constructor; cbn; intuition discriminate. Qed.
Example C26_applies : exists F, dump_moments (ex_cfg "ppm" true) ex_names nonrel_moments 0 (ex_state ex_lay) = Ok F
  /\ component F 4 22 11 2 1 =
     integral (species_grid (ex_cfg "ppm" true) 1) (fun x _ _ => x)
       (fun i1 i2 i3 => gval ex_lay (sf (ex_state ex_lay)) (row (ex_cfg "ppm" true) i1 i2 i3) 1 2 1).
Proof.
  destruct (C26_integrals (ex_cfg "ppm" true) ex_names 0 (ex_state ex_lay)) as (F&H&_&V); auto.
  - apply ex_lay_ok.
  - unfold momentum_grid_ok; cbn; repeat split; lia.
  - apply ex_names_nodup.
  - discriminate.
  - intros a Ha. apply (proj2 (proj2 (C26_alphabetical ex_names ex_names_nodup))) in Ha. rewrite C26_names in Ha.
    repeat (destruct Ha as [<-|Ha]; [eexists; intros; reflexivity|]). destruct Ha.
  - apply ex_shaped.
  - exists F. split; [exact H|]. 
    apply (V 5%nat "mom_v1_bulk"%string (fun x _ _ => x) eq_refl (fun _ _ _ => eq_refl) 1%Z 2%Z 1%Z); unfold inb; cbn; lia.
Qed.

(** C27.  [da] is None on the first call of a run and the component count of the
    first call afterwards.  Missing: the calls that fail, below. *)
Theorem C27_aux_arrays_partial : forall L n arrays da, layout_ok L -> (0 < n)%Z -> ng1 L = n -> ng2 L = n -> arrays <> [] ->
  da = None \/ da = Some (Z.of_nat (List.length arrays)) ->
  (forall F, In F arrays -> shaped L 1 1 F) ->
  exists F, dump_aux_arrays L n arrays da = Ok (F, Some (Z.of_nat (List.length arrays)))
  /\ flen F = (Z.of_nat (List.length arrays) * gN1 L * gN2 L)%Z
  /\ forall k A, nth_error arrays k = Some A -> forall g1 g2, inb (gN1 L) g1 -> inb (gN2 L) g2 ->
     component F (gN1 L) (Z.of_nat (List.length arrays)) (Z.of_nat k) g1 g2 = gval L A 0 0 g1 g2.
Proof. exact aux_ok. Qed.
Print Assumptions C27_aux_arrays_partial.

(** After a first call no call with another number of components succeeds, and
    arrays of [m] > 1 species do not succeed on any call. *)
Theorem C27_other_calls_fail : forall L n m arrays dof, layout_ok L -> (0 < n)%Z -> ng1 L = n -> ng2 L = n -> arrays <> [] ->
  (forall F, In F arrays -> shaped L 1 m F) ->
  (Z.of_nat (List.length arrays) * m <> dof)%Z ->
  forall r, dump_aux_arrays L n arrays (Some dof) <> Ok r.
Proof. exact aux_bad. Qed.
Print Assumptions C27_other_calls_fail.

Definition ex_aux (a : R) : dist R := fun r1 r2 => Arr 1 1 (n1g ex_lay r1) (n2g ex_lay r2)
  (fun _ _ i j => a + IZR (off (blk1 ex_lay) r1 + i)).
Theorem C27_refuted :
  (exists F d r, dump_aux_arrays ex_lay 3 [ex_aux 1] None = Ok (F, d)
     /\ (forall x, dump_aux_arrays ex_lay 3 [ex_aux 1; ex_aux 2] d <> Ok x)
     /\ dump_aux_arrays ex_lay 3 [ex_aux 1; ex_aux 2] None = Ok r).
Proof.
  destruct (C27_aux_arrays_partial ex_lay 3 [ex_aux 1] None ex_lay_ok) as (F&H&_); try reflexivity; try discriminate; auto.
  { intros A [<-|[]] r1 r2 _. repeat split. }
  destruct (C27_aux_arrays_partial ex_lay 3 [ex_aux 1; ex_aux 2] None ex_lay_ok) as (F2&H2&_); try reflexivity; try discriminate; auto.
  { intros A [<-|[<-|[]]] r1 r2 _; repeat split. }
  exists F, (Some 1%Z), (F2, Some 2%Z). split; [exact H|]. split; [|exact H2].
  apply (C27_other_calls_fail ex_lay 3 1); try reflexivity; try discriminate; auto; [apply ex_lay_ok|].
  intros A [<-|[<-|[]]] r1 r2 _; repeat split.
Qed.
Print Assumptions C27_refuted.

(** C67.  In an electrostatic run the field dump is that of the initial fields,
    whatever the run has done since; ... *)
Theorem C67_dump_keeps_initial_fields : forall c l rho s0 s, regular c ->
  fields_solver_init c rho = Ok s0 -> electrostatic_run c l s0 = Ok s ->
  dump_EM_fields c s = dump_EM_fields c s0.
Proof. exact stale_dump. Qed.
Print Assumptions C67_dump_keeps_initial_fields.

(** ... so it does not hold the fields in use: with a user-defined uniform field e
    the file holds e in every cell, the field in use does not. *)
Theorem C67_refuted : forall c e l rho0 rho s0, electrostatic_ok c -> uniform_E c e -> e <> 0 ->
  fields_solver_init c rho0 = Ok s0 ->
  (forall r, In r (l ++ [rho]) -> shaped (flay c) 1 1 (dmap asum1 r)) ->
  exists s, electrostatic_run c (l ++ [rho]) s0 = Ok s
  /\ (forall i j, inb (gN1 (flay c)) i -> inb (gN2 (flay c)) j ->
        component (dump_EM_fields c s) (gN1 (flay c)) 6 0 i j = e)
  /\ exists i j, inb (gN1 (flay c)) i /\ inb (gN2 (flay c)) j
     /\ gval (flay c) (fst (get_fields c s)) 0 0 i j <> e.
Proof. exact stale_differs. Qed.
Print Assumptions C67_refuted.

Definition em_es : fcfg :=
  FCfg lay4 2 0 0 (1/4) (1/4) 1 1 (fun _ => "periodic"%string) (fun _ _ _ _ _ a => a)
    "fft" "user-defined" "FVM" false (Some (fun _ _ => (1, 0, 0))) None None None (Some (fun _ _ => (0, 0))).
Definition es_rho (a : R) : dist R := fun r1 r2 => Arr 1 2 (n1g lay4 r1) (n2g lay4 r2) (fun _ s i j => a * IZR (s + i * j)).
Lemma em_es_ok : electrostatic_ok em_es /\ uniform_E em_es 1.
Proof.
  split.
  - unfold electrostatic_ok, regular, periodic_fields, periodic_layout, tiles; cbn.
    repeat split; try lia; try lra; repeat constructor; try lia.
  - exists (fun _ _ => (1, 0, 0)). repeat split.
Qed.
Example C67_applies : exists s0 s, fields_solver_init em_es (es_rho 1) = Ok s0
  /\ electrostatic_run em_es [es_rho 2; es_rho 3] s0 = Ok s
  /\ component (dump_EM_fields em_es s) 4 6 0 3 2 = 1
  /\ exists i j, inb 4 i /\ inb 4 j /\ gval lay4 (fst (get_fields em_es s)) 0 0 i j <> 1.
Proof.
  destruct (init_total em_es (es_rho 1)) as (_&s0&_&H0); [reflexivity|left; discriminate|right; split; [reflexivity|right; discriminate]|].
  destruct (C67_refuted em_es 1 [es_rho 2] (es_rho 1) (es_rho 3) s0 (proj1 em_es_ok) (proj2 em_es_ok) ltac:(lra) H0) as (s&H&D&N).
  { intros r [<-|[<-|[]]] r1 r2 _; repeat split. }
  exists s0, s. split; [exact H0|]. split; [exact H|]. split; [apply D; unfold inb; cbn; lia|exact N].
Qed.

(** C68.  The grid of a dump is not checked, only its size: a dump of an N1 x N2
    grid loads without an error on an N2 x N1 grid, with the cells taken in the
    order of the file. *)
Theorem C68_transposed_grid : forall c c' s old, layout_ok (lay c) -> layout_ok (lay c') ->
  N_p c' = N_p c -> N_species c' = N_species c -> gN1 (lay c') = gN2 (lay c) -> gN2 (lay c') = gN1 (lay c) ->
  shaped (lay c) (N_p c) (N_species c) (sf s) ->
  exists r, load_distribution_function c' (dump_distribution_function c s) old = Ok r
  /\ forall x sp g1 g2, inb (N_p c) x -> inb (N_species c) sp -> inb (gN1 (lay c')) g1 -> inb (gN2 (lay c')) g2 ->
     let n := (g1 + gN2 (lay c) * g2)%Z in
     gval (lay c') (sf r) x sp g1 g2 = gval (lay c) (sf s) x sp (n mod gN1 (lay c)) (n / gN1 (lay c)).
Proof. exact transposed_load. Qed.
Print Assumptions C68_transposed_grid.

Theorem C68_accepted_sizes : forall c F old, layout_ok (lay c) ->
  (exists r, load_distribution_function c F old = Ok r)
  <-> flen F = (N_p c * N_species c * gN1 (lay c) * gN2 (lay c))%Z.
Proof. exact load_iff. Qed.
Print Assumptions C68_accepted_sizes.

(** The 4 x 3 state read on a 3 x 4 grid: cell (1, 2) is neither cell (1, 2) nor
    cell (2, 1) of the dump. *)
Definition ex_lay34 : layout := Layout 3 4 [3]%Z [4]%Z 3 3 PPeriodic PPeriodic.
Theorem C68_refuted : forall old, exists r,
  load_distribution_function (with_layout (ex_cfg "ppm" true) ex_lay34)
    (dump_distribution_function (ex_cfg "ppm" true) (ex_state ex_lay)) old = Ok r
  /\ gval ex_lay34 (sf r) 0 0 1 2 = 24
  /\ gval ex_lay (sf (ex_state ex_lay)) 0 0 1 2 = 20
  /\ gval ex_lay (sf (ex_state ex_lay)) 0 0 2 1 = 20.
Proof.
  intros old. destruct (C68_transposed_grid (ex_cfg "ppm" true) (with_layout (ex_cfg "ppm" true) ex_lay34) (ex_state ex_lay) old ex_lay_ok)
    as (r&H&V); try reflexivity; [|apply ex_shaped|].
  { unfold layout_ok, axis_ok, tiles; cbn. repeat split; try lia; repeat constructor; lia. }
  exists r. split; [exact H|]. split; [|cbn; split; reflexivity].
  change (gval (lay (with_layout (ex_cfg "ppm" true) ex_lay34)) (sf r) 0 0 1 2 = 24).
  rewrite V by (unfold inb; cbn; lia). cbn. reflexivity.
Qed.
Print Assumptions C68_refuted.
