(** How far a time step advances the clock of the field solver, and hybrid runs
    that do not fail. *)
From Coq Require Import ZArith Reals Lia Lra String List Bool.
From Verif Require Import Base.Prelude Base.ZSum Model.Af Model.Petsc Model.Config Model.Boundaries
  Model.Fvm Model.Em Model.Moments Model.Integrators Model.Splitting Model.SemiLag Model.Timestep
  Model.Solver Spec.Domain Spec.Yee Spec.EmRun Spec.Clock Spec.SolverSpec Proofs.AfLemmas Proofs.PetscLemmas Proofs.FvmLemmas2
  Proofs.EmLemmas Proofs.EmStep Proofs.EmInit
  Proofs.EmGrids Proofs.TimestepLemmas Proofs.SolverLemmas Proofs.HybridLemmas Proofs.FieldClock.
Import ListNotations.
Local Open Scope R_scope.

Section Params.
  Context (P : params).
  Let c := pc P.
  Let M := solver_stepper P.
  Let H := solver_host P.
  Let ftm (s : solver) := ftime (fields s).
  Context (FE : fields_enabled c = true) (FS : fields_solver (pf P) = "fdtd"%string)
          (NP : solver_method_in_p c = "ASL"%string).

  Section Size.
  Context (d : R).
  Let Q (s : solver) := cur_dt s = d.
  Let ad := adds ftm Q d.

  Lemma host_f v s : Q s -> ftm (set_f H v s) = ftm s /\ Q (set_f H v s).
  Proof. auto. Qed.
  Lemma host_refs l s : Q s -> ftm (set_refs H l s) = ftm s /\ Q (set_refs H l s).
  Proof. auto. Qed.
  Lemma host_mix a l b m s : Q s -> ftm (mix_refs H a l b m s) = ftm s /\ Q (mix_refs H a l b m s).
  Proof. auto. Qed.

  Lemma adds_fields : ad 1 (op_fields P).
  Proof.
    intros dt s s' Hs E. pose proof (op_fields_inv P dt s s' E) as (_&D).
    apply op_fields_ftime in E; auto. destruct E as (E&_). unfold ftm. rewrite E. unfold Q in *.
    split; [rewrite Hs; ring|congruence].
  Qed.
  Lemma adds_fvm : ad 0 (op_fvm P).
  Proof.
    intros dt s s' Hs E. pose proof (op_fvm_fields P dt s s') as F. unfold ftm. rewrite F; auto.
    - apply op_fvm_inv in E. destruct E as (?&?&?&?&_&_&_&_&D). unfold Q in *. split; [ring|congruence].
    - left. fold c. rewrite NP. discriminate.
  Qed.
  Lemma adds_advect : ad 0 (op_advect_q P).
  Proof.
    intros dt s s' Hs E. apply op_advect_q_inv in E. destruct E as (x&_&_&F&_&D).
    unfold ftm. rewrite F. unfold Q in *. split; [ring|congruence].
  Qed.
  Lemma adds_source : ad 0 (op_solve_src P).
  Proof.
    intros dt s s' Hs E. apply op_solve_src_inv in E. destruct E as (F&_&D).
    unfold ftm. rewrite F. unfold Q in *. split; [ring|congruence].
  Qed.

  Lemma adds_split m n o1 o2 : ad 0 o1 -> ad n o2 -> ad (count m * n) (split_of M m o1 o2).
  Proof.
    intros K1 K2. destruct m; cbn [split_of count].
    - intros h s s' Hs E. destruct (adds_lie ftm Q d 0 n o1 o2 K1 K2 h s s' Hs E) as (A&B). split; auto. rewrite A. ring.
    - intros h s s' Hs E. destruct (adds_strang ftm Q d 0 n o1 o2 K1 K2 h s s' Hs E) as (A&B). split; auto. rewrite A. ring.
    - intros h s s' Hs E. change (st_host M) with H in E.
      destruct (adds_swss H ftm Q d host_f host_refs host_mix 0 n o1 o2 K1 K2 h s s' Hs E) as (A&B). split; auto. rewrite A. ring.
    - intros h s s' Hs E. exfalso. change (st_host M) with H in E.
      destruct (jia_fails H o1 o2 h s) as (ex&X); [exact FE|]. rewrite X in E. discriminate E.
  Qed.

  Lemma adds_advance m : solver_method_in_q c = "FVM"%string \/ solver_method_in_q c = "ASL"%string ->
    ad (count m) (advance M (split_of M m)).
  Proof.
    intros NQ h s s' Hs. unfold advance. change (method_q M) with (solver_method_in_q c).
    change (method_p M) with (solver_method_in_p c). change (with_fields M) with (fields_enabled c).
    rewrite FE, NP. cbn [andb String.eqb Ascii.eqb Bool.eqb].
    destruct NQ as [-> | ->]; cbn [String.eqb Ascii.eqb Bool.eqb]; intros E.
    - destruct (adds_split m 1 _ _ adds_fvm adds_fields h s s' Hs E) as (A&B). split; auto. rewrite A. ring.
    - assert (Z : ad 0 (split_of M m (op_advect_q P) (op_solve_src P))).
      { intros h' x x' Hx Ex. destruct (adds_split m 0 _ _ adds_advect adds_source h' x x' Hx Ex) as (A&B).
        split; auto. rewrite A. ring. }
      destruct (adds_split m 1 _ _ Z adds_fields h s s' Hs E) as (A&B). split; auto. rewrite A. ring.
  Qed.
  End Size.

  Context (NQ : solver_method_in_q c = "FVM"%string \/ solver_method_in_q c = "ASL"%string).

  Lemma no_jia dt s r : step_of M Jia dt s <> Ok r.
  Proof.
    rewrite step_of_eq. unfold step, advance. change (method_q M) with (solver_method_in_q c).
    change (method_p M) with (solver_method_in_p c). change (with_fields M) with (fields_enabled c).
    rewrite FE, NP. cbn [andb String.eqb Ascii.eqb Bool.eqb split_of].
    change (st_host M) with H. 
    destruct NQ as [-> | ->]; cbn [String.eqb Ascii.eqb Bool.eqb];
      match goal with |- context [jia H ?a ?b dt ?x] => destruct (jia_fails H a b dt x) as (ex&->); [exact FE|] end;
      discriminate.
  Qed.

  Lemma field_step m dt s s' e : step_of M m dt s = Ok (s', e) ->
    m <> Jia /\ e = None
    /\ ftm s' = ftm s + count m * dt /\ time_elapsed s' = time_elapsed s + dt.
  Proof.
    intros E. split; [intros ->; exact (no_jia _ _ _ E)|].
    pose proof (step_outcome M (solver_clock_kept P) m dt s s' e E) as O.
    rewrite step_of_eq in E. unfold step in E.
    apply rbind_inv in E. destruct E as (x&E1&E2). cbv beta in E2.
    destruct (adds_advance dt m NQ _ _ _ (eq_refl : cur_dt (set_dt M dt s) = dt) E1) as (A&_).
    assert (D : diverged M x = false).
    { apply finite_iff. apply solver_finite. }
    rewrite D in E2. apply Ok_inj, pair_equal_spec in E2. destruct E2 as (<-&<-).
    split; [reflexivity|]. split; [exact A|].
    cbn [set_clock M solver_stepper time_elapsed clock].
    pose proof (advance_clock M (solver_clock_kept P) _ _ _ _ E1) as T. exact (f_equal (fun z => z + dt) T).
  Qed.

  Lemma field_run h s s' e : run_steps M h s = Ok (s', e) ->
    Forall (fun x => fst x <> Jia) h /\ e = None
    /\ ftm s' = ftm s + counted h /\ time_elapsed s' = time_elapsed s + elapsed h.
  Proof.
    revert s. induction h as [|(m&dt) h IH]; intros s; cbn [run_steps].
    - intros E. apply Ok_inj, pair_equal_spec in E. destruct E as (<-&<-). cbn. repeat split; auto; ring.
    - intros E. apply rbind_inv in E. destruct E as ((s1&e1)&E1&E2). cbv beta iota in E2.
      destruct (field_step m dt s s1 e1 E1) as (J&->&A&T). destruct (IH _ E2) as (J'&->&A'&T').
      split; [constructor; auto|]. split; [reflexivity|]. cbn [counted elapsed]. rewrite A', A, T', T.
      split; ring.
  Qed.
End Params.

(** ** Hybrid runs with semi-Lagrangian advection in q and p do not fail *)
Lemma all_ranks_total L F : (forall r1 r2, exists a, F r1 r2 = Ok a) -> exists G, all_ranks L F = Ok G.
Proof. intros X. destruct (all_ranks_ok L F) as (G&E&_); eauto. Qed.

(** References kept by the field routines. *)
Definition ext (s s' : em) : Prop :=
  (next s <= next s')%nat /\ cc_n s' = cc_n s /\ cc_nh s' = cc_nh s.
Lemma ext_refl s : ext s s. Proof. repeat split; auto. Qed.
Lemma ext_trans a b d : ext a b -> ext b d -> ext a d.
Proof. intros (A&B&C) (A'&B'&C'). split; [lia|split; congruence]. Qed.
Lemma ext_comm c b s : ext s (communicate_fields c b s).
Proof. unfold communicate_fields. destruct b; (split; [cbn; lia|split; reflexivity]). Qed.
Lemma ext_write l v s : ext s (write l v s). Proof. repeat split; auto. Qed.
Lemma ext_bcs c b s s' : apply_bcs_fields c b s = Ok s' -> ext s s'.
Proof.
  unfold apply_bcs_fields. intros H. apply rbind_inv in H. destruct H as (F&_&H). cbv beta in H.
  apply Ok_inj in H. rewrite <- H. apply ext_write.
Qed.
Lemma ext_fdtd c dt J s s' : fdtd c dt J s = Ok s' -> ext s s'.
Proof.
  destruct J as ((J1&J2)&J3). unfold fdtd. intros H.
  apply rbind_inv in H. destruct H as (s1&B1&H). cbv beta in H.
  apply rbind_inv in H. destruct H as (F&_&H). cbv beta in H.
  apply rbind_inv in H. destruct H as (s3&B3&H). cbv beta in H.
  apply Ok_inj in H. rewrite <- H.
  eapply ext_trans; [apply (ext_comm c true)|]. eapply ext_trans; [eapply ext_bcs; exact B1|].
  eapply ext_trans; [apply ext_write|]. eapply ext_trans; [apply (ext_comm c true)|].
  eapply ext_trans; [eapply ext_bcs; exact B3|]. apply ext_write.
Qed.
Lemma ext_evolve c J1 J2 J3 dt s s' : evolve_electrodynamic_fields c J1 J2 J3 dt s = Ok s' -> ext s s'.
Proof.
  rewrite evolve_split. intros H. apply rbind_inv in H. destruct H as (s1&F&H). cbv beta in H.
  apply Ok_inj in H. rewrite <- H. apply ext_fdtd in F.
  eapply ext_trans; [|eapply ext_trans; [exact F|]]; repeat split; auto.
Qed.
Lemma ext_hybrid P fl fb f e J e' : hybrid_fields P fl fb f e = Ok (J, e') -> ext e e'.
Proof.
  unfold hybrid_fields. intros H.
  do 9 (apply rbind_inv in H; let x := fresh "m" in destruct H as (x&_&H); cbv beta in H).
  apply Ok_inj, pair_equal_spec in H. destruct H as (_&<-).
  eapply ext_trans; [apply (ext_comm (pf P) true)|]. apply ext_write.
Qed.
Lemma ext_get c s : ext s (snd (get_fields c s)).
Proof. unfold get_fields; cbn [snd]. destruct (String.eqb _ _); repeat split; auto. Qed.
Lemma wf_get c s : wf_em c s -> wf_em c (snd (get_fields c s)).
Proof. unfold get_fields; cbn [snd]. destruct (String.eqb _ _); auto. Qed.

Lemma getattr_inv T name m : getattr T name = Ok m -> has T name. Proof. intros; exists m; auto. Qed.

Section Total.
  Context (P : params) (HA : hybrid_asl P).
  Let c := pc P.
  Let M := solver_stepper P.
  Let H := solver_host P.
  Let wf (s : solver) := wf_em (pf P) (fields s).
  Let from (s0 s : solver) := wf s /\ ext (fields s0) (fields s).

  (** From a sound state the operator succeeds; references survive. *)
  Definition fine (op : operator solver) : Prop :=
    forall dt s, wf s -> exists s', op dt s = Ok s' /\ from s s'.

  Lemma moment_total name f : has (table P) name -> exists m, moment P name f = Ok m.
  Proof.
    intros (m&Hm). unfold moment. apply all_ranks_total. intros r1 r2. unfold compute_moments.
    rewrite (ha_grid P HA). cbn [String.eqb Ascii.eqb Bool.eqb]. rewrite Hm. cbn [rbind]. eauto.
  Qed.

  Lemma hybrid_total fl fb f e : exists J e', hybrid_fields P fl fb f e = Ok (J, e').
  Proof.
    unfold hybrid_fields. destruct HA.
    destruct (moment_total "mom_v2_bulk" fl) as (?&->); auto; cbn [rbind].
    destruct (moment_total "density" fl) as (?&->); auto; cbn [rbind].
    destruct (moment_total "mom_v3_bulk" fl) as (?&->); auto; cbn [rbind].
    destruct (moment_total "mom_v3_bulk" fb) as (?&->); auto; cbn [rbind].
    destruct (moment_total "density" fb) as (?&->); auto; cbn [rbind].
    destruct (moment_total "mom_v1_bulk" fb) as (?&->); auto; cbn [rbind].
    destruct (moment_total "mom_v1_bulk" f) as (?&->); auto; cbn [rbind].
    destruct (moment_total "density" f) as (?&->); auto; cbn [rbind].
    destruct (moment_total "mom_v2_bulk" f) as (?&->); auto; cbn [rbind].
    eexists _, _. reflexivity.
  Qed.

  Lemma bcompat_1 m : bcompat m 1 = true.
  Proof. unfold bcompat. rewrite Z.eqb_refl, !orb_true_r. reflexivity. Qed.

  Lemma interpolant_total r1 r2 a st dp : List.length st = 1%nat -> List.length dp = 1%nat ->
    exists b, interpolant c r1 r2 a st dp = Ok b.
  Proof.
    intros A B. unfold interpolant, bcast_species.
    match goal with |- context [bcompat ?x (d1 ?y)] => assert (D : d1 y = 1%Z) end.
    { unfold bcast2, Fvm.dp_arr, amap; cbn [d1]. rewrite A, B. reflexivity. }
    rewrite D, bcompat_1. cbn [rbind].
    match goal with |- context [bcompat ?x (d1 ?y)] => assert (D' : d1 y = 1%Z) end.
    { unfold Fvm.dp_arr, amap; cbn [d1]. rewrite B. reflexivity. }
    rewrite D', bcompat_1. eauto.
  Qed.

  Lemma fine_fields : fine (op_fields P).
  Proof.
    intros dt s W. unfold op_fields. rewrite (ha_fdtd P HA). cbn [String.eqb Ascii.eqb Bool.eqb rbind].
    rewrite (ha_hybrid P HA).
    destruct (hybrid_total (half_sum_q1 (f_of s)) (half_sum_q2 (f_of s)) (f_of s) (fields s)) as (J&e1&E1).
    rewrite E1. cbn [rbind].
    destruct (hybrid_evolve P (ha_regular P HA) (ha_hybrid P HA) _ _ _ _ _ _ (cur_dt s) W E1) as (e2&E2&W2&_&_&W1).
    rewrite E2. cbn [rbind].
    assert (X : ext (fields s) e2) by (eapply ext_trans; [eapply ext_hybrid; exact E1|eapply ext_evolve; exact E2]).
    pose proof (wf_get (pf P) e2 W2) as W3. pose proof (ext_get (pf P) e2) as X3.
    destruct (get_fields (pf P) e2) as (F1&e3). cbn [snd] in W3, X3.
    pose proof (wf_get (pf P) e3 W3) as W4. pose proof (ext_get (pf P) e3) as X4.
    destruct (get_fields (pf P) e3) as (F2&e4). cbn [snd] in W4, X4.
    pose proof (wf_get (pf P) e4 W4) as W5. pose proof (ext_get (pf P) e4) as X5.
    destruct (get_fields (pf P) e4) as (F3&e5). cbn [snd] in W5, X5.
    match goal with |- context [all_ranks ?L ?F] => destruct (all_ranks_total L F) as (G&->) end.
    { intros r1 r2. unfold f_interp_p_3d. destruct (ha_starts P HA) as (A&B&C&D).
      match goal with |- context [interpolant ?cc r1 r2 ?a (p2_start _) _] =>
        destruct (interpolant_total r1 r2 a (p2_start c) (dp2 c) A C) as (x&Ex) end.
      unfold c in Ex. rewrite Ex. cbn [rbind].
      match goal with |- context [interpolant ?cc r1 r2 ?a (p3_start _) _] =>
        destruct (interpolant_total r1 r2 a (p3_start c) (dp3 c) B D) as (y&Ey) end.
      unfold c in Ey. rewrite Ey. cbn [rbind]. eauto. }
    cbn [rbind]. eexists. split; [reflexivity|]. split; [exact W5|].
    cbn [fields set_fields]. eapply ext_trans; [exact X|]. eapply ext_trans; [exact X3|]. eapply ext_trans; [exact X4|exact X5].
  Qed.

  Lemma fine_advect : fine (op_advect_q P).
  Proof.
    intros dt s W. unfold op_advect_q, refresh_f.
    match goal with |- context [all_ranks ?L ?F] => destruct (all_ranks_total L F) as (G&->) end.
    { intros r1 r2. rewrite apply_bcs_periodic by apply HA. eauto. }
    cbn [rbind]. eexists. split; [reflexivity|]. split; [exact W|apply ext_refl].
  Qed.

  Lemma fine_source : fine (op_solve_src P).
  Proof.
    intros dt s W. unfold op_solve_src. destruct (instantaneous P); [rewrite andb_false_r|rewrite andb_true_r];
      [|destruct (source_enabled (pc P))]; (eexists; split; [reflexivity|split; [exact W|apply ext_refl]]).
  Qed.

  Lemma from_trans a b d : from a b -> from b d -> from a d.
  Proof. intros (A&B) (A'&B'). split; auto. eapply ext_trans; eassumption. Qed.

  Lemma fine_lie o1 o2 : fine o1 -> fine o2 -> fine (lie o1 o2).
  Proof.
    intros K1 K2 dt s W. unfold lie. destruct (K1 dt s W) as (s1&->&X1). cbn [rbind].
    destruct (K2 dt s1 (proj1 X1)) as (s2&->&X2). exists s2. split; auto. eapply from_trans; eassumption.
  Qed.
  Lemma fine_strang o1 o2 : fine o1 -> fine o2 -> fine (strang o1 o2).
  Proof.
    intros K1 K2 dt s W. unfold strang. destruct (K1 (1/2*dt) s W) as (s1&->&X1). cbn [rbind].
    destruct (K2 dt s1 (proj1 X1)) as (s2&->&X2). cbn [rbind].
    destruct (K1 (1/2*dt) s2 (proj1 X2)) as (s3&->&X3). exists s3. split; auto.
    eapply from_trans; [|exact X3]. eapply from_trans; eassumption.
  Qed.
  (** References of an earlier state are sound in a later one. *)
  Lemma wf_rebind s0 s : wf s0 -> from s0 s -> wf (set_refs H (cc (fields s0), yee (fields s0)) s).
  Proof.
    intros ((A1&A2&A3&A4)&(B1&B2&B3)&C) (((A1'&A2'&A3'&A4')&(B1'&B2'&B3')&C')&(N&X&Y)).
    unfold wf, wf_em. cbn [H solver_host set_refs fields set_fields cc yee cc_n cc_nh next mem fst snd].
    split; [lia|]. split; [rewrite X, Y; auto|exact C'].
  Qed.
  Lemma wf_mix a l b m s : wf s -> (fst l < next (fields s))%nat -> (snd l < next (fields s))%nat ->
    (fst m < next (fields s))%nat -> (snd m < next (fields s))%nat -> wf (mix_refs H a l b m s).
  Proof.
    intros W L1 L2 M1 M2. cbn [H solver_host mix_refs]. unfold wf. cbn [fields set_fields]. unfold rebind_both.
    assert (Sh : forall x y, (x < next (fields s))%nat -> (y < next (fields s))%nat -> shaped (flay (pf P)) 6 1
        (dmap2 (amap2 (fun u v => a * u + b * v)) (mem (fields s) x) (mem (fields s) y))).
    { intros x y Hx Hy r1 r2 RK. destruct (proj2 (proj2 W) x Hx r1 r2 RK) as (D0&D1&D2&D3).
      unfold dmap2. repeat split; assumption. }
    apply wf_bind_yee; [apply wf_bind_cc; [exact W|]|]; apply Sh; auto.
  Qed.

  Lemma fine_swss o1 o2 : fine o1 -> fine o2 -> fine (swss H o1 o2).
  Proof.
    intros K1 K2 dt s W. unfold swss. destruct (K1 dt s W) as (s1&->&X1). cbn [rbind].
    destruct (K2 dt s1 (proj1 X1)) as (s2&->&X2). cbn [rbind].
    pose proof (from_trans _ _ _ X1 X2) as X02.
    change (fields_on H) with (fields_enabled (pc P)). rewrite (ha_on P HA).
    set (y := set_refs H (get_refs H s) (set_f H (get_f H s) s2)).
    assert (Wy : wf y) by (apply (wf_rebind s (set_f H (get_f H s) s2) W); exact X02).
    destruct (K2 dt y Wy) as (s3&->&X3). cbn [rbind].
    destruct (K1 dt s3 (proj1 X3)) as (s4&->&X4). cbn [rbind].
    eexists. split; [reflexivity|].
    assert (Xy : ext (fields s2) (fields y)) by (repeat split; auto).
    assert (X24 : ext (fields s2) (fields s4)).
    { eapply ext_trans; [exact Xy|]. eapply ext_trans; [apply X3|apply X4]. }
    pose proof (proj1 X4) as W4. pose proof (proj1 X2) as W2.
    destruct W4 as ((A1&A2&A3&A4)&W4'). destruct W2 as ((C1&C2&C3&C4)&W2').
    pose proof X24 as (N24&_&_).
    split.
    - apply wf_mix; [exact (proj1 X4)| | | |]; cbn [H solver_host get_refs fst snd set_f set_f_of fields set_fpart]; auto; lia.
    - eapply ext_trans; [apply X02|]. eapply ext_trans; [exact X24|].
      split; [apply le_S, le_S, le_n|]. split; reflexivity.
  Qed.

  Lemma hybrid_step_total m dt s : m <> Jia -> wf s ->
    exists s', step_of M m dt s = Ok (s', None) /\ wf s'.
  Proof.
    intros NJ W. rewrite step_of_eq. unfold step, advance.
    change (method_q M) with (solver_method_in_q c).
    change (method_p M) with (solver_method_in_p c). change (with_fields M) with (fields_enabled c).
    unfold c. rewrite (ha_q P HA), (ha_p P HA), (ha_on P HA). cbn [String.eqb Ascii.eqb Bool.eqb].
    assert (K : forall o1 o2, fine o1 -> fine o2 -> fine (split_of M m o1 o2)).
    { intros. destruct m; cbn [split_of]; [apply fine_lie|apply fine_strang|apply fine_swss|congruence]; auto. }
    destruct (K _ _ (K _ _ fine_advect fine_source) fine_fields dt (set_dt M dt s) W) as (s1&E&X).
    change (op_advect_q P) with (Timestep.op_advect_q M) in E.
    change (op_solve_src P) with (Timestep.op_solve_src M) in E.
    change (op_fields P) with (Timestep.op_fields M) in E.
    rewrite E. cbn [rbind].
    assert (D : diverged M s1 = false) by (apply finite_iff, solver_finite).
    rewrite D. eexists. split; [reflexivity|]. exact (proj1 X).
  Qed.

  Lemma hybrid_run_total h s : Forall (fun x => fst x <> Jia) h -> wf s ->
    exists s', run_steps M h s = Ok (s', None) /\ wf s'.
  Proof.
    intros F. revert s. induction F as [|(m&dt) h J F IH]; intros s W; cbn [run_steps]; [eauto|].
    destruct (hybrid_step_total m dt s J W) as (s1&->&W1). cbn [rbind]. apply IH. exact W1.
  Qed.
End Total.
