(** The clock of the field solver. *)
From Coq Require Import ZArith Reals Lia Lra String List Bool.
From Verif Require Import Base.Prelude Base.ZSum Model.Af Model.Petsc Model.Config Model.Boundaries
  Model.Fvm Model.Em Model.Moments Model.Integrators Model.Splitting Model.SemiLag Model.Timestep
  Model.Solver Spec.Clock Proofs.EmInit Proofs.EmGrids Proofs.TimestepLemmas Proofs.SolverLemmas.
Import ListNotations.
Local Open Scope R_scope.

(** What no field routine but evolve_electrodynamic_fields and get_fields changes. *)
Definition calm (s s' : em) : Prop := ftime s' = ftime s /\ at_n s' = at_n s.

Lemma calm_comm c b s : calm s (communicate_fields c b s).
Proof. unfold communicate_fields. destruct b; split; reflexivity. Qed.
Lemma calm_write l v s : calm s (write l v s). Proof. split; reflexivity. Qed.
Lemma calm_bcs c b s s' : apply_bcs_fields c b s = Ok s' -> calm s s'.
Proof.
  unfold apply_bcs_fields. intros H. apply rbind_inv in H. destruct H as (F&_&H). cbv beta in H.
  apply Ok_inj in H. rewrite <- H. apply calm_write.
Qed.
Lemma calm_trans a b d : calm a b -> calm b d -> calm a d.
Proof. unfold calm. intuition congruence. Qed.

Lemma calm_fdtd c dt J s s' : fdtd c dt J s = Ok s' -> calm s s'.
Proof.
  destruct J as ((J1&J2)&J3). unfold fdtd. intros H.
  apply rbind_inv in H. destruct H as (s1&B1&H). cbv beta in H.
  apply rbind_inv in H. destruct H as (F&_&H). cbv beta in H.
  apply rbind_inv in H. destruct H as (s3&B3&H). cbv beta in H.
  apply Ok_inj in H. rewrite <- H.
  eapply calm_trans; [apply (calm_comm c true)|]. eapply calm_trans; [eapply calm_bcs; exact B1|].
  eapply calm_trans; [apply calm_write|]. eapply calm_trans; [apply (calm_comm c true)|].
  eapply calm_trans; [eapply calm_bcs; exact B3|]. apply calm_write.
Qed.

Lemma evolve_clock c J1 J2 J3 dt s s' : evolve_electrodynamic_fields c J1 J2 J3 dt s = Ok s' ->
  ftime s' = ftime s + dt /\ at_n s' = at_n s.
Proof.
  rewrite evolve_split. intros H. apply rbind_inv in H. destruct H as (s1&F&H). cbv beta in H.
  apply Ok_inj in H. rewrite <- H. apply calm_fdtd in F. destruct F as (F&A).
  unfold after_fdtd. cbn [ftime at_n set_ftime]. 
  change (ftime (before_fdtd s)) with (ftime s) in F. change (at_n (before_fdtd s)) with (at_n s) in A.
  split; [rewrite <- F; reflexivity|rewrite <- A; reflexivity].
Qed.

Lemma calm_electrostatic c rho s s' : compute_electrostatic_fields c rho s = Ok s' -> calm s s'.
Proof.
  unfold compute_electrostatic_fields, electrostatic_update, fft_poisson.
  destruct (String.eqb _ _); [|intros H; apply Ok_inj in H; rewrite <- H; split; reflexivity].
  destruct (negb _); [discriminate|]. cbn [rbind]. intros H. apply calm_bcs in H.
  eapply calm_trans; [|exact H]. eapply calm_trans; [|apply calm_comm]. apply calm_write.
Qed.

Lemma calm_hybrid P fl fb f e J e' : hybrid_fields P fl fb f e = Ok (J, e') -> calm e e'.
Proof.
  unfold hybrid_fields. intros H.
  do 9 (apply rbind_inv in H; let x := fresh "m" in destruct H as (x&_&H); cbv beta in H).
  apply Ok_inj, pair_equal_spec in H. destruct H as (_&<-).
  eapply calm_trans; [apply (calm_comm (pf P) true)|]. apply calm_write.
Qed.

Section Params.
  Context (P : params).
  Let c := pc P.

  Lemma get_fields_ftime e : ftime (snd (get_fields (pf P) e)) = ftime e.
  Proof. unfold get_fields. cbn [snd]. destruct (String.eqb _ _); reflexivity. Qed.

  (** Without momentum advection by FVM the FVM operator leaves the fields alone. *)
  Lemma op_fvm_fields dt s s' : solver_method_in_p c <> "FVM"%string \/ fields_enabled c = false ->
    op_fvm P dt s = Ok s' -> fields s' = fields s.
  Proof.
    intros N H. apply op_fvm_inv in H. destruct H as (E0&e0&Eh&eh&_&(x0&_&S0&fh&x1&_&_&S1)&<-&_).
    assert (X : forall t h f e E e', fields_seen P t h f e = Ok (E, e') -> e' = e).
    { intros t h f e E e'. unfold fields_seen. fold c.
      replace (String.eqb (solver_method_in_p c) "FVM" && fields_enabled c)%bool with false.
      - intros X. apply Ok_inj, pair_equal_spec in X. symmetry. apply X.
      - destruct N as [N| ->]; [|rewrite andb_false_r; reflexivity].
        destruct (String.eqb_spec (solver_method_in_p c) "FVM"); [contradiction|reflexivity]. }
    rewrite (X _ _ _ _ _ _ S1), (X _ _ _ _ _ _ S0). reflexivity.
  Qed.

  Lemma op_fields_ftime dt s s' : fields_solver (pf P) = "fdtd"%string -> op_fields P dt s = Ok s' ->
    ftime (fields s') = ftime (fields s) + cur_dt s /\ hybrid (pf P) = true.
  Proof.
    intros FS. unfold op_fields. rewrite FS. cbn [String.eqb Ascii.eqb Bool.eqb]. intros H.
    apply rbind_inv in H. destruct H as (e1&E1&H). cbv beta in H. apply Ok_inj in E1. subst e1.
    apply rbind_inv in H. destruct H as (e2&E2&H). cbv beta in H.
    pose proof (get_fields_ftime) as G.
    pose proof (G e2) as G2. destruct (get_fields (pf P) e2) as (F1&e3). cbn [snd] in G2.
    pose proof (G e3) as G3. destruct (get_fields (pf P) e3) as (F2&e4). cbn [snd] in G3.
    pose proof (G e4) as G4. destruct (get_fields (pf P) e4) as (F3&e5). cbn [snd] in G4.
    apply rbind_inv in H. destruct H as (f'&_&H). cbv beta in H. apply Ok_inj in H. rewrite <- H. cbn [fields set_fields].
    rewrite G4, G3, G2. clear H G4 G3 G2 G.
    apply rbind_inv in E2. destruct E2 as ((J&e6)&E2&H). cbv beta iota in H.
    apply evolve_clock in H. destruct H as (H&_). rewrite H.
    destruct (hybrid (pf P)); [split; [|reflexivity]|].
    - apply calm_hybrid in E2. destruct E2 as (E2&_). rewrite E2. reflexivity.
    - exfalso. apply rbind_inv in E2. destruct E2 as (m&_&E2). cbv beta in E2.
      apply rbind_inv in E2. destruct E2 as (m'&_&E2). discriminate E2.
  Qed.
End Params.

(** ** The splitting methods count the field update differently *)
Section Count.
  Context {S V : Type} (H : host S V) (g : S -> R) (Q : S -> Prop) (d : R).
  Context (Gf : forall v s, Q s -> g (set_f H v s) = g s /\ Q (set_f H v s))
          (Gr : forall l s, Q s -> g (set_refs H l s) = g s /\ Q (set_refs H l s))
          (Gm : forall a l b m s, Q s -> g (mix_refs H a l b m s) = g s /\ Q (mix_refs H a l b m s)).
  (** [op] adds [n] times [d]. *)
  Definition adds (n : R) (op : operator S) : Prop :=
    forall dt s s', Q s -> op dt s = Ok s' -> g s' = g s + n * d /\ Q s'.

  Lemma adds_lie n1 n2 o1 o2 : adds n1 o1 -> adds n2 o2 -> adds (n1 + n2) (lie o1 o2).
  Proof.
    intros K1 K2 dt s s' Hs. unfold lie. intros E. apply rbind_inv in E. destruct E as (s1&E1&E2). cbv beta in E2.
    destruct (K1 _ _ _ Hs E1) as (A1&Q1). destruct (K2 _ _ _ Q1 E2) as (A2&Q2). split; auto. rewrite A2, A1. ring.
  Qed.
  Lemma adds_strang n1 n2 o1 o2 : adds n1 o1 -> adds n2 o2 -> adds (2 * n1 + n2) (strang o1 o2).
  Proof.
    intros K1 K2 dt s s' Hs. unfold strang. intros E. apply rbind_inv in E. destruct E as (s1&E1&E). cbv beta in E.
    apply rbind_inv in E. destruct E as (s2&E2&E3). cbv beta in E3.
    destruct (K1 _ _ _ Hs E1) as (A1&Q1). destruct (K2 _ _ _ Q1 E2) as (A2&Q2).
    destruct (K1 _ _ _ Q2 E3) as (A3&Q3). split; auto. rewrite A3, A2, A1. ring.
  Qed.
  Lemma adds_swss n1 n2 o1 o2 : adds n1 o1 -> adds n2 o2 -> adds (2 * (n1 + n2)) (swss H o1 o2).
  Proof.
    intros K1 K2 dt s s' Hs. unfold swss. intros E.
    apply rbind_inv in E. destruct E as (s1&E1&E). cbv beta in E.
    apply rbind_inv in E. destruct E as (s2&E2&E). cbv beta in E.
    apply rbind_inv in E. destruct E as (s3&E3&E). cbv beta in E.
    apply rbind_inv in E. destruct E as (s4&E4&E). cbv beta in E.
    destruct (K1 _ _ _ Hs E1) as (A1&Q1). destruct (K2 _ _ _ Q1 E2) as (A2&Q2).
    set (y := if fields_on H then set_refs H (get_refs H s) (set_f H (get_f H s) s2) else set_f H (get_f H s) s2) in *.
    assert (Y : g y = g s2 /\ Q y).
    { unfold y. destruct (Gf (get_f H s) s2 Q2) as (B&QB). destruct (fields_on H); [|auto].
      destruct (Gr (get_refs H s) _ QB) as (B'&QB'). split; auto. rewrite B'. exact B. }
    destruct Y as (Y&QY). destruct (K2 _ _ _ QY E3) as (A3&Q3). destruct (K1 _ _ _ Q3 E4) as (A4&Q4).
    assert (Z : g s' = g s4 /\ Q s').
    { match type of E with context [set_f H ?v s4] => destruct (Gf v s4 Q4) as (B&QB) end.
      destruct (fields_on H); apply Ok_inj in E; rewrite <- E; [|auto].
      match goal with |- context [mix_refs H ?a ?l ?b ?m ?x] => destruct (Gm a l b m x QB) as (B'&QB') end.
      split; auto. rewrite B'. exact B. }
    destruct Z as (Z&QZ). split; auto. rewrite Z, A4, A3, Y, A2, A1. ring.
  Qed.
End Count.
