(** Lemmas about the time-stepping methods. *)
From Coq Require Import ZArith Reals Lia Lra String List Bool.
From Verif Require Import Base.Prelude Model.Af Model.Petsc Model.Fvm Model.Splitting Model.Timestep
  Spec.Clock.
Import ListNotations.
Local Open Scope R_scope.

Lemma existsb_indices p n : existsb p (indices n) = true <-> exists i, inb n i /\ p i = true.
Proof.
  rewrite existsb_exists. unfold indices, inb. setoid_rewrite zrange_In.
  split; intros (i&H&E); exists i; (split; [lia|exact E]).
Qed.

Lemma any_true_iff a : any_true a = true <-> exists i j k l, inside a i j k l /\ el a i j k l = true.
Proof.
  unfold any_true, inside. rewrite existsb_indices. split.
  - intros (i&Hi&H). apply existsb_indices in H. destruct H as (j&Hj&H).
    apply existsb_indices in H. destruct H as (k&Hk&H).
    apply existsb_indices in H. destruct H as (l&Hl&H). exists i, j, k, l. auto.
  - intros (i&j&k&l&(Hi&Hj&Hk&Hl)&H). exists i. split; auto.
    apply existsb_indices. exists j. split; auto.
    apply existsb_indices. exists k. split; auto.
    apply existsb_indices. exists l. auto.
Qed.

Section Stepper.
  Context {S A V : Type} (M : stepper S A V).

  Lemma diverged_iff s : diverged M s = true <-> exists r1 r2 x sp i j,
    (r1 < length (blk1 (st_lay M)))%nat /\ (r2 < length (blk2 (st_lay M)))%nat
    /\ inside (local_f M s r1 r2) x sp i j
    /\ (isinf M (el (local_f M s r1 r2) x sp i j) = true \/ isnan M (el (local_f M s r1 r2) x sp i j) = true).
  Proof.
    unfold diverged. rewrite existsb_exists. split.
    - intros ((r1&r2)&H&E). unfold ranks in H. apply in_prod_iff in H. rewrite !in_seq in H. cbn [fst snd] in E.
      apply orb_true_iff in E.
      destruct E as [E|E]; apply any_true_iff in E; destruct E as (i&j&k&l&I&E);
        exists r1, r2, i, j, k, l; (repeat split; [lia|lia|apply I|apply I|apply I|apply I|apply I|apply I|apply I|apply I|]);
        cbn [el amap] in E; auto.
    - intros (r1&r2&x&sp&i&j&H1&H2&I&E). exists (r1, r2). split.
      + unfold ranks. apply in_prod_iff. rewrite !in_seq. lia.
      + cbn [fst snd]. apply orb_true_iff.
        destruct E as [E|E]; [left|right]; apply any_true_iff; exists x, sp, i, j; (split; [exact I|exact E]).
  Qed.

  Lemma finite_iff s : finite_everywhere M s <-> diverged M s = false.
  Proof.
    rewrite <- not_true_iff_false, diverged_iff. unfold finite_everywhere, finite_value. split.
    - intros H (r1&r2&x&sp&i&j&H1&H2&I&E). destruct (H r1 r2 x sp i j H1 H2 I). intuition congruence.
    - intros H r1 r2 x sp i j H1 H2 I. split; apply not_true_iff_false; intros E; apply H;
        exists r1, r2, x, sp, i, j; auto.
  Qed.

  Definition split_of (m : method) : operator S -> operator S -> operator S :=
    match m with Lie => lie | Strang => strang | Swss => swss (st_host M) | Jia => jia (st_host M) end.

  Lemma step_of_eq m dt s : step_of M m dt s = step M (split_of m) dt s.
  Proof. destruct m; reflexivity. Qed.

  Lemma step_inv m dt s s' e : step_of M m dt s = Ok (s', e) ->
    exists s1, advance M (split_of m) dt (set_dt M dt s) = Ok s1
    /\ ((finite_everywhere M s1 /\ e = None /\ s' = set_clock M (clock M s1 + dt) s1)
        \/ (~ finite_everywhere M s1 /\ e = Some SystemExit /\ s' = s1)).
  Proof.
    rewrite step_of_eq. unfold step. destruct (advance M (split_of m) dt (set_dt M dt s)) as [s1|]; [|discriminate].
    cbn [rbind]. destruct (diverged M s1) eqn:D; intros H.
    - assert (X : (s1, Some SystemExit) = (s', e)) by congruence. injection X as <- <-.
      exists s1. split; auto. right. rewrite finite_iff, D. split; [discriminate|auto].
    - assert (X : (set_clock M (clock M s1 + dt) s1, None) = (s', e)) by congruence. injection X as <- <-.
      exists s1. split; auto. left. rewrite finite_iff. auto.
  Qed.

  (** Operators preserving a property of states that the other accesses respect. *)
  Section Invariant.
    Context (Q : S -> Prop).
    Definition keeps (op : operator S) : Prop := forall dt s s', Q s -> op dt s = Ok s' -> Q s'.
    Context (Hf : forall v s, Q s -> Q (set_f (st_host M) v s))
            (Hr : forall l s, Q s -> Q (set_refs (st_host M) l s))
            (Hm : forall a l b m s, Q s -> Q (mix_refs (st_host M) a l b m s)).

    Lemma keeps_lie o1 o2 : keeps o1 -> keeps o2 -> keeps (lie o1 o2).
    Proof.
      intros K1 K2 dt s s' H. unfold lie. destruct (o1 dt s) eqn:E1; [cbn|discriminate]. eauto.
    Qed.
    Lemma keeps_strang o1 o2 : keeps o1 -> keeps o2 -> keeps (strang o1 o2).
    Proof.
      intros K1 K2 dt s s' H. unfold strang. destruct (o1 _ s) eqn:E1; [cbn|discriminate].
      destruct (o2 dt _) eqn:E2; [cbn|discriminate]. eauto.
    Qed.
    Lemma keeps_swss o1 o2 : keeps o1 -> keeps o2 -> keeps (swss (st_host M) o1 o2).
    Proof.
      intros K1 K2 dt s s' H. unfold swss.
      destruct (o1 dt s) as [s1|] eqn:E1; [cbn [rbind]|discriminate].
      destruct (o2 dt s1) as [s2|] eqn:E2; [cbn [rbind]|discriminate].
      match goal with |- context [o2 dt ?x] => set (y := x); destruct (o2 dt y) as [s3|] eqn:E3 end; [cbn [rbind]|discriminate].
      destruct (o1 dt s3) as [s4|] eqn:E4; [cbn [rbind]|discriminate].
      assert (Qy : Q y) by (unfold y; destruct (fields_on (st_host M)); eauto).
      assert (Q4 : Q s4) by eauto.
      intros X. assert (Y : s' = s') by reflexivity.
      destruct (fields_on (st_host M)); injection X as <-; eauto.
    Qed.
    Lemma keeps_jia o1 o2 : keeps o1 -> keeps o2 -> keeps (jia (st_host M) o1 o2).
    Proof.
      intros K1 K2 dt s s' H. unfold jia.
      assert (R : forall v s, Q s -> Q (if fields_on (st_host M) then set_refs (st_host M) v s else s))
        by (intros; destruct (fields_on (st_host M)); auto).
      destruct (strang o1 o2 dt s) as [s1|] eqn:E1; [cbn [rbind]|discriminate].
      match goal with |- context [strang o2 o1 dt ?x] => set (y := x); destruct (strang o2 o1 dt y) as [s2|] eqn:E2 end; [cbn [rbind]|discriminate].
      match goal with |- context [swss _ o1 o2 dt ?x] => set (z := x); destruct (swss (st_host M) o1 o2 dt z) as [s3|] eqn:E3 end; [cbn [rbind]|discriminate].
      pose proof (keeps_strang o1 o2 K1 K2 _ _ _ H E1) as Q1.
      assert (Qy : Q y) by (apply R; auto).
      pose proof (keeps_strang o2 o1 K2 K1 _ _ _ Qy E2) as Q2.
      assert (Qz : Q z) by (apply R; auto).
      pose proof (keeps_swss o1 o2 K1 K2 _ _ _ Qz E3) as Q3.
      destruct (fields_on (st_host M)); [discriminate|]. intros X. injection X as <-. auto.
    Qed.
    Lemma keeps_split m o1 o2 : keeps o1 -> keeps o2 -> keeps (split_of m o1 o2).
    Proof. destruct m; [apply keeps_lie|apply keeps_strang|apply keeps_swss|apply keeps_jia]. Qed.

    Lemma keeps_advance m : keeps (op_fvm M) -> keeps (op_advect_q M) -> keeps (op_solve_src M) ->
      keeps (op_fields M) -> keeps (advance M (split_of m)).
    Proof.
      intros K1 K2 K3 K4 dt s s' H. unfold advance.
      destruct (String.eqb (method_q M) "FVM").
      { destruct (_ && _); intros E; [|eauto]. eapply keeps_split; [| | |exact E]; eauto. }
      destruct (String.eqb (method_q M) "ASL"); [|intros X; injection X as <-; auto].
      destruct (with_fields M).
      { destruct (String.eqb (method_p M) "ASL"); intros E;
          (eapply keeps_split; [| | |exact E]; eauto; apply keeps_split; auto). }
      intros E. eapply keeps_split; [| | |exact E]; eauto.
    Qed.
  End Invariant.

  Context (CK : clock_kept M).

  Lemma advance_clock m dt s s' : advance M (split_of m) dt s = Ok s' -> clock M s' = clock M s.
  Proof.
    intros H. pose proof (keeps_advance (fun x => clock M x = clock M s)) as K.
    eapply K; [| | | | | | | |exact H]; try reflexivity.
    - intros v x E. rewrite (ck_set_f M CK). exact E.
    - intros v x E. rewrite (ck_set_refs M CK). exact E.
    - intros a l b k x E. rewrite (ck_mix_refs M CK). exact E.
    - intros h x x' E O. rewrite (ck_fvm M CK _ _ _ O). exact E.
    - intros h x x' E O. rewrite (ck_advect M CK _ _ _ O). exact E.
    - intros h x x' E O. rewrite (ck_source M CK _ _ _ O). exact E.
    - intros h x x' E O. rewrite (ck_fields M CK _ _ _ O). exact E.
  Qed.

  Lemma finite_set_clock t s : finite_everywhere M (set_clock M t s) <-> finite_everywhere M s.
  Proof. unfold finite_everywhere. rewrite (ck_f M CK). reflexivity. Qed.

  (** One step: it ends normally with a finite f and the clock advanced, or raises
      SystemExit with a value of f that is not finite and the clock where it was. *)
  Lemma step_outcome m dt s s' e : step_of M m dt s = Ok (s', e) ->
    (e = None /\ finite_everywhere M s' /\ clock M s' = clock M s + dt)
    \/ (e = Some SystemExit /\ ~ finite_everywhere M s' /\ clock M s' = clock M s).
  Proof.
    intros H. apply step_inv in H. destruct H as (s1&A1&[(F&->&->)|(F&->&->)]);
      pose proof (advance_clock _ _ _ _ A1) as C; rewrite (ck_set_dt M CK) in C.
    - left. rewrite finite_set_clock, (ck_set_clock M CK), C. auto.
    - right. auto.
  Qed.

  Lemma run_clock h s s' : run_steps M h s = Ok (s', None) -> clock M s' = clock M s + elapsed h.
  Proof.
    revert s. induction h as [|(m&dt) h IH]; intros s; cbn [run_steps elapsed].
    - intros H. assert (X : s = s') by congruence. subst. lra.
    - destruct (step_of M m dt s) as [(s1&e)|] eqn:E; [cbn [rbind]|discriminate].
      destruct (step_outcome _ _ _ _ _ E) as [(->&_&C)|(->&_)]; [|discriminate].
      intros H. apply IH in H. lra.
  Qed.

  (** A run that ends with an exception: the steps before ended normally, and the
      last one produced a value that is not finite. *)
  Lemma run_stops h s s' e : run_steps M h s = Ok (s', Some e) ->
    exists h1 m dt h2 s1, h = h1 ++ (m, dt) :: h2 /\ run_steps M h1 s = Ok (s1, None)
      /\ step_of M m dt s1 = Ok (s', Some e) /\ e = SystemExit
      /\ ~ finite_everywhere M s' /\ clock M s' = clock M s + elapsed h1.
  Proof.
    revert s. induction h as [|(m&dt) h IH]; intros s; cbn [run_steps]; [discriminate|].
    destruct (step_of M m dt s) as [(s1&e1)|] eqn:E; [cbn [rbind]|discriminate].
    destruct (step_outcome _ _ _ _ _ E) as [(->&F&C)|(->&F&C)].
    - intros H. destruct (IH s1 H) as (h1&m'&dt'&h2&s2&->&R&St&X&Y&Z).
      exists ((m, dt) :: h1), m', dt', h2, s2. cbn [run_steps app elapsed]. rewrite E. cbn [rbind].
      repeat split; auto. lra.
    - intros H. assert (X : (s1, Some SystemExit) = (s', Some e)) by congruence. injection X as <- <-.
      exists [], m, dt, h, s. cbn [run_steps app elapsed]. repeat split; auto. lra.
  Qed.
End Stepper.

(** ** The program that writes down the clock *)
Section Noting.
  Context {S A V : Type} (M : stepper S A V) (CK : clock_kept M).
  Notation N := (noting_stepper M).

  Lemma notes_clock m dt s s' log0 log : advance N (split_of N m) dt (s, log0) = Ok (s', log) ->
    exists l, log = log0 ++ l /\ Forall (fun t => t = clock M s) l.
  Proof.
    intros H.
    pose (Q := fun x : S * list R => clock M (fst x) = clock M s
                  /\ exists l, snd x = log0 ++ l /\ Forall (fun t => t = clock M s) l).
    assert (K : forall op, keeps_clock M op -> keeps Q (noting (clock M) op)).
    { intros op KO h (x&l) (x'&l') (C&l1&E&F). unfold noting. cbn [fst snd] in *.
      destruct (op h x) eqn:O; [cbn [rbind]|discriminate]. intros Y. injection Y as <- <-.
      split; cbn [fst snd]; [rewrite (KO _ _ _ O); exact C|].
      exists (l1 ++ [clock M x]). rewrite E, app_assoc. split; auto.
      apply Forall_app. split; auto. }
    assert (X : Q (s', log)).
    { eapply (keeps_advance N Q); [| | | | | | | |exact H].
      - intros v x (C&X). split; [|exact X]. cbn. rewrite (ck_set_f M CK). exact C.
      - intros v x (C&X). split; [|exact X]. cbn. rewrite (ck_set_refs M CK). exact C.
      - intros a l b k x (C&X). split; [|exact X]. cbn. rewrite (ck_mix_refs M CK). exact C.
      - apply K, CK.
      - apply K, CK.
      - apply K, CK.
      - apply K, CK.
      - split; [reflexivity|]. exists []. rewrite app_nil_r. auto. }
    exact (proj2 X).
  Qed.

  (** Forgetting the notes gives the original program. *)
  Definition forget (x : res (S * list R)) : res S := let? (s, _) := x in Ok s.

  Definition sim (o : operator (S * list R)) (p : operator S) : Prop :=
    forall dt s l, forget (o dt (s, l)) = p dt s.

  Lemma sim_noting p : sim (noting (clock M) p) p.
  Proof. intros dt s l. unfold noting, forget; cbn. destruct (p dt s); reflexivity. Qed.

  Ltac run_sim X o dt s l :=
    let x := fresh "x" in let l' := fresh "l" in let E := fresh "E" in let E' := fresh "E'" in
    pose proof (X dt s l) as E; destruct (o dt (s, l)) as [(x&l')|] eqn:E';
    unfold forget in E; cbn [rbind] in E; rewrite <- E; clear E; cbn [rbind]; [|reflexivity].

  Lemma sim_lie o1 o2 p1 p2 : sim o1 p1 -> sim o2 p2 -> sim (lie o1 o2) (lie p1 p2).
  Proof.
    intros S1 S2 dt s l. unfold lie. run_sim S1 o1 dt s l. apply S2.
  Qed.
  Lemma sim_strang o1 o2 p1 p2 : sim o1 p1 -> sim o2 p2 -> sim (strang o1 o2) (strang p1 p2).
  Proof.
    intros S1 S2 dt s l. unfold strang. run_sim S1 o1 (1/2*dt) s l. run_sim S2 o2 dt x l0. apply S1.
  Qed.
  Lemma sim_swss o1 o2 p1 p2 : sim o1 p1 -> sim o2 p2 ->
    sim (swss (st_host N) o1 o2) (swss (st_host M) p1 p2).
  Proof.
    intros S1 S2 dt s l. unfold swss. cbn [st_host noting_stepper noting_host get_f set_f axpby fields_on get_refs set_refs mix_refs fst snd].
    run_sim S1 o1 dt s l. run_sim S2 o2 dt x l0. cbn [fst snd].
    destruct (fields_on (st_host M)).
    - cbn [fst snd]. match goal with |- context [o2 dt (?a, ?b)] => run_sim S2 o2 dt a b end.
      run_sim S1 o1 dt x1 l2. reflexivity.
    - match goal with |- context [o2 dt (?a, ?b)] => run_sim S2 o2 dt a b end.
      run_sim S1 o1 dt x1 l2. reflexivity.
  Qed.
  Lemma sim_jia o1 o2 p1 p2 : sim o1 p1 -> sim o2 p2 ->
    sim (jia (st_host N) o1 o2) (jia (st_host M) p1 p2).
  Proof.
    intros S1 S2 dt s l. unfold jia.
    pose proof (sim_strang o1 o2 p1 p2 S1 S2) as T1. pose proof (sim_strang o2 o1 p2 p1 S2 S1) as T2.
    pose proof (sim_swss o1 o2 p1 p2 S1 S2) as T3.
    run_sim T1 (strang o1 o2) dt s l.
    cbn [st_host noting_stepper noting_host get_f set_f axpby fields_on get_refs set_refs mix_refs fst snd] in *.
    destruct (fields_on (st_host M)); cbn [fst snd].
    - match goal with |- context [strang o2 o1 dt (?a, ?b)] => run_sim T2 (strang o2 o1) dt a b end. cbn [fst snd].
      match goal with |- context [swss _ o1 o2 dt (?a, ?b)] => run_sim T3 (swss (noting_host (st_host M)) o1 o2) dt a b end. reflexivity.
    - match goal with |- context [strang o2 o1 dt (?a, ?b)] => run_sim T2 (strang o2 o1) dt a b end. cbn [fst snd].
      match goal with |- context [swss _ o1 o2 dt (?a, ?b)] => run_sim T3 (swss (noting_host (st_host M)) o1 o2) dt a b end. reflexivity.
  Qed.
  Lemma sim_split m o1 o2 p1 p2 : sim o1 p1 -> sim o2 p2 -> sim (split_of N m o1 o2) (split_of M m p1 p2).
  Proof. destruct m; [apply sim_lie|apply sim_strang|apply sim_swss|apply sim_jia]. Qed.

  Lemma sim_advance m : sim (advance N (split_of N m)) (advance M (split_of M m)).
  Proof.
    intros dt s l. unfold advance. cbn [method_q method_p with_fields noting_stepper].
    pose proof (sim_noting (op_fvm M)) as F1. pose proof (sim_noting (op_advect_q M)) as F2.
    pose proof (sim_noting (op_solve_src M)) as F3. pose proof (sim_noting (op_fields M)) as F4.
    destruct (String.eqb (method_q M) "FVM").
    { destruct (_ && _); [apply sim_split; auto|apply F1]. }
    destruct (String.eqb (method_q M) "ASL"); [|reflexivity].
    destruct (with_fields M); [|apply sim_split; auto].
    destruct (String.eqb (method_p M) "ASL"); (apply sim_split; auto; apply sim_split; auto).
  Qed.

  Lemma step_noted m dt s log0 :
    (let? (s', e) := step_of N m dt (s, log0) in Ok (fst s', e)) = step_of M m dt s.
  Proof.
    rewrite !step_of_eq. unfold step. cbn [set_dt noting_stepper fst snd].
    pose proof (sim_advance m dt (set_dt M dt s) log0) as E. unfold forget in E.
    destruct (advance N (split_of N m) dt (set_dt M dt s, log0)) as [(x&l)|]; cbn [rbind] in E; rewrite <- E; cbn [rbind]; [|reflexivity].
    change (diverged N (x, l)) with (diverged M x). destruct (diverged M x); reflexivity.
  Qed.

  Lemma step_sees_start m dt s log0 s' log e : step_of N m dt (s, log0) = Ok ((s', log), e) ->
    step_of M m dt s = Ok (s', e) /\ exists l, log = log0 ++ l /\ Forall (fun t => t = clock M s) l.
  Proof.
    intros H. split.
    - rewrite <- (step_noted m dt s log0), H. reflexivity.
    - apply step_inv in H. destruct H as ((x&l)&A1&H).
      cbn [set_dt noting_stepper fst snd] in A1. apply notes_clock in A1. rewrite (ck_set_dt M CK) in A1.
      destruct H as [(_&_&E)|(_&_&E)]; [|injection E as <- <-; exact A1].
      cbn in E. injection E as _ ->. exact A1.
  Qed.
End Noting.

(** ** FVM in both spaces *)
Lemma fvm_step_eq {S A V} (M : stepper S A V) m dt s :
  method_q M = "FVM"%string -> method_p M = "FVM"%string \/ with_fields M = false ->
  step_of M m dt s = (let? s := op_fvm M dt (set_dt M dt s) in
    if diverged M s then Ok (s, Some SystemExit) else Ok (set_clock M (clock M s + dt) s, None)).
Proof.
  intros Hq Hp. rewrite step_of_eq. unfold step, advance. rewrite Hq, String.eqb_refl.
  replace (String.eqb (method_p M) "ASL" && with_fields M)%bool with false; [reflexivity|].
  destruct Hp as [->| ->]; [reflexivity|]. destruct (String.eqb _ _); reflexivity.
Qed.

Lemma fvm_run_eq {S A V} (M : stepper S A V) h h' s :
  method_q M = "FVM"%string -> method_p M = "FVM"%string \/ with_fields M = false ->
  map snd h = map snd h' -> run_steps M h s = run_steps M h' s.
Proof.
  intros Hq Hp. revert h' s. induction h as [|(m&dt) h IH]; intros [|(m'&dt') h'] s E; try discriminate; [reflexivity|].
  cbn [map snd] in E. injection E as -> E. cbn [run_steps].
  rewrite (fvm_step_eq M m dt' s Hq Hp), (fvm_step_eq M m' dt' s Hq Hp).
  match goal with |- rbind ?x _ = _ => destruct x as [(s1&[e|])|] end; cbn [rbind]; auto.
Qed.
