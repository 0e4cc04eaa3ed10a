(** What swss does with the fields. *)
From Coq Require Import ZArith Reals Lra Lia String List Bool.
From Verif Require Import Base.Prelude Model.Af Model.Petsc Model.Config Model.Fvm Model.Em Model.Splitting Model.Timestep Model.Solver Spec.Swss Proofs.EmInit.
Local Open Scope R_scope.

Lemma swss_fields P o1 o2 dt s s' : fields_enabled (pc P) = true -> swss (solver_host P) o1 o2 dt s = Ok s' ->
  exists a1 a2 b1 b2, o1 dt s = Ok a1 /\ o2 dt a1 = Ok a2 /\ o2 dt (rewound s a2) = Ok b1 /\ o1 dt b1 = Ok b2
  /\ halfway (f_of b2) (f_of a2) (f_of s')
  /\ halfway (cc_val (fields b2)) (mem (fields b2) (cc (fields a2))) (cc_val (fields s'))
  /\ halfway (yee_val (fields b2)) (mem (fields b2) (yee (fields a2))) (yee_val (fields s'))
  /\ time_elapsed s' = time_elapsed b2 /\ ftime (fields s') = ftime (fields b2).
Proof.
  intros FE H. unfold swss in H. cbn [solver_host get_f set_f fields_on get_refs set_refs mix_refs axpby] in H. rewrite FE in H.
  destruct (o1 dt s) as [a1|e] eqn:Q1; [cbn [rbind] in H|discriminate]. destruct (o2 dt a1) as [a2|e] eqn:Q2; [cbn [rbind] in H|discriminate].
  change (o2 dt _) with (o2 dt (rewound s a2)) in H.
  destruct (o2 dt (rewound s a2)) as [b1|e] eqn:Q3; [cbn [rbind] in H|discriminate]. destruct (o1 dt b1) as [b2|e] eqn:Q4; [cbn [rbind] in H|discriminate].
  exists a1, a2, b1, b2. split; [reflexivity|split; [exact Q2|split; [exact Q3|split; [exact Q4|]]]].
  apply Ok_inj in H. subst s'. split; [|split; [|split; [|split; reflexivity]]]; intros r1 r2; (split; [|intros i j k l]);
    cbn [set_fields set_f_of fields cc_val yee_val rebind_both bind_yee bind_cc write mem cc yee next fst snd].
  - repeat split.
  - cbn. lra.
  - unfold cc_val; cbn -[Nat.eqb]. rewrite (proj2 (Nat.eqb_neq (next (fields b2)) (S (next (fields b2))))) by lia. rewrite Nat.eqb_refl. repeat split.
  - unfold cc_val; cbn -[Nat.eqb]. rewrite (proj2 (Nat.eqb_neq (next (fields b2)) (S (next (fields b2))))) by lia. rewrite Nat.eqb_refl.
    unfold dmap2, amap2; cbn [el]. lra.
  - unfold yee_val; cbn -[Nat.eqb]. rewrite Nat.eqb_refl. repeat split.
  - unfold yee_val; cbn -[Nat.eqb]. rewrite Nat.eqb_refl. unfold dmap2, amap2; cbn [el]. lra.
Qed.
