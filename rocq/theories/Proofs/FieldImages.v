(** The Yee scheme between mirrors: frozen fields, divergences, energy and images. *)
From Coq Require Import ZArith Reals Lia Lra String List Bool.
From Verif Require Import Base.Prelude Base.ZSum Model.Af Model.Petsc Model.Config
  Model.Em Spec.Domain Spec.Yee Spec.EmRun Spec.FieldWalls Proofs.EmLemmas Proofs.EmStep Proofs.EmGrids Proofs.EmInit Proofs.EmEnergy Proofs.EmProps.
Import ListNotations.
Local Open Scope R_scope.

Section Scheme.
  Context (w1 w2 : bool) (n1 n2 : Z) (h1 h2 e m : R).
  Let step := wall_step w1 w2 n1 n2 h1 h2 e m.
  Let run := wall_run w1 w2 n1 n2 h1 h2 e m.

  Lemma step_same dt J1 J2 J3 K1 K2 K3 Y Z : same Y Z ->
    (forall i j, J1 i j = K1 i j) -> (forall i j, J2 i j = K2 i j) -> (forall i j, J3 i j = K3 i j) ->
    same (step dt J1 J2 J3 Y) (step dt K1 K2 K3 Z).
  Proof.
    intros (A&B&C&D&E&F) X1 X2 X3.
    unfold step, wall_step, faraday_walls, ampere, before1, before2, same, fwd1, fwd2; cbn [E1 E2 E3 B1 B2 B3].
    repeat split; intros; rewrite ?A, ?B, ?C, ?D, ?E, ?F, ?X1, ?X2, ?X3; reflexivity.
  Qed.

  Lemma run_same l l' : same_steps l l' -> forall Y Z, same Y Z -> same (run l Y) (run l' Z).
  Proof.
    unfold run. induction 1 as [|(((dt&J1)&J2)&J3) (((dt'&K1)&K2)&K3) l l' (->&X1&X2&X3) _ IH]; intros Y Z H; cbn [wall_run]; auto.
    apply IH. apply step_same; auto.
  Qed.

  (** B that sits on a wall and is not driven across it. *)
  Lemma frozen1 l i j : w1 = true -> (i mod n1 = 0)%Z -> forall Y, B2 (run l Y) i j = B2 Y i j.
  Proof.
    intros -> HI. unfold run. induction l as [|(((dt&J1)&J2)&J3) l IH]; intros Y; cbn [wall_run]; auto.
    rewrite IH. unfold wall_step, faraday_walls; cbn [B2 ampere]. unfold before1. rewrite HI. cbn [andb Z.eqb].
    unfold Rminus, Rdiv. rewrite Rplus_opp_r. lra.
  Qed.
  Lemma frozen2 l i j : w2 = true -> (j mod n2 = 0)%Z -> forall Y, B1 (run l Y) i j = B1 Y i j.
  Proof.
    intros -> HI. unfold run. induction l as [|(((dt&J1)&J2)&J3) l IH]; intros Y; cbn [wall_run]; auto.
    rewrite IH. unfold wall_step, faraday_walls; cbn [B1 ampere]. unfold before2. rewrite HI. cbn [andb Z.eqb].
    unfold Rminus, Rdiv. rewrite Rplus_opp_r. lra.
  Qed.

  (** Divergence of B away from the walls. *)
  Lemma div_B_step dt J1 J2 J3 Y i j : h1 <> 0 -> h2 <> 0 ->
    (w1 = true -> (i mod n1 <> 0)%Z) -> (w2 = true -> (j mod n2 <> 0)%Z) ->
    div_B h1 h2 (step dt J1 J2 J3 Y) i j = div_B h1 h2 Y i j.
  Proof.
    intros X1 X2 I1 I2.
    assert (Q1 : (w1 && (i mod n1 =? 0)%Z)%bool = false).
    { destruct w1; auto. apply Z.eqb_neq. auto. }
    assert (Q2 : (w2 && (j mod n2 =? 0)%Z)%bool = false).
    { destruct w2; auto. apply Z.eqb_neq. auto. }
    unfold div_B, bwd1, bwd2, step, wall_step, faraday_walls, before1, before2; cbn [B1 B2 E3].
    rewrite Q1, Q2. set (Z0 := ampere h1 h2 e m dt J1 J2 J3 Y).
    change (B1 Z0) with (B1 Y). change (B2 Z0) with (B2 Y). field. auto.
  Qed.
  Lemma div_B_run l i j : h1 <> 0 -> h2 <> 0 ->
    (w1 = true -> (i mod n1 <> 0)%Z) -> (w2 = true -> (j mod n2 <> 0)%Z) ->
    forall Y, div_B h1 h2 (run l Y) i j = div_B h1 h2 Y i j.
  Proof.
    intros X1 X2 I1 I2. unfold run. induction l as [|(((dt&J1)&J2)&J3) l IH]; intros Y; cbn [wall_run]; auto.
    rewrite IH. apply div_B_step; auto.
  Qed.

  (** Quiet walls stay quiet. *)
  Lemma quiet1_step dt J1 J2 J3 Y : w1 = true -> (forall i j, (i mod n1 = 0)%Z -> J1 i j = 0) -> quiet1 n1 Y -> quiet1 n1 (step dt J1 J2 J3 Y).
  Proof.
    intros -> HJ Q. assert (QE : forall i j, (i mod n1 = 0)%Z -> E1 (ampere h1 h2 e m dt J1 J2 J3 Y) i j = 0).
    { intros i j HI. cbn [ampere E1]. unfold fwd2. destruct (Q i j HI) as (->&_&->), (Q i (j + 1)%Z HI) as (_&_&->).
      rewrite (HJ i j HI). unfold Rdiv. ring. }
    intros i j HI. unfold step, wall_step, faraday_walls; cbn [E1 B2 B3].
    split; [apply QE; auto|]. unfold before1, before2. rewrite HI. cbn [andb Z.eqb].
    change (B2 (ampere h1 h2 e m dt J1 J2 J3 Y)) with (B2 Y). change (B3 (ampere h1 h2 e m dt J1 J2 J3 Y)) with (B3 Y).
    destruct (Q i j HI) as (_&->&->). rewrite !(QE i _ HI). split; [unfold Rdiv; ring|].
    destruct (w2 && _)%bool; unfold Rdiv; ring.
  Qed.
  Lemma quiet2_step dt J1 J2 J3 Y : w2 = true -> (forall i j, (j mod n2 = 0)%Z -> J2 i j = 0) -> quiet2 n2 Y -> quiet2 n2 (step dt J1 J2 J3 Y).
  Proof.
    intros -> HJ Q. assert (QE : forall i j, (j mod n2 = 0)%Z -> E2 (ampere h1 h2 e m dt J1 J2 J3 Y) i j = 0).
    { intros i j HI. cbn [ampere E2]. unfold fwd1. destruct (Q i j HI) as (->&_&->), (Q (i + 1)%Z j HI) as (_&_&->).
      rewrite (HJ i j HI). unfold Rdiv. ring. }
    intros i j HI. unfold step, wall_step, faraday_walls; cbn [E2 B1 B3].
    split; [apply QE; auto|]. unfold before1, before2. rewrite HI. cbn [andb Z.eqb].
    change (B1 (ampere h1 h2 e m dt J1 J2 J3 Y)) with (B1 Y). change (B3 (ampere h1 h2 e m dt J1 J2 J3 Y)) with (B3 Y).
    destruct (Q i j HI) as (_&->&->). rewrite ?(QE i _ HI), ?(QE (i - 1)%Z _ HI). split; [unfold Rdiv; ring|].
    destruct (w1 && _)%bool; rewrite ?(QE i _ HI), ?(QE (i - 1)%Z _ HI); unfold Rdiv; ring.
  Qed.
  Lemma quiet1_run l : w1 = true -> no_crossing1 n1 l -> forall Y, quiet1 n1 Y -> quiet1 n1 (run l Y).
  Proof.
    intros W. unfold run. induction 1 as [|(((dt&J1)&J2)&J3) l HJ _ IH]; intros Y H; cbn [wall_run]; auto.
    apply IH. apply quiet1_step; auto.
  Qed.
  Lemma quiet2_run l : w2 = true -> no_crossing2 n2 l -> forall Y, quiet2 n2 Y -> quiet2 n2 (run l Y).
  Proof.
    intros W. unfold run. induction 1 as [|(((dt&J1)&J2)&J3) l HJ _ IH]; intros Y H; cbn [wall_run]; auto.
    apply IH. apply quiet2_step; auto.
  Qed.
End Scheme.

(** ** Images along q1 *)
Section Images.
  Context (n : Z) (N : (0 < n)%Z).
  Lemma mod_pred i : ((i - 1) mod (2 * n) = if i mod (2 * n) =? 0 then 2 * n - 1 else i mod (2 * n) - 1)%Z.
  Proof.
    pose proof (Z.mod_pos_bound i (2 * n) ltac:(lia)). pose proof (Z.div_mod i (2 * n) ltac:(lia)).
    symmetry. destruct (Z.eqb_spec (i mod (2 * n)) 0).
    - apply (Z.mod_unique _ _ (i / (2 * n) - 1)); lia.
    - apply (Z.mod_unique _ _ (i / (2 * n))); lia.
  Qed.
  Lemma mod_next i : ((i + 1) mod (2 * n) = if i mod (2 * n) =? 2 * n - 1 then 0 else i mod (2 * n) + 1)%Z.
  Proof.
    pose proof (Z.mod_pos_bound i (2 * n) ltac:(lia)). pose proof (Z.div_mod i (2 * n) ltac:(lia)).
    symmetry. destruct (Z.eqb_spec (i mod (2 * n)) (2 * n - 1)).
    - apply (Z.mod_unique _ _ (i / (2 * n) + 1)); lia.
    - apply (Z.mod_unique _ _ (i / (2 * n))); lia.
  Qed.
  Lemma small_mod x : (0 <= x <= n)%Z -> ((x mod n =? 0)%Z = ((x =? 0) || (x =? n))%Z%bool).
  Proof.
    intros H. destruct (Z.eq_dec x n) as [->|]; [rewrite Z_mod_same_full; lia|].
    rewrite Z.mod_small by lia. lia.
  Qed.

  (** Odd quantities have even differences, and conversely. *)
  Lemma fwd_odd h u i j : (forall j, u 0%Z j = 0) -> (forall j, u n j = 0) ->
    fwd1 h (odd1 n u) i j = even1 n (fwd1 h u) i j.
  Proof.
    intros Z0 Zn. unfold fwd1, odd1, even1; cbv beta zeta. rewrite mod_next.
    pose proof (Z.mod_pos_bound i (2 * n) ltac:(lia)). set (x := (i mod (2 * n))%Z) in *.
    destruct (Z.eqb_spec x (2 * n - 1)).
    - rewrite e. destruct (Z.ltb_spec (2 * n - 1) n); [lia|]. destruct (Z.ltb_spec 0 n); [|lia].
      replace (2 * n - 1 - (2 * n - 1))%Z with 0%Z by lia. replace (2 * n - (2 * n - 1))%Z with 1%Z by lia.
      rewrite Z0. change (0 + 1)%Z with 1%Z. unfold Rdiv. ring.
    - destruct (Z.ltb_spec x n), (Z.ltb_spec (x + 1) n); try lia; try reflexivity.
      + replace (2 * n - (x + 1))%Z with n by lia. replace (x + 1)%Z with n by lia. rewrite Zn. unfold Rdiv. ring.
      + replace (2 * n - 1 - x + 1)%Z with (2 * n - x)%Z by lia. replace (2 * n - (x + 1))%Z with (2 * n - 1 - x)%Z by lia.
        unfold Rdiv. ring.
  Qed.
  Lemma bwd_even h u i j :
    (even1 n u i j - even1 n u (i - 1)%Z j) / h = odd1 n (fun i j => (u i j - before1 true n u i j) / h) i j.
  Proof.
    unfold odd1, even1, before1; cbv beta zeta. rewrite mod_pred. cbn [andb].
    pose proof (Z.mod_pos_bound i (2 * n) ltac:(lia)). set (x := (i mod (2 * n))%Z) in *.
    destruct (Z.eqb_spec x 0).
    - rewrite e. destruct (Z.ltb_spec 0 n); [|lia]. destruct (Z.ltb_spec (2 * n - 1) n); [lia|].
      replace (2 * n - 1 - (2 * n - 1))%Z with 0%Z by lia. rewrite small_mod by lia. reflexivity.
    - destruct (Z.ltb_spec x n), (Z.ltb_spec (x - 1) n); try lia.
      + rewrite small_mod by lia. destruct (Z.eqb_spec x 0); [lia|]. destruct (Z.eqb_spec x n); [lia|]. reflexivity.
      + replace (2 * n - x)%Z with n by lia. replace (2 * n - 1 - x)%Z with (x - 1)%Z by lia.
        rewrite small_mod by lia. destruct (Z.eqb_spec n n); [|lia]. rewrite orb_true_r. unfold Rdiv. ring.
      + rewrite small_mod by lia. destruct (Z.eqb_spec (2 * n - x) 0); [lia|]. destruct (Z.eqb_spec (2 * n - x) n); [lia|].
        cbn [orb]. replace (2 * n - 1 - (x - 1))%Z with (2 * n - x)%Z by lia.
        replace (2 * n - x - 1)%Z with (2 * n - 1 - x)%Z by lia. unfold Rdiv. ring.
  Qed.

  Context (w2 : bool) (n2 : Z) (h1 h2 e m : R).
  Lemma before1_off k u i j : before1 false k u i j = u (i - 1)%Z j.
  Proof. reflexivity. Qed.

  Lemma images1_step dt J1 J2 J3 Y :
    (forall j, B2 Y 0%Z j = 0 /\ B3 Y 0%Z j = 0) -> (forall j, B2 Y n j = 0 /\ B3 Y n j = 0) ->
    same (wall_step false w2 (2 * n) n2 h1 h2 e m dt (odd1 n J1) (even1 n J2) (even1 n J3) (images1 n Y))
         (images1 n (wall_step true w2 n n2 h1 h2 e m dt J1 J2 J3 Y)).
  Proof.
    intros Q0 Qn.
    assert (A : same (ampere h1 h2 e m dt (odd1 n J1) (even1 n J2) (even1 n J3) (images1 n Y))
                  (images1 n (ampere h1 h2 e m dt J1 J2 J3 Y))).
    { unfold same, images1, ampere; cbn [E1 E2 E3 B1 B2 B3]. repeat split; intros i j; try reflexivity.
      - unfold odd1, fwd2; cbv zeta beta. destruct (_ <? _)%Z; [reflexivity|unfold Rdiv; ring].
      - rewrite fwd_odd by (intros k; first [apply (Q0 k)|apply (Qn k)]).
        unfold even1; cbv zeta beta. destruct (_ <? _)%Z; reflexivity.
      - rewrite fwd_odd by (intros k; first [apply (Q0 k)|apply (Qn k)]).
        unfold even1, fwd2; cbv zeta beta. destruct (_ <? _)%Z; reflexivity. }
    unfold wall_step. revert A. set (P := ampere h1 h2 e m dt J1 J2 J3 Y).
    generalize (ampere h1 h2 e m dt (odd1 n J1) (even1 n J2) (even1 n J3) (images1 n Y)). intros P' (A1&A2&A3&A4&A5&A6).
    cbn [images1 E1 E2 E3 B1 B2 B3] in *.
    unfold same, faraday_walls, images1; cbn [E1 E2 E3 B1 B2 B3].
    split; [|split; [|split; [|split; [|split]]]]; auto; intros i j; rewrite ?before1_off, ?A1, ?A2, ?A3, ?A4, ?A5, ?A6.
    - unfold before2. rewrite !A3. unfold even1; cbv zeta beta. destruct (_ && _)%bool, (_ <? n)%Z; reflexivity.
    - rewrite bwd_even. unfold odd1; cbv zeta beta. destruct (_ <? n)%Z; [reflexivity|ring].
    - rewrite bwd_even. unfold before2. rewrite !A1. unfold odd1; cbv zeta beta.
      destruct (_ && _)%bool, (_ <? n)%Z; try reflexivity; unfold Rdiv; ring.
  Qed.

  Lemma images1_run l : no_crossing1 n l -> forall Y, quiet1 n Y ->
    same (wall_run false w2 (2 * n) n2 h1 h2 e m (step_images1 n l) (images1 n Y))
         (images1 n (wall_run true w2 n n2 h1 h2 e m l Y)).
  Proof.
    induction 1 as [|(((dt&J1)&J2)&J3) l HJ _ IH]; intros Y Q; [unfold same; repeat split; reflexivity|].
    unfold step_images1; cbn [map wall_run]. fold (step_images1 n l).
    eapply same_trans; [apply (run_same false w2 (2 * n) n2 h1 h2 e m _ (step_images1 n l)); [|apply images1_step]|].
    - clear. induction l as [|(((dt&J1)&J2)&J3) l IH]; constructor; auto.
    - intros j. destruct (Q 0%Z j ltac:(apply Zmod_0_l)) as (_&X); exact X.
    - intros j. destruct (Q n j ltac:(apply Z_mod_same_full)) as (_&X); exact X.
    - apply IH. apply (quiet1_step true w2 n n2 h1 h2 e m); auto.
  Qed.
End Images.

(** ** Images along q2 *)
Section Images2.
  Context (n : Z) (N : (0 < n)%Z) (w1 : bool) (n1 : Z) (h1 h2 e m : R).
  Lemma fwd_odd2 h u i j : (forall i, u i 0%Z = 0) -> (forall i, u i n = 0) ->
    fwd2 h (odd2 n u) i j = even2 n (fwd2 h u) i j.
  Proof. intros A B. exact (fwd_odd n N h (fun y x => u x y) j i A B). Qed.
  Lemma bwd_even2 h u i j :
    (even2 n u i j - even2 n u i (j - 1)%Z) / h = odd2 n (fun i j => (u i j - before2 true n u i j) / h) i j.
  Proof. exact (bwd_even n N h (fun y x => u x y) j i). Qed.
  Lemma before2_off k u i j : before2 false k u i j = u i (j - 1)%Z.
  Proof. reflexivity. Qed.

  Lemma images2_step dt J1 J2 J3 Y :
    (forall i, B1 Y i 0%Z = 0 /\ B3 Y i 0%Z = 0) -> (forall i, B1 Y i n = 0 /\ B3 Y i n = 0) ->
    same (wall_step w1 false n1 (2 * n) h1 h2 e m dt (even2 n J1) (odd2 n J2) (even2 n J3) (images2 n Y))
         (images2 n (wall_step w1 true n1 n h1 h2 e m dt J1 J2 J3 Y)).
  Proof.
    intros Q0 Qn.
    assert (A : same (ampere h1 h2 e m dt (even2 n J1) (odd2 n J2) (even2 n J3) (images2 n Y))
                  (images2 n (ampere h1 h2 e m dt J1 J2 J3 Y))).
    { unfold same, images2, ampere; cbn [E1 E2 E3 B1 B2 B3]. repeat split; intros i j; try reflexivity.
      - rewrite fwd_odd2 by (intros k; first [apply (Q0 k)|apply (Qn k)]).
        unfold even2, even1; cbv zeta beta. destruct (_ <? _)%Z; reflexivity.
      - unfold odd2, odd1, fwd1; cbv zeta beta. destruct (_ <? _)%Z; [reflexivity|unfold Rdiv; ring].
      - rewrite fwd_odd2 by (intros k; first [apply (Q0 k)|apply (Qn k)]).
        unfold even2, even1, fwd1; cbv zeta beta. destruct (_ <? _)%Z; reflexivity. }
    unfold wall_step. revert A. set (P := ampere h1 h2 e m dt J1 J2 J3 Y).
    generalize (ampere h1 h2 e m dt (even2 n J1) (odd2 n J2) (even2 n J3) (images2 n Y)). intros P' (A1&A2&A3&A4&A5&A6).
    cbn [images2 E1 E2 E3 B1 B2 B3] in *.
    unfold same, faraday_walls, images2; cbn [E1 E2 E3 B1 B2 B3].
    split; [|split; [|split; [|split; [|split]]]]; auto; intros i j; rewrite ?before2_off, ?A1, ?A2, ?A3, ?A4, ?A5, ?A6.
    - rewrite bwd_even2. unfold odd2, odd1; cbv zeta beta. destruct (_ <? n)%Z; [reflexivity|ring].
    - unfold before1. rewrite !A3. unfold even2, even1; cbv zeta beta. destruct (_ && _)%bool, (_ <? n)%Z; reflexivity.
    - rewrite bwd_even2. unfold before1. rewrite !A2. unfold odd2, odd1; cbv zeta beta.
      destruct (_ && _)%bool, (_ <? n)%Z; try reflexivity; unfold Rdiv; ring.
  Qed.

  Lemma images2_run l : no_crossing2 n l -> forall Y, quiet2 n Y ->
    same (wall_run w1 false n1 (2 * n) h1 h2 e m (step_images2 n l) (images2 n Y))
         (images2 n (wall_run w1 true n1 n h1 h2 e m l Y)).
  Proof.
    induction 1 as [|(((dt&J1)&J2)&J3) l HJ _ IH]; intros Y Q; [unfold same; repeat split; reflexivity|].
    unfold step_images2; cbn [map wall_run]. fold (step_images2 n l).
    eapply same_trans; [apply (run_same w1 false n1 (2 * n) h1 h2 e m _ (step_images2 n l)); [|apply images2_step]|].
    - clear. induction l as [|(((dt&J1)&J2)&J3) l IH]; constructor; auto.
    - intros j. destruct (Q j 0%Z ltac:(apply Zmod_0_l)) as (_&X); exact X.
    - intros j. destruct (Q j n ltac:(apply Z_mod_same_full)) as (_&X); exact X.
    - apply IH. apply (quiet2_step w1 true n1 n h1 h2 e m); auto.
  Qed.
End Images2.

(** ** Energy between quiet walls *)
Section Energy.
  Context (w1 w2 : bool) (n1 n2 : Z) (P1 : (0 < n1)%Z) (P2 : (0 < n2)%Z) (h1 h2 e m : R)
    (X1 : h1 <> 0) (X2 : h2 <> 0) (Xe : e <> 0) (Xm : m <> 0).
  Let quiet_walls := quiet_walls w1 w2 n1 n2.
  Let none : grid := fun _ _ => 0.
  Let wstep dt := wall_step w1 w2 n1 n2 h1 h2 e m dt none none none.
  Let ystep dt := yee_step h1 h2 e m dt none none none.

  Lemma quiet_step dt Y : quiet_walls Y -> quiet_walls (wstep dt Y).
  Proof. intros (A&B). split; intros W; [apply quiet1_step|apply quiet2_step]; auto; reflexivity. Qed.

  Lemma at_wall1 Y i j : quiet_walls Y -> (w1 && (i mod n1 =? 0)%Z)%bool = true -> B2 Y i j = 0 /\ B3 Y i j = 0.
  Proof. intros (A&_) H. apply andb_true_iff in H. destruct H as (W&H). apply Z.eqb_eq in H. destruct (A W i j H) as (_&B); exact B. Qed.
  Lemma at_wall2 Y i j : quiet_walls Y -> (w2 && (j mod n2 =? 0)%Z)%bool = true -> B1 Y i j = 0 /\ B3 Y i j = 0.
  Proof. intros (_&A) H. apply andb_true_iff in H. destruct H as (W&H). apply Z.eqb_eq in H. destruct (A W i j H) as (_&B); exact B. Qed.

  Lemma energy_forward dt Y : quiet_walls Y -> energy n1 n2 e m Y (wstep dt Y) = energy n1 n2 e m Y (ystep dt Y).
  Proof.
    intros Q. unfold energy. apply total_ext. intros i j.
    unfold wstep, ystep, wall_step, yee_step, faraday_walls, faraday; cbn [E1 E2 E3 B1 B2 B3].
    set (Z0 := ampere h1 h2 e m dt none none none Y).
    change (B1 Z0) with (B1 Y). change (B2 Z0) with (B2 Y). change (B3 Z0) with (B3 Y).
    f_equal. f_equal. unfold before1, before2, bwd1, bwd2.
    destruct (w1 && (i mod n1 =? 0)%Z)%bool eqn:C1, (w2 && (j mod n2 =? 0)%Z)%bool eqn:C2; try reflexivity;
      try (destruct (at_wall1 Y i j Q C1) as (->&->)); try (destruct (at_wall2 Y i j Q C2) as (->&?));
      rewrite ?H; try ring.
  Qed.

  (** The lattice one periodic step before. *)
  Definition back dt (Y : lattice) : lattice :=
    let b1 := fun i j => B1 Y i j + dt * bwd2 h2 (E3 Y) i j in
    let b2 := fun i j => B2 Y i j - dt * bwd1 h1 (E3 Y) i j in
    let b3 := fun i j => B3 Y i j + dt * (bwd1 h1 (E2 Y) i j - bwd2 h2 (E1 Y) i j) in
    Lattice (fun i j => E1 Y i j - dt * (fwd2 h2 b3 i j / (m * e)))
            (fun i j => E2 Y i j - dt * (- fwd1 h1 b3 i j / (m * e)))
            (fun i j => E3 Y i j - dt * ((fwd1 h1 b2 i j - fwd2 h2 b1 i j) / (m * e))) b1 b2 b3.

  Lemma back_step dt Y : same Y (ystep dt (back dt Y)).
  Proof.
    unfold ystep, yee_step. set (A := ampere h1 h2 e m dt none none none (back dt Y)).
    assert (Q1 : forall i j, E1 A i j = E1 Y i j) by (intros; subst A; cbn [ampere back E1 B3]; unfold none; field; auto).
    assert (Q2 : forall i j, E2 A i j = E2 Y i j) by (intros; subst A; cbn [ampere back E2 B3]; unfold none; field; auto).
    assert (Q3 : forall i j, E3 A i j = E3 Y i j) by (intros; subst A; cbn [ampere back E3 B1 B2]; unfold none; field; auto).
    unfold same, faraday; cbn [E1 E2 E3 B1 B2 B3]. repeat split; intros i j; rewrite ?Q1, ?Q2, ?Q3; auto;
      unfold bwd1, bwd2; rewrite ?Q1, ?Q2, ?Q3; subst A; cbn [ampere back B1 B2 B3]; unfold bwd1, bwd2; ring.
  Qed.

  Lemma energy_backward dt Y0 Y1 : same Y1 (wstep dt Y0) -> quiet_walls Y1 ->
    energy n1 n2 e m Y0 Y1 = energy n1 n2 e m (back dt Y1) Y1.
  Proof.
    intros (S1&S2&S3&S4&S5&S6) Q. unfold energy. apply total_ext. intros i j.
    unfold wstep, wall_step, faraday_walls in S1, S2, S3, S4, S5, S6; cbn [E1 E2 E3 B1 B2 B3] in S1, S2, S3, S4, S5, S6.
    set (Z0 := ampere h1 h2 e m dt none none none Y0) in *.
    change (B1 Z0) with (B1 Y0) in *. change (B2 Z0) with (B2 Y0) in *. change (B3 Z0) with (B3 Y0) in *.
    cbn [back B1 B2 B3].
    f_equal. f_equal. unfold bwd1, bwd2. rewrite !S1, !S2, !S3.
    pose proof (S4 i j) as T4. pose proof (S5 i j) as T5. pose proof (S6 i j) as T6.
    unfold before1, before2 in T4, T5, T6.
    assert (V4 : B1 Y0 i j * B1 Y1 i j = (B1 Y1 i j + dt * ((E3 Z0 i j - E3 Z0 i (j - 1)%Z) / h2)) * B1 Y1 i j).
    { destruct (w2 && (j mod n2 =? 0)%Z)%bool eqn:C2; [destruct (at_wall2 Y1 i j Q C2) as (->&_); ring|].
      rewrite T4. ring. }
    assert (V5 : B2 Y0 i j * B2 Y1 i j = (B2 Y1 i j - dt * ((E3 Z0 i j - E3 Z0 (i - 1)%Z j) / h1)) * B2 Y1 i j).
    { destruct (w1 && (i mod n1 =? 0)%Z)%bool eqn:C1; [destruct (at_wall1 Y1 i j Q C1) as (->&_); ring|].
      rewrite T5. ring. }
    assert (V6 : B3 Y0 i j * B3 Y1 i j = (B3 Y1 i j + dt * ((E2 Z0 i j - E2 Z0 (i - 1)%Z j) / h1 - (E1 Z0 i j - E1 Z0 i (j - 1)%Z) / h2)) * B3 Y1 i j).
    { destruct (w1 && (i mod n1 =? 0)%Z)%bool eqn:C1; [destruct (at_wall1 Y1 i j Q C1) as (_&->); ring|].
      destruct (w2 && (j mod n2 =? 0)%Z)%bool eqn:C2; [destruct (at_wall2 Y1 i j Q C2) as (_&->); ring|].
      rewrite T6. ring. }
    rewrite V4, V5, V6. reflexivity.
  Qed.

  Lemma per_ampere dt Y : per_lat n1 n2 Y -> per_lat n1 n2 (ystep dt Y).
  Proof.
    intros ((A1&A1')&(A2&A2')&(A3&A3')&(A4&A4')&(A5&A5')&(A6&A6')).
    assert (S1 : forall (u : grid), (forall i j, u (i mod n1)%Z j = u i j) -> forall i j,
       u (i mod n1 + 1)%Z j = u (i + 1)%Z j /\ u (i mod n1 - 1)%Z j = u (i - 1)%Z j).
    { intros u H i j. split; [rewrite <- (H (i + 1)%Z), <- (H (i mod n1 + 1)%Z)|rewrite <- (H (i - 1)%Z), <- (H (i mod n1 - 1)%Z)].
      - rewrite Zplus_mod_idemp_l; reflexivity. - rewrite Zminus_mod_idemp_l; reflexivity. }
    assert (S2 : forall (u : grid), (forall i j, u i (j mod n2)%Z = u i j) -> forall i j,
       u i (j mod n2 + 1)%Z = u i (j + 1)%Z /\ u i (j mod n2 - 1)%Z = u i (j - 1)%Z).
    { intros u H i j. split; [rewrite <- (H i (j + 1)%Z), <- (H i (j mod n2 + 1)%Z)|rewrite <- (H i (j - 1)%Z), <- (H i (j mod n2 - 1)%Z)].
      - rewrite Zplus_mod_idemp_l; reflexivity. - rewrite Zminus_mod_idemp_l; reflexivity. }
    assert (QA : per_lat n1 n2 (ampere h1 h2 e m dt none none none Y)).
    { unfold per_lat, per, ampere, fwd1, fwd2; cbn [E1 E2 E3 B1 B2 B3].
      repeat split; intros i j;
        rewrite ?(proj1 (S1 _ A4 _ _)), ?(proj1 (S1 _ A5 _ _)), ?(proj1 (S1 _ A6 _ _)),
                ?(proj1 (S2 _ A4' _ _)), ?(proj1 (S2 _ A5' _ _)), ?(proj1 (S2 _ A6' _ _)),
                ?A1, ?A2, ?A3, ?A4, ?A5, ?A6, ?A1', ?A2', ?A3', ?A4', ?A5', ?A6'; reflexivity. }
    unfold ystep, yee_step. revert QA. generalize (ampere h1 h2 e m dt none none none Y). clear A1 A1' A2 A2' A3 A3' A4 A4' A5 A5' A6 A6'.
    intros U ((A1&A1')&(A2&A2')&(A3&A3')&(A4&A4')&(A5&A5')&(A6&A6')).
    unfold per_lat, per, faraday, bwd1, bwd2; cbn [E1 E2 E3 B1 B2 B3].
    repeat split; intros i j;
        rewrite ?(proj2 (S1 _ A1 _ _)), ?(proj2 (S1 _ A2 _ _)), ?(proj2 (S1 _ A3 _ _)),
                ?(proj2 (S2 _ A1' _ _)), ?(proj2 (S2 _ A2' _ _)), ?(proj2 (S2 _ A3' _ _)),
                ?A1, ?A2, ?A3, ?A4, ?A5, ?A6, ?A1', ?A2', ?A3', ?A4', ?A5', ?A6'; reflexivity.
  Qed.

  Lemma walls_energy dt Y0 Y1 : per_lat n1 n2 Y1 -> same Y1 (wstep dt Y0) -> quiet_walls Y1 ->
    energy n1 n2 e m Y1 (wstep dt Y1) = energy n1 n2 e m Y0 Y1.
  Proof.
    intros PE S Q. rewrite energy_forward by auto. rewrite (energy_backward dt Y0 Y1 S Q).
    apply (energy_conserved n1 n2 P1 P2 h1 h2 e m dt none none none (back dt Y1) Y1 (ystep dt Y1)); auto; try reflexivity.
    - apply per_ampere; auto.
    - apply back_step.
    - apply same_refl.
  Qed.

  Lemma walls_bound dt Y0 Y1 : 0 < e -> 0 < m -> courant2 h1 h2 e m dt < 1 ->
    per_lat n1 n2 Y1 -> same Y1 (wstep dt Y0) -> quiet_walls Y1 ->
    (1 - courant2 h1 h2 e m dt) / 2 * field_norm2 n1 n2 e m Y1 <= energy n1 n2 e m Y0 Y1.
  Proof.
    intros E0 M0 C PE S Q. rewrite (energy_backward dt Y0 Y1 S Q).
    apply (energy_bound n1 n2 P1 P2 h1 h2 e m dt none none none); auto. apply back_step.
  Qed.
End Energy.
