(** Fixed points, runs and balances of the electronic collision operator. *)
From Coq Require Import ZArith Reals List Lra Lia String Bool.
From Verif Require Import Base.Prelude Base.ZSum Model.Electronic Spec.Electrons Proofs.MatrixLemmas
  Proofs.ElectronLemmas.
Import ListNotations.
Local Open Scope R_scope.

Section Fixed.
  Context (k : R) (N : Z) (E px py f : Z -> R).

  Lemma newton_stays ws s : 0 < k -> 0 < T_ee s ->
    newton k N E px py f ws (eqm s) (eqm s) <-> matches k N E px py f ws (eqm s).
  Proof.
    intros Hk HT. rewrite newton_linear by assumption. unfold matches.
    assert (Hz : forall w, zsum N (fun x => w x * slope k E px py s (eqm s) x) = 0).
    { intros w. rewrite <- (zsum_zero N). apply zsum_ext. intros. unfold slope, eqm. cbn. ring. }
    split; apply Forall_impl; intros w H; rewrite Hz in *; lra.
  Qed.

  Lemma eqm_inj s s' : eqm s = eqm s' -> s = s'.
  Proof. destruct s, s'. unfold eqm. cbn. intros H. now injection H as -> -> -> ->. Qed.

  Lemma ee_fixed s : 0 < k -> 0 < T_ee s -> independent N [one; E; px; py] ->
    ee_step N k E px py f s = s <-> matches k N E px py f [one; E; px; py] (eqm s).
  Proof.
    intros Hk HT Hi. rewrite <- newton_stays by assumption. rewrite ee_step_newton by assumption.
    split; [now intros ->|]. intros H. now apply eqm_inj in H.
  Qed.

  Lemma ee_T_fixed s : 0 < k -> 0 < T_ee s -> independent N [one; px; py] ->
    ee_step_T N k E px py f s = s <-> matches k N E px py f [one; px; py] (eqm s).
  Proof.
    intros Hk HT Hi. rewrite <- newton_stays by assumption.
    pose proof (ee_step_T_newton k N E px py f s (eqm s) Hk HT Hi) as H.
    split.
    - intros Hs. apply H. now rewrite Hs.
    - intros Hn. assert (H' : eqm s = eqm (ee_step_T N k E px py f s)) by (apply H; split; [exact Hn|reflexivity]).
      now apply eqm_inj in H'.
  Qed.

  Lemma at_rest_inj s s' : at_rest s = at_rest s' -> s = s'.
  Proof. destruct s, s'. unfold at_rest. cbn. intros H. now injection H as -> ->. Qed.

  Lemma defect_fixed s : 0 < k -> 0 < snd s -> independent N [one; E] ->
    defect_step N k E f s = s <-> matches k N E px py f [one; E] (at_rest s).
  Proof.
    intros Hk HT Hi. rewrite at_rest_eqm, <- newton_stays by assumption. rewrite <- at_rest_eqm.
    pose proof (defect_step_newton k N E px py f s (at_rest s) Hk HT Hi) as H. split.
    - intros Hs. apply H. now rewrite Hs.
    - intros Hn. assert (H' : at_rest s = at_rest (defect_step N k E f s)) by (apply H; split; [exact Hn|split; reflexivity]).
      now apply at_rest_inj in H'.
  Qed.

  Lemma defect_mu_fixed m T : 0 < k -> 0 < T -> (0 < N)%Z ->
    defect_mu_step N k E f T m = m <-> matches k N E px py f [one] (at_rest (m, T)).
  Proof.
    intros Hk HT HN. rewrite at_rest_eqm, <- newton_stays by assumption. rewrite <- at_rest_eqm.
    pose proof (defect_mu_newton k N E px py f m T (at_rest (m, T)) Hk HT HN) as H. split.
    - intros Hs. apply H. now rewrite Hs.
    - intros Hn. assert (H' : at_rest (m, T) = at_rest (defect_mu_step N k E f T m, T))
        by (apply H; split; [exact Hn|repeat split; reflexivity]).
      apply at_rest_inj in H'. now injection H' as <-.
  Qed.

  (** The runs *)
  Lemma iter_steps {A B} (g : A -> A) (em : A -> B) (next : B -> B -> Prop) :
    (forall a, next (em a) (em (g a))) -> forall n a, steps next n (em a) (em (Nat.iter n g a)).
  Proof. intros H. induction n as [|n IH]; intros a; cbn; [constructor|]. econstructor; [apply IH|apply H]. Qed.

  Lemma f0_ee_run iters s s' g : 0 < k -> independent N [one; E; px; py] ->
    f0_ee N k E px py f iters s = Ok (s', g) ->
    (0 < iters)%nat
    /\ steps (fun e e' => 0 < temp e -> newton k N E px py f [one; E; px; py] e e') iters (eqm s) (eqm s')
    /\ forall x, g x = occupation k E px py (eqm s') x.
  Proof.
    intros Hk Hi H. unfold f0_ee in H. destruct (Nat.eqb_spec iters 0) as [|Hn]; [discriminate|].
    cbv zeta in H. injection H as <- <-. split; [lia|]. split; [|intros; apply fd_occ].
    apply (iter_steps (ee_step N k E px py f) eqm). intros a HT. now apply ee_step_newton.
  Qed.

  Lemma f0_ee_T_run iters s s' g : 0 < k -> independent N [one; px; py] ->
    f0_ee_constant_T N k E px py f iters s = Ok (s', g) ->
    (0 < iters)%nat
    /\ steps (fun e e' => temp e' = temp e /\ (0 < temp e -> newton k N E px py f [one; px; py] e e')) iters (eqm s) (eqm s')
    /\ forall x, g x = occupation k E px py (eqm s') x.
  Proof.
    intros Hk Hi H. unfold f0_ee_constant_T in H. destruct (Nat.eqb_spec iters 0) as [|Hn]; [discriminate|].
    cbv zeta in H. injection H as <- <-. split; [lia|]. split; [|intros; apply fd_occ].
    apply (iter_steps (ee_step_T N k E px py f) eqm). intros a. split; [reflexivity|]. intros HT.
    now apply ee_step_T_newton.
  Qed.

  Lemma f0_defect_run iters s s' g : 0 < k -> independent N [one; E] ->
    f0_defect N k E f iters s = Ok (s', g) ->
    (0 < iters)%nat
    /\ steps (fun e e' => 0 < temp e -> newton k N E px py f [one; E] e e') iters (at_rest s) (at_rest s')
    /\ forall x, g x = occupation k E px py (at_rest s') x.
  Proof.
    intros Hk Hi H. unfold f0_defect in H. destruct (Nat.eqb_spec iters 0) as [|Hn]; [discriminate|].
    cbv zeta in H. injection H as <- <-. split; [lia|]. split; [|intros; apply fd_occ0].
    apply (iter_steps (defect_step N k E f) at_rest). intros a HT.
    now apply (proj2 (defect_step_newton k N E px py f a _ Hk HT Hi)).
  Qed.

  Lemma f0_defect_T_run iters T m m' g : 0 < k -> 0 < T -> (0 < N)%Z ->
    f0_defect_constant_T N k E f iters T m = Ok (m', g) ->
    (0 < iters)%nat
    /\ steps (newton k N E px py f [one]) iters (at_rest (m, T)) (at_rest (m', T))
    /\ forall x, g x = occupation k E px py (at_rest (m', T)) x.
  Proof.
    intros Hk HT HN H. unfold f0_defect_constant_T in H. destruct (Nat.eqb_spec iters 0) as [|Hn]; [discriminate|].
    cbv zeta in H. injection H as <- <-. split; [lia|]. split; [|intros; apply fd_occ0].
    apply (iter_steps (defect_mu_step N k E f T) (fun m => at_rest (m, T))). intros a.
    now apply (proj2 (defect_mu_newton k N E px py f a T _ Hk HT HN)).
  Qed.

  (** The chemical potential is determined by the number of particles *)
  Lemma occ_increasing m m' T x : 0 < k -> 0 < T -> m < m' ->
    occupation k E px py (at_rest (m, T)) x < occupation k E px py (at_rest (m', T)) x.
  Proof.
    intros Hk HT Hm. unfold occupation, at_rest. cbn [fst snd mu temp drift_x drift_y].
    assert (HkT : 0 < k * T) by now apply Rmult_lt_0_compat.
    apply Rinv_lt_contravar.
    - apply Rmult_lt_0_compat; apply Rplus_lt_0_compat; try lra; apply exp_pos.
    - apply Rplus_lt_compat_l, exp_increasing. unfold Rdiv. apply Rmult_lt_compat_r; [now apply Rinv_0_lt_compat|lra].
  Qed.

  Lemma mu_unique m m' T : 0 < k -> 0 < T -> (0 < N)%Z ->
    matches k N E px py f [one] (at_rest (m, T)) -> matches k N E px py f [one] (at_rest (m', T)) -> m = m'.
  Proof.
    intros Hk HT HN H H'. inversion H as [|w l H1 _]; subst. inversion H' as [|w l H1' _]; subst.
    rewrite excess_alt in H1, H1'.
    assert (Hlt : forall a b, a < b -> zsum N (fun x => one x * (f x - occupation k E px py (at_rest (b, T)) x))
      < zsum N (fun x => one x * (f x - occupation k E px py (at_rest (a, T)) x))).
    { intros a b Hab. apply Rminus_gt_0_lt. rewrite <- zsum_minus.
      apply zsum_pos; [exact HN|]. intros i _. pose proof (occ_increasing a b T i Hk HT Hab). unfold one. lra. }
    destruct (Rtotal_order m m') as [Hl|[|Hl]]; [|assumption|]; specialize (Hlt _ _ Hl); lra.
  Qed.

  (** *** The operator *)
  Lemma f0_shape_ee iters s s' g : f0_ee_constant_T N k E px py f iters s = Ok (s', g) ->
    forall x, g x = occupation k E px py (eqm s') x.
  Proof.
    unfold f0_ee_constant_T. destruct (Nat.eqb iters 0); [discriminate|]. cbv zeta.
    intros H. injection H as <- <-. intros. apply fd_occ.
  Qed.
  Lemma f0_shape_defect iters s s' g : f0_defect N k E f iters s = Ok (s', g) ->
    forall x, g x = occupation k E px py (at_rest s') x.
  Proof.
    unfold f0_defect. destruct (Nat.eqb iters 0); [discriminate|]. cbv zeta.
    intros H. injection H as <- <-. intros. apply fd_occ0.
  Qed.
  Lemma f0_shape_defect_T iters T m m' g : f0_defect_constant_T N k E f iters T m = Ok (m', g) ->
    forall x, g x = occupation k E px py (at_rest (m', T)) x.
  Proof.
    unfold f0_defect_constant_T. destruct (Nat.eqb iters 0); [discriminate|]. cbv zeta.
    intros H. injection H as <- <-. intros. apply fd_occ0.
  Qed.
End Fixed.

Section Rta.
  Context (N : Z) (k : R) (iters : nat) (grid : string) (p_dim : Z).
  Context (E p1 p2 px py f : Z -> R).
  Hypothesis Hplane : in_plane grid p1 p2 = Ok (px, py).

  Lemma rta_shape flag tau_defect tau_ee ed ee ed' ee' C :
    RTA N k iters grid p_dim false false flag tau_defect tau_ee E p1 p2 f ed ee = Ok (ed', ee', C) ->
    (p_dim = 1 \/ p_dim = 2)%Z /\
    forall x, C x = - (f x - occupation k E px py (at_rest ed') x) / tau_defect x
                    - (f x - occupation k E px py (eqm ee') x) / tau_ee x.
  Proof.
    unfold RTA. rewrite Hplane. cbn [rbind].
    destruct (Z.eqb_spec p_dim 1) as [Hd|_]; [|destruct (Z.eqb_spec p_dim 2) as [Hd|_]; [|discriminate]].
    - destruct (f0_defect_constant_T N k E f iters (snd ed) (fst ed)) as [[m g]|] eqn:H1; [|discriminate].
      cbn. destruct (f0_ee_constant_T N k E px py f iters ee) as [[e h]|] eqn:H2; [|discriminate].
      cbn. intros H. injection H as <- <- <-. split; [now left|]. intros x.
      rewrite (f0_shape_defect_T k N E px py f _ _ _ _ _ H1), (f0_shape_ee k N E px py f _ _ _ _ H2). reflexivity.
    - destruct (f0_defect N k E f iters ed) as [[m g]|] eqn:H1; [|discriminate].
      cbn. destruct (f0_ee_constant_T N k E px py f iters ee) as [[e h]|] eqn:H2; [|discriminate].
      cbn. intros H. injection H as <- <- <-. split; [now right|]. intros x.
      rewrite (f0_shape_defect k N E px py f _ _ _ _ H1), (f0_shape_ee k N E px py f _ _ _ _ H2). reflexivity.
  Qed.

  Lemma rta_balance flag td te ed ee ed' ee' C w : td <> 0 -> te <> 0 ->
    RTA N k iters grid p_dim false false flag (fun _ => td) (fun _ => te) E p1 p2 f ed ee = Ok (ed', ee', C) ->
    zsum N (fun x => w x * C x)
    = - excess k N E px py f w (at_rest ed') / td - excess k N E px py f w (eqm ee') / te.
  Proof.
    intros Htd Hte H. apply rta_shape in H as [_ H].
    rewrite !excess_alt. unfold Rdiv. rewrite <- zsum_opp, <- !zsum_scal_r, <- zsum_minus.
    apply zsum_ext. intros i _. rewrite H. unfold Rdiv. ring.
  Qed.

  Lemma rta_total flag td te ed ee : 
    (0 < iters)%nat -> (p_dim = 1 \/ p_dim = 2)%Z ->
    exists ed' ee' C, RTA N k iters grid p_dim false false flag td te E p1 p2 f ed ee = Ok (ed', ee', C).
  Proof.
    intros Hn Hd. unfold RTA. rewrite Hplane. cbn [rbind].
    unfold f0_defect_constant_T, f0_ee_constant_T, f0_defect.
    destruct (Nat.eqb_spec iters 0); [lia|].
    destruct Hd as [-> | ->]; cbn; now eexists _, _, _.
  Qed.

  Lemma rta_equilibrium flag td te m T : 0 < k -> 0 < T -> (0 < iters)%nat -> (p_dim = 1 \/ p_dim = 2)%Z ->
    independent N [one; E] -> independent N [one; px; py] ->
    (forall x, f x = occupation k E px py (Equilibrium m T 0 0) x) ->
    exists C, RTA N k iters grid p_dim false false flag td te E p1 p2 f (m, T) (Drifting m T 0 0)
              = Ok ((m, T), Drifting m T 0 0, C) /\ forall x, C x = 0.
  Proof.
    intros Hk HT Hn Hd HiE Hip Hf.
    assert (HN : (0 < N)%Z).
    { destruct (Z_lt_le_dec 0 N) as [|Hle]; [assumption|].
      specialize (HiE [1; 0] eq_refl ltac:(intros; lia)). inversion HiE. lra. }
    assert (Hm : forall ws, matches k N E px py f ws (Equilibrium m T 0 0)).
    { intros ws. apply Forall_forall. intros w _. rewrite excess_alt.
      transitivity (zsum N (fun _ => 0)); [|apply zsum_zero]. apply zsum_ext. intros. rewrite Hf. ring. }
    assert (H1 : defect_mu_step N k E f T m = m) by (apply (defect_mu_fixed k N E px py f); auto; apply Hm).
    assert (H2 : defect_step N k E f (m, T) = (m, T)) by (apply (defect_fixed k N E px py f); auto; apply Hm).
    assert (H3 : ee_step_T N k E px py f (Drifting m T 0 0) = Drifting m T 0 0) by (apply ee_T_fixed; auto; apply Hm).
    assert (Hit : forall A (g : A -> A) a n, g a = a -> Nat.iter n g a = a).
    { intros A g a n Hg. induction n as [|n IH]; [reflexivity|]. change (g (Nat.iter n g a) = a). now rewrite IH. }
    destruct (rta_total flag td te (m, T) (Drifting m T 0 0) Hn Hd) as (ed' & ee' & C & Hr).
    assert (Hs : ed' = (m, T) /\ ee' = Drifting m T 0 0).
    { revert Hr. unfold RTA. rewrite Hplane. cbn [rbind].
      unfold f0_defect_constant_T, f0_ee_constant_T, f0_defect.
      destruct (Nat.eqb_spec iters 0); [lia|]. cbv zeta. cbn [fst snd].
      rewrite !Hit by assumption. destruct Hd as [-> | ->]; cbn; intros H; injection H as <- <- _; auto. }
    destruct Hs as [-> ->]. exists C. split; [exact Hr|]. intros x.
    apply rta_shape in Hr as [_ Hr]. rewrite Hr, Hf. unfold at_rest, eqm. cbn [fst snd mu_ee T_ee vel_drift_x vel_drift_y].
    unfold Rdiv. ring.
  Qed.
End Rta.

(** The other branches *)
Lemma rta_grid N k iters grid p_dim dis anyz flag td te E p1 p2 f ed ee :
  grid <> "cartesian"%string -> grid <> "polar2D"%string ->
  RTA N k iters grid p_dim dis anyz flag td te E p1 p2 f ed ee = Err NotImplementedError.
Proof.
  intros H1 H2. unfold RTA, in_plane. apply String.eqb_neq in H1, H2. now rewrite H1, H2.
Qed.

Lemma rta_no_iterations N k grid p_dim flag td te E p1 p2 f ed ee : In grid ["cartesian"; "polar2D"]%string ->
  RTA N k 0 grid p_dim false false flag td te E p1 p2 f ed ee = Err UnboundLocalError.
Proof.
  intros [<-|[<-|[]]]; unfold RTA; cbn; destruct (Z.eqb p_dim 1), (Z.eqb p_dim 2); reflexivity.
Qed.

Lemma rta_dim N k iters grid p_dim flag td te E p1 p2 f ed ee : In grid ["cartesian"; "polar2D"]%string ->
  p_dim <> 1%Z -> p_dim <> 2%Z ->
  RTA N k iters grid p_dim false false flag td te E p1 p2 f ed ee = Err UnboundLocalError.
Proof.
  intros [<-|[<-|[]]] H1 H2; unfold RTA; cbn; apply Z.eqb_neq in H1, H2; now rewrite H1, H2.
Qed.

Lemma rta_off N k iters grid p_dim anyz td te E p1 p2 f ed ee : In grid ["cartesian"; "polar2D"]%string ->
  exists C, RTA N k iters grid p_dim true anyz false td te E p1 p2 f ed ee = Ok (ed, ee, C) /\ forall x, C x = 0.
Proof.
  intros [<-|[<-|[]]]; unfold RTA; cbn; destruct anyz; cbn; eexists; (split; [reflexivity|]); intros; apply Rmult_0_l.
Qed.

Lemma rta_hydrodynamic N k iters grid p_dim dis td te E p1 p2 px py f m T ee : (0 < iters)%nat ->
  in_plane grid p1 p2 = Ok (px, py) ->
  exists m' C, RTA N k iters grid p_dim dis true true td te E p1 p2 f (m, T) ee = Ok ((m', T), ee, C)
    /\ forall x, C x = occupation k E px py (Equilibrium m' T 0 0) x.
Proof.
  intros Hn Hp. unfold RTA. rewrite Hp. cbn.
  destruct (f0_defect_constant_T N k E f iters T m) as [[m' g]|] eqn:H.
  - cbn. exists m', g. split; [reflexivity|]. exact (f0_shape_defect_T k N E px py f _ _ _ _ _ H).
  - unfold f0_defect_constant_T in H. destruct (Nat.eqb_spec iters 0); [lia|discriminate].
Qed.

Lemma rta_conservation N k iters grid p_dim E p1 p2 px py f : in_plane grid p1 p2 = Ok (px, py) ->
  forall flag td te ed ee ed' ee' C w, td <> 0 -> te <> 0 ->
  RTA N k iters grid p_dim false false flag (fun _ => td) (fun _ => te) E p1 p2 f ed ee = Ok (ed', ee', C) ->
  excess k N E px py f w (at_rest ed') = 0 -> excess k N E px py f w (eqm ee') = 0 ->
  zsum N (fun x => w x * C x) = 0.
Proof.
  intros Hp flag td te ed ee ed' ee' C w Htd Hte H H1 H2.
  rewrite (rta_balance N k iters grid p_dim E p1 p2 px py f Hp flag td te ed ee ed' ee' C w Htd Hte H), H1, H2.
  field. split; assumption.
Qed.

Lemma rta_branches N k iters grid p_dim td te E p1 p2 f ed ee :
  (grid <> "cartesian"%string -> grid <> "polar2D"%string -> forall dis anyz flag,
     RTA N k iters grid p_dim dis anyz flag td te E p1 p2 f ed ee = Err NotImplementedError)
  /\ (In grid ["cartesian"; "polar2D"]%string ->
      (forall flag, RTA N k 0 grid p_dim false false flag td te E p1 p2 f ed ee = Err UnboundLocalError)
      /\ (forall flag, p_dim <> 1%Z -> p_dim <> 2%Z ->
          RTA N k iters grid p_dim false false flag td te E p1 p2 f ed ee = Err UnboundLocalError)
      /\ (forall anyz, exists C, RTA N k iters grid p_dim true anyz false td te E p1 p2 f ed ee = Ok (ed, ee, C)
            /\ forall x, C x = 0)
      /\ (forall dis, (0 < iters)%nat -> exists px py m C,
            in_plane grid p1 p2 = Ok (px, py)
            /\ RTA N k iters grid p_dim dis true true td te E p1 p2 f ed ee = Ok ((m, snd ed), ee, C)
            /\ forall x, C x = occupation k E px py (Equilibrium m (snd ed) 0 0) x)).
Proof.
  split; [intros; now apply rta_grid|]. intros Hg. repeat split.
  - intros. now apply rta_no_iterations.
  - intros. now apply rta_dim.
  - intros. now apply rta_off.
  - intros dis Hn.
    assert (Hp : exists px py, in_plane grid p1 p2 = Ok (px, py))
      by (destruct Hg as [<-|[<-|[]]]; cbn; now eexists _, _).
    destruct Hp as (px & py & Hp). destruct ed as [m T].
    destruct (rta_hydrodynamic N k iters grid p_dim dis td te E p1 p2 px py f m T ee Hn Hp) as (m' & C & H).
    exists px, py, m', C. now split.
Qed.
