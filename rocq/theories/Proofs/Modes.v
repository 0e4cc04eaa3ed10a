(** Modes, translations and real functions in the linear solver. *)
From Coq Require Import ZArith Reals Lra Lia String List Bool FunctionalExtensionality.
From Verif Require Import Base.Prelude Base.ZSum Base.Cplx Model.Af Model.Grid Model.Petsc Model.Config Model.Fft
  Model.Moments Model.Integrators Model.Linear Spec.Dft Spec.Waves Spec.MomentSpec Spec.LinearSpec Spec.RungeKutta Spec.Modes
  Proofs.AfLemmas Proofs.DftLemmas Proofs.ConvLemmas Proofs.MomentLemmas Proofs.FourierLemmas Proofs.LinearLemmas
  Proofs.LinearStep Proofs.LinearInv Proofs.LinearMore Proofs.LinearProps Proofs.LinearRel.
Import ListNotations.
Local Open Scope R_scope.

Lemma run_exists c : lin_ok c -> forall b b' steps s s' t, lin_run c b steps s = Ok t -> exists t', lin_run c b' steps s' = Ok t'.
Proof.
  intros OK b b' steps. induction steps as [|(m, dt) steps IH]; intros s s' t H; cbn [lin_run] in *; [eauto|].
  destruct (lin_timestep m c b dt s) as [u|] eqn:E; [|discriminate]. cbn [rbind] in H.
  destruct (proj2 (multi_species m c b' dt s' OK)) as (u'&E').
  - apply (proj1 (multi_species m c b dt s OK)). eauto.
  - rewrite E'. cbn [rbind]. apply (IH u u' t H).
Qed.

(** ** Modes do not mix *)
Section Single.
  Context (c : lcfg) (OK : lin_ok c) (HM : homogeneous c) (NC : collisionless c) (k l : Z) (M : mode_in c k l).
  Definition only : Z -> Z -> Prop := fun k' l' => k' = k /\ l' = l.
  Notation I := (fun i : Z => i).
  Lemma no_source (P : Prop) : source_enabled (ph c) = true -> P.
  Proof. destruct NC as (A&_). rewrite A. discriminate. Qed.
  Lemma no_inst (P : Prop) : instantaneous c = true -> P.
  Proof. destruct NC as (_&A). rewrite A. discriminate. Qed.

  Lemma same_relS s s' : lin_state_ok c s -> lin_state_ok c s' ->
    (same_mode c k l s s' <-> relS c only I I (fun _ _ z => z) (fun z => z) s s').
  Proof.
    intros D D'. split.
    - intros (T&F&H&E1&E2&E3&B1&B2&B3&BM). split; [auto|split; [exact D|split; [exact D'|]]].
      split; [intros x sp k' l' Hx Hs (->&->); apply F; auto|]. split; [|split].
      + repeat split; intros k' l' (->&->); auto.
      + intros i j k' l' Hi Hj (->&->). assert (j = 0%Z) by (unfold inb in Hj; lia). subst j. apply H; auto.
      + intros i Hi. apply BM; auto.
    - intros (T&_&_&F&(E1&E2&E3&B1&B2&B3)&H&BM).
      assert (O : only k l) by (split; auto). assert (Z0 : inb 1 0) by (split; [discriminate|reflexivity]).
      split; [auto|]. split; [intros; apply (F x sp k l); auto|]. split; [intros i Hi; apply (H i 0%Z k l); auto|].
      split; [apply (E1 k l O)|]. split; [apply (E2 k l O)|]. split; [apply (E3 k l O)|]. split; [apply (B1 k l O)|].
      split; [apply (B2 k l O)|]. split; [apply (B3 k l O)|]. exact BM.
  Qed.
  Lemma modes_independent b steps s s' t t' : lin_state_ok c s -> lin_state_ok c s' -> same_mode c k l s s' ->
    lin_run c b steps s = Ok t -> lin_run c b steps s' = Ok t' -> same_mode c k l t t'.
  Proof.
    intros D D' H R R'.
    assert (P : relS c only I I (fun _ _ z => z) (fun z => z) t t').
    { apply (run_rel c OK HM only I I (fun _ _ z => z) (fun z => z)) with (b := b) (b' := b) (steps := steps) (s := s) (s' := s'); auto.
      - intros k' l' (->&->). auto.
      - tauto.
      - intros E; apply (no_source _ E).
      - intros E; apply (no_inst _ E).
      - apply same_background_refl.
      - apply same_relS; auto. }
    pose proof P as (_&D1&D2&_). apply same_relS; auto.
  Qed.

  Lemma empty_relS s : lin_state_ok c s -> (empty_mode c k l s <-> relS c only I I (fun _ _ _ => c0) (fun z => z) s s).
  Proof.
    intros D. split.
    - intros (F&H&E1&E2&E3&B1&B2&B3). split; [auto|split; [exact D|split; [exact D|]]].
      split; [intros x sp k' l' Hx Hs (->&->); apply F; auto|]. split; [|split].
      + repeat split; intros k' l' (->&->); auto.
      + intros i j k' l' Hi Hj (->&->). assert (j = 0%Z) by (unfold inb in Hj; lia). subst j. apply H; auto.
      + intros i Hi. reflexivity.
    - intros (_&_&_&F&(E1&E2&E3&B1&B2&B3)&H&_).
      assert (O : only k l) by (split; auto). assert (Z0 : inb 1 0) by (split; [discriminate|reflexivity]).
      split; [intros; apply (F x sp k l); auto|]. split; [intros i Hi; apply (H i 0%Z k l); auto|].
      split; [apply (E1 k l O)|]. split; [apply (E2 k l O)|]. split; [apply (E3 k l O)|]. split; [apply (B1 k l O)|].
      split; [apply (B2 k l O)|apply (B3 k l O)].
  Qed.
  Lemma empty_stays b steps s t : lin_state_ok c s -> empty_mode c k l s -> lin_run c b steps s = Ok t -> empty_mode c k l t.
  Proof.
    intros D H R.
    assert (P : relS c only I I (fun _ _ _ => c0) (fun z => z) t t).
    { apply (run_rel c OK HM only I I (fun _ _ _ => c0) (fun z => z)) with (b := b) (b' := b) (steps := steps) (s := s) (s' := s); auto.
      - intros k' l' (->&->). auto.
      - tauto.
      - intros. cplx_ring.
      - intros. cplx_ring.
      - intros. cplx_ring.
      - intros. cplx_ring.
      - intros. cplx_ring.
      - intros E; apply (no_source _ E).
      - intros E; apply (no_inst _ E).
      - apply same_background_refl.
      - apply empty_relS; auto. }
    pose proof P as (_&D1&_). apply empty_relS; auto.
  Qed.
End Single.

(** Initial states without a mode, when the fields are those of the initial charges. *)
Lemma starts_empty c b s k l : lin_ok c -> homogeneous c -> mode_in c k l -> linear_solver c = Ok (b, s) -> f_shaped c (init_f c) ->
  fields_initialize c <> "user-defined"%string -> fields_initialize c <> "fft + user-defined magnetic fields"%string ->
  (forall x sp, (0 <= x < N_p (ph c))%Z -> (0 <= sp < N_species (ph c))%Z -> ~ has_mode c (fun i j => el (init_f c) x sp i j) k l) ->
  empty_mode c k l s.
Proof.
  intros OK HM M L D NU NF H. destruct (solver_inv c b s L) as (_&_&FH&_&FI).
  set (X := to_hat c (amap RtoC (init_f c))) in *. assert (DX : shaped c X) by exact D.
  assert (EX : forall x sp, (0 <= x < N_p (ph c))%Z -> (0 <= sp < N_species (ph c))%Z -> el X x sp k l = c0).
  { intros x sp Hx Hs. unfold X. rewrite to_hat_el by (destruct D as (A&B&C&E); repeat split; [exact C|exact E]). cbn [amap el].
    specialize (H x sp Hx Hs). unfold has_mode in H. destruct (dft2 _ _ _ k l) as (u, v).
    assert (Z : u = 0 /\ v = 0).
    { split; [destruct (Req_dec u 0) as [|N]|destruct (Req_dec v 0) as [|N]]; auto; exfalso; apply H; intros Q; injection Q; auto. }
    destruct Z as (-> & ->). cplx_ring. }
  assert (RX : rel (only k l) (fun i => i) (fun i => i) (fun _ _ _ => c0) (N_p (ph c)) (N_species (ph c)) X X)
    by (intros x sp k' l' Hx Hs (->&->); apply EX; auto).
  unfold initialize_fields in FI. set (o := Arr 0 0 0 0 _) in FI.
  destruct (String.eqb_spec (fields_initialize c) "user-defined"); [congruence|].
  destruct (String.eqb_spec (fields_initialize c) "fft + user-defined magnetic fields"); [congruence|].
  assert (RE : rel6 (only k l) (fun i => i) (fun i => i) (fun _ _ _ => c0) (compute_electrostatic_fields c (charge_times c Moments.density X) o)
                 (compute_electrostatic_fields c (charge_times c Moments.density X) o)).
  { apply electrostatic_rel; auto.
    - intros k' l' (->&->). auto.
    - tauto.
    - intros. cplx_ring.
    - intros. cplx_ring.
    - intros. cplx_ring.
    - intros. cplx_ring. }
  pose proof (static_dims c OK X o DX) as SD. cbv zeta in SD.
  set (F0 := compute_electrostatic_fields c (charge_times c Moments.density X) o) in *. clearbody F0.
  apply Ok_inj in FI. destruct RE as (R1&R2&R3&R4&R5&R6).
  assert (O : only k l k l) by (split; auto).
  assert (J : rel (only k l) (fun i => i) (fun i => i) (fun _ _ _ => c0) 6 1 (fields_hat (fsol s)) (fields_hat (fsol s))).
  { rewrite <- FI. cbn [fields_hat]. apply join_rel; auto. }
  split; [intros; rewrite FH; apply EX; auto|]. split.
  - intros i Hi. apply (J i 0%Z k l); auto. split; [discriminate|reflexivity].
  - rewrite <- FI. cbn [E1h E2h E3h B1h B2h B3h].
    split; [exact (R1 k l O)|]. split; [exact (R2 k l O)|]. split; [exact (R3 k l O)|]. split; [exact (R4 k l O)|]. split; [exact (R5 k l O)|exact (R6 k l O)].
Qed.

(** What is handed out, mode by mode. *)
Lemma shown c X x sp k l : lin_ok c -> dims4 X (d0 X) (d1 X) (lN1 c) (lN2 c) -> mode_in c k l ->
  dft2 (lN1 c) (lN2 c) (fun i j => RtoC (el (get_dist_func c X) x sp i j)) k l
  = cscale (half_N c / 2) (cadd (el X x sp k l) (cconj (el X x sp (negm (lN1 c) k) (negm (lN2 c) l)))).
Proof.
  intros OK D (Hk&Hl). pose proof OK as (_&P1&P2&_).
  rewrite (dft2_ext _ _ _ (fun i j => cscale (half_N c) (RtoC (re (idft2 (lN1 c) (lN2 c) (fun m n => el X x sp m n) i j))))).
  2:{ intros i j _ _. rewrite get_dist_el by auto. cplx_ring. }
  rewrite dft2_scale, dft2_re, !dft2_idft2 by (auto; apply negm_in; auto).
  cplx_ring; field.
Qed.
Lemma shown_hat c X x sp k l : lin_ok c -> dims4 X (d0 X) (d1 X) (lN1 c) (lN2 c) -> mode_in c k l ->
  el (to_hat c (amap RtoC (get_dist_func c X))) x sp k l
  = cscale (1 / 2) (cadd (el X x sp k l) (cconj (el X x sp (negm (lN1 c) k) (negm (lN2 c) l)))).
Proof.
  intros OK D M. rewrite to_hat_el by (destruct D as (A&B&C&E); repeat split; [exact C|exact E]). cbn [amap el].
  rewrite shown by auto. generalize (half_inv c OK). generalize (el X x sp k l) (el X x sp (negm (lN1 c) k) (negm (lN2 c) l)). intros z w H.
  assert (E : 2 / (IZR (lN1 c) * IZR (lN2 c)) * (half_N c / 2) = 1 / 2) by (rewrite <- H; field; destruct OK as (_&P1&P2&_); split; apply not_0_IZR; lia).
  transitivity (cscale (2 / (IZR (lN1 c) * IZR (lN2 c)) * (half_N c / 2)) (cadd z (cconj w))); [cplx_ring|]. rewrite E. reflexivity.
Qed.
Lemma negm_negm N i : (0 <= i < N)%Z -> negm N (negm N i) = i.
Proof. intros H. unfold negm. destruct (Z.eqb_spec i 0); [subst; reflexivity|]. destruct (Z.eqb_spec (N - i) 0); lia. Qed.

(** A mode the initial f does not have is never in the f handed out. *)
Lemma absent_mode c b s k l steps t : lin_ok c -> homogeneous c -> collisionless c -> mode_in c k l -> linear_solver c = Ok (b, s) ->
  f_shaped c (init_f c) ->
  fields_initialize c <> "user-defined"%string -> fields_initialize c <> "fft + user-defined magnetic fields"%string ->
  (forall x sp, (0 <= x < N_p (ph c))%Z -> (0 <= sp < N_species (ph c))%Z -> ~ has_mode c (fun i j => el (init_f c) x sp i j) k l) ->
  lin_run c b steps s = Ok t ->
  forall x sp, (0 <= x < N_p (ph c))%Z -> (0 <= sp < N_species (ph c))%Z -> ~ has_mode c (fun i j => el (get_dist_func c (f_hat t)) x sp i j) k l.
Proof.
  intros OK HM NC M L D NU NF H R x sp Hx Hs. pose proof OK as (_&P1&P2&_). pose proof M as (Hk&Hl).
  assert (M' : mode_in c (negm (lN1 c) k) (negm (lN2 c) l)) by (split; apply negm_in; auto).
  assert (H' : forall x sp, (0 <= x < N_p (ph c))%Z -> (0 <= sp < N_species (ph c))%Z ->
    ~ has_mode c (fun i j => el (init_f c) x sp i j) (negm (lN1 c) k) (negm (lN2 c) l)).
  { intros y sq Hy Hq Q. apply (H y sq Hy Hq). intros E. apply Q. rewrite dft2_real, E by auto. cplx_ring. }
  assert (DS : lin_state_ok c s) by (destruct (solver_inv c b s L) as (_&_&FH&_); unfold lin_state_ok; rewrite FH; exact D).
  destruct (empty_stays c OK HM NC k l M b steps s t DS (starts_empty c b s k l OK HM M L D NU NF H) R) as (E1&_).
  destruct (empty_stays c OK HM NC _ _ M' b steps s t DS (starts_empty c b s _ _ OK HM M' L D NU NF H') R) as (E2&_).
  assert (DT : lin_state_ok c t).
  { apply (run_invariant c b steps (lin_state_ok c) s t); auto. intros m dt u u' Hu Q. apply (state_ok_step c m b dt u u'); auto. apply NC. }
  intros Q. apply Q. destruct DT as (A&B&C&E). rewrite shown by (auto; repeat split; auto). rewrite E1, E2 by auto. cplx_ring.
Qed.
