(** C139-C141: symmetries of the linear solver. *)
From Coq Require Import ZArith Reals Lra Lia String List Bool.
From Verif Require Import Base.Prelude Base.ZSum Base.Cplx Model.Af Model.Grid Model.Petsc Model.Config Model.Linear
  Spec.Dft Spec.Waves Spec.MomentSpec Spec.LinearSpec Spec.Modes
  Proofs.DftLemmas Proofs.LinearLemmas Proofs.LinearMore Proofs.LinearProps Proofs.LinearWitness Proofs.Modes Proofs.ModesMove Proofs.ModesReal.
Import ListNotations.
Local Open Scope R_scope.

(** An example: 2 x 2 cells, 3 momenta, one species with its electric field; the
    density varies with q2 only. *)
Definition ex_f (g : Z -> Z -> R) : arr R := Arr 3 1 2 2 (fun _ _ i j => g i j).
Definition ex_c (g : Z -> Z -> R) : lcfg := w_cfg 2 2 3 1 1 [-(3/2)] [1] true periodic_box "electrostatic" (ex_f g).
Definition in_q2 : Z -> Z -> R := fun _ j => if (j =? 0)%Z then 2 else 3.
Definition in_q2' : Z -> Z -> R := fun _ j => if (j =? 0)%Z then 3 else 2.
Lemma ex_c_ok g : lin_ok (ex_c g).
Proof. unfold lin_ok, momentum_grid_ok, lN1, lN2. cbn. repeat split; lia || lra. Qed.
Lemma ex_c_homogeneous g : homogeneous (ex_c g).
Proof. apply w_homogeneous. Qed.
Lemma ex_c_start g : exists s, linear_solver (ex_c g) = Ok (make_background (ex_c g) (ex_f g), s).
Proof. eexists. reflexivity. Qed.
Lemma ex_c_run g steps : forall s, exists t, lin_run (ex_c g) (make_background (ex_c g) (ex_f g)) steps s = Ok t.
Proof.
  induction steps as [|(m&dt) steps IH]; intros s; [exists s; reflexivity|]. cbn [lin_run].
  destruct (proj2 (multi_species m (ex_c g) (make_background (ex_c g) (ex_f g)) dt s (ex_c_ok g))) as (s1&E);
    [intros _; split; [left; reflexivity|right; reflexivity]|]. rewrite E. apply IH.
Qed.
Lemma ex_modes : ~ has_mode (ex_c in_q2) in_q2 1 0 /\ ~ has_mode (ex_c in_q2) in_q2 1 1 /\ has_mode (ex_c in_q2) in_q2 0 1.
Proof.
  unfold has_mode. change (lN1 (ex_c in_q2)) with 2%Z. change (lN2 (ex_c in_q2)) with 2%Z.
  assert (E : forall k l, dft2 2 2 (fun i j => RtoC (in_q2 i j)) k l
    = cadd (cmul (cis (- (2 * PI * IZR k * 0 / 2))) (cadd (cscale 2 (cis (- (2 * PI * IZR l * 0 / 2)))) (cscale 3 (cis (- (2 * PI * IZR l * 1 / 2))))))
           (cmul (cis (- (2 * PI * IZR k * 1 / 2))) (cadd (cscale 2 (cis (- (2 * PI * IZR l * 0 / 2)))) (cscale 3 (cis (- (2 * PI * IZR l * 1 / 2))))))).
  { intros k l. unfold dft2, dft, csum. cbv [zsum Z.to_nat Pos.to_nat Pos.iter_op Nat.add seq fold_left fold_right map]. cbn. cplx_ring. }
  assert (Z0 : cis 0 = (1, 0)) by (unfold cis; rewrite cos_0, sin_0; reflexivity).
  assert (ZP : cis (- PI) = (-1, 0)) by (unfold cis; rewrite cos_neg, sin_neg, cos_PI, sin_PI; f_equal; ring).
  split; [|split].
  - intros N. apply N. rewrite E.
    replace (- (2 * PI * 1 * 0 / 2)) with 0 by field. replace (- (2 * PI * 0 * 0 / 2)) with 0 by field. replace (- (2 * PI * 0 * 1 / 2)) with 0 by field.
    replace (- (2 * PI * 1 * 1 / 2)) with (- PI) by field. rewrite Z0, ZP. unfold cadd, cmul, cscale, c0, re, im. cbn [fst snd]. f_equal; ring.
  - intros N. apply N. rewrite E.
    replace (- (2 * PI * 1 * 0 / 2)) with 0 by field.
    replace (- (2 * PI * 1 * 1 / 2)) with (- PI) by field. rewrite Z0, ZP. unfold cadd, cmul, cscale, c0, re, im. cbn [fst snd]. f_equal; ring.
  - rewrite E. replace (- (2 * PI * 0 * 0 / 2)) with 0 by field. replace (- (2 * PI * 0 * 1 / 2)) with 0 by field. replace (- (2 * PI * 1 * 0 / 2)) with 0 by field.
    replace (- (2 * PI * 1 * 1 / 2)) with (- PI) by field. rewrite Z0, ZP. unfold cadd, cmul, cscale, c0, re, im. cbn [fst snd].
    intros Q. apply (f_equal fst) in Q. cbn [fst] in Q. lra.
Qed.

(** C139.  The modes of a collisionless problem do not talk to each other: what happens
    in one depends on nothing in the others but the mean magnetic field. *)
Theorem C139_modes_are_independent : forall c, lin_ok c -> homogeneous c -> collisionless c ->
  forall k l, mode_in c k l -> forall b steps s s' t t',
  lin_state_ok c s -> lin_state_ok c s' -> same_mode c k l s s' ->
  lin_run c b steps s = Ok t -> lin_run c b steps s' = Ok t' -> same_mode c k l t t'.
Proof. exact modes_independent. Qed.
Print Assumptions C139_modes_are_independent.

(** A mode the initial f does not have never appears. *)
Theorem C139_no_new_modes : forall c b s k l steps t, lin_ok c -> homogeneous c -> collisionless c -> mode_in c k l ->
  linear_solver c = Ok (b, s) -> f_shaped c (init_f c) ->
  fields_initialize c <> "user-defined"%string -> fields_initialize c <> "fft + user-defined magnetic fields"%string ->
  (forall x sp, (0 <= x < N_p (ph c))%Z -> (0 <= sp < N_species (ph c))%Z -> ~ has_mode c (fun i j => el (init_f c) x sp i j) k l) ->
  lin_run c b steps s = Ok t ->
  forall x sp, (0 <= x < N_p (ph c))%Z -> (0 <= sp < N_species (ph c))%Z ->
  ~ has_mode c (fun i j => el (get_dist_func c (f_hat t)) x sp i j) k l.
Proof. exact absent_mode. Qed.
Print Assumptions C139_no_new_modes.

Example C139_applies : exists b s t, linear_solver (ex_c in_q2) = Ok (b, s) /\ lin_run (ex_c in_q2) b [(RK2_, 1/10); (RK4_, 1/20)] s = Ok t
  /\ has_mode (ex_c in_q2) in_q2 0 1
  /\ ~ has_mode (ex_c in_q2) (fun i j => el (get_dist_func (ex_c in_q2) (f_hat t)) 2 0 i j) 1 0
  /\ ~ has_mode (ex_c in_q2) (fun i j => el (get_dist_func (ex_c in_q2) (f_hat t)) 2 0 i j) 1 1.
Proof.
  destruct (ex_c_start in_q2) as (s&H). destruct (ex_c_run in_q2 [(RK2_, 1/10); (RK4_, 1/20)] s) as (t&R).
  destruct ex_modes as (A&B&C). exists (make_background (ex_c in_q2) (ex_f in_q2)), s, t.
  split; [exact H|]. split; [exact R|]. split; [exact C|].
  pose proof (fun k l M NM => C139_no_new_modes (ex_c in_q2) (make_background (ex_c in_q2) (ex_f in_q2)) s k l [(RK2_, 1/10); (RK4_, 1/20)] t (ex_c_ok in_q2) (ex_c_homogeneous in_q2)
     (conj eq_refl eq_refl) M H (conj eq_refl (conj eq_refl (conj eq_refl eq_refl))) ltac:(discriminate) ltac:(discriminate) NM R 2%Z 0%Z) as Q.
  split; apply Q; try (split; cbn; lia); cbn; try lia; intros; assumption.
Qed.

(** C140.  Moving the initial data round the box moves the solution. *)
Theorem C140_translations : forall c f E B m n b s steps t, lin_ok c -> homogeneous c -> f_shaped c (init_f c) -> f_shaped c f ->
  (source_enabled (ph c) = true \/ instantaneous c = true -> source_shaped c /\ source_homogeneous c) ->
  moved c m n (init_f c) f -> moved_E c m n (init_E c) E -> moved_B c m n (init_B c) B ->
  linear_solver c = Ok (b, s) -> lin_run c b steps s = Ok t ->
  let c' := starting_from c f E B in
  exists b' s' t', linear_solver c' = Ok (b', s') /\ lin_run c' b' steps s' = Ok t'
    /\ moved c m n (get_dist_func c (f_hat t)) (get_dist_func c' (f_hat t'))
    /\ moved_fields c m n (from_hat c (fields_hat (fsol t))) (from_hat c' (fields_hat (fsol t'))).
Proof. exact translation. Qed.
Print Assumptions C140_translations.

Example C140_applies : exists b s t b' s' t', linear_solver (ex_c in_q2) = Ok (b, s) /\ linear_solver (ex_c in_q2') = Ok (b', s')
  /\ lin_run (ex_c in_q2) b [(RK2_, 1/10); (RK4_, 1/20)] s = Ok t /\ lin_run (ex_c in_q2') b' [(RK2_, 1/10); (RK4_, 1/20)] s' = Ok t'
  /\ el (get_dist_func (ex_c in_q2') (f_hat t')) 2 0 1 0 = el (get_dist_func (ex_c in_q2) (f_hat t)) 2 0 1 1.
Proof.
  destruct (ex_c_start in_q2) as (s&H). destruct (ex_c_run in_q2 [(RK2_, 1/10); (RK4_, 1/20)] s) as (t&R).
  pose proof (fun A2 A3 A4 A5 A6 A7 A8 => C140_translations (ex_c in_q2) (ex_f in_q2') (init_E (ex_c in_q2)) InitNone 0 1 (make_background (ex_c in_q2) (ex_f in_q2)) s
    [(RK2_, 1/10); (RK4_, 1/20)] t (ex_c_ok in_q2) A2 A3 A4 A5 A6 A7 A8 H R) as Q.
  destruct Q as (b'&s'&t'&L'&R'&MF&_).
  - apply ex_c_homogeneous.
  - repeat split.
  - repeat split.
  - intros [K|K]; discriminate K.
  - intros x sp i j _ _ Hi Hj. cbn [ex_c w_cfg init_f ex_f el]. unfold in_q2, in_q2'. change (lN2 (ex_c in_q2)) with 2%Z in *.
    assert (J : (j = 0 \/ j = 1)%Z) by lia. destruct J as [-> | ->]; reflexivity.
  - repeat split.
  - exact I.
  - exists (make_background (ex_c in_q2) (ex_f in_q2)), s, t, b', s', t'.
    split; [exact H|]. split; [exact L'|]. split; [exact R|]. split; [exact R'|].
    apply (MF 2 0 1 0)%Z; cbn; lia.
Qed.

(** C141.  What the solver holds is what it hands out: f and the fields it returns are
    real, and nothing it evolves is lost in them.  On grids with odd numbers of cells. *)
Theorem C141_odd_grids_partial : forall c, lin_ok c -> forall b s steps t, homogeneous c -> f_shaped c (init_f c) ->
  (source_enabled (ph c) = true \/ instantaneous c = true -> source_shaped c) -> Z.Odd (lN1 c) -> Z.Odd (lN2 c) ->
  linear_solver c = Ok (b, s) -> lin_run c b steps s = Ok t -> holds_what_it_shows c t /\ fields_shown c t.
Proof. exact holds_odd. Qed.
Print Assumptions C141_odd_grids_partial.

(** On every grid it is true of all modes but those at the grid frequency. *)
Theorem C141_resolved_modes_partial : forall c, lin_ok c -> forall b s steps t, homogeneous c -> f_shaped c (init_f c) ->
  (source_enabled (ph c) = true \/ instantaneous c = true -> source_shaped c) ->
  linear_solver c = Ok (b, s) -> lin_run c b steps s = Ok t -> holds_resolved c t /\ fields_resolved c t.
Proof. exact holds_real. Qed.
Print Assumptions C141_resolved_modes_partial.

(** With an even number of cells it is false after one step. *)
Theorem C141_refuted : exists c b s s', lin_ok c /\ homogeneous c /\ collisionless c /\ f_shaped c (init_f c) /\ linear_solver c = Ok (b, s)
  /\ lin_run c b [(RK2_, 1)] s = Ok s' /\ ~ holds_what_it_shows c s'.
Proof. exact even_grid_loses. Qed.
Print Assumptions C141_refuted.

Definition odd_f : arr R := Arr 3 1 3 1 (fun x _ i _ => if (i =? 0)%Z then IZR (1 + x) else 1).
Definition odd_c : lcfg := w_cfg 3 1 3 1 1 [-(3/2)] [1] true periodic_box "electrostatic" odd_f.
Example C141_applies : exists b s t, linear_solver odd_c = Ok (b, s) /\ lin_run odd_c b [(RK2_, 1/10)] s = Ok t
  /\ holds_what_it_shows odd_c t /\ fields_shown odd_c t.
Proof.
  assert (OK : lin_ok odd_c) by (unfold lin_ok, momentum_grid_ok, lN1, lN2; cbn; repeat split; lia || lra).
  destruct (linear_solver odd_c) as [(b&s)|] eqn:H; [|discriminate H].
  destruct (proj2 (multi_species RK2_ odd_c b (1/10) s OK)) as (t&E);
    [intros _; split; [left; reflexivity|right; reflexivity]|].
  assert (R : lin_run odd_c b [(RK2_, 1/10)] s = Ok t) by (cbn [lin_run]; rewrite E; reflexivity).
  exists b, s, t. split; [reflexivity|]. split; [exact R|].
  apply (C141_odd_grids_partial odd_c OK b s [(RK2_, 1/10)] t); auto.
  - apply w_homogeneous.
  - repeat split.
  - intros [K|K]; discriminate K.
  - exists 1%Z. reflexivity.
  - exists 0%Z. reflexivity.
Qed.
