(** Translations of the linear solver's problem. *)
From Coq Require Import ZArith Reals Lra Lia String List Bool FunctionalExtensionality.
From Verif Require Import Base.Prelude Base.ZSum Base.Cplx Model.Af Model.Grid Model.Petsc Model.Config Model.Fft
  Model.Moments Model.Integrators Model.Linear Spec.Dft Spec.Waves Spec.MomentSpec Spec.LinearSpec Spec.RungeKutta Spec.Modes
  Proofs.AfLemmas Proofs.DftLemmas Proofs.ConvLemmas Proofs.MomentLemmas Proofs.FourierLemmas Proofs.LinearLemmas
  Proofs.LinearStep Proofs.LinearInv Proofs.LinearMore Proofs.LinearProps Proofs.LinearRel Proofs.Modes.
Import ListNotations.
Local Open Scope R_scope.

Lemma dft_shift N x k m : (0 < N)%Z -> dft N (fun i => x ((i - m) mod N)%Z) k = cmul (dft N x k) (cis (- phase N k m)).
Proof.
  intros P. unfold dft. rewrite <- csum_mul_r.
  rewrite <- (csum_shift N m (fun i => cmul (cmul (x i) (cis (- (2 * PI * IZR k * IZR i / IZR N)))) (cis (- phase N k m)))) by auto.
  apply csum_ext; intros i Hi. set (y := x _).
  rewrite (Z.mod_eq (i - m) N) by lia. set (q := ((i - m) / N)%Z).
  assert (HN : IZR N <> 0) by (apply not_0_IZR; lia).
  replace (cis (- (2 * PI * IZR k * IZR i / IZR N)))
    with (cmul (cis (- (2 * PI * IZR k * IZR (i - m - N * q) / IZR N))) (cis (- phase N k m))).
  - ring.
  - rewrite <- cis_add. rewrite <- (cis_period (- (2 * PI * IZR k * IZR i / IZR N)) (k * q)). f_equal.
    unfold phase. rewrite !minus_IZR, !mult_IZR. field. auto.
Qed.
Definition turn N1 N2 m n (k l : Z) : cplx := cis (- (phase N1 k m + phase N2 l n)).
Lemma dft2_shift N1 N2 x k l m n : (0 < N1)%Z -> (0 < N2)%Z ->
  dft2 N1 N2 (fun i j => x ((i - m) mod N1)%Z ((j - n) mod N2)%Z) k l = cmul (dft2 N1 N2 x k l) (turn N1 N2 m n k l).
Proof.
  intros P1 P2. unfold dft2.
  rewrite (dft_ext N1 _ (fun i => (fun i' => cmul (dft N2 (fun j => x i' j) l) (cis (- phase N2 l n))) ((i - m) mod N1)%Z)).
  2:{ intros i Hi. apply (dft_shift N2 (fun j => x ((i - m) mod N1)%Z j) l n P2). }
  rewrite (dft_shift N1 (fun i' => cmul (dft N2 (fun j => x i' j) l) (cis (- phase N2 l n))) k m P1).
  unfold turn. replace (- (phase N1 k m + phase N2 l n)) with (- phase N2 l n + - phase N1 k m) by ring. rewrite cis_add.
  unfold dft at 1. rewrite (csum_ext N1 _ (fun i => cmul (cmul (dft N2 (fun n2 => x i n2) l) (cis (- (2 * PI * IZR k * IZR i / IZR N1)))) (cis (- phase N2 l n)))).
  2:{ intros. ring. }
  rewrite csum_mul_r. unfold dft at 2. ring.
Qed.

Section Move.
  Context (c : lcfg) (OK : lin_ok c) (m n : Z).
  Let P1 : (0 < lN1 c)%Z := proj1 (proj2 OK).
  Let P2 : (0 < lN2 c)%Z := proj1 (proj2 (proj2 OK)).
  Notation I := (fun i : Z => i).
  Notation np := (N_p (ph c)).
  Notation ns := (N_species (ph c)).
  Definition tw (k l : Z) (z : cplx) : cplx := cmul z (turn (lN1 c) (lN2 c) m n k l).
  Notation rl := (rel (mode_in c) I I tw).

  Lemma tw_add k l z w : tw k l (cadd z w) = cadd (tw k l z) (tw k l w).
  Proof. unfold tw. ring. Qed.
  Lemma tw_scale k l a z : tw k l (cscale a z) = cscale a (tw k l z).
  Proof. unfold tw. rewrite !cscale_mul. ring. Qed.
  Lemma tw_i k l a z : tw k l (cscale a (cmul z ci)) = cscale a (cmul (tw k l z) ci).
  Proof. unfold tw. rewrite !cscale_mul. ring. Qed.
  Lemma tw_mul k l z w : tw k l (cmul z w) = cmul z (tw k l w).
  Proof. unfold tw. ring. Qed.
  Lemma tw_0 z : tw 0 0 z = z.
  Proof.
    unfold tw, turn. replace (- (phase (lN1 c) 0 m + phase (lN2 c) 0 n)) with 0 by (unfold phase; unfold Rdiv; ring). rewrite cis_0. ring.
  Qed.

  (** Moved functions have turned transforms. *)
  Lemma hat_moved (a a' : arr cplx) x s k l : dims4 a (d0 a) (d1 a) (lN1 c) (lN2 c) -> dims4 a' (d0 a') (d1 a') (lN1 c) (lN2 c) ->
    (forall i j, (0 <= i < lN1 c)%Z -> (0 <= j < lN2 c)%Z -> el a' x s i j = el a x s ((i - m) mod lN1 c)%Z ((j - n) mod lN2 c)%Z) ->
    el (to_hat c a') x s k l = tw k l (el (to_hat c a) x s k l).
  Proof.
    intros D D' H. rewrite !to_hat_el by auto. rewrite tw_scale. apply f_equal.
    rewrite (dft2_ext _ _ _ (fun i j => el a x s ((i - m) mod lN1 c)%Z ((j - n) mod lN2 c)%Z)) by auto.
    apply (dft2_shift (lN1 c) (lN2 c) (fun i j => el a x s i j)); auto.
  Qed.
  (** And back. *)
  Lemma moved_hat (a a' : arr cplx) x s i j : dims4 a (d0 a) (d1 a) (lN1 c) (lN2 c) -> dims4 a' (d0 a') (d1 a') (lN1 c) (lN2 c) ->
    (forall k l, mode_in c k l -> el a' x s k l = tw k l (el a x s k l)) ->
    (0 <= i < lN1 c)%Z -> (0 <= j < lN2 c)%Z ->
    half_N c * re (idft2 (lN1 c) (lN2 c) (fun m n => el a' x s m n) i j)
    = half_N c * re (idft2 (lN1 c) (lN2 c) (fun m n => el a x s m n) ((i - m) mod lN1 c)%Z ((j - n) mod lN2 c)%Z).
  Proof.
    intros D D' H Hi Hj. do 2 apply f_equal.
    set (y := idft2 (lN1 c) (lN2 c) (fun m n => el a x s m n)).
    transitivity (idft2 (lN1 c) (lN2 c) (dft2 (lN1 c) (lN2 c) (fun i j => y ((i - m) mod lN1 c)%Z ((j - n) mod lN2 c)%Z)) i j).
    - apply idft2_ext. intros k l Hk Hl. rewrite dft2_shift by auto. unfold y. rewrite dft2_idft2 by auto. apply H. split; auto.
    - apply (idft2_dft2 (lN1 c) (lN2 c) (fun i j => y ((i - m) mod lN1 c)%Z ((j - n) mod lN2 c)%Z)); auto.
  Qed.
  Lemma dist_moved X Y : shaped c X -> shaped c Y -> rl np ns X Y -> moved c m n (get_dist_func c X) (get_dist_func c Y).
  Proof.
    intros (A&B&C&D) (A'&B'&C'&D') H x s i j Hx Hs Hi Hj.
    rewrite !get_dist_el by (exact OK || (repeat split; auto)). apply moved_hat; try solve [assumption | repeat split; auto | intros; apply H; auto].
  Qed.
  Lemma from_moved X Y : shaped c X -> shaped c Y -> rl np ns X Y -> moved c m n (from_hat c X) (from_hat c Y).
  Proof.
    intros (A&B&C&D) (A'&B'&C'&D') H x s i j Hx Hs Hi Hj.
    rewrite !from_hat_el by (exact OK || (repeat split; auto)). apply moved_hat; try solve [assumption | repeat split; auto | intros; apply H; auto].
  Qed.
  Lemma rel_moved (f f' : arr R) : f_shaped c f -> f_shaped c f' -> moved c m n f f' -> rl np ns (to_hat c (amap RtoC f)) (to_hat c (amap RtoC f')).
  Proof.
    intros (A&B&C&D) (A'&B'&C'&D') H x s k l Hx Hs HS. apply hat_moved; try solve [assumption | repeat split; auto].
    intros i j Hi Hj. cbn [amap el]. apply f_equal. apply H; auto.
  Qed.
  Lemma relfn_moved g g' : moved_fn c m n g g' -> relfn c (mode_in c) I I tw g g'.
  Proof.
    intros H k l HS. apply hat_moved; try solve [assumption | repeat split; auto]. intros i j Hi Hj. cbn [on_cells el]. apply f_equal. apply H; auto.
  Qed.

  Lemma background_moved f f' : f_shaped c f -> f_shaped c f' -> moved c m n f f' -> same_background c (make_background c f) (make_background c f').
  Proof.
    intros D D' H.
    assert (FB : forall x s, inb np x -> inb ns s -> el (f_background c f') x s 0 0 = el (f_background c f) x s 0 0).
    { intros x s Hx Hs. rewrite !(fb_el c OK) by auto. apply f_equal. unfold mean2. apply f_equal2; auto.
      rewrite (zsum_ext (lN1 c) (fun i => zsum (lN2 c) (fun j => el f' x s i j))
        (fun i => (fun i' => zsum (lN2 c) (fun j => el f x s i' j)) ((i - m) mod lN1 c)%Z)).
      - apply (zsum_shift_sub (lN1 c) (fun i' => zsum (lN2 c) (fun j => el f x s i' j)) m); auto.
      - intros i Hi. cbv beta. rewrite (zsum_ext (lN2 c) _ (fun j => (fun j' => el f x s ((i - m) mod lN1 c)%Z j') ((j - n) mod lN2 c)%Z)).
        + apply (zsum_shift_sub (lN2 c) (fun j' => el f x s ((i - m) mod lN1 c)%Z j') n); auto.
        + intros j Hj. apply H; auto. }
    assert (MD : forall f, f_shaped c f -> forall i1 i2 i3 s, inb (N_p1 (ph c)) i1 -> inb (N_p2 (ph c)) i2 -> inb (N_p3 (ph c)) i3 -> inb ns s ->
      el (moddims (f_background c f) (N_p1 (ph c)) (N_p2 (ph c)) (N_p3 (ph c)) ns) i1 i2 i3 s
      = el (f_background c f) (i1 + N_p1 (ph c) * (i2 + N_p2 (ph c) * i3)) s 0 0).
    { clear f f' D D' H FB. intros f (A&B&_) i1 i2 i3 s H1 H2 H3 Hs. unfold moddims, of_flat. cbn [el].
      assert (DD : d0 (f_background c f) = np /\ d1 (f_background c f) = ns /\ d2 (f_background c f) = 1%Z /\ d3 (f_background c f) = 1%Z) by (repeat split; auto).
      destruct DD as (D0&D1&D2&D3).
      replace (lin (N_p1 (ph c)) (N_p2 (ph c)) (N_p3 (ph c)) i1 i2 i3 s)
        with (lin (d0 (f_background c f)) (d1 (f_background c f)) (d2 (f_background c f)) (i1 + N_p1 (ph c) * (i2 + N_p2 (ph c) * i3)) s 0 0)
        by (rewrite D0, D1, D2; unfold lin, N_p; ring).
      apply flat_lin. unfold inside. rewrite D0, D1, D2, D3. split; [apply pidx_bound; auto|split; [exact Hs|split; split; reflexivity || discriminate]]. }
    assert (E : forall axis dp x s, inb np x -> inb ns s ->
      el (dfdp_background c axis dp (f_background c f')) x s 0 0 = el (dfdp_background c axis dp (f_background c f)) x s 0 0).
    { intros axis dp x s Hx Hs. destruct (row_of c OK x Hx) as (i1&i2&i3&H1&H2&H3&->). pose proof OK as ((Q1&Q2&Q3&_)&_).
      rewrite !(dfdp_el c OK) by auto. apply f_equal2; auto.
      assert (SH : forall d, el (shift_axis axis (moddims (f_background c f') (N_p1 (ph c)) (N_p2 (ph c)) (N_p3 (ph c)) ns) d) i1 i2 i3 s
        = el (shift_axis axis (moddims (f_background c f) (N_p1 (ph c)) (N_p2 (ph c)) (N_p3 (ph c)) ns) d) i1 i2 i3 s).
      { intros d. destruct axis as [|[|]]; cbn [shift_axis]; unfold shift; cbn [el];
        set (mX := moddims (f_background c f') _ _ _ _); set (mY := moddims (f_background c f) _ _ _ _);
        change (d0 mX) with (N_p1 (ph c)); change (d1 mX) with (N_p2 (ph c)); change (d2 mX) with (N_p3 (ph c)); change (d3 mX) with ns;
        change (d0 mY) with (N_p1 (ph c)); change (d1 mY) with (N_p2 (ph c)); change (d2 mY) with (N_p3 (ph c)); change (d3 mY) with ns;
        rewrite !Z.sub_0_r; rewrite !(Z.mod_small s) by auto; unfold mX, mY; rewrite !MD by (auto || (apply Z.mod_pos_bound; auto));
        apply FB; auto; apply (pidx_bound (N_p1 (ph c)) (N_p2 (ph c)) (N_p3 (ph c))); apply Z.mod_pos_bound; auto. }
      unfold stencil4r. cbn [amap2 amap el]. rewrite !SH. reflexivity. }
    intros x s Hx Hs. cbn [make_background dfdp1 dfdp2 dfdp3]. split; [|split]; apply E; auto.
  Qed.
End Move.

Lemma initial_fields_ok c b s : lin_ok c -> f_shaped c (init_f c) -> linear_solver c = Ok (b, s) -> lin_fields_ok c s.
Proof.
  intros OK D L. destruct (solver_inv c b s L) as (_&_&_&_&FI).
  set (X := to_hat c (amap RtoC (init_f c))) in *. assert (DX : shaped c X) by exact D. pose proof OK as (_&P1&P2&_).
  unfold initialize_fields in FI. set (o := Arr 0 0 0 0 _) in FI.
  assert (PD : dims4 (phi_hat c (charge_times c Moments.density X)) 1 1 (lN1 c) (lN2 c))
    by (destruct (phi_el c _ 0 0 (density_shaped c X OK DX)) as (A&_); auto; split; lia).
  assert (MD : forall u v w, initialize_magnetic_fields c = Ok (u, v, w) -> dims4 u 1 1 (lN1 c) (lN2 c) /\ dims4 v 1 1 (lN1 c) (lN2 c) /\ dims4 w 1 1 (lN1 c) (lN2 c)).
  { intros u v w. unfold initialize_magnetic_fields. destruct (init_B c); [| |discriminate]; intros E; apply Ok_inj in E; injection E as <- <- <-; repeat split. }
  assert (J : forall u1 u2 u3 u4 u5 u6 : arr cplx, dims4 u1 1 1 (lN1 c) (lN2 c) -> d0 u2 = 1%Z -> d0 u3 = 1%Z -> d0 u4 = 1%Z -> d0 u5 = 1%Z -> d0 u6 = 1%Z ->
    dims4 (join6 u1 u2 u3 u4 u5 u6) 6 1 (lN1 c) (lN2 c)).
  { intros u1 u2 u3 u4 u5 u6 (A1&A2&A3&A4) B1 B2 B3 B4 B5. unfold join6, dims4. cbn [join0 d0 d1 d2 d3]. rewrite A1, A2, A3, A4, B1, B2, B3, B4, B5. repeat split. }
  assert (Q : forall F : fields, Ok F = Ok (fsol s) -> dims4 (fields_hat F) 6 1 (lN1 c) (lN2 c) -> lin_fields_ok c s)
    by (intros F E; apply Ok_inj in E; subst F; intros H; exact H).
  destruct (String.eqb (fields_initialize c) "user-defined"); [|destruct (String.eqb (fields_initialize c) "fft + user-defined magnetic fields")].
  - destruct (initialize_magnetic_fields c) as [((u&v)&w)|]; [|discriminate]. destruct (MD u v w eq_refl) as ((U&_)&(V&_)&(W&_)). cbn [rbind] in FI. destruct (init_E c) as ((e1&e2)&e3).
    apply (Q _ FI). cbn [fields_hat]. apply J; auto; repeat split.
  - destruct (initialize_magnetic_fields c) as [((u&v)&w)|]; [|discriminate]. destruct (MD u v w eq_refl) as ((U&_)&(V&_)&(W&_)). cbn [rbind] in FI.
    apply (Q _ FI). cbn [fields_hat]. apply J; auto; apply PD.
  - apply (Q _ FI). cbn [fields_hat]. apply J; auto; apply PD.
Qed.

Lemma run_starting c f E B b steps : forall s, lin_run (starting_from c f E B) b steps s = lin_run c b steps s.
Proof.
  destruct c. unfold starting_from. cbn [Linear.ph Linear.charge Linear.mass Linear.eps Linear.mu Linear.fields_type Linear.fields_initialize Linear.instantaneous Linear.lA_p Linear.lsource].
  induction steps as [|(m, dt) steps IH]; intros s; [reflexivity|]. cbn [lin_run].
  match goal with |- rbind ?a _ = rbind ?b _ => assert (EQ : a = b) by reflexivity; rewrite EQ; destruct b; [apply IH|reflexivity] end.
Qed.

Lemma translation c f E B m n b s steps t : lin_ok c -> homogeneous c -> f_shaped c (init_f c) -> f_shaped c f ->
  (source_enabled (ph c) = true \/ instantaneous c = true -> source_shaped c /\ source_homogeneous c) ->
  moved c m n (init_f c) f -> moved_E c m n (init_E c) E -> moved_B c m n (init_B c) B ->
  linear_solver c = Ok (b, s) -> lin_run c b steps s = Ok t ->
  let c' := starting_from c f E B in
  exists b' s' t', linear_solver c' = Ok (b', s') /\ lin_run c' b' steps s' = Ok t'
    /\ moved c m n (get_dist_func c (f_hat t)) (get_dist_func c' (f_hat t'))
    /\ moved_fields c m n (from_hat c (fields_hat (fsol t))) (from_hat c' (fields_hat (fsol t'))).
Proof.
  intros OK HM D D' SRC HF HE HB L R c'.
  pose proof (initial_fields_ok c b s OK D L) as FO.
  assert (IZ : forall k l, mode_in c k l -> mode_in c k l /\ mode_in c k l) by auto.
  destruct (solver_rel c OK (mode_in c) (fun i => i) (fun i => i) (tw c m n) (fun z => z)) with (f := f) (E := E) (B := B) (b := b) (s := s)
    as (s'&L'&RS); auto.
  - tauto.
  - apply tw_add.
  - apply tw_scale.
  - intros. apply tw_i.
  - intros. apply tw_i.
  - destruct OK as (_&Q1&Q2&_). repeat split; auto; lia.
  - apply tw_0.
  - apply rel_moved; auto.
  - destruct HE as (E1&E2&E3). split; [|split]; apply relfn_moved; auto.
  - unfold moved_B in HB. destruct (init_B c), B; cbn [relB]; try contradiction; auto.
    + destruct HB as (B1'&B2'&B3'). split; [|split]; apply relfn_moved; auto.
    + destruct HB as (B1'&B2'). split; apply relfn_moved; auto.
  - fold c' in L'. destruct (run_exists c OK b (make_background c f) steps s s' t R) as (t'&R').
    exists (make_background c f), s', t'. split; [exact L'|]. split; [unfold c'; rewrite run_starting; exact R'|].
    assert (RT : relS c (mode_in c) (fun i => i) (fun i => i) (tw c m n) (fun z => z) t t').
    { destruct (solver_inv c b s L) as (_&EB&_). rewrite EB in R.
      apply (run_rel c OK HM (mode_in c) (fun i => i) (fun i => i) (tw c m n) (fun z => z)) with (b := make_background c (init_f c)) (b' := make_background c f) (steps := steps) (s := s) (s' := s'); auto.
      - tauto.
      - apply tw_add.
      - apply tw_scale.
      - intros. apply tw_i.
      - intros. apply tw_i.
      - intros. apply tw_mul.
      - intros SE u X Y DX DY H. destruct (SRC (or_introl SE)) as (SS&SH). unfold source_hat.
        assert (GX : f_shaped c (from_hat c X)) by exact DX. assert (GY : f_shaped c (from_hat c Y)) by exact DY.
        exact (rel_moved c OK m n _ _ (SS _ u false GX) (SS _ u false GY) (SH m n _ _ u false GX GY (from_moved c OK m n X Y DX DY H))).
      - intros SE u X Y DX DY H. destruct (SRC (or_intror SE)) as (SS&SH).
        assert (GX : f_shaped c (get_dist_func c X)) by exact DX. assert (GY : f_shaped c (get_dist_func c Y)) by exact DY.
        split; [exact (SS _ u true GX)|split; [exact (SS _ u true GY)|]].
        exact (rel_moved c OK m n _ _ (SS _ u true GX) (SS _ u true GY) (SH m n _ _ u true GX GY (dist_moved c OK m n X Y DX DY H))).
      - apply (background_moved c OK m n); auto. }
    destruct RT as (_&D1&D2&RF&(_&RH&_)). split; [apply (dist_moved c OK m n); auto|].
    pose proof (initial_fields_ok c' _ s' OK D' L') as FO'. assert (LF : forall b s t, lin_fields_ok c s -> lin_run c b steps s = Ok t -> lin_fields_ok c t).
    { intros b0 u v HU HR. apply (run_invariant c b0 steps (lin_fields_ok c) u v); auto. intros me dt w w' HW HS.
      destruct (step_dims me c b0 dt w w' HS) as (_&(A1&A2&A3&A4)&_). unfold lin_fields_ok in *. rewrite A1, A2, A3, A4. exact HW. }
    destruct (LF b s t FO R) as (A1&A2&A3&A4). destruct (LF _ s' t' FO' R') as (B1&B2&B3&B4).
    intros e i j He Hi Hj. change (from_hat c') with (from_hat c). rewrite !from_hat_el by (exact OK || (repeat split; auto)).
    apply (moved_hat c OK m n); try solve [assumption | repeat split; auto]. intros k l M. apply (RH e 0%Z k l); auto. split; [discriminate|reflexivity].
Qed.
