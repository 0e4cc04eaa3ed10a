(** Runs of the linear solver with the hybrid model. *)
From Coq Require Import ZArith Reals Lra Lia String List Bool FunctionalExtensionality.
From Verif Require Import Base.Prelude Base.ZSum Base.Cplx Model.Af Model.Grid Model.Petsc Model.Config Model.Fft
  Model.Integrators Spec.RungeKutta Model.Moments Model.Linear Model.LinearHybrid
  Spec.Dft Spec.Waves Spec.MomentSpec Spec.LinearSpec Spec.LinearHybrid
  Proofs.AfLemmas Proofs.DftLemmas Proofs.ConvLemmas Proofs.MomentLemmas Proofs.FourierLemmas Proofs.LinearLemmas
  Proofs.LinearStep Proofs.LinearInv Proofs.LinearProps Proofs.LinearHybrid.
Import ListNotations.
Local Open Scope R_scope.

(** ** The integrators *)
Section Rk.
  Context {I J : Type} (dx : R -> vec I -> vec J -> vec I) (dy : vec I -> vec J -> vec J)
    (put : vec I -> vec J -> vec J -> vec J).
  Definition y_of (z : vec I * vec J * R) : vec J := snd (fst z).

  Section Functional.
    Context (L : (J -> R) -> R) (HL : functional L) (HD : forall x y, L (dy x y) = 0) (HP : forall x y old, L (put x y old) = L old).
    Lemma L_two (y k : vec J) (a : R) : L k = 0 -> L (fun i => y i + a * k i) = L y.
    Proof.
      intros H. replace (fun i => y i + a * k i) with (fun i => 1 * y i + a * k i) by (apply functional_extensionality; intros; ring).
      rewrite HL, H. ring.
    Qed.
    Lemma L_comb (a b : R) (x y : vec J) : L x = 0 -> L y = 0 -> L (fun i => a * x i + b * y i) = 0.
    Proof. intros X Y. rewrite HL, X, Y. ring. Qed.
    Lemma fin2 (y k : vec J) dt : L k = 0 -> L (fun i => y i + k i * dt) = L y.
    Proof. intros H. rewrite <- (L_two y k dt H). f_equal. apply functional_extensionality; intros; ring. Qed.
    Lemma fin4 (y k1 k2 k3 k4 : vec J) dt : L k1 = 0 -> L k2 = 0 -> L k3 = 0 -> L k4 = 0 ->
      L (fun i => y i + (k1 i + 2 * k2 i + 2 * k3 i + k4 i) / 6 * dt) = L y.
    Proof.
      intros H1 H2 H3 H4.
      rewrite <- (L_two y (fun i => 1 * (fun i => 1 * k1 i + 2 * k2 i) i + 1 * (fun i => 2 * k3 i + 1 * k4 i) i) (dt / 6))
        by (repeat apply L_comb; assumption).
      f_equal. apply functional_extensionality; intros; field.
    Qed.
    Lemma fin5 (y k1 k3 k4 k5 k6 : vec J) dt : L k1 = 0 -> L k3 = 0 -> L k4 = 0 -> L k5 = 0 -> L k6 = 0 ->
      L (fun i => y i + (7 * k1 i + 32 * k3 i + 12 * k4 i + 32 * k5 i + 7 * k6 i) * dt / 90) = L y.
    Proof.
      intros H1 H3 H4 H5 H6.
      rewrite <- (L_two y (fun i => 1 * (fun i => 7 * k1 i + 32 * k3 i) i
            + 1 * (fun i => 12 * k4 i + 1 * (fun i => 32 * k5 i + 7 * k6 i) i) i) (dt / 90))
        by (repeat apply L_comb; assumption).
      f_equal. apply functional_extensionality; intros; field.
    Qed.
    Lemma hyb_RK_functional m x0 y0 dt t : L (y_of (hyb_RK m dx dy put x0 y0 dt t)) = L y0.
    Proof.
      destruct m; cbv beta iota zeta delta [hyb_RK hyb_RK2 hyb_RK4 hyb_RK5 y_of fst snd].
      - etransitivity; [apply fin2; apply HD|]. rewrite !HP. reflexivity.
      - etransitivity; [apply fin4; apply HD|]. rewrite !HP. reflexivity.
      - etransitivity; [apply fin5; apply HD|]. rewrite !HP. reflexivity.
    Qed.
  End Functional.

  (** Components that are zero, keep slope zero and are not overwritten stay zero. *)
  Lemma hyb_RK_zero (S : J -> Prop) :
    (forall x y, (forall j, S j -> y j = 0) -> forall j, S j -> dy x y j = 0) ->
    (forall x y old j, S j -> put x y old j = old j) ->
    forall m x0 y0 dt t, (forall j, S j -> y0 j = 0) -> forall j, S j -> y_of (hyb_RK m dx dy put x0 y0 dt t) j = 0.
  Proof.
    intros HD HP m x0 y0 dt t H0.
    destruct m; cbv beta iota zeta delta [hyb_RK hyb_RK2 hyb_RK4 hyb_RK5 y_of fst snd].
    - set (y1 := put x0 y0 y0). assert (Z1 : forall j, S j -> y1 j = 0) by (intros; unfold y1; rewrite HP; auto).
      pose proof (HD x0 y0 H0) as K1. intros j Hj. rewrite HP, Z1, HD; auto; [ring|].
      intros i Hi. rewrite Z1, K1 by auto. ring.
    - set (y1 := put x0 y0 y0). assert (Z1 : forall j, S j -> y1 j = 0) by (intros; unfold y1; rewrite HP; auto).
      set (k1 := dy x0 y0). assert (K1 : forall j, S j -> k1 j = 0) by (apply (HD x0 y0 H0)).
      set (x1 := fun i => x0 i + 1 / 2 * dx t x0 y0 i * dt). set (w1 := fun i => y1 i + 1 / 2 * k1 i * dt).
      assert (W1 : forall j, S j -> w1 j = 0) by (intros; unfold w1; rewrite Z1, K1 by auto; ring).
      set (y2 := put x1 w1 y1). assert (Z2 : forall j, S j -> y2 j = 0) by (intros; unfold y2; rewrite HP; auto).
      set (k2 := dy x1 w1). assert (K2 : forall j, S j -> k2 j = 0) by (apply (HD x1 w1 W1)).
      set (x2 := fun i => x0 i + 1 / 2 * dx _ x1 y1 i * dt). set (w2 := fun i => y2 i + 1 / 2 * k2 i * dt).
      assert (W2 : forall j, S j -> w2 j = 0) by (intros; unfold w2; rewrite Z2, K2 by auto; ring).
      set (y3 := put x2 w2 y2). assert (Z3 : forall j, S j -> y3 j = 0) by (intros; unfold y3; rewrite HP; auto).
      set (k3 := dy x2 w2). assert (K3 : forall j, S j -> k3 j = 0) by (apply (HD x2 w2 W2)).
      intros j Hj. rewrite HP, Z3, K1, K2, K3, HD; auto; [field|].
      intros i Hi. rewrite Z3, K3 by auto. ring.
    - set (y1 := put x0 y0 y0). assert (Z1 : forall j, S j -> y1 j = 0) by (intros; unfold y1; rewrite HP; auto).
      set (k1 := dy x0 y0). assert (K1 : forall j, S j -> k1 j = 0) by (apply (HD x0 y0 H0)).
      set (x1 := fun i => x0 i + 1 / 4 * dx t x0 y0 i * dt). set (w1 := fun i => y1 i + 1 / 4 * k1 i * dt).
      assert (W1 : forall j, S j -> w1 j = 0) by (intros; unfold w1; rewrite Z1, K1 by auto; ring).
      set (y2 := put x1 w1 y1). assert (Z2 : forall j, S j -> y2 j = 0) by (intros; unfold y2; rewrite HP; auto).
      set (k2 := dy x1 w1). assert (K2 : forall j, S j -> k2 j = 0) by (apply (HD x1 w1 W1)).
      set (x2 := fun i => x0 i + 1 / 8 * (dx t x0 y0 i + dx _ x1 y1 i) * dt). set (w2 := fun i => y2 i + 1 / 8 * (k1 i + k2 i) * dt).
      assert (W2 : forall j, S j -> w2 j = 0) by (intros; unfold w2; rewrite Z2, K1, K2 by auto; ring).
      set (y3 := put x2 w2 y2). assert (Z3 : forall j, S j -> y3 j = 0) by (intros; unfold y3; rewrite HP; auto).
      set (k3 := dy x2 w2). assert (K3 : forall j, S j -> k3 j = 0) by (apply (HD x2 w2 W2)).
      set (x3 := fun i => x0 i - (1 / 2 * dx _ x1 y1 i - dx _ x2 y2 i) * dt). set (w3 := fun i => y3 i - (1 / 2 * k2 i - k3 i) * dt).
      assert (W3 : forall j, S j -> w3 j = 0) by (intros; unfold w3; rewrite Z3, K2, K3 by auto; ring).
      set (y4 := put x3 w3 y3). assert (Z4 : forall j, S j -> y4 j = 0) by (intros; unfold y4; rewrite HP; auto).
      set (k4 := dy x3 w3). assert (K4 : forall j, S j -> k4 j = 0) by (apply (HD x3 w3 W3)).
      set (x4 := fun i => x0 i + (3 * dx t x0 y0 i + 9 * dx _ x3 y3 i) * dt / 16). set (w4 := fun i => y4 i + (3 * k1 i + 9 * k4 i) * dt / 16).
      assert (W4 : forall j, S j -> w4 j = 0) by (intros; unfold w4; rewrite Z4, K1, K4 by auto; field).
      set (y5 := put x4 w4 y4). assert (Z5 : forall j, S j -> y5 j = 0) by (intros; unfold y5; rewrite HP; auto).
      set (k5 := dy x4 w4). assert (K5 : forall j, S j -> k5 j = 0) by (apply (HD x4 w4 W4)).
      intros j Hj. rewrite HP, Z5, K1, K3, K4, K5, HD; auto; [field|].
      intros i Hi. rewrite Z5, K1, K2, K3, K4, K5 by auto. field.
  Qed.
End Rk.

(** ** One step *)
Lemma hybrid_step_inv m c Te b dt s s' : lin_timestep_hybrid m c Te b dt s = Ok s' -> electrodynamic c = true ->
  let fh := step_input c s in
  let F := fsol s in
  let A := arr_like fh in
  let B := arr_like (fields_hat F) in
  let z := hyb_RK m (fun t x y => vec_of (df_hat_value c b (set_fields_hat F (B y)) t (A x)))
             (fun x y => vec_of (dfields_hybrid c Te (A x) (B y)))
             (fun x y old => vec_of (put_E c Te (A x) (B y) (B old)))
             (vec_of fh) (vec_of (fields_hat F)) dt (lt s) in
  N_species (ph c) = 1%Z /\ s' = LState (A (fst (fst z))) (set_fields_hat F (B (y_of z))) (snd z).
Proof.
  intros H E fh F A B z. unfold lin_timestep_hybrid in H. fold (step_input c s) fh F A B in H. fold (electrodynamic c) in H. rewrite E in H.
  destruct (df_hat_check c F fh) as [[]|e]; [|discriminate]. cbn [rbind] in H. unfold hybrid_check in H.
  destruct (Z.eqb_spec (N_species (ph c)) 1) as [NS|]; [|discriminate]. cbn [rbind] in H. split; [exact NS|].
  unfold z, y_of. destruct (hyb_RK m _ _ _ _ _ _ _) as ((x&y)&t). apply Ok_inj in H. rewrite <- H. reflexivity.
Qed.
Lemma em_of c : hybrid_lin c -> electrodynamic c = true.
Proof. intros (_&_&A&B). unfold electrodynamic. rewrite A, B. reflexivity. Qed.
Lemma hybrid_step_ok m c Te b dt s : hybrid_lin c -> exists s', lin_timestep_hybrid m c Te b dt s = Ok s'.
Proof.
  intros H. pose proof (em_of c H) as E. destruct H as (OK&NS&FE&FT). unfold lin_timestep_hybrid. fold (step_input c s). fold (electrodynamic c). rewrite E.
  assert (G : df_hat_check c (fsol s) (step_input c s) = Ok tt).
  { unfold df_hat_check. rewrite FE. unfold fields_seen. rewrite FT.
    change (String.eqb "electrodynamic" "electrostatic") with false. change (String.eqb "electrodynamic" "None") with false.
    change (String.eqb "electrodynamic" "electrodynamic") with true. cbn iota. cbn [rbind].
    apply check_iff; auto. }
  rewrite G. unfold hybrid_check. rewrite NS. cbn [Z.eqb Pos.eqb rbind]. destruct (hyb_RK _ _ _ _ _ _ _ _) as ((x&y)&t). eauto.
Qed.

Lemma hybrid_step_species c Te b m dt s : N_species (ph c) <> 1%Z ->
  fields_enabled (ph c) = true -> fields_type c = "electrodynamic"%string ->
  exists e, lin_timestep_hybrid m c Te b dt s = Err e.
Proof.
  intros NS FE FT. unfold lin_timestep_hybrid. destruct (df_hat_check _ _ _) as [[]|e]; [|exists e; reflexivity]. cbn [rbind].
  rewrite FE, FT. change (String.eqb "electrodynamic" "electrodynamic") with true. cbn [andb]. unfold hybrid_check.
  destruct (Z.eqb_spec (N_species (ph c)) 1); [contradiction|]. exists ValueError. reflexivity.
Qed.
Definition ohm1 c Te fh F : arr cplx := fst (fst (ohm_hat c Te fh F)).
Definition ohm2 c Te fh F : arr cplx := snd (fst (ohm_hat c Te fh F)).
Definition ohm3 c Te fh F : arr cplx := snd (ohm_hat c Te fh F).
Lemma dfields_hyb_el c Te fh F k l :
  let D := dfields_hybrid c Te fh F in
  let k1 := el (k_q1 c) 0 0 k l in let k2 := el (k_q2 c) 0 0 k l in
  (el D 3 0 k l = cscale k2 (cmul (copp (el (ohm3 c Te fh F) 0 0 k l)) ci)
  /\ el D 4 0 k l = cscale k1 (cmul (el (ohm3 c Te fh F) 0 0 k l) ci)
  /\ el D 5 0 k l = csub (cscale k2 (cmul (el (ohm1 c Te fh F) 0 0 k l) ci)) (cscale k1 (cmul (el (ohm2 c Te fh F) 0 0 k l) ci)))%Z.
Proof. cbv zeta. repeat split; reflexivity. Qed.
Lemma csum_one g : csum 1 g = g 0%Z.
Proof. apply cplx_eq; cbn [csum re im fst snd]; apply zsum_1. Qed.
Lemma dfields_hyb_E c Te fh F i k l : d1 F = 1%Z -> (0 <= i < 3)%Z -> el (dfields_hybrid c Te fh F) i 0 k l = c0.
Proof.
  intros D Hi.
  assert (Q : (i = 0 \/ i = 1 \/ i = 2)%Z) by lia.
  assert (E0 : el (dfields_hybrid c Te fh F) 0 0 k l
    = csub (cscale (/ (mu c * eps c)) (cscale (el (k_q2 c) 0 0 k l) (cmul (el F 5 0 k l) ci)))
        (cscale (/ eps c) (csum (d1 F) (fun j => cscale (/ mu c) (cscale (el (k_q2 c) 0 j k l) (cmul (el F 5 j k l) ci)))))) by reflexivity.
  assert (E1 : el (dfields_hybrid c Te fh F) 1 0 k l
    = csub (cscale (/ (mu c * eps c)) (cscale (el (k_q1 c) 0 0 k l) (cmul (copp (el F 5 0 k l)) ci)))
        (cscale (/ eps c) (csum (d1 F) (fun j => cscale (/ mu c) (cscale (el (k_q1 c) 0 j k l) (cmul (copp (el F 5 j k l)) ci)))))) by reflexivity.
  assert (E2 : el (dfields_hybrid c Te fh F) 2 0 k l
    = csub (cscale (/ (mu c * eps c)) (csub (cscale (el (k_q1 c) 0 0 k l) (cmul (el F 4 0 k l) ci)) (cscale (el (k_q2 c) 0 0 k l) (cmul (el F 3 0 k l) ci))))
        (cscale (/ eps c) (csum (d1 F) (fun j => cscale (/ mu c)
           (csub (cscale (el (k_q1 c) 0 j k l) (cmul (el F 4 j k l) ci)) (cscale (el (k_q2 c) 0 j k l) (cmul (el F 3 j k l) ci))))))) by reflexivity.
  destruct Q as [->|[->| ->]]; [rewrite E0|rewrite E1|rewrite E2]; rewrite D, csum_one, Rinv_mult;
    generalize (/ mu c) (/ eps c) (el F 5 0 k l)%Z (el F 4 0 k l)%Z (el F 3 0 k l)%Z (el (k_q1 c) 0 0 k l) (el (k_q2 c) 0 0 k l);
    clear; intros; cplx_ring.
Qed.

(** *** The divergence of B *)
Lemma div_B_hyb c Te fh F k l : lin_ok c -> mode_in c k l -> div_B c (dfields_hybrid c Te fh F) k l = c0.
Proof.
  intros OK (Hk&Hl). destruct (dfields_hyb_el c Te fh F k l) as (X&Y&_). unfold div_B.
  destruct (k_el c OK k l Hk Hl) as (K1&K2). fold (kx c k) in K1. fold (ky c l) in K2. rewrite K1 in *. rewrite K2 in *. cbv zeta in X, Y. rewrite X, Y.
  generalize (el (ohm3 c Te fh F) 0 0 k l)%Z. generalize (kx c k) (ky c l). clear. intros. cplx_ring.
Qed.
Lemma put_B c Te fh F old i j k l : (3 <= i)%Z -> el (put_E c Te fh F old) i j k l = el old i j k l.
Proof.
  intros H. unfold put_E. destruct (ohm_hat c Te fh F) as ((E1&E2)&E3). cbn [el].
  destruct (Z.eqb_spec i 0); [lia|]. destruct (Z.eqb_spec i 1); [lia|]. destruct (Z.eqb_spec i 2); [lia|]. reflexivity.
Qed.
Lemma hybrid_step_div_B m c Te b dt s s' k l : lin_ok c -> electrodynamic c = true -> lin_timestep_hybrid m c Te b dt s = Ok s' -> mode_in c k l ->
  div_B c (fields_hat (fsol s')) k l = div_B c (fields_hat (fsol s)) k l.
Proof.
  intros OK E H M. destruct (hybrid_step_inv m c Te b dt s s' H E) as (_&->). cbn [fsol set_fields_hat fields_hat].
  set (A := arr_like (step_input c s)). set (F := fields_hat (fsol s)). set (B := arr_like F). set (z := hyb_RK _ _ _ _ _ _ _ _).
  assert (G : forall pr : cplx -> R, (forall a b u v, pr (cadd (cscale a u) (cscale b v)) = a * pr u + b * pr v) -> pr c0 = 0 ->
    pr (div_B c (B (y_of z)) k l) = pr (div_B c F k l)).
  { intros pr PL P0. transitivity (pr (div_B c (B (vec_of F)) k l)).
    - unfold z. apply (hyb_RK_functional _ _ _ (fun w => pr (div_B c (B w) k l))).
      + intros a b' x y. unfold B, arr_like. rewrite div_B_lin. apply PL.
      + intros x y. replace (div_B c _ k l) with (div_B c (dfields_hybrid c Te (A x) (B y)) k l).
        * rewrite div_B_hyb by auto. exact P0.
        * unfold div_B. unfold B at 2 3. rewrite !arr_vec'. reflexivity.
      + intros x y old. f_equal.
    - f_equal. }
  apply cplx_eq; apply G; cbn; intros; ring.
Qed.
Lemma hybrid_run_inv c Te b steps (P : lstate -> Prop) s s' :
  (forall m dt s s', P s -> lin_timestep_hybrid m c Te b dt s = Ok s' -> P s') ->
  P s -> hybrid_lin_run c Te b steps s = Ok s' -> P s'.
Proof.
  intros HS. revert s. induction steps as [|(m&dt) steps IH]; intros s HP H; cbn in H.
  - injection H as <-. exact HP.
  - destruct (lin_timestep_hybrid m c Te b dt s) as [s1|] eqn:E; [|discriminate]. apply (IH s1); eauto.
Qed.
Lemma hybrid_run_div_B c Te b steps s s' k l : hybrid_lin c -> hybrid_lin_run c Te b steps s = Ok s' -> mode_in c k l ->
  div_B c (fields_hat (fsol s')) k l = div_B c (fields_hat (fsol s)) k l.
Proof.
  intros HL H M. pose proof (em_of c HL) as E. destruct HL as (OK&_).
  apply (hybrid_run_inv c Te b steps (fun s1 => div_B c (fields_hat (fsol s1)) k l = div_B c (fields_hat (fsol s)) k l) s s'); auto.
  intros m dt s1 s2 HP HS. rewrite <- HP. eapply hybrid_step_div_B; eauto.
Qed.
Lemma hybrid_run_ok c Te b steps s : hybrid_lin c -> exists s', hybrid_lin_run c Te b steps s = Ok s'.
Proof.
  intros HL. revert s. induction steps as [|(m&dt) steps IH]; intros s; [exists s; reflexivity|].
  cbn. destruct (hybrid_step_ok m c Te b dt s HL) as (s1&->). apply IH.
Qed.

(** *** Without a magnetic field *)
Lemma bidx_in n i : (0 <= i < n)%Z -> bidx n i = i.
Proof. intros H. unfold bidx. destruct (Z.eqb_spec n 1); lia. Qed.
Lemma slope_no_B c Te fh F : no_B c F -> dims4 F 6 1 (lN1 c) (lN2 c) ->
  forall i k l, (3 <= i < 6)%Z -> mode_in c k l -> el (dfields_hybrid c Te fh F) i 0 k l = c0.
Proof.
  intros NB (_&D1&D2&D3) i k l Hi M. destruct (dfields_hyb_el c Te fh F k l) as (X&Y&Z). cbv zeta in X, Y, Z.
  pose proof (NB 3%Z k l ltac:(lia) M) as B1. pose proof (NB 4%Z k l ltac:(lia) M) as B2. pose proof (NB 5%Z k l ltac:(lia) M) as B3.
  assert (BE : forall a b u v, bel (amap2 csub (amap (cscale a) (comp F u)) (amap (cscale b) (comp F v))) 0 0 k l
    = csub (cscale a (el F u 0 k l)) (cscale b (el F v 0 k l))).
  { intros. destruct M. unfold bel. cbn [amap2 amap comp d0 d1 d2 d3 el]. rewrite D1, D2, D3, !bidx_in by lia. reflexivity. }
  assert (E3 : el (ohm3 c Te fh F) 0 0 k l = c0).
  { unfold ohm3, ohm_hat. destruct (curl_B_over_mu c F) as ((J1&J2)&J3). cbn [snd amap2 amap el bcast2 comp]. rewrite BE, !B1, !B2. cplx_ring. }
  assert (E12 : exists z : cplx, el (ohm1 c Te fh F) 0 0 k l = cscale (el (k_q1 c) 0 0 k l) z /\ el (ohm2 c Te fh F) 0 0 k l = cscale (el (k_q2 c) 0 0 k l) z).
  { exists (copp (cscale (/ mean_all (n_real c fh)) (cscale Te (el (n_hat c fh) 0 0 k l)))).
    unfold ohm1, ohm2, ohm_hat. destruct (curl_B_over_mu c F) as ((J1&J2)&J3). cbn [fst snd amap2 amap el bcast2 comp].
    rewrite !BE, !B1, !B2, !B3. split; cplx_ring. }
  destruct E12 as (z&E1&E2). rewrite E3, E1, E2 in *.
  assert (Q : (i = 3 \/ i = 4 \/ i = 5)%Z) by lia. destruct Q as [->|[->| ->]]; [rewrite X|rewrite Y|rewrite Z];
    generalize (el (k_q1 c) 0 0 k l) (el (k_q2 c) 0 0 k l); clear; intros; cplx_ring.
Qed.
Lemma hybrid_step_no_B m c Te b dt s s' : hybrid_lin c -> lin_fields_ok c s -> no_B c (fields_hat (fsol s)) ->
  lin_timestep_hybrid m c Te b dt s = Ok s' -> no_B c (fields_hat (fsol s')) /\ lin_fields_ok c s'.
Proof.
  intros HL FO NB H. pose proof (em_of c HL) as E. destruct (hybrid_step_inv m c Te b dt s s' H E) as (NS&->). clear H.
  split; [|exact FO]. destruct FO as (F0&F1&F2&F3).
  cbn [fsol set_fields_hat fields_hat]. set (A := arr_like (step_input c s)). set (F := fields_hat (fsol s)) in *. set (B := arr_like F).
  set (z := hyb_RK _ _ _ _ _ _ _ _).
  set (S := fun j : cidx => let '(_, i, a, k, l) := j in (3 <= i < 6)%Z /\ a = 0%Z /\ mode_in c k l).
  assert (G : forall j, S j -> y_of z j = 0).
  { unfold z. apply (hyb_RK_zero _ _ _ S).
    - intros x y Zy ((((q&i)&a)&k)&l) (Hi&->&M). unfold vec_of.
      rewrite slope_no_B; auto; [destruct q; reflexivity| |repeat split; assumption].
      intros i' k' l' Hi' M'. unfold B, arr_like. cbn [arr_of el]. rewrite !Zy by (cbn; auto). reflexivity.
    - intros x y old ((((q&i)&a)&k)&l) (Hi&->&M). unfold vec_of. rewrite put_B by lia. unfold B, arr_like. cbn [arr_of el]. destruct q; reflexivity.
    - intros ((((q&i)&a)&k)&l) (Hi&->&M). pose proof (NB i k l Hi M) as N0. destruct q; cbn [vec_of]; rewrite N0; reflexivity. }
  intros i k l Hi M. unfold B, arr_like. cbn [arr_of el]. rewrite !G by (cbn; auto). reflexivity.
Qed.
Lemma hybrid_run_no_B c Te b steps s s' : hybrid_lin c -> lin_fields_ok c s -> no_B c (fields_hat (fsol s)) ->
  hybrid_lin_run c Te b steps s = Ok s' -> no_B c (fields_hat (fsol s')).
Proof.
  intros HL FO NB H.
  apply (hybrid_run_inv c Te b steps (fun s => no_B c (fields_hat (fsol s)) /\ lin_fields_ok c s) s s'); auto.
  intros m dt s1 s2 (NB1&FO1) HS. eapply hybrid_step_no_B; eauto.
Qed.

(** *** The electric field after a step of RK2 *)
Lemma put_E_mode c Te fh F old k l :
  E_mode (put_E c Te fh F old) k l = (el (ohm1 c Te fh F) 0 0 k l, el (ohm2 c Te fh F) 0 0 k l, el (ohm3 c Te fh F) 0 0 k l)%Z.
Proof. unfold E_mode, put_E, ohm1, ohm2, ohm3. destruct (ohm_hat c Te fh F) as ((E1&E2)&E3). reflexivity. Qed.

Lemma RK2_E c Te b dt s s' k l : hybrid_lin c -> instantaneous c = false -> lin_state_ok c s -> lin_fields_ok c s ->
  lin_timestep_hybrid RK2_ c Te b dt s = Ok s' -> mode_in c k l ->
  exists f F, half_way c Te b dt s f F
  /\ E_mode (fields_hat (fsol s')) k l = (el (ohm1 c Te f F) 0 0 k l, el (ohm2 c Te f F) 0 0 k l, el (ohm3 c Te f F) 0 0 k l)%Z
  /\ (same_dims (f_hat s') (f_hat s) /\ same_dims (fields_hat (fsol s')) (fields_hat (fsol s)))
  /\ (exists G t, forall x sp k l, el (f_hat s') x sp k l = cadd (el (f_hat s) x sp k l) (cscale dt (el (df_hat_value c b G t f) x sp k l)))
  /\ (forall i k l, (3 <= i < 6)%Z -> el (fields_hat (fsol s')) i 0 k l
       = cadd (el (fields_hat (fsol s)) i 0 k l) (cscale dt (el (dfields_hybrid c Te f F) i 0 k l))).
Proof.
  intros HL IN SO FO H M. pose proof (em_of c HL) as E. destruct (hybrid_step_inv RK2_ c Te b dt s s' H E) as (NS&->). clear H.
  cbn [fsol set_fields_hat fields_hat]. unfold step_input. rewrite IN.
  set (A := arr_like (f_hat s)). set (F := fields_hat (fsol s)) in *. set (B := arr_like F).
  destruct FO as (F0&F1&F2&F3). fold F in F0, F1, F2, F3.
  cbn [hyb_RK]. unfold hyb_RK2. cbv zeta. unfold y_of. cbn [fst snd].
  set (x := fun i => vec_of (f_hat s) i + _).
  set (y := fun i => vec_of (put_E c Te (A (vec_of (f_hat s))) (B (vec_of F)) (B (vec_of F))) i
    + vec_of (dfields_hybrid c Te (A (vec_of (f_hat s))) (B (vec_of F))) i * (dt / 2)).
  exists (A x), (B y).
  assert (AE' : forall a, arr_like a (vec_of a) = a).
  { intros [n0 n1 n2 n3 a]. unfold arr_like, arr_of. cbn [d0 d1 d2 d3]. apply f_equal. repeat (apply functional_extensionality; intro). cbn [vec_of el].
    symmetry. apply surjective_pairing. }
  split.
  - split; [repeat split|]. split; [repeat split; assumption|]. split.
    + intros q sp k' l'. unfold A, x. unfold arr_like at 1. cbn [arr_of el]. unfold A, B. rewrite !AE'.
      replace (set_fields_hat (fsol s) F) with (fsol s) by (unfold F; destruct (fsol s); reflexivity).
      cbn [vec_of]. apply cplx_eq; cbn [re im fst snd cadd cscale]; ring.
    + intros i k' l' Hi. unfold B, y. unfold arr_like at 1. cbn [arr_of el]. unfold A, B. rewrite !AE'. cbn [vec_of]. rewrite !put_B by lia.
      fold F. apply cplx_eq; cbn [re im fst snd cadd cscale]; ring.
  - split; [|split; [repeat split|split]].
    3: { intros i k' l' Hi. unfold B at 1. unfold arr_like at 1. cbn [arr_of el]. cbn [vec_of]. rewrite !put_B by lia.
      assert (BV : forall P i j k l, el (B (vec_of P)) i j k l = el P i j k l) by (intros; unfold B; apply arr_vec').
      rewrite !BV, !put_B, !BV by lia. fold F.
      apply cplx_eq; cbn [re im fst snd cadd cscale]; ring. }
    2: { eexists _, _. intros q sp k' l'. cbn [f_hat]. unfold A at 1. unfold arr_like at 1. cbn [arr_of el].
      cbn [vec_of]. apply cplx_eq; cbn [re im fst snd cadd cscale]; apply f_equal; apply Rmult_comm. }
    rewrite <- (put_E_mode c Te (A x) (B y) (B (vec_of (put_E c Te (A (vec_of (f_hat s))) (B (vec_of F)) (B (vec_of F))))) k l).
    assert (Q : forall i, (0 <= i < 3)%Z -> forall P, el (B (fun j => vec_of P j + vec_of (dfields_hybrid c Te (A x) (B y)) j * dt)) i 0 k l = el P i 0 k l).
    { intros i Hi P. unfold B at 1. unfold arr_like. cbn [arr_of el vec_of]. rewrite (dfields_hyb_E c Te (A x) (B y)) by (auto; exact F1).
      apply cplx_eq; cbn [re im fst snd c0]; ring. }
    unfold E_mode. rewrite !Q by lia. reflexivity.
Qed.
Lemma RK2_cold c b dt s s' k l : hybrid_lin c -> instantaneous c = false -> lin_state_ok c s -> lin_fields_ok c s ->
  lin_timestep_hybrid RK2_ c 0 b dt s = Ok s' -> mode_in c k l ->
  exists f F, half_way c 0 b dt s f F /\ E_mode (fields_hat (fsol s')) k l = linear_ohm c 0 f F k l.
Proof.
  intros HL IN SO FO H M. destruct (RK2_E c 0 b dt s s' k l HL IN SO FO H M) as (f&F&HW&E&_). exists f, F. split; [exact HW|].
  rewrite E. destruct HW as (DF&DB&_). destruct HL as (OK&NS&_).
  assert (SH : shaped c f) by (destruct SO as (A&B&C&D); destruct DF as (A'&B'&C'&D'); repeat split; congruence).
  pose proof (cold_ohm c OK NS f F k l SH DB M) as CO. unfold ohm1, ohm2, ohm3. destruct (ohm_hat c 0 f F) as ((E1&E2)&E3). exact CO.
Qed.
