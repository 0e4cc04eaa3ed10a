(** Relations between two runs of the linear solver that are kept mode by mode. *)
From Coq Require Import ZArith Reals Lra Lia String List Bool FunctionalExtensionality.
From Verif Require Import Base.Prelude Base.ZSum Base.Cplx Model.Af Model.Grid Model.Petsc Model.Config Model.Fft
  Model.Moments Model.Integrators Model.Linear Spec.Dft Spec.Waves Spec.MomentSpec Spec.LinearSpec Spec.RungeKutta Spec.Modes
  Proofs.AfLemmas Proofs.DftLemmas Proofs.ConvLemmas Proofs.MomentLemmas Proofs.FourierLemmas Proofs.LinearLemmas
  Proofs.LinearStep Proofs.LinearInv Proofs.LinearMore Proofs.LinearProps.
Import ListNotations.
Local Open Scope R_scope.

(** Runge-Kutta methods keep relations that are closed under linear combinations. *)
Section RkRel.
  Context {I J : Type} (P : (I -> R) -> (J -> R) -> Prop).
  Context (PL : forall a b x y x' y', P x x' -> P y y' -> P (fun i => a * x i + b * y i) (fun i => a * x' i + b * y' i)).
  Context (f : R -> (I -> R) -> (I -> R)) (g : R -> (J -> R) -> (J -> R)).
  Context (Pf : forall t x x', P x x' -> P (f t x) (g t x')).
  Context (P0 : P (fun _ => 0) (fun _ => 0)).
  Lemma combine_rel cs ks ls : Forall2 P ks ls -> P (combine_stages cs ks) (combine_stages cs ls).
  Proof.
    intros H. revert cs. induction H as [|k l ks ls Hk Hks IH]; intros cs.
    - replace (@combine_stages I cs []) with (fun _ : I => 0) by (apply functional_extensionality; intros; unfold combine_stages; destruct cs; reflexivity).
      replace (@combine_stages J cs []) with (fun _ : J => 0) by (apply functional_extensionality; intros; unfold combine_stages; destruct cs; reflexivity).
      exact P0.
    - destruct cs as [|a cs]; [exact P0|].
      replace (combine_stages (a :: cs) (k :: ks)) with (fun i : I => a * k i + 1 * combine_stages cs ks i)
        by (apply functional_extensionality; intros; unfold combine_stages; cbn; ring).
      replace (combine_stages (a :: cs) (l :: ls)) with (fun i : J => a * l i + 1 * combine_stages cs ls i)
        by (apply functional_extensionality; intros; unfold combine_stages; cbn; ring).
      apply PL; auto.
  Qed.
  Lemma add_rel dt x x' y y' : P x x' -> P y y' -> P (fun i => x i + dt * y i) (fun i => x' i + dt * y' i).
  Proof.
    intros H K. replace (fun i => x i + dt * y i) with (fun i => 1 * x i + dt * y i) by (apply functional_extensionality; intros; ring).
    replace (fun i => x' i + dt * y' i) with (fun i => 1 * x' i + dt * y' i) by (apply functional_extensionality; intros; ring). auto.
  Qed.
  Lemma stages_rel t x x' dt rs ks ls : P x x' -> Forall2 P ks ls -> Forall2 P (stages f t x dt rs ks) (stages g t x' dt rs ls).
  Proof.
    intros Hx. revert ks ls. induction rs as [|r rs IH]; intros ks ls H; cbn; auto.
    apply IH. apply Forall2_app; auto. constructor; auto. apply Pf, add_rel; auto. apply combine_rel; auto.
  Qed.
  Lemma rk_rel T t x x' dt : P x x' -> P (rk_step T f t x dt) (rk_step T g t x' dt).
  Proof. intros H. unfold rk_step. apply add_rel; auto. apply combine_rel, stages_rel; auto. Qed.
End RkRel.

Section Rel.
  Context (c : lcfg) (OK : lin_ok c) (HM : homogeneous c).
  Context (S : Z -> Z -> Prop) (s1 s2 : Z -> Z) (T : Z -> Z -> cplx -> cplx) (T0 : cplx -> cplx).
  Context (S_in : forall k l, S k l -> mode_in c k l /\ mode_in c (s1 k) (s2 l)).
  Context (S_0 : forall k l, S k l -> (k = 0 /\ l = 0 <-> s1 k = 0 /\ s2 l = 0)%Z).
  Context (T_add : forall k l z w, T k l (cadd z w) = cadd (T k l z) (T k l w)).
  Context (T_scale : forall k l a z, T k l (cscale a z) = cscale a (T k l z)).
  Context (T_x : forall k l z, S k l -> T k l (cscale (kx c (s1 k)) (cmul z ci)) = cscale (kx c k) (cmul (T k l z) ci)).
  Context (T_y : forall k l z, S k l -> T k l (cscale (ky c (s2 l)) (cmul z ci)) = cscale (ky c l) (cmul (T k l z) ci)).
  Context (T_sq : forall k l, S k l -> kx c (s1 k) ^ 2 + ky c (s2 l) ^ 2 = kx c k ^ 2 + ky c l ^ 2).
  Context (T0_lin : forall a b z w, T0 (cadd (cscale a z) (cscale b w)) = cadd (cscale a (T0 z)) (cscale b (T0 w))).
  Context (T_mul : forall k l z w, S k l -> T k l (cmul z w) = cmul (T0 z) (T k l w)).
  Notation p := (ph c).
  Notation np := (N_p (ph c)).
  Notation ns := (N_species (ph c)).
  Notation row := (fun i1 i2 i3 => i1 + N_p1 p * (i2 + N_p2 p * i3))%Z.

  Definition rel (n0 n1 : Z) (X Y : arr cplx) : Prop :=
    forall i j k l, inb n0 i -> inb n1 j -> S k l -> el Y i j k l = T k l (el X i j (s1 k) (s2 l)).

  Lemma T_zero k l : T k l c0 = c0.
  Proof. replace c0 with (cscale 0 c0) at 1 by cplx_ring. rewrite T_scale. cplx_ring. Qed.
  Lemma T_opp k l z : T k l (copp z) = copp (T k l z).
  Proof. replace (copp z) with (cscale (-1) z) by cplx_ring. rewrite T_scale. cplx_ring. Qed.
  Lemma T_sub k l z w : T k l (csub z w) = csub (T k l z) (T k l w).
  Proof. replace (csub z w) with (cadd z (copp w)) by cplx_ring. rewrite T_add, T_opp. cplx_ring. Qed.
  Lemma csum_neg n f : (n <= 0)%Z -> csum n f = c0.
  Proof. intros H. unfold csum. rewrite !zsum_0 by lia. reflexivity. Qed.
  Lemma T_csum k l n f : T k l (csum n f) = csum n (fun i => T k l (f i)).
  Proof.
    destruct (Z_le_gt_dec n 0) as [H|H]; [rewrite !csum_neg by auto; apply T_zero|].
    assert (Hn : (0 <= n)%Z) by lia. clear H. revert n Hn. apply natlike_ind.
    - rewrite !csum_0. apply T_zero.
    - intros n Hn IH. unfold Z.succ. rewrite !csum_succ, T_add, IH by auto. reflexivity.
  Qed.
  Lemma T_csum3 k l g : T k l (csum3 p g) = csum3 p (fun i1 i2 i3 => T k l (g i1 i2 i3)).
  Proof. unfold csum3. rewrite T_csum. apply csum_ext; intros. rewrite T_csum. apply csum_ext; intros. apply T_csum. Qed.
  Lemma T0_zero : T0 c0 = c0.
  Proof. replace c0 with (cadd (cscale 0 c0) (cscale 0 c0)) at 1 by cplx_ring. rewrite T0_lin. cplx_ring. Qed.
  Lemma T0_sub a b z w : T0 (csub (cscale a z) (cscale b w)) = csub (cscale a (T0 z)) (cscale b (T0 w)).
  Proof. replace (csub (cscale a z) (cscale b w)) with (cadd (cscale a z) (cscale (- b) w)) by cplx_ring. rewrite T0_lin. cplx_ring. Qed.
  Lemma T0_scale a z : T0 (cscale a z) = cscale a (T0 z).
  Proof. replace (cscale a z) with (cadd (cscale a z) (cscale 0 c0)) by cplx_ring. rewrite T0_lin. cplx_ring. Qed.
  Lemma T_weighted k l g e1 e2 e3 b1 b2 b3 : T k l (weighted g e1 e2 e3 b1 b2 b3)
    = weighted g (T k l e1) (T k l e2) (T k l e3) (T k l b1) (T k l b2) (T k l b3).
  Proof. unfold weighted. rewrite !T_add, !T_scale. reflexivity. Qed.
  Lemma k_at k l : S k l -> el (k_q1 c) 0 0 k l = kx c k /\ el (k_q2 c) 0 0 k l = ky c l
    /\ el (k_q1 c) 0 0 (s1 k) (s2 l) = kx c (s1 k) /\ el (k_q2 c) 0 0 (s1 k) (s2 l) = ky c (s2 l).
  Proof.
    intros H. destruct (S_in k l H) as ((A&B)&(C&D)).
    destruct (k_el c OK k l A B), (k_el c OK (s1 k) (s2 l) C D). repeat split; auto.
  Qed.

  (** Every row of momentum space. *)
  Lemma row_of x : inb np x -> exists i1 i2 i3, inb (N_p1 p) i1 /\ inb (N_p2 p) i2 /\ inb (N_p3 p) i3 /\ x = row i1 i2 i3.
  Proof.
    intros Hx. pose proof OK as ((A&B&C&_)&_). unfold inb, N_p in Hx.
    exists (x mod N_p1 p)%Z, ((x / N_p1 p) mod N_p2 p)%Z, (x / N_p1 p / N_p2 p)%Z.
    pose proof (Z.mod_pos_bound x (N_p1 p) A). pose proof (Z.mod_pos_bound (x / N_p1 p) (N_p2 p) B).
    repeat split; try lia.
    - apply Z.div_pos; [apply Z.div_pos; lia|lia].
    - rewrite Z.div_div by lia. apply Z.div_lt_upper_bound; nia.
    - rewrite <- (Z_div_mod_eq_full (x / N_p1 p) (N_p2 p)) || idtac.
      pose proof (Z_div_mod_eq_full x (N_p1 p)). pose proof (Z_div_mod_eq_full (x / N_p1 p) (N_p2 p)). nia.
  Qed.

  Lemma stream_rel t X Y : rel np ns X Y -> rel np ns (free_streaming c t X) (free_streaming c t Y).
  Proof.
    intros H x s k l Hx Hs HS. unfold free_streaming. cbn [el].
    destruct (k_at k l HS) as (->&->&->&->).
    destruct HM as (HA&_). rewrite (HA s t (lq1 c (s1 k)) (lq2 c (s2 l)) (lq1 c k) (lq2 c l)).
    destruct (A_q p s t _ _ _ _ _) as (a1, a2). rewrite (H x s k l) by auto. set (z := el X x s (s1 k) (s2 l)).
    assert (E : forall u v w, cmul (cscale (u * a1 + v * a2) (copp ci)) w
      = cadd (cscale (- a1) (cscale u (cmul w ci))) (cscale (- a2) (cscale v (cmul w ci)))) by (clear; intros; cplx_ring).
    rewrite !E, T_add, !T_scale. rewrite <- T_x, <- T_y by auto. rewrite !T_scale. reflexivity.
  Qed.

  Lemma J_rel m w X Y : weighs cplx_scalar np ns (lN1 c) (lN2 c) m w -> shaped c X -> shaped c Y -> rel np ns X Y ->
    forall k l, S k l -> el (csum1 (charge_times c m Y)) 0 0 k l = T k l (el (csum1 (charge_times c m X)) 0 0 (s1 k) (s2 l)).
  Proof.
    intros W DX DY H k l HS. destruct (S_in k l HS) as ((A&B)&(C&D)).
    rewrite (J_el c OK m w Y k l W DY A B), (J_el c OK m w X (s1 k) (s2 l) W DX C D).
    rewrite T_csum. apply csum_ext; intros s Hs. rewrite !T_scale. do 2 apply f_equal. rewrite T_csum3. apply csum3_ext; intros i1 i2 i3 H1 H2 H3.
    rewrite T_scale. apply f_equal. apply H; auto. apply pidx_bound; auto.
  Qed.

  Definition rel1 (X Y : arr cplx) : Prop := forall k l, S k l -> el Y 0 0 k l = T k l (el X 0 0 (s1 k) (s2 l)).
  (** The fields the force sees. *)
  Definition rel6 (F G : fields) : Prop := rel1 (E1h F) (E1h G) /\ rel1 (E2h F) (E2h G) /\ rel1 (E3h F) (E3h G)
    /\ rel1 (B1h F) (B1h G) /\ rel1 (B2h F) (B2h G) /\ rel1 (B3h F) (B3h G).
  Definition rel_mean (A B : arr cplx) : Prop := forall i, (3 <= i < 6)%Z -> el B i 0 0 0 = T0 (el A i 0 0 0)%Z.
  Definition relF (F G : fields) : Prop := rel6 F G /\ rel 6 1 (fields_hat F) (fields_hat G) /\ rel_mean (fields_hat F) (fields_hat G).

  Lemma phi_rel X Y k l : shaped c X -> shaped c Y -> rel np ns X Y -> S k l ->
    el (phi_hat c (charge_times c Moments.density Y)) 0 0 k l = T k l (el (phi_hat c (charge_times c Moments.density X)) 0 0 (s1 k) (s2 l)).
  Proof.
    intros DX DY H HS. destruct (S_in k l HS) as ((A&B)&(C&D)). pose proof OK as (_&Q1&Q2&_).
    destruct (phi_el c _ k l (density_shaped c Y OK DY) A B) as (_&->).
    destruct (phi_el c _ (s1 k) (s2 l) (density_shaped c X OK DX) C D) as (_&->).
    destruct (k_at k l HS) as (->&->&->&->). rewrite T_sq by auto.
    pose proof (J_rel _ (fun _ _ _ => 1) X Y (density_weighs cplx_scalar cplx_laws np ns (lN1 c) (lN2 c) Q1 Q2) DX DY H k l HS) as E.
    unfold csum1 in E. cbn [el] in E.
    destruct (density_shaped c X OK DX) as (_&E1&_). destruct (density_shaped c Y OK DY) as (_&E2&_). rewrite E1, E2 in E. rewrite E, <- T_scale.
    specialize (S_0 k l HS).
    destruct (Z.eqb_spec k 0), (Z.eqb_spec l 0), (Z.eqb_spec (s1 k) 0), (Z.eqb_spec (s2 l) 0); cbn [andb]; try reflexivity; try (symmetry; apply T_zero); exfalso; tauto.
  Qed.
  Lemma zero_rel X : rel1 (zero_like X) (zero_like X).
  Proof. intros k l HS. unfold zero_like. cbn [amap el]. rewrite T_scale. cplx_ring. Qed.
  Lemma zero_rel' X Y : rel1 (zero_like X) (zero_like Y).
  Proof. intros k l HS. unfold zero_like. cbn [amap el]. rewrite T_scale. cplx_ring. Qed.
  Lemma electrostatic_rel X Y o o' : shaped c X -> shaped c Y -> rel np ns X Y ->
    rel6 (compute_electrostatic_fields c (charge_times c Moments.density X) o) (compute_electrostatic_fields c (charge_times c Moments.density Y) o').
  Proof.
    intros DX DY H. unfold compute_electrostatic_fields.
    split; [|split; [|split; [|split; [|split]]]]; cbn [E1h E2h E3h B1h B2h B3h]; try apply zero_rel'; intros k l HS; unfold grad_hat; cbn [amap2 el];
      destruct (k_at k l HS) as (E1&E2&E3&E4); rewrite (phi_rel X Y k l DX DY H HS), ?E1, ?E2, ?E3, ?E4, T_scale; apply f_equal;
      rewrite <- T_opp; symmetry; auto.
  Qed.

  Lemma get_rel F G : relF F G -> rel6 (get_fields c F) (get_fields c G).
  Proof.
    intros (A&B&_). unfold get_fields. destruct (String.eqb _ _); auto.
    split; [|split; [|split; [|split; [|split]]]]; intros k l HS; cbn [E1h E2h E3h B1h B2h B3h comp el]; apply B; auto; split; reflexivity || discriminate.
  Qed.
  Lemma seen_rel F G X Y F' G' : shaped c X -> shaped c Y -> rel np ns X Y -> relF F G ->
    fields_seen c F X = Ok F' -> fields_seen c G Y = Ok G' -> relF F' G'.
  Proof.
    intros DX DY H RF. unfold fields_seen. destruct (String.eqb _ "electrostatic").
    - intros E E'. apply Ok_inj in E, E'. subst. destruct RF as (_&B&C). split; [apply electrostatic_rel; auto|split; auto].
    - destruct (String.eqb _ "electrodynamic"); [|destruct (String.eqb _ "None"); [|discriminate]]; intros E E'; apply Ok_inj in E, E'; subst; auto.
  Qed.

  Definition same_background (b b' : background) : Prop := forall x s, inb np x -> inb ns s ->
    el (dfdp1 b') x s 0 0 = el (dfdp1 b) x s 0 0 /\ el (dfdp2 b') x s 0 0 = el (dfdp2 b) x s 0 0 /\ el (dfdp3 b') x s 0 0 = el (dfdp3 b) x s 0 0.

  Lemma same_background_refl b : same_background b b.
  Proof. intros x s _ _. auto. Qed.

  Lemma force_rel b b' t F G X Y : same_background b b' -> relF F G -> rel np ns (fields_term c b t F X) (fields_term c b' t G Y).
  Proof.
    intros SB RF x s k l Hx Hs HS. unfold fields_term. cbn [el]. destruct (get_rel F G RF) as (R1&R2&R3&R4&R5&R6).
    destruct HM as (_&g1&g2&g3&HP). rewrite !HP. destruct (SB x s Hx Hs) as (->&->&->).
    rewrite (R1 k l HS), (R2 k l HS), (R3 k l HS), (R4 k l HS), (R5 k l HS), (R6 k l HS). rewrite <- !T_weighted, !T_add, !T_scale. reflexivity.
  Qed.

  Lemma moddims_wid (X : arr cplx) i1 i2 i3 s k l : shaped c X -> inb (N_p1 p) i1 -> inb (N_p2 p) i2 -> inb (N_p3 p) i3 -> inb ns s -> inb (lN1 c) k -> inb (lN2 c) l ->
    el (moddims X (N_p1 p) (N_p2 p) (N_p3 p) (ns * lN1 c * lN2 c)) i1 i2 i3 (wid c s k l) = el X (row i1 i2 i3) s k l.
  Proof.
    intros (D0&D1&D2&D3) H1 H2 H3 Hs Hk Hl. unfold moddims, of_flat. cbn [el].
    replace (lin (N_p1 p) (N_p2 p) (N_p3 p) i1 i2 i3 (wid c s k l)) with (lin (d0 X) (d1 X) (d2 X) (row i1 i2 i3) s k l)
      by (rewrite D0, D1, D2; unfold lin, wid, N_p; ring).
    apply flat_lin. unfold inside. rewrite D0, D1, D2, D3. split; [apply pidx_bound; auto|split; [exact Hs|split; [exact Hk|exact Hl]]].
  Qed.
  Lemma ddelta_rel axis dp X Y : ddelta_check c = Ok tt -> shaped c X -> shaped c Y -> rel np ns X Y ->
    rel np ns (ddelta_f_dp c axis dp X) (ddelta_f_dp c axis dp Y).
  Proof.
    intros CH DX DY H x s k l Hx Hs HS. destruct (S_in k l HS) as ((A&B)&(C&D)).
    pose proof OK as ((Q1&Q2&Q3&_)&_).
    destruct (row_of x Hx) as (i1&i2&i3&H1&H2&H3&->).
    rewrite (ddelta_el c OK axis dp Y i1 i2 i3 s k l), (ddelta_el c OK axis dp X i1 i2 i3 s (s1 k) (s2 l)) by auto. rewrite T_scale. apply f_equal.
    assert (E : forall d, el (shift_axis axis (moddims Y (N_p1 p) (N_p2 p) (N_p3 p) (ns * lN1 c * lN2 c)) d) i1 i2 i3 (wid c s k l)
      = T k l (el (shift_axis axis (moddims X (N_p1 p) (N_p2 p) (N_p3 p) (ns * lN1 c * lN2 c)) d) i1 i2 i3 (wid c s (s1 k) (s2 l)))).
    { intros d. assert (HW : forall k l, inb (lN1 c) k -> inb (lN2 c) l -> inb (ns * lN1 c * lN2 c) (wid c s k l)) by (intros; apply pidx_bound; auto).
      pose proof (HW k l A B) as W1. pose proof (HW (s1 k) (s2 l) C D) as W2. clear HW.
      assert (M : forall n i e, (0 < n)%Z -> inb n ((i - e) mod n)%Z) by (intros; apply Z.mod_pos_bound; auto).
      destruct axis as [|[|]]; cbn [shift_axis]; unfold shift; cbn [el];
        set (mX := moddims X _ _ _ _); set (mY := moddims Y _ _ _ _);
        change (d0 mX) with (N_p1 p); change (d1 mX) with (N_p2 p); change (d2 mX) with (N_p3 p); change (d3 mX) with (ns * lN1 c * lN2 c)%Z;
        change (d0 mY) with (N_p1 p); change (d1 mY) with (N_p2 p); change (d2 mY) with (N_p3 p); change (d3 mY) with (ns * lN1 c * lN2 c)%Z;
        rewrite !Z.sub_0_r; rewrite (Z.mod_small (wid c s k l)), (Z.mod_small (wid c s (s1 k) (s2 l))) by auto;
        unfold mX, mY; rewrite !moddims_wid by (auto || (apply Z.mod_pos_bound; auto)); apply H; auto;
        (apply (pidx_bound (N_p1 p) (N_p2 p) (N_p3 p)); apply Z.mod_pos_bound; auto). }
    unfold stencil4. cbn [amap2 amap el]. rewrite !E, T_sub, !T_add, T_opp, !T_scale. reflexivity.
  Qed.
  Lemma mean_rel F G X Y : ddelta_check c = Ok tt -> shaped c X -> shaped c Y -> rel np ns X Y -> relF F G ->
    rel np ns (mean_B_term c F X) (mean_B_term c G Y).
  Proof.
    intros CH DX DY H (_&_&RM) x s k l Hx Hs HS. unfold mean_B_term. cbv zeta. cbn [el].
    rewrite !RM by lia. rewrite !(ddelta_rel _ _ X Y CH DX DY H x s k l) by auto.
    rewrite T_scale, !T_add, !T_mul by auto. rewrite !T0_sub, !T0_scale. reflexivity.
  Qed.

  Lemma df_rel b b' t F G X Y : (source_enabled p = true -> rel np ns (source_hat c t X) (source_hat c t Y)) -> same_background b b' -> df_hat_check c F X = Ok tt -> relF F G -> shaped c X -> shaped c Y -> rel np ns X Y ->
    rel np ns (df_hat_value c b F t X) (df_hat_value c b' G t Y).
  Proof.
    intros SRC SB CH RF DX DY H. unfold df_hat_value, df_hat_check in *.
    assert (E : rel np ns (if source_enabled p then amap2 cadd (free_streaming c t X) (source_hat c t X) else free_streaming c t X)
                          (if source_enabled p then amap2 cadd (free_streaming c t Y) (source_hat c t Y) else free_streaming c t Y)).
    { destruct (source_enabled p) eqn:ES; [|apply stream_rel; auto].
      intros x s k l Hx Hs HS. cbn [amap2 el]. rewrite (stream_rel t X Y H x s k l), (SRC eq_refl x s k l) by auto. rewrite T_add. reflexivity. }
    destruct (fields_enabled p); auto.
    destruct (fields_seen c F X) as [F'|] eqn:EX; cbn [rbind] in CH; [|discriminate].
    destruct (fields_seen c G Y) as [G'|] eqn:EY.
    - pose proof (seen_rel F G X Y F' G' DX DY H RF EX EY) as RF'.
      intros x s k l Hx Hs HS. cbn [amap2 el]. rewrite (E x s k l), (force_rel b b' t F' G' X Y SB RF' x s k l), (mean_rel F' G' X Y CH DX DY H RF' x s k l) by auto.
      rewrite T_sub, T_add. reflexivity.
    - exfalso. clear - EX EY. unfold fields_seen in *. destruct (String.eqb _ "electrostatic"); [discriminate|].
      destruct (String.eqb _ "electrodynamic"); [discriminate|]. destruct (String.eqb _ "None"); discriminate.
  Qed.

  Lemma six i : inb 6 i -> i = 0%Z \/ i = 1%Z \/ i = 2%Z \/ i = 3%Z \/ i = 4%Z \/ i = 5%Z.
  Proof. unfold inb. lia. Qed.
  Lemma dfields_rel X Y A B : shaped c X -> shaped c Y -> rel np ns X Y -> rel 6 1 A B ->
    rel 6 1 (dfields_hat_value c X A) (dfields_hat_value c Y B).
  Proof.
    intros DX DY H HA i j k l Hi Hj HS. assert (j = 0%Z) by (unfold inb in Hj; lia). subst j.
    pose proof OK as (_&Q1&Q2&_).
    destruct (dfields_el c Y B k l) as (Y0&Y1&Y2&Y3&Y4&Y5). destruct (dfields_el c X A (s1 k) (s2 l)) as (X0&X1&X2&X3&X4&X5). cbv zeta in *.
    destruct (k_at k l HS) as (K1&K2&K3&K4). rewrite K1, K2 in *. rewrite K3, K4 in *.
    pose proof (J_rel _ _ X Y (mom1_weighs cplx_scalar cplx_laws np ns (lN1 c) (lN2 c) Q1 Q2) DX DY H k l HS) as J1.
    pose proof (J_rel _ _ X Y (mom2_weighs cplx_scalar cplx_laws np ns (lN1 c) (lN2 c) Q1 Q2) DX DY H k l HS) as J2.
    pose proof (J_rel _ _ X Y (mom3_weighs cplx_scalar cplx_laws np ns (lN1 c) (lN2 c) Q1 Q2) DX DY H k l HS) as J3.
    assert (B0 : forall n, inb 6 n -> el B n 0%Z k l = T k l (el A n 0%Z (s1 k) (s2 l))) by (intros; apply HA; auto).
    assert (I0 : inb 6 0) by (split; [discriminate|reflexivity]). assert (I1 : inb 6 1) by (split; [discriminate|reflexivity]).
    assert (I2 : inb 6 2) by (split; [discriminate|reflexivity]). assert (I3 : inb 6 3) by (split; [discriminate|reflexivity]).
    assert (I4 : inb 6 4) by (split; [discriminate|reflexivity]). assert (I5 : inb 6 5) by (split; [discriminate|reflexivity]).
    rewrite J1, (B0 5%Z I5), <- T_y in Y0 by auto. rewrite J2, (B0 5%Z I5), <- T_opp, <- T_x in Y1 by auto.
    rewrite J3, (B0 4%Z I4), (B0 3%Z I3), <- T_x, <- T_y in Y2 by auto.
    rewrite (B0 2%Z I2), <- T_opp, <- T_y in Y3 by auto. rewrite (B0 2%Z I2), <- T_x in Y4 by auto.
    rewrite (B0 0%Z I0), (B0 1%Z I1), <- T_x, <- T_y in Y5 by auto.
    destruct (six i Hi) as [-> | [-> | [-> | [-> | [-> | ->]]]]].
    - rewrite Y0, X0, T_sub, (T_scale k l (/ (mu c * eps c))), (T_scale k l (/ eps c)). reflexivity.
    - rewrite Y1, X1, T_sub, (T_scale k l (/ (mu c * eps c))), (T_scale k l (/ eps c)). reflexivity.
    - rewrite Y2, X2, T_sub, (T_scale k l (/ (mu c * eps c))), (T_scale k l (/ eps c)), T_sub. reflexivity.
    - rewrite Y3, X3. reflexivity.
    - rewrite Y4, X4. reflexivity.
    - rewrite Y5, X5, T_sub. reflexivity.
  Qed.
  Lemma dfields_mean X Y A B : rel_mean (dfields_hat_value c X A) (dfields_hat_value c Y B).
  Proof.
    intros i Hi. pose proof OK as (_&Q1&Q2&_).
    destruct (dfields_el c Y B 0 0) as (_&_&_&Y3&Y4&Y5). destruct (dfields_el c X A 0 0) as (_&_&_&X3&X4&X5). cbv zeta in *.
    destruct (k_el c OK 0 0) as (K1&K2); [split; lia|split; lia|]. rewrite !wave_0 in K1, K2 by auto. rewrite K1, K2 in *.
    assert (E : i = 3%Z \/ i = 4%Z \/ i = 5%Z) by lia.
    destruct E as [->|[->| ->]]; [rewrite Y3, X3|rewrite Y4, X4|rewrite Y5, X5]; rewrite ?T0_sub, ?T0_scale; cplx_ring.
  Qed.

  (** ** One step *)
  (** The source, if there is one. *)
  Context (SRC : source_enabled p = true -> forall t X Y, shaped c X -> shaped c Y -> rel np ns X Y -> rel np ns (source_hat c t X) (source_hat c t Y)).
  Context (SIN : instantaneous c = true -> forall t X Y, shaped c X -> shaped c Y -> rel np ns X Y ->
    shaped c (to_hat c (amap RtoC (lsource c (get_dist_func c X) t true))) /\ shaped c (to_hat c (amap RtoC (lsource c (get_dist_func c Y) t true)))
    /\ rel np ns (to_hat c (amap RtoC (lsource c (get_dist_func c X) t true))) (to_hat c (amap RtoC (lsource c (get_dist_func c Y) t true)))).
  Definition relS (s s' : lstate) : Prop :=
    lt s' = lt s /\ shaped c (f_hat s) /\ shaped c (f_hat s') /\ rel np ns (f_hat s) (f_hat s') /\ relF (fsol s) (fsol s').

  Lemma input_rel s s' : relS s s' -> shaped c (step_input c s) /\ shaped c (step_input c s') /\ rel np ns (step_input c s) (step_input c s').
  Proof.
    intros (E&D&D'&H&_). unfold step_input. destruct (instantaneous c) eqn:IN; [rewrite E; apply SIN; auto|split; [|split]; auto].
  Qed.
  Definition vrel n0 n1 (x y : vec cidx) : Prop := rel n0 n1 (arr_of 0 0 0 0 x) (arr_of 0 0 0 0 y).
  Lemma vrel_lin n0 n1 a b x y x' y' : vrel n0 n1 x x' -> vrel n0 n1 y y' -> vrel n0 n1 (fun i => a * x i + b * y i) (fun i => a * x' i + b * y' i).
  Proof.
    intros H K i j k l Hi Hj HS. specialize (H i j k l Hi Hj HS). specialize (K i j k l Hi Hj HS). cbn [arr_of el] in *.
    transitivity (cadd (cscale a (x' (false, i, j, k, l), x' (true, i, j, k, l))) (cscale b (y' (false, i, j, k, l), y' (true, i, j, k, l)))); [cplx_ring|].
    rewrite H, K, <- !T_scale, <- T_add. apply f_equal. cplx_ring.
  Qed.
  Lemma vrel_0 n0 n1 : vrel n0 n1 (fun _ => 0) (fun _ => 0).
  Proof. intros i j k l Hi Hj HS. cbn [arr_of el]. symmetry. apply T_zero. Qed.
  Lemma vrel_of n0 n1 X Y : rel n0 n1 X Y -> vrel n0 n1 (vec_of X) (vec_of Y).
  Proof. intros H i j k l Hi Hj HS. specialize (H i j k l Hi Hj HS). cbn [arr_of el]. cbn [vec_of]. rewrite H. unfold re, im. rewrite <- !surjective_pairing. reflexivity. Qed.
  Lemma vrel_arr n0 n1 m0 m1 m2 m3 m0' m1' m2' m3' x y : vrel n0 n1 x y -> rel n0 n1 (arr_of m0 m1 m2 m3 x) (arr_of m0' m1' m2' m3' y).
  Proof. intros H. exact H. Qed.
  Definition vmean (x y : vec cidx) : Prop := rel_mean (arr_of 0 0 0 0 x) (arr_of 0 0 0 0 y).
  Lemma vmean_of X Y : rel_mean X Y -> vmean (vec_of X) (vec_of Y).
  Proof. intros H i Hi. specialize (H i Hi). cbn [arr_of el]. cbn [vec_of]. rewrite H. unfold re, im. rewrite <- !surjective_pairing. reflexivity. Qed.
  Lemma vmean_lin a b x y x' y' : vmean x x' -> vmean y y' -> vmean (fun i => a * x i + b * y i) (fun i => a * x' i + b * y' i).
  Proof.
    intros H K i Hi. specialize (H i Hi). specialize (K i Hi). cbn [arr_of el] in *.
    transitivity (cadd (cscale a (x' (false, i, 0, 0, 0)%Z, x' (true, i, 0, 0, 0)%Z)) (cscale b (y' (false, i, 0, 0, 0)%Z, y' (true, i, 0, 0, 0)%Z))); [cplx_ring|].
    rewrite H, K, <- T0_lin. apply f_equal. cplx_ring.
  Qed.
  Definition prel (x y : cidx + cidx -> R) : Prop :=
    vrel np ns (fun i => x (inl i)) (fun i => y (inl i))
    /\ vrel 6 1 (fun i => x (inr i)) (fun i => y (inr i)) /\ vmean (fun i => x (inr i)) (fun i => y (inr i)).
  Lemma prel_lin a b x y x' y' : prel x x' -> prel y y' -> prel (fun i => a * x i + b * y i) (fun i => a * x' i + b * y' i).
  Proof.
    intros (A&B&C) (A'&B'&C'). split; [|split].
    - exact (vrel_lin np ns a b (fun i => x (inl i)) (fun i => y (inl i)) (fun i => x' (inl i)) (fun i => y' (inl i)) A A').
    - exact (vrel_lin 6 1 a b (fun i => x (inr i)) (fun i => y (inr i)) (fun i => x' (inr i)) (fun i => y' (inr i)) B B').
    - exact (vmean_lin a b (fun i => x (inr i)) (fun i => y (inr i)) (fun i => x' (inr i)) (fun i => y' (inr i)) C C').
  Qed.
  Lemma prel_0 : prel (fun _ => 0) (fun _ => 0).
  Proof. split; [|split]; try apply vrel_0. intros i Hi. cbn [arr_of el]. symmetry. apply T0_zero. Qed.

  Lemma step_rel m b b' dt s s' t t' : same_background b b' -> relS s s' ->
    lin_timestep m c b dt s = Ok t -> lin_timestep m c b' dt s' = Ok t' -> relS t t'.
  Proof.
    intros SB RS H H'. destruct (input_rel s s' RS) as (DI&DI'&RI). pose proof RS as (ET&_&_&_&RF).
    destruct (electrodynamic c) eqn:EM.
    - destruct (step_coupled m c b dt s t H EM) as (CH&->). destruct (step_coupled m c b' dt s' t' H' EM) as (CH'&->).
      set (X := step_input c s) in *. set (Y := step_input c s') in *.
      rewrite ET. set (z := rk_step _ _ _ _ _). set (z' := rk_step _ _ _ _ _).
      assert (P : prel z z').
      { unfold z, z'. apply (rk_rel prel prel_lin).
        - intros tt' x x' (A&B&C). cbn [coupled both]. split; [|split].
          + apply (vrel_of np ns). apply df_rel; [intros SE; apply SRC; [exact SE|exact DI|exact DI'|exact A]|exact SB|rewrite (check_indep c (fsol s) _ X); exact CH|exact RF|exact DI|exact DI'|exact A].
          + apply (vrel_of 6 1). apply dfields_rel; auto.
          + apply vmean_of. apply dfields_mean.
        - exact prel_0.
        - destruct RF as (_&R1&R2). split; [|split].
          + apply (vrel_of np ns); exact RI. + apply (vrel_of 6 1); exact R1. + apply vmean_of; exact R2. }
      destruct P as (P1&P2&P3). destruct RF as (R0&R1&R2).
      split; [reflexivity|split; [exact DI|split; [exact DI'|split; [exact P1|split; [exact R0|split; [exact P2|exact P3]]]]]].
    - destruct (step_uncoupled m c b dt s t H EM) as (CH&->). destruct (step_uncoupled m c b' dt s' t' H' EM) as (CH'&->).
      set (X := step_input c s) in *. set (Y := step_input c s') in *. rewrite ET.
      split; [reflexivity|split; [exact DI|split; [exact DI'|split; [|exact RF]]]].
      apply (vrel_arr np ns). apply (rk_rel (vrel np ns) (vrel_lin np ns)).
      + intros u x x' A. apply vrel_of. apply df_rel; [intros SE; apply SRC; [exact SE|exact DI|exact DI'|exact A]|exact SB|rewrite (check_indep c (fsol s) _ X); exact CH|exact RF|exact DI|exact DI'|exact A].
      + apply vrel_0.
      + apply vrel_of; auto.
  Qed.
  Lemma run_rel b b' steps : same_background b b' -> forall s s' t t', relS s s' ->
    lin_run c b steps s = Ok t -> lin_run c b' steps s' = Ok t' -> relS t t'.
  Proof.
    intros SB. induction steps as [|(m, dt) steps IH]; intros s s' t t' RS H H'; cbn [lin_run] in *.
    - apply Ok_inj in H, H'. subst. auto.
    - destruct (lin_timestep m c b dt s) as [u|] eqn:E; [|discriminate]. destruct (lin_timestep m c b' dt s') as [u'|] eqn:E'; [|discriminate].
      cbn [rbind] in *. apply (IH u u'); auto. apply (step_rel m b b' dt s s'); auto.
  Qed.

  (** One run, related to itself. *)
  Context (SRC1 : source_enabled p = true -> forall t X, shaped c X -> rel np ns X X -> rel np ns (source_hat c t X) (source_hat c t X)).
  Context (SIN1 : instantaneous c = true -> forall t X, shaped c X -> rel np ns X X ->
    shaped c (to_hat c (amap RtoC (lsource c (get_dist_func c X) t true)))
    /\ rel np ns (to_hat c (amap RtoC (lsource c (get_dist_func c X) t true))) (to_hat c (amap RtoC (lsource c (get_dist_func c X) t true)))).
  Lemma step_self m b dt s t : relS s s -> lin_timestep m c b dt s = Ok t -> relS t t.
  Proof.
    clear SRC SIN. intros RS H. pose proof RS as (_&D&_&HF&RF).
    assert (DR : shaped c (step_input c s) /\ rel np ns (step_input c s) (step_input c s)).
    { unfold step_input. destruct (instantaneous c) eqn:IN; [apply SIN1; auto|split; auto]. }
    destruct DR as (DI&RI). set (X := step_input c s) in *.
    destruct (electrodynamic c) eqn:EM.
    - destruct (step_coupled m c b dt s t H EM) as (CH&->). fold X in CH |- *.
      set (z := rk_step _ _ _ _ _).
      assert (P : z = z /\ prel z z).
      { unfold z. apply (rk_rel (fun x y => x = y /\ prel x y)).
        - intros a b' x y x' y' (->&A) (->&B). split; [reflexivity|apply prel_lin; auto].
        - intros u x x' (<-&(A&B&C)). split; [reflexivity|]. cbn [coupled both]. split; [|split].
          + apply (vrel_of np ns). apply df_rel.
            * intros SE. apply SRC1; [exact SE|exact DI|exact A].
            * apply same_background_refl.
            * rewrite (check_indep c (fsol s) _ X). exact CH.
            * exact RF.
            * exact DI.
            * exact DI.
            * exact A.
          + apply (vrel_of 6 1). apply dfields_rel; [exact DI|exact DI|exact A|exact B].
          + apply vmean_of. apply dfields_mean.
        - split; [reflexivity|exact prel_0].
        - destruct RF as (_&R1&R2). split; [reflexivity|]. split; [|split].
          + apply (vrel_of np ns); exact RI. + apply (vrel_of 6 1); exact R1. + apply vmean_of; exact R2. }
      destruct P as (_&P1&P2&P3). destruct RF as (R0&R1&R2).
      split; [reflexivity|split; [exact DI|split; [exact DI|split; [exact P1|split; [exact R0|split; [exact P2|exact P3]]]]]].
    - destruct (step_uncoupled m c b dt s t H EM) as (CH&->). fold X in CH |- *.
      split; [reflexivity|split; [exact DI|split; [exact DI|split; [|exact RF]]]].
      apply (vrel_arr np ns).
      match goal with |- vrel _ _ ?z ?z' => assert (P : z = z' /\ vrel np ns z z') end; [|apply P].
      apply (rk_rel (fun x y => x = y /\ vrel np ns x y)).
      + intros a b' x y x' y' (->&A) (->&B). split; [reflexivity|apply vrel_lin; auto].
      + intros u x x' (<-&A). split; [reflexivity|]. apply vrel_of. apply df_rel.
        * intros SE. apply SRC1; [exact SE|exact DI|exact A].
        * apply same_background_refl.
        * rewrite (check_indep c (fsol s) _ X). exact CH.
        * exact RF.
        * exact DI.
        * exact DI.
        * exact A.
      + split; [reflexivity|apply vrel_0].
      + split; [reflexivity|apply vrel_of; auto].
  Qed.
  Lemma run_self b steps : forall s t, relS s s -> lin_run c b steps s = Ok t -> relS t t.
  Proof.
    clear SRC SIN. induction steps as [|(m, dt) steps IH]; intros s t RS H; cbn [lin_run] in *.
    - apply Ok_inj in H. subst. auto.
    - destruct (lin_timestep m c b dt s) as [u|] eqn:E; [|discriminate]. cbn [rbind] in *.
      apply (IH u); auto. apply (step_self m b dt s); auto.
  Qed.

  (** ** The initial state *)
  Definition relfn (g g' : R -> R -> R) : Prop := rel1 (to_hat c (on_cells c g)) (to_hat c (on_cells c g')).
  Definition relB (B B' : b_init) : Prop :=
    match B, B' with
    | InitB a b d, InitB a' b' d' => relfn a a' /\ relfn b b' /\ relfn d d'
    | InitA3B3 a b, InitA3B3 a' b' => relfn a a' /\ relfn b b'
    | InitNone, InitNone => True
    | _, _ => False
    end.
  Definition relE (E E' : (R -> R -> R) * (R -> R -> R) * (R -> R -> R)) : Prop :=
    relfn (fst (fst E)) (fst (fst E')) /\ relfn (snd (fst E)) (snd (fst E')) /\ relfn (snd E) (snd E').

  Lemma vector_potential kk A k l : mode_in c k l ->
    el (to_hat c (ifft2q (ik kk (fft2q (on_cells c A))))) 0 0 k l = cscale (el kk 0 0 k l) (cmul (el (to_hat c (on_cells c A)) 0 0 k l) ci)
    /\ el (to_hat c (amap copp (ifft2q (ik kk (fft2q (on_cells c A)))))) 0 0 k l
       = copp (cscale (el kk 0 0 k l) (cmul (el (to_hat c (on_cells c A)) 0 0 k l) ci)).
  Proof.
    intros (Hk&Hl). pose proof OK as (_&P1&P2&_). set (Ah := fft2q (on_cells c A)).
    assert (I : dims4 (ifft2q (ik kk Ah)) 1 1 (lN1 c) (lN2 c)) by (repeat split).
    assert (TT : dft2 (lN1 c) (lN2 c) (fun m n => el (ifft2q (ik kk Ah)) 0 0 m n) k l = el (ik kk Ah) 0 0 k l).
    { rewrite (dft2_ext _ _ _ (fun m n => idft2 (lN1 c) (lN2 c) (fun m n => el (ik kk Ah) 0 0 m n) m n)).
      - apply dft2_idft2; auto.
      - intros. apply ifft2q_el; auto. }
    assert (E : el (to_hat c (on_cells c A)) 0 0 k l = cscale (2 / (IZR (lN1 c) * IZR (lN2 c))) (el Ah 0 0 k l)).
    { rewrite to_hat_el by (repeat split). unfold Ah. rewrite fft2q_el. reflexivity. }
    rewrite E. split; rewrite to_hat_el by (repeat split).
    - rewrite TT. cbn [ik amap2 el]. generalize (el Ah 0 0 k l). intros z. cplx_ring.
    - rewrite (dft2_ext _ _ (fun m n => el (amap copp (ifft2q (ik kk Ah))) 0 0 m n) (fun m n => cscale (-1) (el (ifft2q (ik kk Ah)) 0 0 m n))).
      2:{ intros m n _ _. cbn [amap el]. generalize (el (ifft2q (ik kk Ah)) 0 0 m n). intros z. cplx_ring. }
      rewrite dft2_scale. change (dft2 (lN1 c) (lN2 c) (el (ifft2q (ik kk Ah)) 0%Z 0%Z) k l) with (dft2 (lN1 c) (lN2 c) (fun m n => el (ifft2q (ik kk Ah)) 0 0 m n) k l). rewrite TT. cbn [ik amap2 el]. generalize (el Ah 0 0 k l). intros z. cplx_ring.
  Qed.

  Lemma magnetic_rel f E B u v w : relB (init_B c) B -> initialize_magnetic_fields c = Ok (u, v, w) ->
    exists u' v' w', initialize_magnetic_fields (starting_from c f E B) = Ok (u', v', w')
    /\ rel1 (to_hat c u) (to_hat c u') /\ rel1 (to_hat c v) (to_hat c v') /\ rel1 (to_hat c w) (to_hat c w')
    /\ d0 u = 1%Z /\ d0 v = 1%Z /\ d0 w = 1%Z /\ d0 u' = 1%Z /\ d0 v' = 1%Z /\ d0 w' = 1%Z.
  Proof.
    unfold initialize_magnetic_fields. cbn [starting_from init_B].
    destruct (init_B c) as [a b d|a b|], B as [a' b' d'|a' b'|]; cbn [relB]; try contradiction; intros HB H.
    - apply Ok_inj in H. injection H as <- <- <-. destruct HB as (B1&B2&B3).
      exists (on_cells c a'), (on_cells c b'), (on_cells c d'). repeat split; auto.
    - apply Ok_inj in H. injection H as <- <- <-. destruct HB as (B1&B2).
      exists (ifft2q (ik (k_q2 c) (fft2q (on_cells c a')))), (amap copp (ifft2q (ik (k_q1 c) (fft2q (on_cells c a'))))), (on_cells c b').
      split; [reflexivity|]. split; [|split; [|split; [exact B2|repeat split]]]; intros k l HS;
        destruct (S_in k l HS) as (M&M'); destruct (k_at k l HS) as (E1&E2&E3&E4).
      + rewrite (proj1 (vector_potential (k_q2 c) a' k l M)), (proj1 (vector_potential (k_q2 c) a (s1 k) (s2 l) M')).
        rewrite E2, E4, (B1 k l HS). symmetry. auto.
      + rewrite (proj2 (vector_potential (k_q1 c) a' k l M)), (proj2 (vector_potential (k_q1 c) a (s1 k) (s2 l) M')).
        rewrite E1, E3, (B1 k l HS), T_opp. apply f_equal. symmetry. auto.
    - discriminate.
  Qed.

  Lemma join_rel a1 a2 a3 a4 a5 a6 b1 b2 b3 b4 b5 b6 :
    (d0 a1 = 1 /\ d0 a2 = 1 /\ d0 a3 = 1 /\ d0 a4 = 1 /\ d0 a5 = 1 /\ d0 a6 = 1)%Z ->
    (d0 b1 = 1 /\ d0 b2 = 1 /\ d0 b3 = 1 /\ d0 b4 = 1 /\ d0 b5 = 1 /\ d0 b6 = 1)%Z ->
    rel1 a1 b1 -> rel1 a2 b2 -> rel1 a3 b3 -> rel1 a4 b4 -> rel1 a5 b5 -> rel1 a6 b6 ->
    rel 6 1 (join6 a1 a2 a3 a4 a5 a6) (join6 b1 b2 b3 b4 b5 b6).
  Proof.
    intros (A1&A2&A3&A4&A5&A6) (B1&B2&B3&B4&B5&B6) R1 R2 R3 R4 R5 R6 i j k l Hi Hj HS.
    assert (j = 0%Z) by (unfold inb in Hj; lia). subst j.
    destruct (join6_el a1 a2 a3 a4 a5 a6 (s1 k) (s2 l) A1 A2 A3 A4 A5 A6) as (X0&X1&X2&X3&X4&X5).
    destruct (join6_el b1 b2 b3 b4 b5 b6 k l B1 B2 B3 B4 B5 B6) as (Y0&Y1&Y2&Y3&Y4&Y5).
    destruct (six i Hi) as [-> | [-> | [-> | [-> | [-> | ->]]]]].
    - rewrite Y0, X0. auto.
    - rewrite Y1, X1. auto.
    - rewrite Y2, X2. auto.
    - rewrite Y3, X3. auto.
    - rewrite Y4, X4. auto.
    - rewrite Y5, X5. auto.
  Qed.

  Lemma static_dims X o : shaped c X -> let F := compute_electrostatic_fields c (charge_times c Moments.density X) o in
    (d0 (E1h F) = 1 /\ d0 (E2h F) = 1 /\ d0 (E3h F) = 1 /\ d0 (B1h F) = 1 /\ d0 (B2h F) = 1 /\ d0 (B3h F) = 1)%Z.
  Proof.
    intros D. pose proof OK as (_&P1&P2&_).
    destruct (phi_el c _ 0 0 (density_shaped c X OK D)) as ((A&_)&_); [split; lia|split; lia|]. repeat split; exact A.
  Qed.

  Lemma fields_rel f E B X Y F : shaped c X -> shaped c Y -> rel np ns X Y -> relE (init_E c) E -> relB (init_B c) B ->
    initialize_fields c (charge_times c Moments.density X) = Ok F ->
    exists F', initialize_fields (starting_from c f E B) (charge_times c Moments.density Y) = Ok F'
    /\ rel6 F F' /\ rel 6 1 (fields_hat F) (fields_hat F').
  Proof.
    intros DX DY H HE HB. unfold initialize_fields. set (c' := starting_from c f E B).
    set (o := Arr 0 0 0 0 _). change (fields_initialize c') with (fields_initialize c). change (init_E c') with E.
    change (compute_electrostatic_fields c') with (compute_electrostatic_fields c). change (to_hat c') with (to_hat c). change (on_cells c') with (on_cells c).
    pose proof (electrostatic_rel X Y o o DX DY H) as RE. pose proof (static_dims X o DX) as SX. pose proof (static_dims Y o DY) as SY. cbv zeta in SX, SY.
    set (F0 := compute_electrostatic_fields c (charge_times c Moments.density X) o) in *.
    set (G0 := compute_electrostatic_fields c (charge_times c Moments.density Y) o) in *. clearbody F0 G0.
    destruct RE as (R1&R2&R3&R4&R5&R6).
    destruct (String.eqb (fields_initialize c) "user-defined"); [|destruct (String.eqb (fields_initialize c) "fft + user-defined magnetic fields")].
    - destruct (initialize_magnetic_fields c) as [((u&v)&w)|] eqn:IB; [|discriminate]. cbn [rbind].
      destruct (magnetic_rel f E B u v w HB IB) as (u'&v'&w'&EQ&RU&RV&RW&U1&U2&U3&U4&U5&U6). fold c' in EQ. rewrite EQ. cbn [rbind].
      destruct (init_E c) as ((e1&e2)&e3), E as ((g1&g2)&g3). destruct HE as (H1&H2&H3). cbn [fst snd] in *.
      intros K. apply Ok_inj in K. subst F. eexists. split; [reflexivity|]. cbn [E1h E2h E3h B1h B2h B3h fields_hat]. split; [repeat split; auto|].
      apply join_rel; auto; repeat split; auto.
    - destruct (initialize_magnetic_fields c) as [((u&v)&w)|] eqn:IB; [|discriminate]. cbn [rbind].
      destruct (magnetic_rel f E B u v w HB IB) as (u'&v'&w'&EQ&RU&RV&RW&U1&U2&U3&U4&U5&U6). fold c' in EQ. rewrite EQ. cbn [rbind].
      intros K. apply Ok_inj in K. subst F. eexists. split; [reflexivity|]. cbn [E1h E2h E3h B1h B2h B3h fields_hat]. split; [repeat split; auto|].
      apply join_rel; auto; repeat split; auto; tauto.
    - intros K. apply Ok_inj in K. subst F. eexists. split; [reflexivity|]. cbn [E1h E2h E3h B1h B2h B3h fields_hat]. split; [repeat split; auto|].
      apply join_rel; auto.
  Qed.

  Lemma solver_rel f E B b s : (S 0 0 /\ s1 0 = 0 /\ s2 0 = 0)%Z -> (forall z, T 0 0 z = T0 z) ->
    shaped c (init_f c) -> shaped c f -> rel np ns (to_hat c (amap RtoC (init_f c))) (to_hat c (amap RtoC f)) ->
    relE (init_E c) E -> relB (init_B c) B -> linear_solver c = Ok (b, s) ->
    exists s', linear_solver (starting_from c f E B) = Ok (make_background c f, s') /\ relS s s'.
  Proof.
    intros (S0&Z1&Z2) TT D D' H HE HB L. destruct (solver_inv c b s L) as (CP&_&FH&T00&FI).
    destruct (fields_rel f E B _ _ (fsol s) (D : shaped c (to_hat c (amap RtoC (init_f c)))) (D' : shaped c (to_hat c (amap RtoC f))) H HE HB FI) as (F'&EF&R6&R7).
    exists (LState (to_hat c (amap RtoC f)) F' 0). split.
    - transitivity (let? F := initialize_fields (starting_from c f E B) (charge_times c Moments.density (to_hat c (amap RtoC f))) in
                    Ok (make_background c f, LState (to_hat c (amap RtoC f)) F 0)).
      + unfold linear_solver. change (ph (starting_from c f E B)) with (ph c). rewrite CP. reflexivity.
      + rewrite EF. reflexivity.
    - split; [cbn [lt]; auto|split; [rewrite FH; exact D|split; [exact D'|split; [rewrite FH; exact H|split; [exact R6|split; [exact R7|]]]]]].
      intros i Hi. cbn [fsol]. rewrite (R7 i 0%Z 0%Z 0%Z) by (auto; unfold inb; lia). rewrite Z1, Z2. apply TT.
  Qed.
End Rel.
