(** The linear solver: superposition, frozen fields, file input. *)
From Coq Require Import ZArith Reals Lra Lia String List Bool FunctionalExtensionality.
From Verif Require Import Base.Prelude Base.ZSum Base.Cplx Model.Af Model.Grid Model.Petsc Model.Config Model.Fft
  Model.Moments Model.Integrators Model.Linear Spec.Dft Spec.Waves Spec.MomentSpec Spec.LinearSpec Spec.RungeKutta
  Proofs.AfLemmas Proofs.DftLemmas Proofs.ConvLemmas Proofs.MomentLemmas Proofs.FourierLemmas Proofs.LinearLemmas
  Proofs.LinearStep Proofs.LinearInv.
Import ListNotations.
Local Open Scope R_scope.

(** ** Linear combinations *)
Section Comb.
  Context (a b : R).
  Notation comb := (combination a b).
  Notation m := (fun z z' => cadd (cscale a z) (cscale b z')).

  Lemma comb_like X x y : comb (arr_like X x) (arr_like X y) (arr_like X (fun i => a * x i + b * y i)).
  Proof. split; [repeat split|]. split; [repeat split|]. intros. cbn [arr_like arr_of el]. cplx_ring. Qed.
  Lemma comb_amap2 (g : cplx -> cplx -> cplx) X Y Z X' Y' Z' :
    (forall u u' v v', g (m u u') (m v v') = m (g u v) (g u' v')) ->
    comb X Y Z -> comb X' Y' Z' -> comb (amap2 g X X') (amap2 g Y Y') (amap2 g Z Z').
  Proof.
    intros G (D&D'&E) (_&_&E'). split; [exact D|]. split; [exact D'|]. intros. cbn [amap2 el]. rewrite E, E'. apply G.
  Qed.
  Lemma comb_amap (g : cplx -> cplx) X Y Z : (forall u u', g (m u u') = m (g u) (g u')) -> comb X Y Z -> comb (amap g X) (amap g Y) (amap g Z).
  Proof. intros G (D&D'&E). split; [exact D|]. split; [exact D'|]. intros. cbn [amap el]. rewrite E. apply G. Qed.
  Lemma comb_scale (r : R) u u' : cscale r (m u u') = m (cscale r u) (cscale r u').
  Proof. cplx_ring. Qed.
  Lemma comb_shift X Y Z s0 s1 s2 s3 : comb X Y Z -> comb (shift X s0 s1 s2 s3) (shift Y s0 s1 s2 s3) (shift Z s0 s1 s2 s3).
  Proof.
    intros ((A&B&C&D)&(A'&B'&C'&D')&E). split; [repeat split; auto|]. split; [repeat split; auto|]. intros. cbn [shift el].
    rewrite A, B, C, D, A', B', C', D'. apply E.
  Qed.
  Lemma comb_shift_axis ax X Y Z d : comb X Y Z -> comb (shift_axis ax X d) (shift_axis ax Y d) (shift_axis ax Z d).
  Proof. intros. destruct ax as [|[|]]; apply comb_shift; auto. Qed.
  Lemma comb_moddims X Y Z n0 n1 n2 n3 : comb X Y Z -> comb (moddims X n0 n1 n2 n3) (moddims Y n0 n1 n2 n3) (moddims Z n0 n1 n2 n3).
  Proof.
    intros ((A&B&C&D)&(A'&B'&C'&D')&E). split; [repeat split; auto|]. split; [repeat split; auto|]. intros.
    unfold moddims, of_flat, flat. cbn [el]. rewrite A, B, C, A', B', C'. apply E.
  Qed.
  Lemma comb_bcast {W} (g : cplx -> W -> cplx) X Y Z (w : arr W) : (forall v u u', g (m u u') v = m (g u v) (g u' v)) ->
    comb X Y Z -> comb (bcast2 g X w) (bcast2 g Y w) (bcast2 g Z w).
  Proof.
    intros G ((A&B&C&D)&(A'&B'&C'&D')&E). split; [|split].
    - unfold same_dims. cbn [bcast2 d0 d1 d2 d3]. rewrite A, B, C, D. auto.
    - unfold same_dims. cbn [bcast2 d0 d1 d2 d3]. rewrite A', B', C', D'. auto.
    - intros. cbn [bcast2 el]. unfold bel. rewrite E, G, A, B, C, D, A', B', C', D'. reflexivity.
  Qed.
  Lemma comb_bcast_l {W} (g : W -> cplx -> cplx) X Y Z (w : arr W) : (forall v u u', g v (m u u') = m (g v u) (g v u')) ->
    comb X Y Z -> comb (bcast2 g w X) (bcast2 g w Y) (bcast2 g w Z).
  Proof.
    intros G ((A&B&C&D)&(A'&B'&C'&D')&E). split; [|split].
    - unfold same_dims. cbn [bcast2 d0 d1 d2 d3]. rewrite A, B, C, D. auto.
    - unfold same_dims. cbn [bcast2 d0 d1 d2 d3]. rewrite A', B', C', D'. auto.
    - intros. cbn [bcast2 el]. unfold bel. rewrite E, G, A, B, C, D, A', B', C', D'. reflexivity.
  Qed.
  Lemma comb_sum0 X Y Z : comb X Y Z ->
    comb (Arr 1 (d1 X) (d2 X) (d3 X) (fun _ j k l => csum (d0 X) (fun i => el X i j k l)))
         (Arr 1 (d1 Y) (d2 Y) (d3 Y) (fun _ j k l => csum (d0 Y) (fun i => el Y i j k l)))
         (Arr 1 (d1 Z) (d2 Z) (d3 Z) (fun _ j k l => csum (d0 Z) (fun i => el Z i j k l))).
  Proof.
    intros ((A&B&C&D)&(A'&B'&C'&D')&E). split; [repeat split; auto|]. split; [repeat split; auto|]. intros. cbn [el].
    rewrite A, A', <- csum_lin. apply csum_ext; intros. apply E.
  Qed.
  Lemma comb_csum1 X Y Z : comb X Y Z -> comb (csum1 X) (csum1 Y) (csum1 Z).
  Proof.
    intros ((A&B&C&D)&(A'&B'&C'&D')&E). split; [repeat split; auto|]. split; [repeat split; auto|]. intros. cbn [csum1 el].
    rewrite B, B', <- csum_lin. apply csum_ext; intros. apply E.
  Qed.
  Lemma comb_stencil (sX sY sZ : Z -> arr cplx) : (forall d, comb (sX d) (sY d) (sZ d)) -> comb (stencil4 sX) (stencil4 sY) (stencil4 sZ).
  Proof.
    intros H. unfold stencil4. repeat first [apply comb_amap2|apply comb_amap|apply H]; intros; cplx_ring.
  Qed.
  Lemma comb_el_amap2r (g : cplx -> R -> cplx) X Y Z (w : arr R) : (forall v u u', g (m u u') v = m (g u v) (g u' v)) ->
    comb X Y Z -> comb (amap2 g X w) (amap2 g Y w) (amap2 g Z w).
  Proof. intros G (D&D'&E). split; [exact D|]. split; [exact D'|]. intros. cbn [amap2 el]. rewrite E, G. reflexivity. Qed.

  Context (c : lcfg).
  Lemma comb_density X Y Z : comb X Y Z -> comb (charge_times c Moments.density X) (charge_times c Moments.density Y) (charge_times c Moments.density Z).
  Proof.
    intros H. unfold charge_times. apply comb_bcast_l; [intros; cplx_ring|]. unfold moment_of, Moments.density, integral_over_v, times.
    apply comb_bcast; [intros; cbn; cplx_ring|]. cbn [s_sum cplx_scalar]. apply comb_sum0. exact H.
  Qed.
  Lemma comb_phi X Y Z : comb X Y Z -> comb (phi_hat c X) (phi_hat c Y) (phi_hat c Z).
  Proof.
    intros H. unfold phi_hat. set (w := amap2 _ _ _).
    assert (K : comb (bcast2 (fun z w => cscale w z) (csum1 X) w) (bcast2 (fun z w => cscale w z) (csum1 Y) w) (bcast2 (fun z w => cscale w z) (csum1 Z) w)).
    { apply comb_bcast; [intros; cplx_ring|]. apply comb_csum1; auto. }
    destruct K as (D&D'&E). split; [exact D|]. split; [exact D'|]. intros. cbn [el].
    destruct ((k =? 0) && (l =? 0))%Z%bool; [cplx_ring|]. apply E.
  Qed.
  Lemma comb_grad k X Y Z : comb X Y Z -> comb (grad_hat c k X) (grad_hat c k Y) (grad_hat c k Z).
  Proof. intros H. unfold grad_hat. apply comb_el_amap2r; auto. intros; cplx_ring. Qed.

  Definition comb_fields (F G H : fields) : Prop :=
    comb (E1h F) (E1h G) (E1h H) /\ comb (E2h F) (E2h G) (E2h H) /\ comb (E3h F) (E3h G) (E3h H)
    /\ comb (B1h F) (B1h G) (B1h H) /\ comb (B2h F) (B2h G) (B2h H) /\ comb (B3h F) (B3h G) (B3h H).
  Lemma comb_electrostatic X Y Z o1 o2 o3 : comb X Y Z ->
    comb_fields (compute_electrostatic_fields c X o1) (compute_electrostatic_fields c Y o2) (compute_electrostatic_fields c Z o3).
  Proof.
    intros H. pose proof (comb_phi X Y Z H) as HP. unfold compute_electrostatic_fields. split; [apply comb_grad; auto|].
    split; [apply comb_grad; auto|]. do 3 (split; [apply comb_amap; [intros; cplx_ring|apply comb_grad; auto]|]).
    apply comb_amap; [intros; cplx_ring|apply comb_grad; auto].
  Qed.

  Lemma comb_streaming t X Y Z : comb X Y Z -> comb (free_streaming c t X) (free_streaming c t Y) (free_streaming c t Z).
  Proof.
    intros (D&D'&E). split; [exact D|]. split; [exact D'|]. intros. cbn [free_streaming el].
    destruct (A_q (ph c) _ t _ _ _ _ _) as (a1&a2). rewrite E.
    generalize (el X i j k l) (el Y i j k l) (el (k_q1 c) 0 0 k l) (el (k_q2 c) 0 0 k l). intros. cplx_ring.
  Qed.
  Lemma comb_fields_term bg t F G H X Y Z : force_linear_in_fields c -> String.eqb (fields_type c) "electrodynamic" = false ->
    comb_fields F G H -> comb X Y Z ->
    comb (fields_term c bg t F X) (fields_term c bg t G Y) (fields_term c bg t H Z).
  Proof.
    intros FL NE ((_&_&E1)&(_&_&E2)&(_&_&E3)&(_&_&B1)&(_&_&B2)&(_&_&B3)) (D&D'&_). split; [exact D|]. split; [exact D'|].
    intros. unfold fields_term, get_fields. rewrite NE. cbn [el]. rewrite E1, E2, E3, B1, B2, B3, FL.
    destruct (lA_p c j t _ _ _ _ _ (el (E1h F) 0 0 k l) _ _ _ _ _) as ((x1&x2)&x3).
    destruct (lA_p c j t _ _ _ _ _ (el (E1h G) 0 0 k l) _ _ _ _ _) as ((y1&y2)&y3). cbn [fst snd].
    generalize (el (dfdp1 bg) i j 0 0) (el (dfdp2 bg) i j 0 0) (el (dfdp3 bg) i j 0 0). intros. cplx_ring.
  Qed.
  Lemma comb_ddelta ax dp X Y Z : comb X Y Z -> comb (ddelta_f_dp c ax dp X) (ddelta_f_dp c ax dp Y) (ddelta_f_dp c ax dp Z).
  Proof.
    intros H. unfold ddelta_f_dp. apply comb_moddims. apply comb_bcast; [intros; cplx_ring|]. apply comb_stencil. intros d.
    apply comb_shift_axis. apply comb_moddims. exact H.
  Qed.
  Lemma comb_mean_B F G H X Y Z : fields_hat G = fields_hat F -> fields_hat H = fields_hat F -> comb X Y Z ->
    comb (mean_B_term c F X) (mean_B_term c G Y) (mean_B_term c H Z).
  Proof.
    intros Q Q' K. destruct (comb_ddelta 0 (dp1 (ph c)) X Y Z K) as (_&_&K0). destruct (comb_ddelta 1 (dp2 (ph c)) X Y Z K) as (_&_&K1).
    destruct (comb_ddelta 2 (dp3 (ph c)) X Y Z K) as (_&_&K2). destruct K as (D&D'&_). split; [exact D|]. split; [exact D'|].
    intros. unfold mean_B_term. cbn [el]. rewrite Q, Q', K0, K1, K2.
    generalize (cscale (/ 2) (el (fields_hat F) 3 0 0 0)%Z) (cscale (/ 2) (el (fields_hat F) 4 0 0 0)%Z) (cscale (/ 2) (el (fields_hat F) 5 0 0 0)%Z).
    generalize (el (ddelta_f_dp c 0 (dp1 (ph c)) X) i j k l) (el (ddelta_f_dp c 1 (dp2 (ph c)) X) i j k l) (el (ddelta_f_dp c 2 (dp3 (ph c)) X) i j k l).
    generalize (el (ddelta_f_dp c 0 (dp1 (ph c)) Y) i j k l) (el (ddelta_f_dp c 1 (dp2 (ph c)) Y) i j k l) (el (ddelta_f_dp c 2 (dp3 (ph c)) Y) i j k l).
    generalize (el (p1_center (ph c)) i j 0 0) (el (p2_center (ph c)) i j 0 0) (el (p3_center (ph c)) i j 0 0).
    generalize (nth (Z.to_nat j) (charge c) 0 / nth (Z.to_nat j) (mass c) 0). clear. intros. cplx_ring.
  Qed.

  Lemma comb_df bg F G H t X Y Z : linear_system c -> fields_hat G = fields_hat F -> fields_hat H = fields_hat F ->
    comb X Y Z -> comb (df_hat_value c bg F t X) (df_hat_value c bg G t Y) (df_hat_value c bg H t Z).
  Proof.
    intros (SE&_&FE) Q Q' K. unfold df_hat_value. rewrite SE. destruct (fields_enabled (ph c)); [|apply comb_streaming; auto].
    destruct (FE eq_refl) as (FT&FL). unfold fields_seen. rewrite FT. cbn [String.eqb Ascii.eqb Bool.eqb].
    apply comb_amap2; [intros; cplx_ring|apply comb_streaming; auto|]. apply comb_amap2; [intros; cplx_ring| |].
    - apply comb_fields_term; auto; [rewrite FT; reflexivity|]. apply comb_electrostatic. apply comb_density; auto.
    - apply comb_mean_B; auto.
  Qed.
End Comb.

(** Runge-Kutta methods are linear for linear systems. *)
Section RkLin.
  Context {I : Type} (f g h : R -> (I -> R) -> (I -> R)) (a b : R).
  Context (H : forall t x y, (fun i => h t (fun i => a * x i + b * y i) i) = (fun i => a * f t x i + b * g t y i)).
  Definition lc (x y : I -> R) : I -> R := fun i => a * x i + b * y i.
  Lemma combine_lc cs ks ls : length ks = length ls -> combine_stages cs (map (fun p => lc (fst p) (snd p)) (List.combine ks ls))
    = lc (combine_stages cs ks) (combine_stages cs ls).
  Proof.
    intros L. apply functional_extensionality; intros i. unfold lc, combine_stages.
    revert ls L cs. induction ks as [|k ks IH]; intros [|l ls] L cs; try discriminate L.
    - destruct cs; cbn; ring.
    - destruct cs as [|x cs]; cbn; [ring|]. rewrite IH by (cbn in L; lia). ring.
  Qed.
  Lemma stages_lc t x y dt rs ks ls : length ks = length ls ->
    stages h t (lc x y) dt rs (map (fun p => lc (fst p) (snd p)) (List.combine ks ls))
    = map (fun p => lc (fst p) (snd p)) (List.combine (stages f t x dt rs ks) (stages g t y dt rs ls))
    /\ length (stages f t x dt rs ks) = length (stages g t y dt rs ls).
  Proof.
    revert ks ls. induction rs as [|r rs IH]; intros ks ls L; cbn [stages]; [auto|].
    replace (map (fun p => lc (fst p) (snd p)) (List.combine ks ls) ++
       [h (t + total r * dt) (fun i => lc x y i + dt * combine_stages r (map (fun p => lc (fst p) (snd p)) (List.combine ks ls)) i)])
      with (map (fun p => lc (fst p) (snd p)) (List.combine
        (ks ++ [f (t + total r * dt) (fun i => x i + dt * combine_stages r ks i)])
        (ls ++ [g (t + total r * dt) (fun i => y i + dt * combine_stages r ls i)]))).
    - apply IH. rewrite !app_length. cbn. lia.
    - assert (CA : forall (A : Type) (u v : list A) p q, length u = length v -> List.combine (u ++ [p]) (v ++ [q]) = List.combine u v ++ [(p, q)]).
      { induction u; intros [|w v] p q Q; cbn in *; try discriminate; auto. rewrite IHu by lia. reflexivity. }
      rewrite CA, map_app by auto. f_equal. cbn [map fst snd]. f_equal. unfold lc at 1.
      rewrite <- (H (t + total r * dt) (fun i => x i + dt * combine_stages r ks i) (fun i => y i + dt * combine_stages r ls i)).
      change (fun i => h (t + total r * dt) ?u i) with (h (t + total r * dt) u). f_equal. apply functional_extensionality; intros i.
      rewrite combine_lc by auto. unfold lc. ring.
  Qed.
  Lemma rk_lc T t x y dt : rk_step T h t (lc x y) dt = lc (rk_step T f t x dt) (rk_step T g t y dt).
  Proof.
    apply functional_extensionality; intros i. unfold rk_step. destruct (stages_lc t x y dt (rows T) [] [] eq_refl) as (E&L).
    cbn [List.combine map] in E. rewrite E, combine_lc by exact L. unfold lc. ring.
  Qed.
End RkLin.

Section Super.
  Context (c : lcfg) (a b : R) (LS : linear_system c).
  Notation comb := (combination a b).
  Lemma comb_vec X Y Z : comb X Y Z -> vec_of Z = lc a b (vec_of X) (vec_of Y).
  Proof.
    intros (_&_&E). apply functional_extensionality; intros ((((q&i)&j)&k)&l). unfold lc, vec_of. rewrite E. destruct q; reflexivity.
  Qed.
  Lemma like_dims X Y x : same_dims X Y -> arr_like X x = arr_like Y x.
  Proof. intros (A&B&C&D). unfold arr_like. rewrite A, B, C, D. reflexivity. Qed.
  Lemma not_em : electrodynamic c = false.
  Proof.
    destruct LS as (_&_&FE). unfold electrodynamic. destruct (fields_enabled (ph c)); [|reflexivity].
    destruct (FE eq_refl) as (->&_). reflexivity.
  Qed.

  Lemma step_super m bg dt s1 s2 s3 s1' s2' s3' : superposed a b s1 s2 s3 ->
    lin_timestep m c bg dt s1 = Ok s1' -> lin_timestep m c bg dt s2 = Ok s2' -> lin_timestep m c bg dt s3 = Ok s3' ->
    superposed a b s1' s2' s3'.
  Proof.
    intros (K&T1&T2&F1&F2) H1 H2 H3. pose proof not_em as NE.
    assert (SI : forall s, step_input c s = f_hat s) by (intros s; unfold step_input; destruct LS as (_&->&_); reflexivity).
    destruct (step_uncoupled m c bg dt s1 s1' H1 NE) as (_&->). destruct (step_uncoupled m c bg dt s2 s2' H2 NE) as (_&->).
    destruct (step_uncoupled m c bg dt s3 s3' H3 NE) as (_&->). rewrite !SI. unfold superposed. cbn [f_hat lt fsol].
    split; [|split; [congruence|split; [congruence|split; congruence]]].
    pose proof K as (D1&D2&_). rewrite (like_dims _ _ _ D1), (like_dims _ _ _ D2).
    set (X := f_hat s3). rewrite (comb_vec _ _ _ K : vec_of X = _).
    rewrite T1, T2.
    rewrite (rk_lc (fun t x => vec_of (df_hat_value c bg (fsol s1) t (arr_like (f_hat s1) x)))
                   (fun t x => vec_of (df_hat_value c bg (fsol s2) t (arr_like (f_hat s2) x)))
                   (fun t x => vec_of (df_hat_value c bg (fsol s3) t (arr_like X x))) a b).
    - unfold lc. apply comb_like.
    - intros t x y. rewrite (like_dims _ _ _ D1), (like_dims _ _ _ D2). fold X.
      apply (comb_vec _ _ _ (comb_df a b c bg (fsol s1) (fsol s2) (fsol s3) t _ _ _ LS ltac:(congruence) ltac:(congruence) (comb_like a b X x y))).
  Qed.
  Lemma run_super bg steps s1 s2 s3 s1' s2' s3' : superposed a b s1 s2 s3 ->
    lin_run c bg steps s1 = Ok s1' -> lin_run c bg steps s2 = Ok s2' -> lin_run c bg steps s3 = Ok s3' ->
    superposed a b s1' s2' s3'.
  Proof.
    revert s1 s2 s3. induction steps as [|(m&dt) steps IH]; intros s1 s2 s3 K H1 H2 H3; cbn in H1, H2, H3.
    - apply Ok_inj in H1, H2, H3. subst. auto.
    - destruct (lin_timestep m c bg dt s1) as [t1|] eqn:E1; [|discriminate]. destruct (lin_timestep m c bg dt s2) as [t2|] eqn:E2; [|discriminate].
      destruct (lin_timestep m c bg dt s3) as [t3|] eqn:E3; [|discriminate]. cbn in H1, H2, H3.
      apply (IH t1 t2 t3); auto. eapply step_super; eauto.
  Qed.
End Super.
