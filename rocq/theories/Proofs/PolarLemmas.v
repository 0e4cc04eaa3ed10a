(** Free motion in polar coordinates. *)
From Coq Require Import Reals Lra.
From Verif Require Import Model.Polar Spec.Motion.
Local Open Scope R_scope.

Lemma deriv_mult f g f' g' : has_derivative f f' -> has_derivative g g' ->
  has_derivative (fun t => f t * g t) (fun t => f' t * g t + f t * g' t).
Proof. intros Hf Hg t. exact (derivable_pt_lim_mult f g t _ _ (Hf t) (Hg t)). Qed.

Lemma deriv_plus f g f' g' : has_derivative f f' -> has_derivative g g' ->
  has_derivative (fun t => f t + g t) (fun t => f' t + g' t).
Proof. intros Hf Hg t. exact (derivable_pt_lim_plus f g t _ _ (Hf t) (Hg t)). Qed.

Lemma deriv_minus f g f' g' : has_derivative f f' -> has_derivative g g' ->
  has_derivative (fun t => f t - g t) (fun t => f' t - g' t).
Proof. intros Hf Hg t. exact (derivable_pt_lim_minus f g t _ _ (Hf t) (Hg t)). Qed.

Lemma deriv_cos f f' : has_derivative f f' -> has_derivative (fun t => cos (f t)) (fun t => - sin (f t) * f' t).
Proof. intros Hf t. exact (derivable_pt_lim_comp f cos t _ _ (Hf t) (derivable_pt_lim_cos (f t))). Qed.

Lemma deriv_sin f f' : has_derivative f f' -> has_derivative (fun t => sin (f t)) (fun t => cos (f t) * f' t).
Proof. intros Hf t. exact (derivable_pt_lim_comp f sin t _ _ (Hf t) (derivable_pt_lim_sin (f t))). Qed.

Lemma deriv_ext f g f' g' : (forall t, f t = g t) -> (forall t, f' t = g' t) ->
  has_derivative f f' -> has_derivative g g'.
Proof.
  intros H H' Hf t eps He. destruct (Hf t eps He) as [d Hd]. exists d.
  intros h Hh Hlt. rewrite <- !H, <- H'. now apply Hd.
Qed.

Lemma deriv_zero_const f : has_derivative f (fun _ => 0) -> forall t, f t = f 0.
Proof.
  intros Hf t.
  assert (pr : derivable f) by (intros u; exists 0; apply Hf).
  apply (null_derivative_1 f pr).
  intros u. apply derive_pt_eq_0, Hf.
Qed.

Lemma uniform_iff g g' g'' : has_derivative g g' -> has_derivative g' g'' ->
  uniform g <-> forall t, g'' t = 0.
Proof.
  intros Hg Hg'. split.
  - intros (a & b & H) t.
    assert (H1 : forall t, g' t = b).
    { intros u. apply (uniqueness_limite g u); [apply Hg|].
      apply (deriv_ext (fun t => a + b * t) g (fun _ => 0 + b * 1) (fun _ => b)); [intros; now rewrite H|intros; ring|].
      apply deriv_plus; intros v; [apply derivable_pt_lim_const|].
      apply derivable_pt_lim_scal, derivable_pt_lim_id. }
    apply (uniqueness_limite g' t); [apply Hg'|].
    apply (deriv_ext (fun _ => b) g' (fun _ => 0) (fun _ => 0)); [intros; now rewrite H1|reflexivity|].
    intros v. apply derivable_pt_lim_const.
  - intros H.
    assert (Hc : forall t, g' t = g' 0).
    { apply deriv_zero_const. apply (deriv_ext g' g' g'' (fun _ => 0)); auto. }
    exists (g 0), (g' 0). intros t.
    assert (Hd : forall t, g t - g' 0 * t = g 0 - g' 0 * 0).
    { apply (deriv_zero_const (fun t => g t - g' 0 * t)).
      apply (deriv_ext (fun t => g t - g' 0 * t) _ (fun t => g' t - g' 0 * 1)); [reflexivity|intros; rewrite Hc; ring|].
      apply deriv_minus; [exact Hg|]. intros v. apply derivable_pt_lim_scal, derivable_pt_lim_id. }
    specialize (Hd t). lra.
Qed.

(** The characteristics of the polar system are exactly the uniform motions *)
Lemma polar_free_motion r th rd td rdd tdd phid :
  has_derivative r rd -> has_derivative th td -> has_derivative rd rdd -> has_derivative td tdd ->
  (forall t, 0 < r t) ->
  (uniform (fun t => r t * cos (th t)) /\ uniform (fun t => r t * sin (th t)))
  <-> (forall t, polar_A_p (r t) (th t) (rd t) (td t) (phid t) = (rdd t, tdd t, 0)).
Proof.
  intros Hr Hth Hrd Htd Hpos.
  assert (Hx : has_derivative (fun t => r t * cos (th t))
      (fun t => rd t * cos (th t) + r t * (- sin (th t) * td t))).
  { apply deriv_mult; [exact Hr|now apply deriv_cos]. }
  assert (Hy : has_derivative (fun t => r t * sin (th t))
      (fun t => rd t * sin (th t) + r t * (cos (th t) * td t))).
  { apply deriv_mult; [exact Hr|now apply deriv_sin]. }
  assert (Hxx : has_derivative (fun t => rd t * cos (th t) + r t * (- sin (th t) * td t))
      (fun t => (rdd t - r t * td t ^ 2) * cos (th t) - (2 * rd t * td t + r t * tdd t) * sin (th t))).
  { apply (deriv_ext (fun t => rd t * cos (th t) - r t * (sin (th t) * td t)) _
      (fun t => rdd t * cos (th t) + rd t * (- sin (th t) * td t)
        - (rd t * (sin (th t) * td t) + r t * (cos (th t) * td t * td t + sin (th t) * tdd t)))); [intros; ring|intros; ring|].
    apply deriv_minus; [apply deriv_mult; [exact Hrd|now apply deriv_cos]|].
    apply deriv_mult; [exact Hr|]. apply deriv_mult; [now apply deriv_sin|exact Htd]. }
  assert (Hyy : has_derivative (fun t => rd t * sin (th t) + r t * (cos (th t) * td t))
      (fun t => (rdd t - r t * td t ^ 2) * sin (th t) + (2 * rd t * td t + r t * tdd t) * cos (th t))).
  { apply (deriv_ext (fun t => rd t * sin (th t) + r t * (cos (th t) * td t)) _
      (fun t => rdd t * sin (th t) + rd t * (cos (th t) * td t)
        + (rd t * (cos (th t) * td t) + r t * (- sin (th t) * td t * td t + cos (th t) * tdd t)))); [reflexivity|intros; ring|].
    apply deriv_plus; [apply deriv_mult; [exact Hrd|now apply deriv_sin]|].
    apply deriv_mult; [exact Hr|]. apply deriv_mult; [now apply deriv_cos|exact Htd]. }
  rewrite (uniform_iff _ _ _ Hx Hxx), (uniform_iff _ _ _ Hy Hyy).
  unfold polar_A_p, polar_C_p. split.
  - intros [H1 H2] t. specialize (H1 t). specialize (H2 t). cbn beta in H1, H2.
    pose proof (sin2_cos2 (th t)) as Hsc. unfold Rsqr in Hsc. specialize (Hpos t).
    set (s := sin (th t)) in *. set (c := cos (th t)) in *.
    set (P := rdd t - r t * td t ^ 2) in *. set (Q := 2 * rd t * td t + r t * tdd t) in *.
    assert (HP : P = 0).
    { replace P with (P * (s * s + c * c)) by (rewrite Hsc; ring).
      replace (P * (s * s + c * c)) with ((P * c - Q * s) * c + (P * s + Q * c) * s) by ring.
      rewrite H1, H2. ring. }
    assert (HQ : Q = 0).
    { replace Q with (Q * (s * s + c * c)) by (rewrite Hsc; ring).
      replace (Q * (s * s + c * c)) with ((P * s + Q * c) * c - (P * c - Q * s) * s) by ring.
      rewrite H1, H2. ring. }
    unfold P in HP. unfold Q in HQ. apply pair_equal_spec; split; [|ring].
    apply pair_equal_spec; split; [lra|].
    apply (Rmult_eq_reg_l (r t)); [|lra].
    replace (r t * (-2 * rd t * td t / r t)) with (-2 * rd t * td t) by (field; lra). lra.
  - intros H. split; intros t; specialize (H t); specialize (Hpos t);
      apply pair_equal_spec in H as [H _]; apply pair_equal_spec in H as [<- <-]; field; lra.
Qed.

(** The conservative form with its source is the transport along the characteristics *)
Lemma polar_source_balances f r th rd td phid fr fth frd ftd D1 D2 D3 D4 : r <> 0 ->
  derivable_pt_lim (fun u => f u th rd td) r fr ->
  derivable_pt_lim (fun u => f r u rd td) th fth ->
  derivable_pt_lim (fun u => f r th u td) rd frd ->
  derivable_pt_lim (fun u => f r th rd u) td ftd ->
  derivable_pt_lim (fun u => fst (polar_C_q u th rd td phid) * f u th rd td) r D1 ->
  derivable_pt_lim (fun u => snd (polar_C_q r u rd td phid) * f r u rd td) th D2 ->
  derivable_pt_lim (fun u => fst (fst (polar_C_p r th u td phid)) * f r th u td) rd D3 ->
  derivable_pt_lim (fun u => snd (fst (polar_C_p r th rd u phid)) * f r th rd u) td D4 ->
  polar_source (f r th rd td) r th rd td phid - (D1 + D2 + D3 + D4)
  = - (fst (polar_A_q r th rd td phid) * fr + snd (polar_A_q r th rd td phid) * fth
       + fst (fst (polar_A_p r th rd td phid)) * frd + snd (fst (polar_A_p r th rd td phid)) * ftd).
Proof.
  intros Hr H1 H2 H3 H4 G1 G2 G3 G4.
  unfold polar_A_q, polar_A_p, polar_C_q, polar_C_p, polar_source in *. cbn [fst snd] in *.
  rewrite (uniqueness_limite _ _ _ _ G1 (derivable_pt_lim_scal _ rd _ _ H1)).
  rewrite (uniqueness_limite _ _ _ _ G2 (derivable_pt_lim_scal _ td _ _ H2)).
  rewrite (uniqueness_limite _ _ _ _ G3 (derivable_pt_lim_scal _ (r * td^2) _ _ H3)).
  assert (L : derivable_pt_lim (fun u => -2 * rd * u / r) td (-2 * rd / r)).
  { intros eps He. exists (mkposreal 1 Rlt_0_1). intros h Hh _.
    replace ((-2 * rd * (td + h) / r - -2 * rd * td / r) / h - -2 * rd / r) with 0 by (field; auto).
    now rewrite Rabs_R0. }
  rewrite (uniqueness_limite _ _ _ _ G4 (derivable_pt_lim_mult _ _ _ _ _ L H4)).
  field. exact Hr.
Qed.

Lemma polar_characteristics r th rd td rdd tdd phid :
  has_derivative r rd -> has_derivative th td -> has_derivative rd rdd -> has_derivative td tdd ->
  (forall t, 0 < r t) ->
  (uniform (fun t => r t * cos (th t)) /\ uniform (fun t => r t * sin (th t)))
  <-> (forall t, polar_A_q (r t) (th t) (rd t) (td t) (phid t) = (rd t, td t)
              /\ polar_A_p (r t) (th t) (rd t) (td t) (phid t) = (rdd t, tdd t, 0)).
Proof.
  intros Hr Hth Hrd Htd Hpos.
  rewrite (polar_free_motion r th rd td rdd tdd phid Hr Hth Hrd Htd Hpos).
  split; intros H t; [split; [reflexivity|apply H]|apply H].
Qed.

(** The motion along the line x = 1 with unit speed *)
Lemma polar_line :
  has_derivative (fun t => sqrt (1 + t * t)) (fun t => t / sqrt (1 + t * t))
  /\ has_derivative atan (fun t => / (1 + t * t))
  /\ has_derivative (fun t => t / sqrt (1 + t * t)) (fun t => sqrt (1 + t * t) * (/ (1 + t * t)) ^ 2)
  /\ has_derivative (fun t => / (1 + t * t)) (fun t => - 2 * t / (1 + t * t) ^ 2)
  /\ (forall t, 0 < sqrt (1 + t * t))
  /\ uniform (fun t => sqrt (1 + t * t) * cos (atan t))
  /\ uniform (fun t => sqrt (1 + t * t) * sin (atan t)).
Proof.
  assert (Hp : forall t, 0 < 1 + t * t) by (intros; nra).
  assert (Hs : forall t, 0 < sqrt (1 + t * t)) by (intros; apply sqrt_lt_R0, Hp).
  assert (Hq : has_derivative (fun t => 1 + t * t) (fun t => 2 * t)).
  { apply (deriv_ext (fun t => 1 + t * t) _ (fun t => 0 + (1 * t + t * 1))); [reflexivity|intros; ring|].
    apply deriv_plus; [intros u; apply derivable_pt_lim_const|].
    apply deriv_mult; intros u; apply derivable_pt_lim_id. }
  assert (Hr : has_derivative (fun t => sqrt (1 + t * t)) (fun t => t / sqrt (1 + t * t))).
  { apply (deriv_ext (comp sqrt (fun t => 1 + t * t)) _ (fun t => / (2 * sqrt (1 + t * t)) * (2 * t)));
      [reflexivity|intros t; specialize (Hs t); field; lra|].
    intros t. apply (derivable_pt_lim_comp (fun t => 1 + t * t) sqrt); [apply Hq|].
    apply derivable_pt_lim_sqrt, Hp. }
  split; [exact Hr|]. split.
  { apply (deriv_ext atan atan (fun t => / (1 + t * t)) (fun t => / (1 + t * t))); [reflexivity|reflexivity|].
    intros t. replace (/ (1 + t * t)) with (/ (1 + t ^ 2)) by (f_equal; ring). apply derivable_pt_lim_atan. }
  split.
  { apply (deriv_ext (div_fct id (fun t => sqrt (1 + t * t))) _
      (fun t => (1 * sqrt (1 + t * t) - t / sqrt (1 + t * t) * id t) / (sqrt (1 + t * t))²)); [reflexivity| |].
    - intros t. unfold id, Rsqr. pose proof (Hs t) as Hst. pose proof (sqrt_sqrt (1 + t * t) (Rlt_le _ _ (Hp t))) as Hss.
      set (r := sqrt (1 + t * t)) in *. rewrite <- Hss.
      replace (1 * r - t / r * t) with ((r * r - t * t) / r) by (field; lra). rewrite Hss at 1.
      replace (1 + t * t - t * t) with 1 by ring. field. lra.
    - intros t. apply (derivable_pt_lim_div id (fun t => sqrt (1 + t * t))); [apply derivable_pt_lim_id|apply Hr|].
      specialize (Hs t). lra. }
  split.
  { apply (deriv_ext (div_fct (fun _ => 1) (fun t => 1 + t * t)) _
      (fun t => (0 * (1 + t * t) - 2 * t * 1) / (1 + t * t)²)).
    - intros t. unfold div_fct, Rdiv. ring.
    - intros t. unfold Rsqr. specialize (Hp t). field. lra.
    - intros t. apply (derivable_pt_lim_div (fun _ => 1) (fun t => 1 + t * t)); [apply derivable_pt_lim_const|apply Hq|].
      specialize (Hp t). lra. }
  split; [exact Hs|]. split.
  - exists 1, 0. intros t. rewrite cos_atan. replace (t²) with (t * t) by reflexivity. specialize (Hs t). field. lra.
  - exists 0, 1. intros t. rewrite sin_atan. replace (t²) with (t * t) by reflexivity. specialize (Hs t). field. lra.
Qed.
