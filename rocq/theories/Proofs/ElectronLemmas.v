(** The Newton iterations of the electronic collision operator. *)
From Coq Require Import ZArith Reals List Lra Lia String.
From Verif Require Import Base.Prelude Base.ZSum Model.Electronic Spec.Electrons Proofs.MatrixLemmas.
Import ListNotations.
Local Open Scope R_scope.

Lemma lim_ext f g x l : (forall t, f t = g t) -> derivable_pt_lim f x l -> derivable_pt_lim g x l.
Proof.
  intros H Hf eps He. destruct (Hf eps He) as [d Hd]. exists d.
  intros h Hh Hlt. rewrite <- !H. now apply Hd.
Qed.

Lemma lim_line a b : derivable_pt_lim (fun h => a + h * b) 0 b.
Proof.
  intros eps He. exists (mkposreal 1 Rlt_0_1). intros h Hh _.
  replace ((a + (0 + h) * b - (a + 0 * b)) / h - b) with 0 by (field; auto).
  now rewrite Rabs_R0.
Qed.

Lemma lim_zsum N (g : R -> Z -> R) (l : Z -> R) x :
  (forall i, (0 <= i < N)%Z -> derivable_pt_lim (fun h => g h i) x (l i)) ->
  derivable_pt_lim (fun h => zsum N (g h)) x (zsum N l).
Proof.
  intros H. unfold zsum.
  assert (H' : forall i, (0 <= i < Z.of_nat (Z.to_nat N))%Z -> derivable_pt_lim (fun h => g h i) x (l i)).
  { intros i Hi. apply H. lia. }
  clear H. revert H'. generalize (Z.to_nat N) as n. induction n as [|n IH]; intros H.
  - cbn. apply derivable_pt_lim_const.
  - cbn [nsum]. apply (derivable_pt_lim_plus (fun h => nsum n (g h)) (fun h => g h (Z.of_nat n))).
    + apply IH. intros i Hi. apply H. lia.
    + apply H. lia.
Qed.

Section Newton.
  Context (k : R) (N : Z) (E px py f : Z -> R).
  Notation occ := (occupation k E px py).
  Notation exc := (excess k N E px py f).
  Notation newt := (newton k N E px py f).

  Definition eqm (s : drifting) : equilibrium :=
    Equilibrium (mu_ee s) (T_ee s) (vel_drift_x s) (vel_drift_y s).
  Definition dri (e : equilibrium) : drifting := Drifting (mu e) (temp e) (drift_x e) (drift_y e).

  Lemma fd_occ s x : fermi_dirac_ee k E px py s x = occ (eqm s) x.
  Proof.
    unfold fermi_dirac_ee, occupation, eqm. cbn [mu temp drift_x drift_y].
    rewrite Rplus_comm. unfold Rdiv at 1. rewrite Rmult_1_l. do 4 f_equal. ring.
  Qed.

  Lemma fd_occ0 m T x : fermi_dirac k E m T x = occ (Equilibrium m T 0 0) x.
  Proof.
    unfold fermi_dirac, occupation. cbn [mu temp drift_x drift_y].
    rewrite Rplus_comm. unfold Rdiv at 1. rewrite Rmult_1_l. do 4 f_equal. ring.
  Qed.

  Notation den := (ee_denominator k E px py).

  Lemma den_pos s x : 0 < k -> 0 < T_ee s -> 0 < den s x.
  Proof.
    intros Hk HT. unfold ee_denominator. cbv zeta.
    set (u := _ / (k * T_ee s)). pose proof (exp_pos u). pose proof (exp_pos (- u)).
    apply Rmult_lt_0_compat; [|lra]. apply Rmult_lt_0_compat; [exact Hk|nra].
  Qed.

  (** The change of the occupation to first order *)
  Definition slope (s : drifting) (e' : equilibrium) (x : Z) : R :=
    a_0 k E px py s x * (mu e' - mu_ee s) + a_1 k E px py s x * (temp e' - T_ee s)
    + a_2 k E px py s x * (drift_x e' - vel_drift_x s) + a_3 k E px py s x * (drift_y e' - vel_drift_y s).

  Lemma occ_deriv s e' x : 0 < k -> 0 < T_ee s ->
    derivable_pt_lim (fun h => occ (along (eqm s) e' h) x) 0 (slope s e' x).
  Proof.
    intros Hk HT.
    set (n0 := E x - mu_ee s - px x * vel_drift_x s - py x * vel_drift_y s).
    set (n1 := - ((mu e' - mu_ee s) + (drift_x e' - vel_drift_x s) * px x + (drift_y e' - vel_drift_y s) * py x)).
    set (d0 := k * T_ee s). set (d1 := k * (temp e' - T_ee s)).
    assert (Hd0 : 0 < d0) by (apply Rmult_lt_0_compat; assumption).
    pose proof (derivable_pt_lim_div (fun h => n0 + h * n1) (fun h => d0 + h * d1) 0 _ _
      (lim_line n0 n1) (lim_line d0 d1)) as Hq.
    cbn beta in Hq. rewrite !Rmult_0_l, !Rplus_0_r in Hq. specialize (Hq ltac:(lra)).
    set (q := fun h => (n0 + h * n1) / (d0 + h * d1)).
    assert (Hq0 : q 0 = n0 / d0) by (unfold q; now rewrite !Rmult_0_l, !Rplus_0_r).
    assert (Hexp := derivable_pt_lim_comp q exp 0 _ _ Hq (derivable_pt_lim_exp (q 0))).
    assert (Hsum := derivable_pt_lim_plus (fun _ => 1) _ 0 _ _ (derivable_pt_lim_const 1 0) Hexp).
    assert (Hinv := derivable_pt_lim_div (fun _ => 1) _ 0 _ _ (derivable_pt_lim_const 1 0) Hsum).
    unfold plus_fct, comp in Hinv. rewrite Hq0 in Hinv.
    pose proof (exp_pos (n0 / d0)) as He. specialize (Hinv ltac:(lra)).
    replace (slope s e' x) with
      ((0 * (1 + exp (n0 / d0)) - (0 + exp (n0 / d0) * ((n1 * d0 - d1 * n0) / (d0)²)) * 1) / (1 + exp (n0 / d0))²).
    - revert Hinv. apply lim_ext. intros h. unfold div_fct, occupation, along, eqm, q.
      cbn [mu temp drift_x drift_y]. unfold Rdiv at 1. rewrite Rmult_1_l. do 4 f_equal.
      + unfold n0, n1. ring.
      + unfold d0, d1. ring.
    - unfold slope, a_0, a_1, a_2, a_3, ee_denominator. cbv zeta. fold n0 d0.
      rewrite exp_Ropp. set (e := exp (n0 / d0)) in *.
      replace (k * T_ee s ^ 2) with (d0 * T_ee s) by (unfold d0; ring).
      unfold Rsqr. replace (n1 * d0 - d1 * n0) with
        (- k * (T_ee s * (mu e' - mu_ee s) + n0 * (temp e' - T_ee s)
           + T_ee s * px x * (drift_x e' - vel_drift_x s) + T_ee s * py x * (drift_y e' - vel_drift_y s)))
        by (unfold n1, d0, d1; ring).
      replace (d0 * T_ee s * (e + 2 + / e)) with (d0 * T_ee s * ((1 + e) * (1 + e)) / e) by (field; lra).
      replace (d0 * d0) with (k * T_ee s * d0) by (unfold d0; ring).
      field. repeat split; lra.
  Qed.

  Lemma excess_alt w e : exc w e = zsum N (fun x => w x * (f x - occ e x)).
  Proof. unfold excess. rewrite <- zsum_minus. apply zsum_ext. intros. ring. Qed.

  Lemma excess_deriv w s e' : 0 < k -> 0 < T_ee s ->
    derivable_pt_lim (fun h => exc w (along (eqm s) e' h)) 0 (- zsum N (fun x => w x * slope s e' x)).
  Proof.
    intros Hk HT. rewrite <- zsum_opp.
    apply (lim_ext (fun h => zsum N (fun x => w x * (f x - occ (along (eqm s) e' h) x)))).
    { intros h. now rewrite excess_alt. }
    apply lim_zsum. intros i Hi.
    replace (- (w i * slope s e' i)) with (w i * (0 - slope s e' i)) by ring.
    apply (derivable_pt_lim_scal (fun h => f i - occ (along (eqm s) e' h) i)).
    apply (derivable_pt_lim_minus (fun _ => f i) (fun h => occ (along (eqm s) e' h) i)).
    - apply derivable_pt_lim_const.
    - now apply occ_deriv.
  Qed.

  Lemma newton_linear ws s e' : 0 < k -> 0 < T_ee s ->
    newt ws (eqm s) e' <-> Forall (fun w => zsum N (fun x => w x * slope s e' x) = exc w (eqm s)) ws.
  Proof.
    intros Hk HT. unfold newton. split; apply Forall_impl; intros w H.
    - pose proof (uniqueness_limite _ _ _ _ H (excess_deriv w s e' Hk HT)) as Hu. lra.
    - rewrite <- H. now apply excess_deriv.
  Qed.

  Lemma slope_sum w s e' : zsum N (fun x => w x * slope s e' x)
    = zsum N (fun x => w x * a_0 k E px py s x) * (mu e' - mu_ee s)
      + zsum N (fun x => w x * a_1 k E px py s x) * (temp e' - T_ee s)
      + zsum N (fun x => w x * a_2 k E px py s x) * (drift_x e' - vel_drift_x s)
      + zsum N (fun x => w x * a_3 k E px py s x) * (drift_y e' - vel_drift_y s).
  Proof.
    rewrite <- !zsum_scal_r, <- !zsum_plus. apply zsum_ext. intros. unfold slope. ring.
  Qed.

  (** The weights of the scalar product: 1/denominator *)
  Notation wt s := (fun x => / den s x).

  Lemma wt_pos s : 0 < k -> 0 < T_ee s -> forall x, (0 <= x < N)%Z -> 0 < wt s x.
  Proof. intros. now apply Rinv_0_lt_compat, den_pos. Qed.

  Lemma col_ip w v s c : zsum N (fun x => w x * (c * v x / den s x)) = c * ip N (wt s) w v.
  Proof. unfold ip. rewrite <- zsum_scal. apply zsum_ext. intros. unfold Rdiv. ring. Qed.

  Lemma a0_ip w s : zsum N (fun x => w x * a_0 k E px py s x) = T_ee s * ip N (wt s) w one.
  Proof. rewrite <- col_ip. apply zsum_ext. intros. unfold a_0, one. now rewrite Rmult_1_r. Qed.
  Lemma a2_ip w s : zsum N (fun x => w x * a_2 k E px py s x) = T_ee s * ip N (wt s) w px.
  Proof. rewrite <- col_ip. reflexivity. Qed.
  Lemma a3_ip w s : zsum N (fun x => w x * a_3 k E px py s x) = T_ee s * ip N (wt s) w py.
  Proof. rewrite <- col_ip. reflexivity. Qed.
  Lemma a1_ip w s : zsum N (fun x => w x * a_1 k E px py s x)
    = ip N (wt s) w E - mu_ee s * ip N (wt s) w one - vel_drift_x s * ip N (wt s) w px - vel_drift_y s * ip N (wt s) w py.
  Proof.
    unfold ip. rewrite <- !zsum_scal, <- !zsum_minus. apply zsum_ext. intros. unfold a_1, one, Rdiv. ring.
  Qed.

  Lemma one_mul g : zsum N g = zsum N (fun x => one x * g x).
  Proof. apply zsum_ext. intros. unfold one. ring. Qed.

  (** *** f0_ee *)
  Lemma ee_det s : det4 (ee_matrix N k E px py s) = T_ee s ^ 3 * det4 (gram N (wt s) [one; E; px; py]).
  Proof.
    unfold det4, ee_matrix, of_rows, gram, total. cbn [nth].
    rewrite (one_mul (a_0 k E px py s)), (one_mul (a_1 k E px py s)), (one_mul (a_2 k E px py s)), (one_mul (a_3 k E px py s)).
    rewrite !a0_ip, !a1_ip, !a2_ip, !a3_ip.
    rewrite (ip_sym N (wt s) E one), (ip_sym N (wt s) px one), (ip_sym N (wt s) py one),
      (ip_sym N (wt s) px E), (ip_sym N (wt s) py E), (ip_sym N (wt s) py px). ring.
  Qed.

  Lemma ee_rows (P : (Z -> R) -> Prop) : Forall P [one; E; px; py]
    <-> forall i, (i < 4)%nat -> P (nth i [one; E; px; py] one).
  Proof.
    split.
    - intros H i Hi. apply (proj1 (Forall_nth P [one; E; px; py]) H). exact Hi.
    - intros H. repeat constructor; [exact (H 0%nat ltac:(lia))|exact (H 1%nat ltac:(lia))|exact (H 2%nat ltac:(lia))|exact (H 3%nat ltac:(lia))].
  Qed.

  Lemma ee_step_newton s e' : 0 < k -> 0 < T_ee s -> independent N [one; E; px; py] ->
    newt [one; E; px; py] (eqm s) e' <-> e' = eqm (ee_step N k E px py f s).
  Proof.
    intros Hk HT Hi.
    assert (Hdet : det 4 (ee_matrix N k E px py s) <> 0).
    { rewrite <- det4_spec, ee_det.
      pose proof (gram4_pos N _ (wt_pos s Hk HT) _ _ _ _ Hi). pose proof (pow_lt _ 3 HT).
      apply Rgt_not_eq, Rmult_lt_0_compat; assumption. }
    pose proof (inverse4_spec _ Hdet) as Hinv.
    rewrite newton_linear by assumption. rewrite ee_rows.
    set (d := fun i => nth i [mu e' - mu_ee s; temp e' - T_ee s; drift_x e' - vel_drift_x s; drift_y e' - vel_drift_y s] 0).
    set (b := fun i => nth i [zsum N (fun x => f x - fermi_dirac_ee k E px py s x);
              zsum N (fun x => E x * (f x - fermi_dirac_ee k E px py s x));
              zsum N (fun x => px x * (f x - fermi_dirac_ee k E px py s x));
              zsum N (fun x => py x * (f x - fermi_dirac_ee k E px py s x))] 0).
    assert (Hb : forall i, (i < 4)%nat -> exc (nth i [one; E; px; py] one) (eqm s) = b i).
    { intros i Hl. rewrite excess_alt. unfold b. small i; cbn [nth]; apply zsum_ext; intros; rewrite fd_occ; unfold one; ring. }
    assert (Hs : forall i, (i < 4)%nat -> zsum N (fun x => nth i [one; E; px; py] one x * slope s e' x)
      = upto 4 (fun j => ee_matrix N k E px py s i j * d j)).
    { intros i Hl. rewrite slope_sum. cbn [upto]. unfold d, ee_matrix, of_rows, total. cbn [nth].
      small i; cbn [nth]; rewrite <- ?one_mul; ring. }
    assert (H1 : (forall i, (i < 4)%nat -> zsum N (fun x => nth i [one; E; px; py] one x * slope s e' x) = exc (nth i [one; E; px; py] one) (eqm s))
      <-> (forall i, (i < 4)%nat -> upto 4 (fun j => ee_matrix N k E px py s i j * d j) = b i)).
    { split; intros H i Hl; specialize (H i Hl); rewrite ?Hs, ?Hb in *; auto. }
    rewrite H1, (solve_linear 4 _ _ b d Hinv).
    unfold ee_step. cbv zeta. unfold eqm at 1. cbn [mu_ee T_ee vel_drift_x vel_drift_y].
    split.
    - intros H. destruct e' as [m t vx vy]. cbn in d.
      pose proof (H 0%nat ltac:(lia)) as H0. pose proof (H 1%nat ltac:(lia)) as H1'.
      pose proof (H 2%nat ltac:(lia)) as H2. pose proof (H 3%nat ltac:(lia)) as H3.
      unfold d, b in H0, H1', H2, H3. cbn [nth upto] in H0, H1', H2, H3. cbn [nth]. unfold total.
      f_equal; lra.
    - intros -> i Hl. unfold d, b. cbn [mu temp drift_x drift_y nth upto]. unfold total.
      small i; cbn [nth]; ring.
  Qed.

  (** *** f0_ee_constant_T *)
  Lemma ee_det_T s : det3 (ee_matrix_T N k E px py s) = T_ee s ^ 3 * det3 (gram N (wt s) [one; px; py]).
  Proof.
    unfold det3, ee_matrix_T, of_rows, gram, total. cbn [nth].
    rewrite (one_mul (a_0 k E px py s)), (one_mul (a_2 k E px py s)), (one_mul (a_3 k E px py s)).
    rewrite !a0_ip, !a2_ip, !a3_ip. ring.
  Qed.

  Lemma ee_rows_T (P : (Z -> R) -> Prop) : Forall P [one; px; py]
    <-> forall i, (i < 3)%nat -> P (nth i [one; px; py] one).
  Proof.
    split.
    - intros H i Hi. apply (proj1 (Forall_nth P [one; px; py]) H). exact Hi.
    - intros H. repeat constructor; [exact (H 0%nat ltac:(lia))|exact (H 1%nat ltac:(lia))|exact (H 2%nat ltac:(lia))].
  Qed.

  Lemma ee_step_T_newton s e' : 0 < k -> 0 < T_ee s -> independent N [one; px; py] ->
    (newt [one; px; py] (eqm s) e' /\ temp e' = temp (eqm s)) <-> e' = eqm (ee_step_T N k E px py f s).
  Proof.
    intros Hk HT Hi.
    assert (Hdet : det 3 (ee_matrix_T N k E px py s) <> 0).
    { rewrite <- det3_spec, ee_det_T.
      pose proof (gram3_pos N _ (wt_pos s Hk HT) _ _ _ Hi). pose proof (pow_lt _ 3 HT).
      apply Rgt_not_eq, Rmult_lt_0_compat; assumption. }
    pose proof (inverse3_spec _ Hdet) as Hinv.
    rewrite newton_linear by assumption. rewrite ee_rows_T.
    set (d := fun i => nth i [mu e' - mu_ee s; drift_x e' - vel_drift_x s; drift_y e' - vel_drift_y s] 0).
    set (b := fun i => nth i [zsum N (fun x => f x - fermi_dirac_ee k E px py s x);
              zsum N (fun x => px x * (f x - fermi_dirac_ee k E px py s x));
              zsum N (fun x => py x * (f x - fermi_dirac_ee k E px py s x))] 0).
    assert (Hb : forall i, (i < 3)%nat -> exc (nth i [one; px; py] one) (eqm s) = b i).
    { intros i Hl. rewrite excess_alt. unfold b. small i; cbn [nth]; apply zsum_ext; intros; rewrite fd_occ; unfold one; ring. }
    assert (Hs : forall i, (i < 3)%nat -> temp e' = T_ee s -> zsum N (fun x => nth i [one; px; py] one x * slope s e' x)
      = upto 3 (fun j => ee_matrix_T N k E px py s i j * d j)).
    { intros i Hl HTe. rewrite slope_sum, HTe. cbn [upto]. unfold d, ee_matrix_T, of_rows, total. cbn [nth].
      small i; cbn [nth]; rewrite <- ?one_mul; ring. }
    cbn [temp eqm].
    assert (H1 : ((forall i, (i < 3)%nat -> zsum N (fun x => nth i [one; px; py] one x * slope s e' x) = exc (nth i [one; px; py] one) (eqm s)) /\ temp e' = T_ee s)
      <-> ((forall i, (i < 3)%nat -> upto 3 (fun j => ee_matrix_T N k E px py s i j * d j) = b i) /\ temp e' = T_ee s)).
    { split; intros [H HTe]; (split; [|exact HTe]); intros i Hl; specialize (H i Hl); rewrite ?Hs, ?Hb in *; auto. }
    rewrite H1, (solve_linear 3 _ _ b d Hinv).
    unfold ee_step_T. cbv zeta. unfold eqm at 1. cbn [mu_ee T_ee vel_drift_x vel_drift_y].
    split.
    - intros [H HTe]. destruct e' as [m t vx vy]. cbn in d. cbn in HTe.
      pose proof (H 0%nat ltac:(lia)) as H0. pose proof (H 1%nat ltac:(lia)) as H1'.
      pose proof (H 2%nat ltac:(lia)) as H2.
      unfold d, b in H0, H1', H2. cbn [nth upto] in H0, H1', H2. cbn [nth]. unfold total.
      f_equal; lra.
    - intros ->. split; [|reflexivity]. intros i Hl. unfold d, b. cbn [mu temp drift_x drift_y nth upto]. unfold total.
      small i; cbn [nth]; ring.
  Qed.

  (** *** f0_defect and f0_defect_constant_T *)
  Lemma defect_den m T x : k * T^2 * (exp ((E x - m) / (k * T)) + 2 + exp (- ((E x - m) / (k * T))))
    = den (Drifting m T 0 0) x.
  Proof.
    unfold ee_denominator. cbn [mu_ee T_ee vel_drift_x vel_drift_y].
    replace (E x - m - px x * 0 - py x * 0) with (E x - m) by ring. reflexivity.
  Qed.

  Definition at_rest (s : R * R) : equilibrium := Equilibrium (fst s) (snd s) 0 0.

  Lemma at_rest_eqm s : at_rest s = eqm (Drifting (fst s) (snd s) 0 0).
  Proof. reflexivity. Qed.

  Lemma defect_step_newton s e' : 0 < k -> 0 < snd s -> independent N [one; E] ->
    (newt [one; E] (at_rest s) e' /\ drift_x e' = 0 /\ drift_y e' = 0)
    <-> e' = at_rest (defect_step N k E f s).
  Proof.
    destruct s as [m T]. cbn [snd]. intros Hk HT Hi. rewrite at_rest_eqm. cbn [fst snd].
    set (s := Drifting m T 0 0).
    pose proof (gram2_pos N _ (wt_pos s Hk HT) _ _ Hi) as Hg.
    rewrite newton_linear by assumption.
    rewrite Forall_cons_iff, Forall_cons_iff, !slope_sum, !a0_ip, !a1_ip, !a2_ip, !a3_ip, !excess_alt.
    cbn [mu_ee T_ee vel_drift_x vel_drift_y s].
    unfold at_rest, defect_step. cbv zeta. unfold total. cbn [fst snd].
    rewrite (zsum_ext N (fun x => T / _) (fun x => one x * (T * one x / den s x)))
      by (intros; rewrite defect_den; unfold one, Rdiv; fold s; ring).
    rewrite (zsum_ext N (fun x => E x * T / _) (fun x => E x * (T * one x / den s x)))
      by (intros; rewrite defect_den; unfold one, Rdiv; fold s; ring).
    rewrite (zsum_ext N (fun x => (E x - m) / _) (fun x => one x * a_1 k E px py s x))
      by (intros; rewrite defect_den; unfold a_1, one, Rdiv; cbn [mu_ee T_ee vel_drift_x vel_drift_y s]; fold s; ring).
    rewrite (zsum_ext N (fun x => E x * (E x - m) / _) (fun x => E x * a_1 k E px py s x))
      by (intros; rewrite defect_den; unfold a_1, one, Rdiv; cbn [mu_ee T_ee vel_drift_x vel_drift_y s]; fold s; ring).
    rewrite !col_ip, !a1_ip. cbn [mu_ee T_ee vel_drift_x vel_drift_y s].
    rewrite (zsum_ext N (fun x => f x - _) (fun x => one x * (f x - occ (eqm s) x)))
      by (intros; rewrite fd_occ0; unfold one; change (eqm s) with (Equilibrium m T 0 0); ring).
    rewrite (zsum_ext N (fun x => E x * (f x - fermi_dirac _ _ _ _ _)) (fun x => E x * (f x - occ (eqm s) x)))
      by (intros; rewrite fd_occ0; reflexivity).
    rewrite (ip_sym N (wt s) E one).
    set (b0 := zsum N (fun x => one x * _)). set (b1 := zsum N (fun x => E x * _)).
    set (g00 := ip N (wt s) one one) in *. set (g01 := ip N (wt s) one E) in *. set (g11 := ip N (wt s) E E) in *.
    generalize (ip N (wt s) one px), (ip N (wt s) one py), (ip N (wt s) E px), (ip N (wt s) E py).
    intros u1 u2 u3 u4. clearbody b0 b1 g00 g01 g11.
    assert (Hdet : (g01 - m * g00 - 0 * u1 - 0 * u2) * (T * g01) - T * g00 * (g11 - m * g01 - 0 * u3 - 0 * u4) = - T * (g00 * g11 - g01 * g01)) by ring.
    rewrite Hdet. assert (HD : T * (g00 * g11 - g01 * g01) > 0) by now apply Rmult_lt_0_compat.
    set (D := g00 * g11 - g01 * g01) in *.
    assert (HDne : D <> 0) by (intros H0; rewrite H0 in HD; lra).
    destruct e' as [m' T' vx vy]. cbn [mu temp drift_x drift_y]. split.
    - intros [[H1 [H2 _]] [Hx Hy]]. subst vx vy.
      f_equal.
      + apply (Rmult_eq_reg_r (T * D)); [|lra].
        match goal with |- _ = ?r => replace r with
          (m * (T * D) + ((g11 - m * g01 - 0 * u3 - 0 * u4) * b0 - (g01 - m * g00 - 0 * u1 - 0 * u2) * b1)) by (field; lra) end.
        rewrite <- H1, <- H2. unfold D. ring.
      + apply (Rmult_eq_reg_r (T * D)); [|lra].
        match goal with |- _ = ?r => replace r with
          (T * (T * D) - (T * g01 * b0 - T * g00 * b1)) by (field; lra) end.
        rewrite <- H1, <- H2. unfold D. ring.
    - intros H. injection H as -> -> -> ->. split; [|split; reflexivity].
      split; [|split; [|constructor]]; (apply (Rmult_eq_reg_r (T * D)); [|lra]); unfold D in *; field; lra.
  Qed.

  Lemma defect_mu_newton m T e' : 0 < k -> 0 < T -> (0 < N)%Z ->
    (newt [one] (at_rest (m, T)) e' /\ temp e' = T /\ drift_x e' = 0 /\ drift_y e' = 0)
    <-> e' = at_rest (defect_mu_step N k E f T m, T).
  Proof.
    intros Hk HT HN. rewrite at_rest_eqm. cbn [fst snd]. set (s := Drifting m T 0 0).
    rewrite newton_linear by assumption.
    rewrite Forall_cons_iff, !slope_sum, !a0_ip, !a1_ip, !a2_ip, !a3_ip, !excess_alt.
    cbn [mu_ee T_ee vel_drift_x vel_drift_y s].
    unfold at_rest, defect_mu_step. cbv zeta. unfold total. cbn [fst snd].
    rewrite (zsum_ext N (fun x => T / _) (fun x => one x * (T * one x / den s x)))
      by (intros; rewrite defect_den; unfold one, Rdiv; fold s; ring).
    rewrite col_ip.
    rewrite (zsum_ext N (fun x => f x - _) (fun x => one x * (f x - occ (eqm s) x)))
      by (intros; rewrite fd_occ0; unfold one; change (eqm s) with (Equilibrium m T 0 0); ring).
    assert (Hg : 0 < ip N (wt s) one one).
    { apply (ip_pos N _ (wt_pos s Hk HT) one 0%Z); [lia|]. unfold one. lra. }
    set (b0 := zsum N (fun x => one x * _)). set (g00 := ip N (wt s) one one) in *. clearbody b0 g00.
    generalize (ip N (wt s) one px), (ip N (wt s) one py), (ip N (wt s) one E). intros u1 u2 u3.
    destruct e' as [m' T' vx vy]. cbn [mu temp drift_x drift_y]. split.
    - intros [[H1 _] [-> [-> ->]]]. f_equal. rewrite <- H1. field. split; lra.
    - intros H. injection H as -> -> -> ->. split; [|repeat split]. constructor; [|constructor]. field. split; lra.
  Qed.
End Newton.
