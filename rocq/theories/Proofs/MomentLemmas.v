(** What the moment functions compute. *)
From Coq Require Import ZArith Reals Lra Lia String List Bool.
From Verif Require Import Base.Prelude Base.ZSum Base.Cplx Model.Af Model.Grid Model.Petsc Model.Config Model.Moments
  Spec.MomentSpec Proofs.ConvLemmas.
Import ListNotations.
Local Open Scope R_scope.

Definition scalar_laws {K} (S : scalar K) : Prop :=
  (forall n f g, (forall i, (0 <= i < n)%Z -> f i = g i) -> s_sum S n f = s_sum S n g)
  /\ (forall a b x, s_scale S a (s_scale S b x) = s_scale S (a * b) x)
  /\ (forall x, s_scale S 1 x = x).

Lemma real_laws : scalar_laws real_scalar.
Proof. split; [|split]; cbn; intros; try ring. apply zsum_ext; auto. Qed.
Lemma cplx_laws : scalar_laws cplx_scalar.
Proof.
  split; [|split]; cbn; intros.
  - apply cplx_eq; cbn; apply zsum_ext; intros; rewrite H; auto.
  - cplx_ring.
  - cplx_ring.
Qed.

Definition dims4 {A} (a : arr A) (n0 n1 n2 n3 : Z) : Prop := d0 a = n0 /\ d1 a = n1 /\ d2 a = n2 /\ d3 a = n3.

Lemma bidx_in n i : inb n i -> bidx n i = i.
Proof. unfold bidx, inb. destruct (Z.eqb_spec n 1); lia. Qed.
Lemma bidx_1 i : bidx 1 i = 0%Z.
Proof. reflexivity. Qed.

Section M.
  Context {K : Type} (S : scalar K) (LW : scalar_laws S).
  Context (Np Ns n1 n2 : Z) (P1 : (0 < n1)%Z) (P2 : (0 < n2)%Z).

  Lemma times_dims a (w : arr R) : dims4 a Np Ns n1 n2 -> dims4 w Np Ns 1 1 -> dims4 (times S a w) Np Ns n1 n2.
  Proof. intros (A&B&C&D) (E&F&G&H). unfold dims4. cbn. rewrite A, B, C, D, E, F, G, H. lia. Qed.
  Lemma times_el a (w : arr R) i s k l : dims4 a Np Ns n1 n2 -> dims4 w Np Ns 1 1 ->
    inb Np i -> inb Ns s -> inb n1 k -> inb n2 l ->
    el (times S a w) i s k l = s_scale S (el w i s 0 0) (el a i s k l).
  Proof.
    intros (A&B&C&D) (E&F&G&H) Hi Hs Hk Hl. unfold times. cbn. unfold bel.
    rewrite A, B, C, D, E, F, G, H, !bidx_1, !bidx_in by auto. reflexivity.
  Qed.
  Lemma integral_dims a (w : arr R) : dims4 a Np Ns n1 n2 -> dims4 w 1 Ns 1 1 -> dims4 (integral_over_v S a w) 1 Ns n1 n2.
  Proof. intros (A&B&C&D) (E&F&G&H). unfold dims4. cbn. rewrite B, C, D, E, F, G, H. lia. Qed.
  Lemma integral_el a (w : arr R) s k l : dims4 a Np Ns n1 n2 -> dims4 w 1 Ns 1 1 ->
    inb Ns s -> inb n1 k -> inb n2 l ->
    el (integral_over_v S a w) 0 s k l = s_scale S (el w 0 s 0 0) (s_sum S Np (fun i => el a i s k l)).
  Proof.
    intros (A&B&C&D) (E&F&G&H) Hs Hk Hl. unfold integral_over_v, times. cbn. unfold bel. cbn.
    rewrite A, B, C, D, E, F, G, H, !bidx_1, !bidx_in by auto. reflexivity.
  Qed.

  (** [m] weights f with [w]. *)
  Definition weighs (m : moment_def) (w : R -> R -> R -> R) : Prop :=
    forall f v1 v2 v3 im, dims4 f Np Ns n1 n2 -> dims4 v1 Np Ns 1 1 -> dims4 v2 Np Ns 1 1 -> dims4 v3 Np Ns 1 1 ->
      dims4 im 1 Ns 1 1 ->
      dims4 (m K S f v1 v2 v3 im) 1 Ns n1 n2
      /\ forall s k l, inb Ns s -> inb n1 k -> inb n2 l ->
         el (m K S f v1 v2 v3 im) 0 s k l
         = s_scale S (el im 0 s 0 0)
             (s_sum S Np (fun x => s_scale S (w (el v1 x s 0 0) (el v2 x s 0 0) (el v3 x s 0 0)) (el f x s k l))).

  Lemma amap_dims {A B} (g : A -> B) a p q r t : dims4 a p q r t -> dims4 (amap g a) p q r t.
  Proof. auto. Qed.
  Lemma amap2_dims {A B C} (g : A -> B -> C) a b p q r t : dims4 a p q r t -> dims4 (amap2 g a b) p q r t.
  Proof. auto. Qed.

  Ltac dims := repeat first [assumption | apply times_dims | apply amap2_dims | apply amap_dims].
  Ltac weigh := unfold density, mom_v1_bulk, mom_v2_bulk, mom_v3_bulk, energy, energy_q1, energy_q2, energy_q3, q_q1, q_q2, q_q3;
    intros f v1 v2 v3 im D V1 V2 V3 I; split;
    [ apply integral_dims; dims
    | intros s k l Hs Hk Hl; rewrite integral_el; dims; auto; f_equal; apply (proj1 LW); intros x Hx;
      rewrite ?times_el by (dims; auto); cbn [amap amap2 el sq v_sq half_f]; rewrite ?times_el by (dims; auto);
      cbn [amap amap2 el sq v_sq half_f]; rewrite ?(proj1 (proj2 LW)), ?(proj2 (proj2 LW)); try reflexivity;
      f_equal; try (field; fail) ].

  Lemma density_weighs : weighs density (fun _ _ _ => 1).
  Proof. weigh. Qed.
  Lemma mom1_weighs : weighs mom_v1_bulk (fun x _ _ => x).
  Proof. weigh. Qed.
  Lemma mom2_weighs : weighs mom_v2_bulk (fun _ y _ => y).
  Proof. weigh. Qed.
  Lemma mom3_weighs : weighs mom_v3_bulk (fun _ _ z => z).
  Proof. weigh. Qed.
  Lemma energy_weighs : weighs energy (fun x y z => (x * x + y * y + z * z) / 2).
  Proof. weigh. Qed.
  Lemma energy1_weighs : weighs energy_q1 (fun x _ _ => x * x / 2).
  Proof. weigh. Qed.
  Lemma energy2_weighs : weighs energy_q2 (fun _ y _ => y * y / 2).
  Proof. weigh. Qed.
  Lemma energy3_weighs : weighs energy_q3 (fun _ _ z => z * z / 2).
  Proof. weigh. Qed.
  Lemma q1_weighs : weighs q_q1 (fun x y z => x * (x * x + y * y + z * z)).
  Proof. weigh. Qed.
  Lemma q2_weighs : weighs q_q2 (fun x y z => y * (x * x + y * y + z * z)).
  Proof. weigh. Qed.
  Lemma q3_weighs : weighs q_q3 (fun x y z => z * (x * x + y * y + z * z)).
  Proof. weigh. Qed.

  Lemma table_weighs name w : (forall x y z, moment_weight name x y z = Some (w x y z)) ->
    exists m, getattr nonrel_moments name = Ok m /\ weighs m w.
  Proof.
    intros H.
    assert (G : forall w', (forall x y z, w' x y z = w x y z) -> forall m, weighs m w' -> weighs m w).
    { intros w' E m W f v1 v2 v3 im D V1 V2 V3 I. destruct (W f v1 v2 v3 im D V1 V2 V3 I) as (A&B). split; auto.
      intros. rewrite B by auto. f_equal. apply (proj1 LW); intros. rewrite E. reflexivity. }
    unfold moment_weight in H. cbv zeta in H.
    repeat match type of H with
    | forall x y z, (if String.eqb name ?n then _ else _) = _ =>
        destruct (String.eqb_spec name n) as [->|?]
    end; [..|discriminate (H 0 0 0)];
    cbn [getattr nonrel_moments String.eqb Ascii.eqb Bool.eqb];
    (eexists; split; [reflexivity|]); (eapply G; [|first [apply density_weighs|apply mom1_weighs|apply mom2_weighs
      |apply mom3_weighs|apply energy_weighs|apply energy1_weighs|apply energy2_weighs|apply energy3_weighs
      |apply q1_weighs|apply q2_weighs|apply q3_weighs]]); intros x y z; specialize (H x y z); injection H; auto.
  Qed.
End M.

Lemma p_center_dims c : momentum_grid_ok c ->
  dims4 (p1_center c) (N_p c) (N_species c) 1 1 /\ dims4 (p2_center c) (N_p c) (N_species c) 1 1
  /\ dims4 (p3_center c) (N_p c) (N_species c) 1 1.
Proof.
  intros (A&B&C&D&L1&L2&L3). unfold dims4, p1_center, p2_center, p3_center, p_center, calculate_p_center, calculate_p_gen, p_arr, N_p.
  cbn. rewrite L1. auto 20.
Qed.

Lemma p_center_el c i1 i2 i3 s : inb (N_p1 c) i1 -> inb (N_p2 c) i2 -> inb (N_p3 c) i3 ->
  let x := (i1 + N_p1 c * (i2 + N_p2 c * i3))%Z in
  let G := species_grid c s in
  el (p1_center c) x s 0 0 = v_of (lo1 G) (w1 G) i1
  /\ el (p2_center c) x s 0 0 = v_of (lo2 G) (w2 G) i2
  /\ el (p3_center c) x s 0 0 = v_of (lo3 G) (w3 G) i3.
Proof.
  intros H1 H2 H3 x G. destruct (pidx_split (N_p1 c) (N_p2 c) i1 i2 i3 H1 H2) as (Q1&Q2&Q3). fold x in Q1, Q2, Q3.
  unfold p1_center, p2_center, p3_center, p_center, calculate_p_center, calculate_p_gen, p_arr.
  cbn [fst snd el]. unfold flat. cbn [d0 d1 d2 d3 el]. unfold unlin0, unlin1, unlin2, unlin3, p_line, v_of.
  cbn [lo1 lo2 lo3 w1 w2 w3 G species_grid].
  rewrite Q1, Q2, Q3. rewrite Z.mod_small by (unfold inb in H3; lia). repeat split; lra.
Qed.

Lemma measure_el c s : el (measure c) 0 s 0 0
  = w1 (species_grid c s) * w2 (species_grid c s) * w3 (species_grid c s).
Proof. cbn. ring. Qed.

Lemma flat_integral c s w (g : Z -> R) : momentum_grid_ok c ->
  zsum (N_p c) (fun x => w (el (p1_center c) x s 0 0) (el (p2_center c) x s 0 0) (el (p3_center c) x s 0 0) * g x)
  * (w1 (species_grid c s) * w2 (species_grid c s) * w3 (species_grid c s))
  = integral (species_grid c s) w (fun i1 i2 i3 => g (i1 + N_p1 c * (i2 + N_p2 c * i3))%Z).
Proof.
  intros (A&B&C&D&_). unfold integral. f_equal. cbn [mn1 mn2 mn3 species_grid]. unfold N_p.
  rewrite <- Z.mul_assoc, zsum_mul by lia. rewrite zsum_mul by lia.
  apply zsum_ext; intros i3 H3. apply zsum_ext; intros i2 H2. apply zsum_ext; intros i1 H1.
  destruct (p_center_el c i1 i2 i3 s H1 H2 H3) as (X&Y&Z'). cbv zeta in X, Y, Z'. rewrite X, Y, Z'. reflexivity.
Qed.

Definition moment_is (c : cfg) (n1 n2 : Z) (M : arr R) (v : Z -> Z -> Z -> R) : Prop :=
  dims4 M 1 (N_species c) n1 n2
  /\ forall s k l, inb (N_species c) s -> inb n1 k -> inb n2 l -> el M 0 s k l = v s k l.

Section Compute.
  Context (c : cfg) (n1 n2 : Z) (OK : momentum_grid_ok c) (P1 : (0 < n1)%Z) (P2 : (0 < n2)%Z).
  Definition row (i1 i2 i3 : Z) : Z := (i1 + N_p1 c * (i2 + N_p2 c * i3))%Z.

  Lemma moment_value mu name w f : dims4 f (N_p c) (N_species c) n1 n2 ->
    (forall x y z, moment_weight name x y z = Some (w x y z)) ->
    (p_space_grid c = "cartesian"%string -> exists M, compute_moments c nonrel_moments mu name f = Ok M
      /\ moment_is c n1 n2 M (fun s k l => integral (species_grid c s) w (fun i1 i2 i3 => el f (row i1 i2 i3) s k l)))
    /\ (p_space_grid c = "polar2D"%string -> exists M, compute_moments c nonrel_moments mu name f = Ok M
      /\ moment_is c n1 n2 M (fun s k l => mu * integral (species_grid c s) w (fun i1 i2 i3 => el f (row i1 i2 i3) s k l))).
  Proof.
    intros D W. pose proof OK as (A&B&C&E&_).
    destruct (table_weighs real_scalar real_laws (N_p c) (N_species c) n1 n2 P1 P2 name w W) as (m&G&WM).
    destruct (p_center_dims c OK) as (D1&D2&D3).
    destruct (WM f (p1_center c) (p2_center c) (p3_center c) (measure c) D D1 D2 D3) as (DM&EM); [repeat split|].
    assert (V : forall s k l, inb (N_species c) s -> inb n1 k -> inb n2 l ->
       el (m R real_scalar f (p1_center c) (p2_center c) (p3_center c) (measure c)) 0 s k l
       = integral (species_grid c s) w (fun i1 i2 i3 => el f (row i1 i2 i3) s k l)).
    { intros s k l Hs Hk Hl. rewrite EM by auto. rewrite measure_el. unfold row.
      rewrite <- (flat_integral c s w (fun x => el f x s k l)) by auto. cbn [s_scale s_sum real_scalar]. ring. }
    unfold compute_moments. split; intros ->; rewrite G; cbn; eexists; (split; [reflexivity|]).
    - split; auto.
    - split; auto. intros. cbn [el amap]. rewrite V; auto.
  Qed.
End Compute.

(** ** Consequences *)
Lemma integral_linear G w a b g h :
  integral G w (fun i1 i2 i3 => a * g i1 i2 i3 + b * h i1 i2 i3) = a * integral G w g + b * integral G w h.
Proof.
  unfold integral.
  transitivity ((a * zsum (mn3 G) (fun i3 => zsum (mn2 G) (fun i2 => zsum (mn1 G) (fun i1 =>
      w (v_of (lo1 G) (w1 G) i1) (v_of (lo2 G) (w2 G) i2) (v_of (lo3 G) (w3 G) i3) * g i1 i2 i3)))
    + b * zsum (mn3 G) (fun i3 => zsum (mn2 G) (fun i2 => zsum (mn1 G) (fun i1 =>
      w (v_of (lo1 G) (w1 G) i1) (v_of (lo2 G) (w2 G) i2) (v_of (lo3 G) (w3 G) i3) * h i1 i2 i3))))
    * (w1 G * w2 G * w3 G)); [|ring].
  f_equal. rewrite <- !zsum_scal, <- zsum_plus. apply zsum_ext; intros i3 _.
  rewrite <- !zsum_scal, <- zsum_plus. apply zsum_ext; intros i2 _.
  rewrite <- !zsum_scal, <- zsum_plus. apply zsum_ext; intros i1 _. ring.
Qed.

Lemma integral_nonneg G w g : 0 <= w1 G -> 0 <= w2 G -> 0 <= w3 G ->
  (forall x y z, 0 <= w x y z) ->
  (forall i1 i2 i3, inb (mn1 G) i1 -> inb (mn2 G) i2 -> inb (mn3 G) i3 -> 0 <= g i1 i2 i3) -> 0 <= integral G w g.
Proof.
  intros A B C W H. unfold integral. apply Rmult_le_pos.
  - apply zsum_nonneg; intros. apply zsum_nonneg; intros. apply zsum_nonneg; intros. apply Rmult_le_pos; auto.
  - apply Rmult_le_pos; auto. apply Rmult_le_pos; auto.
Qed.

(** (int a g)^2 + (int b g)^2 + (int c g)^2 <= int g * int (a^2+b^2+c^2) g *)
Lemma integral_ext G w w' g : (forall x y z, w x y z = w' x y z) -> integral G w g = integral G w' g.
Proof.
  intros E. unfold integral. f_equal. apply zsum_ext; intros. apply zsum_ext; intros. apply zsum_ext; intros. rewrite E. auto.
Qed.
Lemma integral_wsum G wa wb g : integral G (fun x y z => wa x y z + wb x y z) g = integral G wa g + integral G wb g.
Proof.
  unfold integral. rewrite <- Rmult_plus_distr_r. f_equal. rewrite <- zsum_plus. apply zsum_ext; intros.
  rewrite <- zsum_plus. apply zsum_ext; intros. rewrite <- zsum_plus. apply zsum_ext; intros. ring.
Qed.
Lemma integral_wscale G k w g : integral G (fun x y z => k * w x y z) g = k * integral G w g.
Proof.
  unfold integral. set (V := w1 G * w2 G * w3 G). rewrite <- Rmult_assoc. f_equal. rewrite <- zsum_scal. apply zsum_ext; intros.
  rewrite <- zsum_scal. apply zsum_ext; intros. rewrite <- zsum_scal. apply zsum_ext; intros. ring.
Qed.

Lemma temperature_nonneg G g : 0 <= w1 G -> 0 <= w2 G -> 0 <= w3 G ->
  (forall i1 i2 i3, inb (mn1 G) i1 -> inb (mn2 G) i2 -> inb (mn3 G) i3 -> 0 <= g i1 i2 i3) ->
  (integral G (fun x _ _ => x) g) ^ 2 + (integral G (fun _ y _ => y) g) ^ 2 + (integral G (fun _ _ z => z) g) ^ 2
  <= integral G (fun _ _ _ => 1) g * (2 * integral G (fun x y z => (x * x + y * y + z * z) / 2) g).
Proof.
  intros A B C H. rewrite <- integral_wscale.
  set (n := integral G (fun _ _ _ => 1) g). set (m1 := integral G (fun x _ _ => x) g).
  set (m2 := integral G (fun _ y _ => y) g). set (m3 := integral G (fun _ _ z => z) g).
  set (e := integral G (fun x y z => 2 * ((x * x + y * y + z * z) / 2)) g).
  assert (N0 : 0 <= n) by (apply integral_nonneg; auto; intros; lra).
  assert (E0 : 0 <= e) by (apply integral_nonneg; auto; intros; nra).
  (* |v - t a|^2 integrates to something non-negative for every a and t *)
  assert (Q : forall t a1 a2 a3, 0 <= t * t * e - 2 * t * (a1 * m1 + a2 * m2 + a3 * m3) + (a1 * a1 + a2 * a2 + a3 * a3) * n).
  { intros t a1 a2 a3.
    replace (t * t * e - 2 * t * (a1 * m1 + a2 * m2 + a3 * m3) + (a1 * a1 + a2 * a2 + a3 * a3) * n)
      with (integral G (fun x y z => (t * x - a1) ^ 2 + (t * y - a2) ^ 2 + (t * z - a3) ^ 2) g).
    - apply integral_nonneg; auto. intros x y z. pose proof (pow2_ge_0 (t * x - a1)). pose proof (pow2_ge_0 (t * y - a2)).
      pose proof (pow2_ge_0 (t * z - a3)). lra.
    - rewrite (integral_ext G _ (fun x y z => (t * t * (2 * ((x * x + y * y + z * z) / 2)) + (- (2 * t * a1)) * x)
        + (((- (2 * t * a2)) * y + (- (2 * t * a3)) * z) + (a1 * a1 + a2 * a2 + a3 * a3) * 1))).
      + rewrite !integral_wsum. rewrite !integral_wscale.
        unfold e. rewrite ?integral_wscale.
        fold m1 m2 m3 n. ring.
      + intros. field. }
  set (M := m1 ^ 2 + m2 ^ 2 + m3 ^ 2).
  assert (M0 : 0 <= M) by (unfold M; pose proof (pow2_ge_0 m1); pose proof (pow2_ge_0 m2); pose proof (pow2_ge_0 m3); lra).
  assert (Q' : forall t s, 0 <= t * t * e - 2 * t * s * M + s * s * M * n).
  { intros t s. replace (t * t * e - 2 * t * s * M + s * s * M * n)
      with (t * t * e - 2 * t * (s * m1 * m1 + s * m2 * m2 + s * m3 * m3) + (s * m1 * (s * m1) + s * m2 * (s * m2) + s * m3 * (s * m3)) * n)
      by (unfold M; ring). apply Q. }
  destruct (Req_dec n 0) as [Hn|Hn].
  - (* no mass: M must vanish *)
    rewrite Hn. destruct (Req_dec M 0) as [HM|HM]; [lra|exfalso].
    specialize (Q' 1 ((e + 1) / (2 * M))). rewrite Hn in Q'.
    replace (1 * 1 * e - 2 * 1 * ((e + 1) / (2 * M)) * M + (e + 1) / (2 * M) * ((e + 1) / (2 * M)) * M * 0) with (-1) in Q'
      by (field; auto). lra.
  - (* t = n, s = 1 *)
    specialize (Q' n 1). replace (n * n * e - 2 * n * 1 * M + 1 * 1 * M * n) with (n * (n * e - M)) in Q' by ring.
    assert (0 < n) by lra. assert (0 <= n * e - M) by (apply Rmult_le_reg_l with n; lra). lra.
Qed.
