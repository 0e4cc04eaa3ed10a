(** Symmetries of semi-Lagrangian runs. *)
From Coq Require Import ZArith Reals Lra Lia String List Bool FunctionalExtensionality.
From Verif Require Import Base.Prelude Base.ZSum Model.Af Model.Grid Model.Petsc Model.Config
  Model.Timestep Model.Solver
  Spec.Lattice Spec.Domain Spec.FvmProblem Spec.FvmRun Spec.Clock Spec.Symmetry Spec.Interp Spec.SlSym
  Proofs.InterpLemmas Proofs.SemiLagProps.
Import ListNotations.
Local Open Scope R_scope.

(** ** Moving the data *)
Lemma interp2_periodic w (u : Z -> Z -> R) n m X Y a b : (0 < n)%Z -> (0 < m)%Z ->
  interp2 w (fun i j => u (i mod n) (j mod m))%Z (IZR (a mod n) - X) (IZR (b mod m) - Y)
  = interp2 w (fun i j => u (i mod n) (j mod m))%Z (IZR a - X) (IZR b - Y).
Proof.
  intros Hn Hm. rewrite (Z.div_mod a n) at 2 by lia. rewrite (Z.div_mod b m) at 2 by lia. rewrite !plus_IZR.
  replace (IZR (n * (a / n)) + IZR (a mod n) - X) with (IZR (a mod n) - X + IZR (n * (a / n))) by ring.
  replace (IZR (m * (b / m)) + IZR (b mod m) - Y) with (IZR (b mod m) - Y + IZR (m * (b / m))) by ring.
  rewrite interp2_shift. f_equal. extensionality i; extensionality j.
  rewrite (Z.mul_comm n), (Z.mul_comm m), !Z_mod_plus_full. reflexivity.
Qed.

Section Move.
Variables (P : params) (w : weights) (d1 d2 : Z).
Context (E : sl_everywhere P) (N1 : (0 < gN1 (lay (pc P)))%Z) (N2 : (0 < gN2 (lay (pc P)))%Z).

Lemma char_moved t dt u : characteristics (pc P) w t dt (moved (pc P) d1 d2 u) = moved (pc P) d1 d2 (characteristics (pc P) w t dt u).
Proof.
  extensionality x; extensionality s; extensionality g1; extensionality g2. unfold moved, characteristics.
  destruct E as (ST&_). set (n := gN1 (lay (pc P))) in *. set (m := gN2 (lay (pc P))) in *.
  assert (M1 : forall a b a' b', moved1 (pc P) t dt x s a b = moved1 (pc P) t dt x s a' b').
  { intros. unfold moved1, velocity_a. rewrite (ST s t _ _ (pos1 (pc P) (1/2) a') (pos2 (pc P) (1/2) b')). reflexivity. }
  assert (M2 : forall a b a' b', moved2 (pc P) t dt x s a b = moved2 (pc P) t dt x s a' b').
  { intros. unfold moved2, velocity_a. rewrite (ST s t _ _ (pos1 (pc P) (1/2) a') (pos2 (pc P) (1/2) b')). reflexivity. }
  rewrite (interp2_periodic w (u x s)) by auto.
  rewrite (M1 ((g1 - d1) mod n)%Z ((g2 - d2) mod m)%Z g1 g2), (M2 ((g1 - d1) mod n)%Z ((g2 - d2) mod m)%Z g1 g2).
  replace (IZR (g1 - d1) - moved1 (pc P) t dt x s g1 g2) with (IZR g1 - moved1 (pc P) t dt x s g1 g2 + IZR (- d1)) by (rewrite minus_IZR, opp_IZR; ring).
  replace (IZR (g2 - d2) - moved2 (pc P) t dt x s g1 g2) with (IZR g2 - moved2 (pc P) t dt x s g1 g2 + IZR (- d2)) by (rewrite minus_IZR, opp_IZR; ring).
  rewrite interp2_shift. f_equal. extensionality i; extensionality j. rewrite !Zminus_mod_idemp_l. reflexivity.
Qed.
Lemma collide_moved t dt u : collide P t dt (moved (pc P) d1 d2 u) = moved (pc P) d1 d2 (collide P t dt u).
Proof.
  extensionality x; extensionality s; extensionality g1; extensionality g2. unfold collide, moved. destruct E as (_&SO&SI).
  destruct (instantaneous P); [apply SI|]. destruct (source_enabled (pc P)); [|reflexivity]. f_equal. f_equal.
  rewrite (SO t _ _ (pos1 (pc P) (1/2) ((g1 - d1) mod gN1 (lay (pc P)))) (pos2 (pc P) (1/2) ((g2 - d2) mod gN2 (lay (pc P))))).
  f_equal. extensionality y; extensionality r. f_equal. f_equal. apply SO.
Qed.
Lemma compose_moved m t dt u : compose m (characteristics (pc P) w t) (collide P t) dt (moved (pc P) d1 d2 u)
  = moved (pc P) d1 d2 (compose m (characteristics (pc P) w t) (collide P t) dt u).
Proof.
  destruct m; unfold compose; rewrite ?char_moved, ?collide_moved, ?char_moved, ?collide_moved, ?char_moved, ?collide_moved; try reflexivity.
Qed.
Lemma transport_moved h t u : transport P w t h (moved (pc P) d1 d2 u) = moved (pc P) d1 d2 (transport P w t h u).
Proof. revert t u. induction h as [|(m&dt) h IH]; intros t u; cbn [transport]; [reflexivity|]. rewrite compose_moved. apply IH. Qed.
End Move.

Lemma sl_translation P k1 k2 w ap h s s' u d1 d2 : streaming P -> wf_cfg (pc P) k1 k2 -> interpolates w ap -> uses (pc P) ap ->
  sl_everywhere P -> reach_run (pc P) (time_elapsed s) h -> time_elapsed s' = time_elapsed s ->
  holds (pc P) (f_of s) u -> holds (pc P) (f_of s') (moved (pc P) d1 d2 u) ->
  exists r r' v, run_steps (solver_stepper P) h s = Ok (r, None) /\ run_steps (solver_stepper P) h s' = Ok (r', None)
  /\ holds (pc P) (f_of r) v /\ holds (pc P) (f_of r') (moved (pc P) d1 d2 v).
Proof.
  intros ST W IT US EV RE T H H'. destruct (st_layout P ST) as ((N1&_)&(N2&_)&_).
  destruct (streaming_run P k1 k2 w ap h s u ST W IT US H RE) as (r&R1&V1&_).
  rewrite <- T in RE. destruct (streaming_run P k1 k2 w ap h s' _ ST W IT US H' RE) as (r'&R2&V2&_).
  rewrite T, transport_moved in V2 by auto. exists r, r', (transport P w (time_elapsed s) h u). auto.
Qed.

(** ** Superposition *)
Definition comb2 (a b : R) (u v : gstate) : gstate := fun x s g1 g2 => a * u x s g1 g2 + b * v x s g1 g2.
Section Lin.
Variables (P : params) (w : weights) (a b : R).
Context (L : sl_linear P).
Lemma char_lin t dt u v : characteristics (pc P) w t dt (comb2 a b u v) = comb2 a b (characteristics (pc P) w t dt u) (characteristics (pc P) w t dt v).
Proof. extensionality x; extensionality s; extensionality g1; extensionality g2. unfold comb2, characteristics. apply interp2_lin. Qed.
Lemma collide_lin t dt u v : collide P t dt (comb2 a b u v) = comb2 a b (collide P t dt u) (collide P t dt v).
Proof.
  extensionality x; extensionality s; extensionality g1; extensionality g2. unfold comb2, collide. destruct L as (SO&SI).
  destruct (instantaneous P); [apply SI|]. destruct (source_enabled (pc P)); [|reflexivity]. cbv zeta.
  set (q1 := pos1 _ _ _). set (q2 := pos2 _ _ _).
  set (U := fun y r => u y r g1 g2). set (V := fun y r => v y r g1 g2).
  change (fun x s : Z => a * u x s g1 g2 + b * v x s g1 g2) with (fun y r => a * U y r + b * V y r).
  replace (fun x0 s0 : Z => a * u x0 s0 g1 g2 + b * v x0 s0 g1 g2 + dt / 2 * source (pc P) t q1 q2 (fun y r => a * U y r + b * V y r) x0 s0)
    with (fun y r => a * (U y r + dt / 2 * source (pc P) t q1 q2 U y r) + b * (V y r + dt / 2 * source (pc P) t q1 q2 V y r)).
  - rewrite SO. unfold U, V. ring.
  - extensionality y; extensionality r. rewrite SO. unfold U, V. ring.
Qed.
Lemma compose_lin m t dt u v : compose m (characteristics (pc P) w t) (collide P t) dt (comb2 a b u v)
  = comb2 a b (compose m (characteristics (pc P) w t) (collide P t) dt u) (compose m (characteristics (pc P) w t) (collide P t) dt v).
Proof.
  destruct m; unfold compose; rewrite ?char_lin, ?collide_lin, ?char_lin, ?collide_lin, ?char_lin, ?collide_lin; try reflexivity;
  extensionality x; extensionality s; extensionality g1; extensionality g2; unfold comb2; ring.
Qed.
Lemma transport_lin h t u v : transport P w t h (comb2 a b u v) = comb2 a b (transport P w t h u) (transport P w t h v).
Proof. revert t u v. induction h as [|(m&dt) h IH]; intros t u v; cbn [transport]; [reflexivity|]. rewrite compose_lin. apply IH. Qed.
End Lin.

Lemma sl_superposition P k1 k2 w ap h s1 s2 s3 u v a b : streaming P -> wf_cfg (pc P) k1 k2 -> interpolates w ap -> uses (pc P) ap ->
  sl_linear P -> reach_run (pc P) (time_elapsed s1) h -> time_elapsed s2 = time_elapsed s1 -> time_elapsed s3 = time_elapsed s1 ->
  holds (pc P) (f_of s1) u -> holds (pc P) (f_of s2) v -> holds (pc P) (f_of s3) (fun x s i j => a * u x s i j + b * v x s i j) ->
  exists r1 r2 r3 u' v', run_steps (solver_stepper P) h s1 = Ok (r1, None) /\ run_steps (solver_stepper P) h s2 = Ok (r2, None)
  /\ run_steps (solver_stepper P) h s3 = Ok (r3, None)
  /\ holds (pc P) (f_of r1) u' /\ holds (pc P) (f_of r2) v' /\ holds (pc P) (f_of r3) (fun x s i j => a * u' x s i j + b * v' x s i j).
Proof.
  intros ST W IT US LI RE T2 T3 H1 H2 H3.
  destruct (streaming_run P k1 k2 w ap h s1 u ST W IT US H1 RE) as (r1&R1&V1&_).
  pose proof RE as RE3. rewrite <- T3 in RE3. rewrite <- T2 in RE.
  destruct (streaming_run P k1 k2 w ap h s2 v ST W IT US H2 RE) as (r2&R2&V2&_).
  destruct (streaming_run P k1 k2 w ap h s3 _ ST W IT US H3 RE3) as (r3&R3&V3&_).
  fold (comb2 a b u v) in V3. rewrite T3, transport_lin in V3 by auto. rewrite T2 in V2.
  exists r1, r2, r3, (transport P w (time_elapsed s1) h u), (transport P w (time_elapsed s1) h v).
  exact (conj R1 (conj R2 (conj R3 (conj V1 (conj V2 V3))))).
Qed.

(** ** Mirror images *)
Definition interp1 (w : weights) (f : Z -> R) (X : R) : R := zsum 4 (fun a => w (frac_part X) (a - 1)%Z * f (Int_part X + (a - 1))%Z).
Lemma interp2_1 w u X Y : interp2 w u X Y = interp1 w (fun a => interp1 w (fun b => u a b) Y) X.
Proof. unfold interp2, interp1. apply zsum_ext; intros a _. rewrite <- zsum_scal. apply zsum_ext; intros b _. ring. Qed.
Lemma interp1_ext w f g X : (forall a, f a = g a) -> interp1 w f X = interp1 w g X.
Proof. intros H. unfold interp1. apply zsum_ext; intros. rewrite H. reflexivity. Qed.
Lemma interp1_shift w f X m : interp1 w f (X + IZR m) = interp1 w (fun a => f (a + m)%Z) X.
Proof. unfold interp1. rewrite Int_part_shift, frac_part_shift. apply zsum_ext; intros. f_equal. f_equal. lia. Qed.
Lemma interp1_node w f m : nodal w -> interp1 w f (IZR m) = f m.
Proof.
  intros N. unfold interp1. rewrite Int_part_Z, frac_part_Z, zsum4. rewrite !N. cbn [Z.eqb Z.sub Z.add Z.opp Z.pos_sub Pos.pred_double].
  rewrite !Z.add_0_r. ring.
Qed.
Lemma interp1_mirror w f X : nodal w -> even_weights w -> interp1 w f (- X) = interp1 w (fun a => f (- a)%Z) X.
Proof.
  intros N EV. destruct (Req_dec (frac_part X) 0) as [Z0|NZ].
  - apply frac_0 in Z0. rewrite Z0, <- opp_IZR, !interp1_node by auto. reflexivity.
  - pose proof (Int_part_bounds X) as B. assert (FB : 0 < frac_part X < 1) by (unfold frac_part in *; lra).
    assert (IP : Int_part (- X) = (- Int_part X - 1)%Z).
    { apply Int_part_unique. rewrite minus_IZR, opp_IZR. unfold frac_part in *. lra. }
    assert (FP : frac_part (- X) = 1 - frac_part X) by (unfold frac_part at 1; rewrite IP, minus_IZR, opp_IZR; unfold frac_part; ring).
    unfold interp1. rewrite IP, FP, !zsum4.
    pose proof (EV (frac_part X)) as W.
    rewrite <- (W (0 - 1)%Z FB), <- (W (1 - 1)%Z FB), <- (W (2 - 1)%Z FB), <- (W (3 - 1)%Z FB).
    change (1 - (0 - 1))%Z with (3 - 1)%Z. change (1 - (1 - 1))%Z with (2 - 1)%Z. change (1 - (2 - 1))%Z with (1 - 1)%Z. change (1 - (3 - 1))%Z with (0 - 1)%Z.
    replace (- (Int_part X + (0 - 1)))%Z with (- Int_part X - 1 + (3 - 1))%Z by lia.
    replace (- (Int_part X + (1 - 1)))%Z with (- Int_part X - 1 + (2 - 1))%Z by lia.
    replace (- (Int_part X + (2 - 1)))%Z with (- Int_part X - 1 + (1 - 1))%Z by lia.
    replace (- (Int_part X + (3 - 1)))%Z with (- Int_part X - 1 + (0 - 1))%Z by lia. ring.
Qed.
Lemma flip_mod b n a : (0 < n)%Z -> flip b n (a mod n) = (flip b n a mod n)%Z.
Proof.
  intros Hn. destruct b; cbn [flip]; [|reflexivity].
  rewrite (Z.div_mod a n) at 2 by lia. replace (n - 1 - (n * (a / n) + a mod n))%Z with (n - 1 - a mod n + - (a / n) * n)%Z by ring.
  rewrite Z_mod_plus_full. pose proof (Z.mod_pos_bound a n Hn). rewrite (Z.mod_small (n - 1 - a mod n)) by lia. reflexivity.
Qed.
Definition flipR (b : bool) (n : Z) (X : R) : R := if b then IZR (n - 1) - X else X.
Lemma interp1_flip w f b n X : nodal w -> even_weights w ->
  interp1 w (fun a => f (flip b n a)) X = interp1 w f (flipR b n X).
Proof.
  intros N EV. destruct b; cbn [flip flipR]; [|reflexivity].
  replace (IZR (n - 1) - X) with (- X + IZR (n - 1)) by ring. rewrite interp1_shift, interp1_mirror by auto.
  apply interp1_ext; intros a. f_equal. lia.
Qed.

Section Mirror.
Variables (P : params) (w : weights) (b1 b2 : bool) (rho : Z -> Z).
Context (Q : pairs_sources P b1 b2 rho) (N : nodal w) (EV : even_weights w) (PA : pairs_advection (pc P) b1 b2 rho)
  (N1 : (0 < gN1 (lay (pc P)))%Z) (N2 : (0 < gN2 (lay (pc P)))%Z).
Definition mirrored (u v : gstate) : Prop := forall x s g1 g2, inb (N_p (pc P)) x -> inb (N_species (pc P)) s ->
  u x s (g1 mod gN1 (lay (pc P)))%Z (g2 mod gN2 (lay (pc P)))%Z = reflection (pc P) b1 b2 rho v x s (g1 mod gN1 (lay (pc P)))%Z (g2 mod gN2 (lay (pc P)))%Z.
Lemma char_mirrored t dt u v : mirrored u v -> mirrored (characteristics (pc P) w t dt u) (characteristics (pc P) w t dt v).
Proof.
  intros M x s h1 h2 Hx Hs. unfold reflection, characteristics. set (g1 := (h1 mod _)%Z). set (g2 := (h2 mod _)%Z).
  destruct (PA t x s g1 g2 Hx Hs) as (Hr&PV).
  set (n := gN1 (lay (pc P))) in *. set (m := gN2 (lay (pc P))) in *.
  assert (E1 : IZR (flip b1 n g1) - moved1 (pc P) t dt (rho x) s (flip b1 n g1) (flip b2 m g2) = flipR b1 n (IZR g1 - moved1 (pc P) t dt x s g1 g2)).
  { unfold moved1. rewrite PV. cbn [fst]. destruct b1; cbn [flip flipR turn]; [rewrite !minus_IZR; unfold Rdiv; ring|reflexivity]. }
  assert (E2 : IZR (flip b2 m g2) - moved2 (pc P) t dt (rho x) s (flip b1 n g1) (flip b2 m g2) = flipR b2 m (IZR g2 - moved2 (pc P) t dt x s g1 g2)).
  { unfold moved2. rewrite PV. cbn [snd]. destruct b2; cbn [flip flipR turn]; [rewrite !minus_IZR; unfold Rdiv; ring|reflexivity]. }
  rewrite E1, E2, !interp2_1. rewrite <- (interp1_flip w _ b1 n) by auto. apply interp1_ext; intros a.
  rewrite <- (interp1_flip w _ b2 m) by auto. apply interp1_ext; intros b.
  pose proof (M x s a b Hx Hs) as MM. unfold reflection in MM. fold n m in MM. rewrite MM, !flip_mod by auto. reflexivity.
Qed.
Lemma collide_mirrored t dt u v : mirrored u v -> mirrored (collide P t dt u) (collide P t dt v).
Proof.
  intros M x s h1 h2 Hx Hs. unfold reflection, collide. cbv zeta. set (g1 := (h1 mod _)%Z). set (g2 := (h2 mod _)%Z).
  set (k1 := flip b1 _ g1). set (k2 := flip b2 _ g2).
  assert (W : forall y r, inb (N_p (pc P)) y -> inb (N_species (pc P)) r -> u y r g1 g2 = v (rho y) r k1 k2)
    by (intros y r Hy Hr; exact (M y r h1 h2 Hy Hr)).
  assert (A := Q t g1 g2 (fun y r => v y r k1 k2) (fun y r => u y r g1 g2) W). cbv zeta in A. fold k1 k2 in A.
  destruct (instantaneous P) eqn:I; [apply (A x s Hx Hs); reflexivity|].
  destruct (source_enabled (pc P)) eqn:E; [|apply W; auto].
  set (S := source (pc P) t (pos1 (pc P) (1/2) g1) (pos2 (pc P) (1/2) g2)) in *.
  set (S' := source (pc P) t (pos1 (pc P) (1/2) k1) (pos2 (pc P) (1/2) k2)) in *.
  assert (B := Q t g1 g2 (fun y r => v y r k1 k2 + dt / 2 * S' (fun x s => v x s k1 k2) y r)
    (fun y r => u y r g1 g2 + dt / 2 * S (fun x s => u x s g1 g2) y r)).
  cbv zeta in B. fold k1 k2 S S' in B. rewrite (W x s Hx Hs). f_equal. f_equal. apply B; auto.
  intros y r Hy Hr. cbv beta. rewrite (W y r Hy Hr). f_equal. f_equal. apply A; auto.
Qed.
Lemma mix_mirrored a b u v u' v' : mirrored u v -> mirrored u' v' ->
  mirrored (fun x s i j => a * u x s i j + b * u' x s i j) (fun x s i j => a * v x s i j + b * v' x s i j).
Proof. intros A B x s g1 g2 Hx Hs. unfold mirrored, reflection in *. rewrite (A x s g1 g2 Hx Hs), (B x s g1 g2 Hx Hs). reflexivity. Qed.
Lemma compose_mirrored m t dt u v : mirrored u v ->
  mirrored (compose m (characteristics (pc P) w t) (collide P t) dt u) (compose m (characteristics (pc P) w t) (collide P t) dt v).
Proof.
  intros M. pose proof (char_mirrored t) as X. pose proof (collide_mirrored t) as C.
  assert (SW : mirrored (compose Swss (characteristics (pc P) w t) (collide P t) dt u) (compose Swss (characteristics (pc P) w t) (collide P t) dt v))
    by (apply mix_mirrored; auto).
  destruct m; [unfold compose; auto|unfold compose; auto|exact SW|].
  assert (S1 : mirrored (compose Strang (characteristics (pc P) w t) (collide P t) dt u) (compose Strang (characteristics (pc P) w t) (collide P t) dt v))
    by (unfold compose; auto).
  assert (S2 : mirrored (compose Strang (collide P t) (characteristics (pc P) w t) dt u) (compose Strang (collide P t) (characteristics (pc P) w t) dt v))
    by (unfold compose; auto).
  intros x s g1 g2 Hx Hs. pose proof (SW x s g1 g2 Hx Hs) as A. pose proof (S1 x s g1 g2 Hx Hs) as B. pose proof (S2 x s g1 g2 Hx Hs) as D.
  unfold reflection, compose in *. rewrite A, B, D. reflexivity.
Qed.
Lemma transport_mirrored h t u v : mirrored u v -> mirrored (transport P w t h u) (transport P w t h v).
Proof. revert t u v. induction h as [|(m&dt) h IH]; intros t u v M; cbn [transport]; [exact M|]. apply IH, compose_mirrored, M. Qed.
End Mirror.

Lemma sl_reflection P k1 k2 w ap h s s' u b1 b2 rho : streaming P -> wf_cfg (pc P) k1 k2 -> interpolates w ap -> uses (pc P) ap ->
  even_weights w -> pairs_advection (pc P) b1 b2 rho -> pairs_sources P b1 b2 rho -> reach_run (pc P) (time_elapsed s) h -> time_elapsed s' = time_elapsed s ->
  holds (pc P) (f_of s) u -> holds (pc P) (f_of s') (reflection (pc P) b1 b2 rho u) ->
  exists r r' v, run_steps (solver_stepper P) h s = Ok (r, None) /\ run_steps (solver_stepper P) h s' = Ok (r', None)
  /\ holds (pc P) (f_of r) v /\ holds (pc P) (f_of r') (reflection (pc P) b1 b2 rho v).
Proof.
  intros ST W IT US EV PA Q RE T H H'. destruct (st_layout P ST) as ((N1&_)&(N2&_)&_).
  destruct (streaming_run P k1 k2 w ap h s u ST W IT US H RE) as (r&R1&V1&_).
  rewrite <- T in RE. destruct (streaming_run P k1 k2 w ap h s' _ ST W IT US H' RE) as (r'&R2&V2&_).
  exists r, r', (transport P w (time_elapsed s) h u). split; [exact R1|]. split; [exact R2|]. split; [exact V1|].
  destruct V2 as (SH&V2). split; [exact SH|]. intros x sp g1 g2 Hx Hs H1 H2. rewrite V2 by auto. rewrite T.
  pose proof (transport_mirrored P w b1 b2 rho Q (it_nodal _ _ IT) EV PA N1 N2 h (time_elapsed s) (reflection (pc P) b1 b2 rho u) u
    (fun x s g1 g2 _ _ => eq_refl) x sp g1 g2 Hx Hs) as M.
  unfold inb in H1, H2. rewrite !Z.mod_small in M by lia. exact M.
Qed.
