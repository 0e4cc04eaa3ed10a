(** The statements of C51 and C53 from the lemmas. *)
From Coq Require Import ZArith Reals Lra Lia String List Bool.
From Verif Require Import Base.Prelude Base.ZSum Model.Af Model.Grid Model.Petsc Model.Config Model.Moments Model.NonRel
  Spec.MomentSpec Spec.Maxwellian Proofs.ConvLemmas Proofs.MomentLemmas.
Import ListNotations.
Local Open Scope R_scope.

Lemma moments_are_integrals : forall c n1 n2 mu name w f,
  momentum_grid_ok c -> (0 < n1)%Z -> (0 < n2)%Z -> dims4 f (N_p c) (N_species c) n1 n2 ->
  (forall x y z, moment_weight name x y z = Some (w x y z)) ->
  let I s k l := integral (species_grid c s) w (fun i1 i2 i3 => el f (row c i1 i2 i3) s k l) in
  (p_space_grid c = "cartesian"%string ->
     exists M, compute_moments c nonrel_moments mu name f = Ok M /\ moment_is c n1 n2 M I)
  /\ (p_space_grid c = "polar2D"%string ->
     exists M, compute_moments c nonrel_moments mu name f = Ok M
       /\ moment_is c n1 n2 M (fun s k l => mu * I s k l)).
Proof. intros c n1 n2 mu name w f OK P1 P2 D W I. apply moment_value; auto. Qed.

Lemma weight_total name : moment_weight name 0 0 0 <> None ->
  exists w, forall x y z, moment_weight name x y z = Some (w x y z).
Proof.
  intros H. exists (fun x y z => match moment_weight name x y z with Some r => r | None => 0 end).
  intros x y z. unfold moment_weight in *. cbv zeta in *.
  repeat match goal with |- context [String.eqb name ?n] => destruct (String.eqb name n); [reflexivity|] end.
  congruence.
Qed.

Lemma moment_errors : forall c mu name f,
  (moment_weight name 0 0 0 = None -> p_space_grid c = "cartesian"%string \/ p_space_grid c = "polar2D"%string ->
     compute_moments c nonrel_moments mu name f = Err AttributeError)
  /\ (p_space_grid c <> "cartesian"%string -> p_space_grid c <> "polar2D"%string ->
     compute_moments c nonrel_moments mu name f = Err NotImplementedError).
Proof.
  intros c mu name f. split.
  - intros H HG.
    assert (G : getattr nonrel_moments name = Err AttributeError).
    { unfold moment_weight in H. cbv zeta in H.
      repeat match type of H with context [String.eqb name ?n] => destruct (String.eqb_spec name n); [discriminate|] end.
      unfold nonrel_moments, getattr.
      repeat match goal with |- context [String.eqb ?n name] => destruct (String.eqb_spec n name); [congruence|] end.
      reflexivity. }
    unfold compute_moments. destruct HG as [-> | ->]; cbn [String.eqb Ascii.eqb Bool.eqb]; rewrite G; reflexivity.
  - intros H1 H2. unfold compute_moments. destruct (String.eqb_spec (p_space_grid c) "cartesian"); [contradiction|].
    destruct (String.eqb_spec (p_space_grid c) "polar2D"); [contradiction|]. reflexivity.
Qed.

Lemma moments_linear : forall c n1 n2 mu name a b f g,
  momentum_grid_ok c -> (0 < n1)%Z -> (0 < n2)%Z ->
  dims4 f (N_p c) (N_species c) n1 n2 -> dims4 g (N_p c) (N_species c) n1 n2 ->
  moment_weight name 0 0 0 <> None ->
  p_space_grid c = "cartesian"%string \/ p_space_grid c = "polar2D"%string ->
  exists F G H, compute_moments c nonrel_moments mu name f = Ok F
  /\ compute_moments c nonrel_moments mu name g = Ok G
  /\ compute_moments c nonrel_moments mu name (amap2 (fun x y => a * x + b * y) f g) = Ok H
  /\ moment_is c n1 n2 H (fun s k l => a * el F 0 s k l + b * el G 0 s k l).
Proof.
  intros c n1 n2 mu name a b f g OK P1 P2 DF DG W HG. destruct (weight_total name W) as (w&Hw).
  assert (DH : dims4 (amap2 (fun x y => a * x + b * y) f g) (N_p c) (N_species c) n1 n2) by exact DF.
  destruct (moment_value c n1 n2 OK P1 P2 mu name w f DF Hw) as (A1&A2).
  destruct (moment_value c n1 n2 OK P1 P2 mu name w g DG Hw) as (B1&B2).
  destruct (moment_value c n1 n2 OK P1 P2 mu name w _ DH Hw) as (C1&C2).
  destruct HG as [HG|HG].
  - destruct (A1 HG) as (F&RF&_&VF). destruct (B1 HG) as (G&RG&_&VG). destruct (C1 HG) as (H&RH&DH'&VH).
    exists F, G, H. do 3 (split; [assumption|]). split; [exact DH'|]. intros s k l Hs Hk Hl.
    rewrite VF, VG, VH by auto. rewrite <- integral_linear. reflexivity.
  - destruct (A2 HG) as (F&RF&_&VF). destruct (B2 HG) as (G&RG&_&VG). destruct (C2 HG) as (H&RH&DH'&VH).
    exists F, G, H. do 3 (split; [assumption|]). split; [exact DH'|]. intros s k l Hs Hk Hl.
    rewrite VF, VG, VH by auto. cbn [el amap2]. rewrite integral_linear. ring.
Qed.

Lemma moments_local : forall c n1 n2 mu name f g s k l,
  momentum_grid_ok c -> (0 < n1)%Z -> (0 < n2)%Z ->
  dims4 f (N_p c) (N_species c) n1 n2 -> dims4 g (N_p c) (N_species c) n1 n2 ->
  moment_weight name 0 0 0 <> None ->
  p_space_grid c = "cartesian"%string \/ p_space_grid c = "polar2D"%string ->
  inb (N_species c) s -> inb n1 k -> inb n2 l ->
  (forall x, inb (N_p c) x -> el f x s k l = el g x s k l) ->
  exists F G, compute_moments c nonrel_moments mu name f = Ok F
  /\ compute_moments c nonrel_moments mu name g = Ok G /\ el F 0 s k l = el G 0 s k l.
Proof.
  intros c n1 n2 mu name f g s k l OK P1 P2 DF DG W HG Hs Hk Hl E. destruct (weight_total name W) as (w&Hw).
  destruct (moment_value c n1 n2 OK P1 P2 mu name w f DF Hw) as (A1&A2).
  destruct (moment_value c n1 n2 OK P1 P2 mu name w g DG Hw) as (B1&B2).
  assert (I : integral (species_grid c s) w (fun i1 i2 i3 => el f (row c i1 i2 i3) s k l)
            = integral (species_grid c s) w (fun i1 i2 i3 => el g (row c i1 i2 i3) s k l)).
  { unfold integral. f_equal. apply zsum_ext; intros. apply zsum_ext; intros. apply zsum_ext; intros.
    rewrite E; [reflexivity|]. apply pidx_bound; auto. }
  destruct HG as [HG|HG].
  - destruct (A1 HG) as (F&RF&_&VF). destruct (B1 HG) as (G&RG&_&VG). exists F, G. split; auto. split; auto.
    rewrite VF, VG by auto. exact I.
  - destruct (A2 HG) as (F&RF&_&VF). destruct (B2 HG) as (G&RG&_&VG). exists F, G. split; auto. split; auto.
    rewrite VF, VG by auto. rewrite I. reflexivity.
Qed.

Lemma moments_realizable : forall c n1 n2 mu f,
  momentum_grid_ok c -> (0 < n1)%Z -> (0 < n2)%Z -> dims4 f (N_p c) (N_species c) n1 n2 ->
  p_space_grid c = "cartesian"%string ->
  (forall s, inb (N_species c) s -> let G := species_grid c s in 0 <= w1 G /\ 0 <= w2 G /\ 0 <= w3 G) ->
  (forall i s q1 q2, inside f i s q1 q2 -> 0 <= el f i s q1 q2) ->
  let moment name := compute_moments c nonrel_moments mu name f in
  exists n m1 m2 m3 e, moment "density"%string = Ok n /\ moment "mom_v1_bulk"%string = Ok m1
  /\ moment "mom_v2_bulk"%string = Ok m2 /\ moment "mom_v3_bulk"%string = Ok m3 /\ moment "energy"%string = Ok e
  /\ forall s k l, inb (N_species c) s -> inb n1 k -> inb n2 l ->
     0 <= el n 0 s k l /\ 0 <= el e 0 s k l
     /\ el m1 0 s k l ^ 2 + el m2 0 s k l ^ 2 + el m3 0 s k l ^ 2 <= el n 0 s k l * (2 * el e 0 s k l).
Proof.
  intros c n1 n2 mu f OK P1 P2 DF CART WP FP moment. unfold moment.
  destruct (moment_value c n1 n2 OK P1 P2 mu "density" (fun _ _ _ => 1) f DF (fun _ _ _ => eq_refl)) as (Q&_).
  destruct (Q CART) as (Mn&Rn&Dn&Vn). clear Q.
  destruct (moment_value c n1 n2 OK P1 P2 mu "mom_v1_bulk" (fun x _ _ => x) f DF (fun _ _ _ => eq_refl)) as (Q&_).
  destruct (Q CART) as (M1&R1&D1&V1). clear Q.
  destruct (moment_value c n1 n2 OK P1 P2 mu "mom_v2_bulk" (fun _ y _ => y) f DF (fun _ _ _ => eq_refl)) as (Q&_).
  destruct (Q CART) as (M2&R2&D2&V2). clear Q.
  destruct (moment_value c n1 n2 OK P1 P2 mu "mom_v3_bulk" (fun _ _ z => z) f DF (fun _ _ _ => eq_refl)) as (Q&_).
  destruct (Q CART) as (M3&R3&D3&V3). clear Q.
  destruct (moment_value c n1 n2 OK P1 P2 mu "energy" (fun x y z => (x * x + y * y + z * z) / 2) f DF (fun _ _ _ => eq_refl)) as (Q&_).
  destruct (Q CART) as (Me&Re&De&Ve). clear Q.
  exists Mn, M1, M2, M3, Me. do 5 (split; [assumption|]). intros s k l Hs Hk Hl.
  rewrite Vn, V1, V2, V3, Ve by auto. destruct (WP s Hs) as (W1&W2&W3). destruct DF as (e1&e2&e3&e4).
  assert (Hg : forall i1 i2 i3, inb (mn1 (species_grid c s)) i1 -> inb (mn2 (species_grid c s)) i2 ->
     inb (mn3 (species_grid c s)) i3 -> 0 <= el f (row c i1 i2 i3) s k l).
  { intros. apply FP. unfold inside. rewrite e1, e2, e3, e4. split; [apply pidx_bound; auto|]. split; [auto|]. split; auto. }
  split; [apply integral_nonneg; auto; intros; lra|]. split; [apply integral_nonneg; auto; intros; nra|].
  apply temperature_nonneg; auto.
Qed.

Lemma lorentz_force : forall e m t q1 q2 v1 v2 v3 E1 E2 E3 B1 B2 B3,
  let F := fun v1 v2 v3 => C_p_nonrel e m t q1 q2 v1 v2 v3 E1 E2 E3 B1 B2 B3 in
  let F1 v1 v2 v3 := fst (fst (F v1 v2 v3)) in
  let F2 v1 v2 v3 := snd (fst (F v1 v2 v3)) in
  let F3 v1 v2 v3 := snd (F v1 v2 v3) in
  v1 * F1 v1 v2 v3 + v2 * F2 v1 v2 v3 + v3 * F3 v1 v2 v3 = e / m * (v1 * E1 + v2 * E2 + v3 * E3)
  /\ (forall w, F1 w v2 v3 = F1 v1 v2 v3) /\ (forall w, F2 v1 w v3 = F2 v1 v2 v3) /\ (forall w, F3 v1 v2 w = F3 v1 v2 v3)
  /\ A_p_nonrel e m t q1 q2 v1 v2 v3 E1 E2 E3 B1 B2 B3 = F v1 v2 v3
  /\ A_q_nonrel t q1 q2 v1 v2 v3 = (v1, v2) /\ C_q_nonrel t q1 q2 v1 v2 v3 = (v1, v2)
  /\ F1 v1 v2 v3 = e / m * (E1 + (v2 * B3 - v3 * B2))
  /\ F2 v1 v2 v3 = e / m * (E2 + (v3 * B1 - v1 * B3))
  /\ F3 v1 v2 v3 = e / m * (E3 + (v1 * B2 - v2 * B1)).
Proof.
  intros. unfold F1, F2, F3, F, C_p_nonrel. cbn [fst snd].
  repeat split; intros; try reflexivity; ring.
Qed.
