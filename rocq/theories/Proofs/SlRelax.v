(** Homogeneous gases in semi-Lagrangian runs, and splittings without collisions. *)
From Coq Require Import ZArith Reals Lra Lia String List Bool FunctionalExtensionality.
From Verif Require Import Base.Prelude Base.ZSum Model.Af Model.Petsc Model.Config Model.Timestep
  Model.Solver Spec.Domain Spec.Lattice Spec.FvmProblem Spec.FvmRun Spec.Interp Spec.SlRelax
  Proofs.InterpLemmas Proofs.SemiLagProps.
Import ListNotations.
Local Open Scope R_scope.

Definition everywhere (a : Z -> Z -> R) : gstate := fun x s _ _ => a x s.
Lemma char_everywhere c w t dt a : normalised w -> characteristics c w t dt (everywhere a) = everywhere a.
Proof.
  intros N. do 4 (apply functional_extensionality; intro). unfold everywhere at 2.
  unfold characteristics, everywhere. apply interp2_const, N.
Qed.
Lemma collide_everywhere P t dt a : same_sources P -> collide P t dt (everywhere a) = everywhere (relaxed P t dt a).
Proof.
  intros (H1&H2). apply functional_extensionality; intro x. apply functional_extensionality; intro s.
  apply functional_extensionality; intro g1. apply functional_extensionality; intro g2.
  unfold collide, everywhere, relaxed. destruct (instantaneous P); [apply H2|]. destruct (source_enabled (pc P)); [|reflexivity].
  rewrite H1. do 3 f_equal. apply functional_extensionality; intro y. apply functional_extensionality; intro r.
  rewrite H1. reflexivity.
Qed.
Lemma transport_everywhere P w h : normalised w -> same_sources P -> forall t a,
  transport P w t h (everywhere a) = everywhere (relax P t h a).
Proof.
  intros N SS. induction h as [|(m&dt) h IH]; intros t a; cbn [transport relax]; [reflexivity|]. rewrite <- IH. f_equal.
  assert (C := collide_everywhere P t). assert (X := fun dt a => char_everywhere (pc P) w t dt a N).
  unfold compose, relax_step. destruct m; repeat (rewrite ?X, ?C by exact SS); try reflexivity.
  - unfold everywhere. do 4 (apply functional_extensionality; intro). field.
  - unfold everywhere. do 4 (apply functional_extensionality; intro). field.
Qed.
Lemma sl_homogeneous P k1 k2 w ap h s a : streaming P -> wf_cfg (pc P) k1 k2 -> interpolates w ap -> normalised w ->
  uses (pc P) ap -> same_sources P -> holds (pc P) (f_of s) (fun x sp _ _ => a x sp) ->
  reach_run (pc P) (time_elapsed s) h ->
  exists s', run_steps (solver_stepper P) h s = Ok (s', None)
  /\ holds (pc P) (f_of s') (fun x sp _ _ => relax P (time_elapsed s) h a x sp).
Proof.
  intros ST W IT N US SS H RE. destruct (streaming_run P k1 k2 w ap h s _ ST W IT US H RE) as (r&R1&V&_).
  exists r. split; [exact R1|]. change (fun x sp _ _ : Z => a x sp) with (everywhere a) in V.
  rewrite transport_everywhere in V by assumption. exact V.
Qed.

Lemma transport_sizes P w h h' : quiet P -> same_sizes h h' -> forall t u, transport P w t h u = transport P w t h' u.
Proof.
  intros Q S. induction S as [|m m' dt h h' M M' S IH]; intros t u; [reflexivity|]. cbn [transport]. rewrite IH. f_equal.
  assert (E : forall m, m = Lie \/ m = Swss -> compose m (characteristics (pc P) w t) (collide P t) dt u = characteristics (pc P) w t dt u).
  { intros n [-> | ->]; unfold compose; rewrite !(collide_quiet P) by exact Q; [reflexivity|].
    do 4 (apply functional_extensionality; intro). field. }
  rewrite !E by assumption. reflexivity.
Qed.
Lemma reach_sizes c h h' : same_sizes h h' -> forall t, reach_run c t h -> reach_run c t h'.
Proof.
  induction 1 as [|m m' dt h h' M M' S IH]; intros t; [auto|]. cbn [reach_run]. intros (A&B). split; [|apply IH, B].
  destruct M as [-> | ->], M' as [-> | ->]; exact A.
Qed.
Lemma sl_sizes P k1 k2 w ap h h' s : streaming P -> quiet P -> wf_cfg (pc P) k1 k2 -> interpolates w ap -> uses (pc P) ap ->
  same_sizes h h' -> reach_run (pc P) (time_elapsed s) h ->
  shaped (lay (pc P)) (N_p (pc P)) (N_species (pc P)) (f_of s) ->
  exists r r', run_steps (solver_stepper P) h s = Ok (r, None) /\ run_steps (solver_stepper P) h' s = Ok (r', None)
  /\ forall x sp g1 g2, inb (N_p (pc P)) x -> inb (N_species (pc P)) sp -> inb (gN1 (lay (pc P))) g1 -> inb (gN2 (lay (pc P))) g2 ->
     gval (lay (pc P)) (f_of r) x sp g1 g2 = gval (lay (pc P)) (f_of r') x sp g1 g2.
Proof.
  intros ST Q W IT US S RE SH.
  assert (H : holds (pc P) (f_of s) (gval (lay (pc P)) (f_of s))) by (split; [exact SH|reflexivity]).
  destruct (streaming_run P k1 k2 w ap h s _ ST W IT US H RE) as (r&R1&(_&V1)&_).
  destruct (streaming_run P k1 k2 w ap h' s _ ST W IT US H (reach_sizes _ _ _ S _ RE)) as (r'&R2&(_&V2)&_).
  exists r, r'. split; [exact R1|]. split; [exact R2|]. intros. rewrite V1, V2 by assumption.
  rewrite (transport_sizes P w h h' Q S). reflexivity.
Qed.

Lemma char_steady c w t t' dt u : steady c -> characteristics c w t dt u = characteristics c w t' dt u.
Proof.
  intros S. do 4 (apply functional_extensionality; intro). unfold characteristics, moved1, moved2, velocity_a.
  rewrite (S _ t t'). reflexivity.
Qed.
Lemma reach_steady c t t' dt : steady c -> reach c t dt -> reach c t' dt.
Proof.
  intros S R x s g1 g2 Hx Hs H1 H2. specialize (R x s g1 g2 Hx Hs H1 H2). unfold moved1, moved2, velocity_a in *.
  rewrite (S _ t' t). exact R.
Qed.
Lemma transport_halved P w h : quiet P -> steady (pc P) -> forall t t' u,
  transport P w t (all_strang h) u = transport P w t' (halved h) u.
Proof.
  intros Q S. induction h as [|dt h IH]; intros t t' u; [reflexivity|].
  cbn [all_strang map halved flat_map app transport]. fold (all_strang h). fold (halved h).
  rewrite (IH _ (t' + 1/2 * dt + 1/2 * dt)). f_equal. unfold compose. rewrite !(collide_quiet P) by exact Q.
  rewrite (char_steady _ w t (t' + 1/2 * dt)) by exact S. f_equal. apply char_steady, S.
Qed.
Lemma reach_halved c h : steady c -> forall t t', reach_run c t (all_strang h) -> reach_run c t' (halved h).
Proof.
  intros S. induction h as [|dt h IH]; intros t t' R; [exact I|]. destruct R as (A&B).
  split; [exact (reach_steady _ _ _ _ S A)|]. split; [exact (reach_steady _ _ _ _ S A)|]. exact (IH _ _ B).
Qed.
Lemma sl_halved P k1 k2 w ap h s : streaming P -> quiet P -> steady (pc P) -> wf_cfg (pc P) k1 k2 -> interpolates w ap -> uses (pc P) ap ->
  reach_run (pc P) (time_elapsed s) (all_strang h) ->
  shaped (lay (pc P)) (N_p (pc P)) (N_species (pc P)) (f_of s) ->
  exists r r', run_steps (solver_stepper P) (all_strang h) s = Ok (r, None) /\ run_steps (solver_stepper P) (halved h) s = Ok (r', None)
  /\ forall x sp g1 g2, inb (N_p (pc P)) x -> inb (N_species (pc P)) sp -> inb (gN1 (lay (pc P))) g1 -> inb (gN2 (lay (pc P))) g2 ->
     gval (lay (pc P)) (f_of r) x sp g1 g2 = gval (lay (pc P)) (f_of r') x sp g1 g2.
Proof.
  intros ST Q S W IT US RE SH.
  assert (H : holds (pc P) (f_of s) (gval (lay (pc P)) (f_of s))) by (split; [exact SH|reflexivity]).
  destruct (streaming_run P k1 k2 w ap _ s _ ST W IT US H RE) as (r&R1&(_&V1)&_).
  destruct (streaming_run P k1 k2 w ap _ s _ ST W IT US H (reach_halved _ _ S _ _ RE)) as (r'&R2&(_&V2)&_).
  exists r, r'. split; [exact R1|]. split; [exact R2|]. intros. rewrite V1, V2 by assumption.
  rewrite (transport_halved P w h Q S _ (time_elapsed s)). reflexivity.
Qed.
