(** Mirror images of coupled runs: C109-C110. *)
From Coq Require Import ZArith Reals Lra Lia String List Bool.
From Verif Require Import Base.Prelude Base.ZSum Model.Af Model.Petsc Model.Config Model.Fvm Model.Em
  Model.Moments Model.Splitting Model.Timestep Model.Solver Spec.Domain Spec.Lattice Spec.FvmProblem Spec.FvmRun
  Spec.Yee Spec.EmRun Spec.MomentSpec Spec.Clock Spec.SolverSpec Spec.VlasovMaxwell Spec.InitFields Spec.Hybrid Spec.Symmetry
  Spec.Slide Spec.Reflect
  Proofs.EmLemmas Proofs.EmInit Proofs.EmProps Proofs.InitFields Proofs.VmProps Proofs.HybridRun Proofs.Slide Proofs.HybridProps
  Proofs.ReflectFields Proofs.Reflect
  Props.ExFvm Props.ExEm Props.ExSolver Props.ExMaxwell Props.ExHybrid Props.P102_Hybrid.
Import ListNotations.
Local Open Scope R_scope.

(** C109.  Left and right are equivalent: with a momentum grid centred on zero, the
    Vlasov-Maxwell run from mirror-image data is the mirror image of the run, along
    either axis or both. *)
Theorem C109_mirror_images : forall P c' k1 k2 b1 b2 h s s2, let P' := with_fields_from P c' in
  wf_cfg (pc P) k1 k2 -> periodic_fvm (pc P) k1 -> plasma P -> maxwell P ->
  ballistic P -> same_everywhere (pc P) -> mirror_law (pc P) b1 b2 ->
  starts P s -> starts P' s2 -> time_elapsed s2 = time_elapsed s -> mirror_state P b1 b2 (contents P s) (contents P s2) ->
  exists r r2, run_steps (solver_stepper P) h s = Ok (r, None) /\ run_steps (solver_stepper P') h s2 = Ok (r2, None)
  /\ mirror_state P b1 b2 (contents P r) (contents P r2).
Proof. exact mirror_maxwell. Qed.
Print Assumptions C109_mirror_images.

(** So a plasma with a mirror plane keeps it. *)
Theorem C109_mirror_plane : forall P k1 k2 b1 b2 h s,
  wf_cfg (pc P) k1 k2 -> periodic_fvm (pc P) k1 -> plasma P -> maxwell P ->
  ballistic P -> same_everywhere (pc P) -> mirror_law (pc P) b1 b2 ->
  starts P s -> mirror_state P b1 b2 (contents P s) (contents P s) ->
  exists r, run_steps (solver_stepper P) h s = Ok (r, None) /\ mirror_state P b1 b2 (contents P r) (contents P r).
Proof. exact mirror_plane. Qed.
Print Assumptions C109_mirror_plane.

(** C110, what holds: in the hybrid model with cold electrons, and no momentum cell
    centred on zero, mirror images stay mirror images.  Missing: warm electrons
    (refuted below). *)
Theorem C110_hybrid_mirror_partial : forall P c' k1 k2 b1 b2 h s s2, let P' := with_fields_from P c' in
  wf_cfg (pc P) k1 k2 -> periodic_fvm (pc P) k1 -> plasma P -> hybrid_fvm P -> T_e P = 0 -> no_rest_cells (pc P) b1 b2 ->
  ballistic P -> same_everywhere (pc P) -> mirror_law (pc P) b1 b2 ->
  starts P s -> starts P' s2 -> time_elapsed s2 = time_elapsed s -> mirror_state P b1 b2 (contents P s) (contents P s2) ->
  exists r r2, run_steps (solver_stepper P) h s = Ok (r, None) /\ run_steps (solver_stepper P') h s2 = Ok (r2, None)
  /\ mirror_state P b1 b2 (contents P r) (contents P r2).
Proof. exact mirror_hybrid. Qed.
Print Assumptions C110_hybrid_mirror_partial.

(** One species of charge 2 with the Lorentz force, full Maxwell or hybrid. *)
Definition mx_params (E B : R -> R -> R * R * R) : params :=
  Params hyb_cfg (vm_em E B) "electrodynamic" [2] nonrel_moments 0 (1/2) false mean_inst (fun a _ _ => a).
Definition cold_electrons (E B : R -> R -> R * R * R) : params :=
  Params hyb_cfg (hfvm_em E B) "electrodynamic" [2] nonrel_moments 0 0 false mean_inst (fun a _ _ => a).

Lemma hyb_mirror b1 b2 : mirror_law hyb_cfg b1 b2.
Proof.
  constructor.
  - intros _ s Hs. assert (s = 0)%Z as -> by (unfold inb in Hs; cbn in Hs; lia). cbn. lra.
  - intros _ s Hs. assert (s = 0)%Z as -> by (unfold inb in Hs; cbn in Hs; lia). cbn. lra.
  - intros. cbn [C_p hyb_cfg]. unfold lorentz. destruct b1, b2; cbn [turn xorb]; f_equal; try f_equal; ring.
  - intros. reflexivity.
  - intros. reflexivity.
  - left; reflexivity.
Qed.
Lemma hyb_rest_cells b1 b2 : no_rest_cells hyb_cfg b1 b2.
Proof.
  split; intros _ x s Hx Hs; assert (s = 0)%Z as -> by (unfold inb in Hs; cbn in Hs; lia);
    assert (C : (x = 0 \/ x = 1 \/ x = 2 \/ x = 3)%Z) by (unfold inb, N_p in Hx; cbn in Hx; lia);
    destruct C as [->|[->|[->| ->]]]; cbv -[Rplus Rmult Ropp Rdiv Rinv IZR Rminus]; lra.
Qed.
Lemma mx_maxwell E B : maxwell (mx_params E B).
Proof. constructor; try reflexivity. apply vm_regular. Qed.
Lemma mx_plasma E B : plasma (mx_params E B).
Proof. constructor; reflexivity. Qed.
Lemma mx_ballistic E B : ballistic (mx_params E B).
Proof. constructor; reflexivity. Qed.
Lemma ce_plasma E B : plasma (cold_electrons E B).
Proof. constructor; reflexivity. Qed.
Lemma ce_fvm E B : hybrid_fvm (cold_electrons E B).
Proof. constructor; try reflexivity. - cbn; lia. - apply hfvm_regular. Qed.
Lemma ce_ballistic E B : ballistic (cold_electrons E B).
Proof. constructor; reflexivity. Qed.

(** Uniform fields. *)
Definition uniform (e b : R * R * R) : lattice :=
  Lattice (fun _ _ => fst (fst e)) (fun _ _ => snd (fst e)) (fun _ _ => snd e)
          (fun _ _ => fst (fst b)) (fun _ _ => snd (fst b)) (fun _ _ => snd b).
Lemma uniform_view c (F : dist R) e b :
  same_on 4 3 (view ex_lay F) (on_shifted_grid c (fun _ _ => e) (fun _ _ => b))
  \/ same_on 4 3 (view ex_lay F) (centred (on_shifted_grid c (fun _ _ => e) (fun _ _ => b))) ->
  same (view ex_lay F) (uniform e b).
Proof.
  intros [H|H]; pose proof (view_wrap ex_lay F ltac:(reflexivity) ltac:(reflexivity) _ H) as V;
    repeat split; intros i j; destruct (V i j) as (V1&V2&V3&V4&V5&V6);
    rewrite ?V1, ?V2, ?V3, ?V4, ?V5, ?V6;
    cbn [E1 E2 E3 B1 B2 B3 on_shifted_grid on_yee_grid centred uniform]; unfold placed; lra.
Qed.
Lemma uniform_mirror n1 n2 b1 b2 e1 e2 e3 m1 m2 m3 :
  let Y := uniform (e1, e2, e3) (m1, m2, m3) in
  let Z := uniform (turn b1 e1, turn b2 e2, e3) (turn b2 m1, turn b1 m2, turn (xorb b1 b2) m3) in
  same Z (mirror_yee n1 n2 b1 b2 Y) /\ same Z (mirror_centre n1 n2 b1 b2 Y).
Proof. repeat split. Qed.

(** Data [u], [v] in uniform fields. *)
Lemma mirror_data P (s s2 : solver) b1 b2 u v c c2 e1 e2 e3 m1 m2 m3 : pc P = hyb_cfg ->
  let e := (e1, e2, e3) in let b := (m1, m2, m3) in
  let e' := (turn b1 e1, turn b2 e2, e3) in let b' := (turn b2 m1, turn b1 m2, turn (xorb b1 b2) m3) in
  f_of s = sf (hyb_state u) -> f_of s2 = sf (hyb_state v) ->
  same_on 4 3 (view ex_lay (yee_val (fields s))) (on_shifted_grid c (fun _ _ => e) (fun _ _ => b)) ->
  same_on 4 3 (view ex_lay (cc_val (fields s))) (centred (on_shifted_grid c (fun _ _ => e) (fun _ _ => b))) ->
  same_on 4 3 (view ex_lay (yee_val (fields s2))) (on_shifted_grid c2 (fun _ _ => e') (fun _ _ => b')) ->
  same_on 4 3 (view ex_lay (cc_val (fields s2))) (centred (on_shifted_grid c2 (fun _ _ => e') (fun _ _ => b'))) ->
  (forall x i j, inb 4 x -> inb 4 i -> inb 3 j -> v x 0%Z i j = u (opposite hyb_cfg b1 b2 x) 0%Z (flip b1 4 i) (flip b2 3 j)) ->
  mirror_state P b1 b2 (contents P s) (contents P s2).
Proof.
  intros EP e b e' b' F F2 Y C Y2 C2 M.
  destruct (uniform_mirror 4 3 b1 b2 e1 e2 e3 m1 m2 m3) as (UY&UC).
  unfold mirror_state. rewrite EP. change (lay hyb_cfg) with ex_lay. change (gN1 ex_lay) with 4%Z. change (gN2 ex_lay) with 3%Z.
  unfold contents. rewrite EP. change (lay hyb_cfg) with ex_lay. cbn [vm_f vm_yee vm_cc]. split; [|split].
  - intros x sp i j Hx Hs Hi Hj. unfold reflection. rewrite F, F2.
    change (lay hyb_cfg) with ex_lay. change (gN1 ex_lay) with 4%Z. change (gN2 ex_lay) with 3%Z.
    rewrite !hyb_gval by (auto; apply flip_inb; auto).
    replace sp with 0%Z by (unfold inb in Hs; cbn in Hs; lia). apply M; auto.
  - eapply same_trans; [exact (uniform_view c2 _ _ _ (or_introl Y2))|]. eapply same_trans; [exact UY|].
    apply mirror_same, same_sym. exact (uniform_view c _ _ _ (or_introl Y)).
  - eapply same_trans; [exact (uniform_view c2 _ _ _ (or_intror C2))|]. eapply same_trans; [exact UC|].
    apply mirror_c_same, same_sym. exact (uniform_view c _ _ _ (or_intror C)).
Qed.

Lemma mx_initial E B u :
  exists s, starts (mx_params E B) s /\ f_of s = sf (hyb_state u) /\ time_elapsed s = 0
    /\ same_on 4 3 (view ex_lay (yee_val (fields s))) (on_shifted_grid (vm_em E B) E B)
    /\ same_on 4 3 (view ex_lay (cc_val (fields s))) (centred (on_shifted_grid (vm_em E B) E B)).
Proof.
  destruct (initial_EB (vm_em E B) zeroJ E B (vm_regular E B) (vm_defines E B)) as (e&H&HY&HC).
  exists (Solver (hyb_state u) e 0 0). split; [split; [exists zeroJ; exact H|apply hyb_shaped]|].
  split; [reflexivity|]. split; [reflexivity|]. split; assumption.
Qed.

Definition constant (e : R * R * R) (x y : R) : R * R * R := e.
Definition image (b1 b2 : bool) (u : gstate) : gstate := fun x s i j => u (opposite hyb_cfg b1 b2 x) s (flip b1 4 i) (flip b2 3 j).

(** A plasma in electric and magnetic fields, reflected along q1, along q2 or both. *)
Example C109_applies : forall b1 b2 h,
  let E := constant (1, 2, 3) in let B := constant (1/2, -1, 1) in
  let E' := constant (turn b1 1, turn b2 2, 3) in let B' := constant (turn b2 (1/2), turn b1 (-1), turn (xorb b1 b2) 1) in
  let P := mx_params E B in let P' := mx_params E' B' in
  exists s s2 r r2, f_of s = sf (hyb_state beat) /\ f_of s2 = sf (hyb_state (image b1 b2 beat))
  /\ run_steps (solver_stepper P) h s = Ok (r, None) /\ run_steps (solver_stepper P') h s2 = Ok (r2, None)
  /\ mirror_state P b1 b2 (contents P s) (contents P s2) /\ mirror_state P b1 b2 (contents P r) (contents P r2).
Proof.
  intros b1 b2 h E B E' B' P P'.
  destruct (mx_initial E B beat) as (s&ST&F&T&Y&C). destruct (mx_initial E' B' (image b1 b2 beat)) as (s2&ST2&F2&T2&Y2&C2).
  assert (MV : mirror_state P b1 b2 (contents P s) (contents P s2)).
  { eapply mirror_data; try reflexivity; eassumption || reflexivity. }
  destruct (C109_mirror_images P (vm_em E' B') MC PPM b1 b2 h s s2 hyb_wf hyb_periodic (mx_plasma _ _) (mx_maxwell _ _)
    (mx_ballistic _ _) hyb_everywhere (hyb_mirror b1 b2) ST ST2) as (r&r2&R&R2&M); auto.
  { rewrite T, T2. reflexivity. }
  exists s, s2, r, r2. auto 10.
Qed.

Definition symmetric_data (x s i j : Z) : R := IZR (1 + x / 2 + i * (3 - i) + j).
Example C109_mirror_plane_applies : forall h, let P := mx_params (constant (0, 2, 3)) (constant (1/2, 0, 0)) in
  exists s r, f_of s = sf (hyb_state symmetric_data) /\ run_steps (solver_stepper P) h s = Ok (r, None)
  /\ mirror_state P true false (contents P s) (contents P s) /\ mirror_state P true false (contents P r) (contents P r).
Proof.
  intros h P. destruct (mx_initial (constant (0, 2, 3)) (constant (1/2, 0, 0)) symmetric_data) as (s&ST&F&T&Y&C).
  assert (Z : (turn true 0, turn false 2, 3) = (0, 2, 3)) by (cbn; do 2 f_equal; ring).
  assert (Z' : (turn false (1/2), turn true 0, turn (xorb true false) 0) = (1/2, 0, 0)) by (cbn; f_equal; [f_equal|]; ring).
  assert (MV : mirror_state P true false (contents P s) (contents P s)).
  { apply (mirror_data P s s true false symmetric_data symmetric_data (vm_em (constant (0, 2, 3)) (constant (1/2, 0, 0)))
      (vm_em (constant (0, 2, 3)) (constant (1/2, 0, 0))) 0 2 3 (1/2) 0 0); auto.
    - rewrite Z, Z'. exact Y.
    - rewrite Z, Z'. exact C.
    - intros x i j Hx Hi Hj. unfold symmetric_data. f_equal.
      assert (D : (x = 0 \/ x = 1 \/ x = 2 \/ x = 3)%Z) by (unfold inb in Hx; lia). unfold flip.
      destruct D as [->|[->|[->| ->]]].
      + change (opposite hyb_cfg true false 0) with 1%Z. change (1 / 2)%Z with (0 / 2)%Z. ring.
      + change (opposite hyb_cfg true false 1) with 0%Z. change (1 / 2)%Z with (0 / 2)%Z. ring.
      + change (opposite hyb_cfg true false 2) with 3%Z. change (3 / 2)%Z with (2 / 2)%Z. ring.
      + change (opposite hyb_cfg true false 3) with 2%Z. change (3 / 2)%Z with (2 / 2)%Z. ring. }
  destruct (C109_mirror_plane P MC PPM true false h s hyb_wf hyb_periodic (mx_plasma _ _) (mx_maxwell _ _)
    (mx_ballistic _ _) hyb_everywhere (hyb_mirror true false) ST MV) as (r&R&M).
  exists s, r. auto.
Qed.

Example C110_applies : forall b1 b2 h,
  let E := constant (1, 2, 3) in let B := constant (1/2, -1, 1) in
  let E' := constant (turn b1 1, turn b2 2, 3) in let B' := constant (turn b2 (1/2), turn b1 (-1), turn (xorb b1 b2) 1) in
  let P := cold_electrons E B in let P' := cold_electrons E' B' in
  exists s s2 r r2, f_of s = sf (hyb_state beat) /\ f_of s2 = sf (hyb_state (image b1 b2 beat))
  /\ run_steps (solver_stepper P) h s = Ok (r, None) /\ run_steps (solver_stepper P') h s2 = Ok (r2, None)
  /\ mirror_state P b1 b2 (contents P s) (contents P s2) /\ mirror_state P b1 b2 (contents P r) (contents P r2).
Proof.
  intros b1 b2 h E B E' B' P P'.
  destruct (hyb_initial E B beat) as (s&ST&F&T&Y&C). destruct (hyb_initial E' B' (image b1 b2 beat)) as (s2&ST2&F2&T2&Y2&C2).
  assert (MV : mirror_state P b1 b2 (contents P s) (contents P s2)).
  { eapply mirror_data; try reflexivity; eassumption || reflexivity. }
  destruct (C110_hybrid_mirror_partial P (hfvm_em E' B') MC PPM b1 b2 h s s2 hyb_wf hyb_periodic (ce_plasma _ _) (ce_fvm _ _) eq_refl
    (hyb_rest_cells b1 b2) (ce_ballistic _ _) hyb_everywhere (hyb_mirror b1 b2) ST ST2) as (r&r2&R&R2&M); auto.
  { rewrite T, T2. reflexivity. }
  exists s, s2, r, r2. auto 10.
Qed.

(** C110 refuted.  Warm electrons: the pressure term on the left face of a cell is
    divided by the density of the cell, not by that of the face, so the electric
    field of the mirror image is not the mirror image of the electric field. *)
Lemma cold_mirror b1 b2 : mirror_law cold_cfg b1 b2.
Proof.
  constructor.
  - intros _ s Hs. assert (s = 0)%Z as -> by (unfold inb in Hs; cbn in Hs; lia). cbn. lra.
  - intros _ s Hs. assert (s = 0)%Z as -> by (unfold inb in Hs; cbn in Hs; lia). cbn. lra.
  - intros. cbn [C_p cold_cfg]. unfold lorentz. destruct b1, b2; cbn [turn xorb]; f_equal; try f_equal; ring.
  - intros. reflexivity.
  - intros. reflexivity.
  - left; reflexivity.
Qed.
Lemma no_fields_mirror n1 n2 b1 b2 Y Y' : no_fields Y -> no_fields Y' ->
  same Y' (mirror_yee n1 n2 b1 b2 Y) /\ same Y' (mirror_centre n1 n2 b1 b2 Y).
Proof.
  intros (A1&A2&A3&A4&A5&A6) (B1&B2&B3&B4&B5&B6). cbn [E1 E2 E3 Yee.B1 Yee.B2 Yee.B3] in *.
  repeat split; intros; cbn [mirror_yee mirror_centre E1 E2 E3 Yee.B1 Yee.B2 Yee.B3];
    rewrite ?A1, ?A2, ?A3, ?A4, ?A5, ?A6, ?B1, ?B2, ?B3, ?B4, ?B5, ?B6; unfold turn; destruct b1, b2; cbn [xorb]; ring.
Qed.

Lemma hybrid_not_mirror : exists P k1 k2 h s s2 r r2,
  wf_cfg (pc P) k1 k2 /\ periodic_fvm (pc P) k1 /\ plasma P /\ hybrid_fvm P /\ ballistic P /\ same_everywhere (pc P)
  /\ mirror_law (pc P) true false
  /\ starts P s /\ starts P s2 /\ time_elapsed s2 = time_elapsed s /\ mirror_state P true false (contents P s) (contents P s2)
  /\ run_steps (solver_stepper P) h s = Ok (r, None) /\ run_steps (solver_stepper P) h s2 = Ok (r2, None)
  /\ ~ mirror_state P true false (contents P r) (contents P r2).
Proof.
  set (n' := fun i j : Z => bump (2 - i) j).
  destruct (cold_run bump 1 bump_pos) as (s&r&ST&F&T&NY&NC&R&E&_).
  destruct (cold_run n' 1) as (s2&r2&ST2&F2&T2&NY2&NC2&R2&E'&_).
  { intros i j Hi Hj. apply bump_pos; auto. unfold inb in *; lia. }
  exists cold, MC, MC, [(Strang, 1)], s, s2, r, r2.
  split; [exact cold_wf|]. split; [exact cold_periodic|]. split; [exact cold_plasma|]. split; [exact cold_fvm|].
  split; [constructor; reflexivity|]. split; [exact cold_everywhere|]. split; [apply cold_mirror|].
  split; [exact ST|]. split; [exact ST2|]. split; [rewrite T, T2; reflexivity|]. split; [|split; [exact R|split; [exact R2|]]].
  - split; [|split; apply (no_fields_mirror 3 3 true false); assumption].
    change (lay (pc cold)) with lay33. change (pc cold) with cold_cfg.
    intros x sp i j Hx Hs Hi Hj. unfold contents, reflection; cbn [vm_f]. rewrite F, F2.
    change (lay (pc cold)) with lay33. change (lay cold_cfg) with lay33. change (gN1 lay33) with 3%Z in *. change (gN2 lay33) with 3%Z in *.
    rewrite !cold_gval by (auto; apply flip_inb; auto). unfold n', flip. f_equal; lia.
  - intros (_&(M&_)&_). specialize (M 2%Z 0%Z). cbn [mirror_yee E1] in M. rewrite E' in M.
    unfold turn, flip_face, flip in M. change (gN1 (lay (pc cold))) with 3%Z in M. rewrite E in M.
    cbv -[Rplus Rmult Ropp Rdiv Rinv IZR Rminus] in M. lra.
Qed.

Theorem C110_hybrid_mirror_refuted : exists P k1 k2 h s s2 r r2,
  wf_cfg (pc P) k1 k2 /\ periodic_fvm (pc P) k1 /\ plasma P /\ hybrid_fvm P /\ ballistic P /\ same_everywhere (pc P)
  /\ mirror_law (pc P) true false
  /\ starts P s /\ starts P s2 /\ time_elapsed s2 = time_elapsed s /\ mirror_state P true false (contents P s) (contents P s2)
  /\ run_steps (solver_stepper P) h s = Ok (r, None) /\ run_steps (solver_stepper P) h s2 = Ok (r2, None)
  /\ ~ mirror_state P true false (contents P r) (contents P r2).
Proof. exact hybrid_not_mirror. Qed.
Print Assumptions C110_hybrid_mirror_refuted.
