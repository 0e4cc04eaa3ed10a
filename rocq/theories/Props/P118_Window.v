(** Hybrid plasmas with few ghost zones: C118. *)
From Coq Require Import ZArith Reals Lra Lia String List Bool.
From Verif Require Import Base.Prelude Base.ZSum Model.Af Model.Petsc Model.Config Model.Fvm Model.Em
  Model.Moments Model.Splitting Model.Timestep Model.Solver Spec.Domain Spec.Lattice Spec.FvmProblem Spec.FvmRun
  Spec.Yee Spec.EmRun Spec.MomentSpec Spec.Clock Spec.SolverSpec Spec.VlasovMaxwell Spec.InitFields Spec.Hybrid Spec.HybridWindow Spec.Symmetry Spec.Slide
  Proofs.FluxLemmas Proofs.FvmLemmas2 Proofs.FvmConserve Proofs.EmLemmas Proofs.EmStep Proofs.EmInit Proofs.EmProps Proofs.ChargeLemmas
  Proofs.VlasovMaxwell Proofs.InitFields Proofs.VmProps Proofs.HybridRun Proofs.Slide Proofs.HybridProps Proofs.HybridWindow
  Props.ExFvm Props.ExEm Props.ExSolver Props.ExMaxwell Props.ExHybrid.
Import ListNotations.
Local Open Scope R_scope.

(** ** Cold ions at rest on 4 x 4 cells, one momentum p = 0, minmod, on any ranks. *)
Definition narrow_cfg (L : layout) : cfg :=
  Cfg L 2 1 1 1 1 0 4 0 4 1 1 [-1/2] [-1/2] [-1/2] [1] [1] [1]
    "FVM" "FVM" "minmod" "minmod" "cartesian" true false
    (fun _ _ _ _ p1 p2 _ => (p1, p2)) (fun _ _ _ _ p1 p2 _ => (p1, p2)) lorentz lorentz
    (fun _ _ _ w x s => 0)
    (fun _ => "periodic"%string) (fun _ _ _ _ f => f) 0 0
    (fun v _ _ _ _ => v) 0.
Definition narrow_em (L : layout) : fcfg :=
  FCfg L 2 0 0 1 1 1 1 (fun _ => "periodic"%string) (fun _ _ _ _ _ a => a)
    "fdtd" "user-defined" "FVM" true (Some none) None (Some none) None None.
Definition narrow (L : layout) : params :=
  Params (narrow_cfg L) (narrow_em L) "electrodynamic" [1] nonrel_moments 0 1 false mean_inst (fun a _ _ => a).

(** One rank, and two along q1; two ghost zones. *)
Definition one_rank : layout := Layout 4 4 [4]%Z [4]%Z 2 2 PPeriodic PPeriodic.
Definition two_ranks : layout := Layout 4 4 [2; 2]%Z [4]%Z 2 2 PPeriodic PPeriodic.
Definition boxed (L : layout) : Prop := L = one_rank \/ L = two_ranks.

Lemma boxed_regular L : boxed L -> regular (narrow_em L).
Proof.
  intros [->| ->]; unfold regular, periodic_fields, periodic_layout, tiles; cbn;
  repeat split; try lia; try lra; repeat constructor; try lia.
Qed.
Lemma boxed_wf L : wf_cfg (narrow_cfg L) MC MC.
Proof.
  unfold wf_cfg. cbn [N_p1 N_p2 N_p3 N_species p1_start p2_start p3_start dp1 dp2 dp3 narrow_cfg List.length].
  repeat split; try lia; auto.
Qed.
Lemma boxed_periodic L : boxed L -> periodic_fvm (narrow_cfg L) MC.
Proof. intros [->| ->]; unfold periodic_fvm, periodic_layout, tiles; cbn; repeat split; try lia; repeat constructor; lia. Qed.
Lemma boxed_plasma L : plasma (narrow L).
Proof. constructor; reflexivity. Qed.
Lemma boxed_any L : boxed L -> hybrid_any (narrow L).
Proof. intros H. constructor; try reflexivity. apply boxed_regular; exact H. Qed.

Definition narrow_state (L : layout) (n : Z -> R) : fstate :=
  FState (fun r1 r2 => Arr 1 1 (n1g L r1) (n2g L r2) (fun x s i j => n (off (blk1 L) r1 + i - 2))%Z) (fun _ _ _ => 0).
Lemma narrow_shaped L n : shaped L 1 1 (sf (narrow_state L n)).
Proof. intros r1 r2 _. repeat split. Qed.
Lemma narrow_gval L n x s i j : boxed L -> inb 4 i -> inb 4 j -> gval L (sf (narrow_state L n)) x s i j = n i.
Proof.
  intros H Hi Hj. unfold inb in *.
  assert (C : (i = 0 \/ i = 1 \/ i = 2 \/ i = 3)%Z) by lia. assert (D : (j = 0 \/ j = 1 \/ j = 2 \/ j = 3)%Z) by lia.
  destruct H as [->| ->]; destruct C as [->|[->|[->| ->]]]; destruct D as [->|[->|[->| ->]]]; reflexivity.
Qed.
Lemma narrow_holds L n : boxed L -> holds (narrow_cfg L) (sf (narrow_state L n)) (fun _ _ i _ => n i).
Proof.
  intros H. split; [apply narrow_shaped|]. intros x s i j _ _ Hi Hj.
  change (lay (narrow_cfg L)) with L in *. apply narrow_gval; [exact H| |]; destruct H as [->| ->]; assumption.
Qed.

Lemma narrow_initial L n : boxed L ->
  exists s, starts (narrow L) s /\ f_of s = sf (narrow_state L n) /\ time_elapsed s = 0
    /\ no_fields (view L (yee_val (fields s))) /\ no_fields (view L (cc_val (fields s))).
Proof.
  intros BL. destruct (initial_EB (narrow_em L) zeroJ none none (boxed_regular L BL)) as (e&H&HY&HC); [repeat split|].
  exists (Solver (narrow_state L n) e 0 0). split; [split; [exists zeroJ; exact H|apply narrow_shaped]|].
  split; [reflexivity|]. split; [reflexivity|]. cbn [fields].
  change (flay (narrow_em L)) with L in HY, HC.
  assert (P1 : (0 < gN1 L)%Z) by (destruct BL as [->| ->]; reflexivity). assert (P2 : (0 < gN2 L)%Z) by (destruct BL as [->| ->]; reflexivity).
  split; [assert (V := view_wrap L (yee_val e) P1 P2 _ HY)
         |assert (V := view_wrap L (cc_val e) P1 P2 _ HC)];
    repeat split; intros i j; destruct (V i j) as (V1&V2&V3&V4&V5&V6);
    cbn [E1 E2 E3 B1 B2 B3 centred on_shifted_grid on_yee_grid] in *; unfold placed, none in *; cbn [fst snd] in *; lra.
Qed.

Lemma narrow_rhs L t C u i j : no_fields C -> rhs (vm_problem (narrow L) MC MC t C) u 0%Z 0%Z i j = 0.
Proof.
  intros (Z1&Z2&Z3&Z4&Z5&Z6). cbn [E1 E2 E3 B1 B2 B3] in *.
  unfold rhs, vm_problem. rewrite src_off by reflexivity.
  assert (V : forall q1 q2, C_q (narrow_cfg L) 0 t q1 q2 (mom1 (narrow_cfg L) (1/2) 0 0) (mom2 (narrow_cfg L) (1/2) 0 0) (mom3 (narrow_cfg L) (1/2) 0 0) = (0, 0)).
  { intros. cbv -[Rplus Rmult Ropp Rdiv Rinv IZR Rminus]. f_equal; lra. }
  assert (AQ : advect_q (prob (pc (narrow L)) MC MC t (components C, components C, components C)) u 0%Z 0%Z i j = 0).
  { unfold advect_q, prob, problem_of, problem_at; cbn [vel1 vel2 kq n1 n2 h1 h2]. change (pc (narrow L)) with (narrow_cfg L).
    unfold advect, flux. rewrite !V. cbn [fst snd]. unfold Rdiv. ring. }
  assert (AC : forall o1 o2 o3 y s' g1 g2, accel (narrow_cfg L) t (components C) o1 o2 o3 y s' g1 g2 = (0, 0, 0)).
  { intros. unfold accel, components. cbn [Z.eqb Pos.eqb]. rewrite Z1, Z2, Z3, Z4, Z5, Z6.
    cbn [C_p narrow_cfg]. unfold lorentz. f_equal; [f_equal|]; ring. }
  assert (AP : advect_p (prob (pc (narrow L)) MC MC t (components C, components C, components C)) i j (fun x' s' => u x' s' i j) 0%Z 0%Z = 0).
  { unfold advect_p, prob, problem_of, problem_at; cbn [acc1 acc2 acc3 M1 M2 M3 kp hp1 hp2 hp3 fst snd]. change (pc (narrow L)) with (narrow_cfg L).
    unfold advect, flux, periodic. rewrite !AC. cbn [fst snd]. destruct (p_is_fvm (narrow_cfg L)); unfold Rdiv; ring. }
  rewrite AQ, AP. ring.
Qed.

Lemma narrow_ion L w g : ion (narrow L) w g = w 0 0 0 * g 0%Z.
Proof.
  unfold ion, integral. cbn [mn1 mn2 mn3 species_grid pc narrow narrow_cfg N_p1 N_p2 N_p3].
  assert (V : v_of (lo1 (species_grid (narrow_cfg L) 0)) (w1 (species_grid (narrow_cfg L) 0)) 0 = 0
    /\ v_of (lo2 (species_grid (narrow_cfg L) 0)) (w2 (species_grid (narrow_cfg L) 0)) 0 = 0
    /\ v_of (lo3 (species_grid (narrow_cfg L) 0)) (w3 (species_grid (narrow_cfg L) 0)) 0 = 0)
    by (cbv -[Rplus Rmult Ropp Rdiv Rinv IZR Rminus]; lra).
  destruct V as (V1&V2&V3). rewrite !zsum_1. change (pc (narrow L)) with (narrow_cfg L). rewrite V1, V2, V3.
  change (w1 (species_grid (narrow_cfg L) 0)) with 1. change (w2 (species_grid (narrow_cfg L) 0)) with 1. change (w3 (species_grid (narrow_cfg L) 0)) with 1.
  cbn -[Rplus Rmult]. ring.
Qed.

(** E1 of the first column after one step. *)
Lemma narrow_E1 L n s dt S : boxed L -> vm_f S = (fun _ _ i _ => n i) -> no_fields (vm_yee S) -> no_fields (vm_cc S) ->
  E1 (rank_E (narrow L) MC MC s dt S 0%nat 0%nat) 0%Z 0%Z
  = - ((slope1 1 (window L 0%nat 0%nat (fun i _ => n (i mod 4)%Z)) 0%Z 0%Z + slope1 1 (window L 0%nat 0%nat (fun i _ => n (i mod 4)%Z)) (-1)%Z 0%Z) / 2
       / n 0%Z).
Proof.
  intros BL FE (Y1&Y2&Y3&Y4&Y5&Y6) NC. cbn [E1 E2 E3 B1 B2 B3] in *.
  unfold rank_E. set (p := vm_problem (narrow L) MC MC s (vm_cc S)).
  set (uh := fun x s0 i j => vm_f S x s0 i j + dt / 2 * rhs p (vm_f S) x s0 i j).
  assert (NN : forall i j, num (ions (narrow L) uh) i j = n (i mod 4)%Z).
  { intros i j. unfold ions. cbn [num]. rewrite narrow_ion. unfold uh, p. rewrite narrow_rhs by exact NC.
    rewrite FE. replace (gN1 (lay (pc (narrow L)))) with 4%Z by (destruct BL as [->| ->]; reflexivity). ring. }
  assert (WN : forall i j, window L 0%nat 0%nat (num (ions (narrow L) uh)) i j = window L 0%nat 0%nat (fun i _ => n (i mod 4)%Z) i j)
    by (intros; unfold window; apply NN).
  assert (W0 : window L 0%nat 0%nat (num (ions (narrow L) uh)) 0%Z 0%Z = n 0%Z).
  { rewrite WN. unfold window, seen_at. destruct BL as [->| ->]; reflexivity. }
  unfold ohm, windowed. cbn [E1 num lay pc narrow narrow_cfg]. cbv zeta.
  change (T_e (narrow L)) with 1. change (nth 0 (charge (narrow L)) 0) with 1. change (fdq1 (pf (narrow L))) with 1.
  unfold fwd1, fwd2. rewrite !Y4, !Y5, !Y6. rewrite W0.
  unfold slope1. rewrite !WN. unfold Rdiv. rewrite !Rmult_1_l. cbn [Z.sub Z.opp Z.add Z.pos_sub Pos.pred_double]. ring.
Qed.

Definition lump (i : Z) : R := if (i =? 1)%Z then 2 else 1.

Lemma narrow_step L : boxed L ->
  exists s r, starts (narrow L) s /\ holds (pc (narrow L)) (f_of s) (fun _ _ i _ => lump i) /\ time_elapsed s = 0
  /\ no_fields (vm_yee (contents (narrow L) s)) /\ no_fields (vm_cc (contents (narrow L) s))
  /\ run_steps (solver_stepper (narrow L)) [(Strang, 1)] s = Ok (r, None)
  /\ E1 (vm_yee (contents (narrow L) r)) 0%Z 0%Z
     = - ((slope1 1 (window L 0%nat 0%nat (fun i _ => lump (i mod 4)%Z)) 0%Z 0%Z + slope1 1 (window L 0%nat 0%nat (fun i _ => lump (i mod 4)%Z)) (-1)%Z 0%Z) / 2).
Proof.
  intros BL. destruct (narrow_initial L lump BL) as (s&ST&F&T&NY&NC).
  set (S := VM (fun _ _ i _ => lump i) (view L (yee_val (fields s))) (view L (cc_val (fields s)))).
  destruct (any_step (narrow L) MC MC (boxed_wf L) (boxed_periodic L BL) (boxed_plasma L) (boxed_any L BL)
    ltac:(destruct BL as [->| ->]; cbn; lia) Strang 1 s S ST) as (r&R&_&Q).
  { split; [|split; apply same_refl]. rewrite F. apply narrow_holds; exact BL. }
  exists s, r. split; [exact ST|]. split; [rewrite F; apply narrow_holds; exact BL|]. split; [exact T|].
  split; [exact NY|]. split; [exact NC|]. split; [exact R|].
  destruct (Q 0%nat 0%nat 0%Z 0%Z) as (Q1&_).
  { destruct BL as [->| ->]; split; cbn; lia. } { destruct BL as [->| ->]; unfold inb; cbn; lia. } { destruct BL as [->| ->]; unfold inb; cbn; lia. }
  cbv zeta in Q1. change (lay (pc (narrow L))) with L in Q1.
  replace (off (blk1 L) 0 + 0)%Z with 0%Z in Q1 by reflexivity. replace (off (blk2 L) 0 + 0)%Z with 0%Z in Q1 by reflexivity.
  etransitivity; [exact Q1|].
  rewrite (narrow_E1 L lump _ 1 S BL eq_refl NY NC). change (lump 0) with 1. field.
Qed.

(** ** C118: with fewer than three ghost zones *)

(** For any number of ghost zones from two, the electric field after a step is, on the
    cells of every rank, that of Ohm's law for the density the rank sees. *)
Theorem C118_E_of_ranks : forall P k1 k2 m dt s S, wf_cfg (pc P) k1 k2 -> periodic_fvm (pc P) k1 -> plasma P -> hybrid_any P ->
  (2 <= ng1 (lay (pc P)) /\ 2 <= ng2 (lay (pc P)))%Z -> starts P s -> vm_holds P s S ->
  exists r, run_steps (solver_stepper P) [(m, dt)] s = Ok (r, None) /\ time_elapsed r = time_elapsed s + dt
  /\ let L := lay (pc P) in
  forall r1 r2 i j, rank_ok L r1 r2 -> inb (bsize (blk1 L) r1) i -> inb (bsize (blk2 L) r2) j ->
  let O := rank_E P k1 k2 (time_elapsed s) dt S r1 r2 in
  let x := (off (blk1 L) r1 + i)%Z in let y := (off (blk2 L) r2 + j)%Z in
  let Y := view L (yee_val (fields r)) in
  E1 Y x y = E1 O x y /\ E2 Y x y = E2 O x y /\ E3 Y x y = E3 O x y.
Proof. intros P k1 k2 m dt s S W PF PM HA NG. exact (any_step P k1 k2 W PF PM HA NG m dt s S). Qed.
Print Assumptions C118_E_of_ranks.

Example C118_applies : exists s r, starts (narrow two_ranks) s
  /\ run_steps (solver_stepper (narrow two_ranks)) [(Strang, 1)] s = Ok (r, None)
  /\ E1 (vm_yee (contents (narrow two_ranks) r)) 0%Z 0%Z = - (7 / 24).
Proof.
  destruct (narrow_step two_ranks (or_intror eq_refl)) as (s&r&ST&_&_&_&_&R&E). exists s, r.
  split; [exact ST|]. split; [exact R|]. rewrite E. cbv -[Rplus Rmult Ropp Rdiv Rinv IZR Rminus]. lra.
Qed.

(** Two ghost zones satisfy every reconstruction of radius one, but then the result
    depends on the process grid: C104 fails without three. *)
Theorem C118_process_grid_refuted : ~ (forall P L' k1 k2 h s s2 u, let P' := with_layouts P L' in
  wf_cfg (pc P) k1 k2 -> plasma P -> hybrid_any P -> hybrid_any P' -> user_defined (pf P) -> periodic_fvm (pc P) k1 ->
  periodic_fvm (pc P') k1 -> gN1 L' = gN1 (lay (pc P)) -> gN2 L' = gN2 (lay (pc P)) ->
  starts P s -> holds (pc P) (f_of s) u -> starts P' s2 -> holds (pc P') (f_of s2) u -> time_elapsed s2 = time_elapsed s ->
  exists r r2 T, run_steps (solver_stepper P) h s = Ok (r, None) /\ run_steps (solver_stepper P') h s2 = Ok (r2, None)
  /\ vm_holds P r T /\ vm_holds P' r2 T).
Proof.
  intros H.
  destruct (narrow_step one_rank (or_introl eq_refl)) as (s&r&ST&HU&TE&_&_&R&E).
  destruct (narrow_step two_ranks (or_intror eq_refl)) as (s2&r2&ST2&HU2&TE2&_&_&R2&EE).
  destruct (H (narrow one_rank) two_ranks MC MC [(Strang, 1)] s s2 (fun _ _ i _ => lump i)) as (q&q2&T&Q&Q2&V&V2).
  - apply boxed_wf.
  - apply boxed_plasma.
  - apply boxed_any; left; reflexivity.
  - apply (boxed_any two_ranks); right; reflexivity.
  - left. exists none, none. repeat split.
  - apply boxed_periodic; left; reflexivity.
  - apply (boxed_periodic two_ranks); right; reflexivity.
  - reflexivity.
  - reflexivity.
  - exact ST.
  - exact HU.
  - exact ST2.
  - exact HU2.
  - congruence.
  - rewrite R in Q. injection Q as <-. change (with_layouts (narrow one_rank) two_ranks) with (narrow two_ranks) in *.
    rewrite R2 in Q2. injection Q2 as <-.
    destruct V as (_&(A&_)&_). destruct V2 as (_&(B&_)&_). specialize (A 0%Z 0%Z). specialize (B 0%Z 0%Z).
    cbn [contents vm_yee] in E, EE. rewrite A in E. rewrite B in EE. rewrite E in EE. clear - EE.
    cbv -[Rplus Rmult Ropp Rdiv Rinv IZR Rminus] in EE. lra.
Qed.
Print Assumptions C118_process_grid_refuted.
