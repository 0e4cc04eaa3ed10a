(** Example hybrid plasmas. *)
From Coq Require Import ZArith Reals Lra Lia String List Bool.
From Verif Require Import Base.Prelude Base.ZSum Model.Af Model.Petsc Model.Config Model.Fvm Model.Em
  Model.Moments Model.Splitting Model.Timestep Model.Solver Spec.Domain Spec.Lattice Spec.FvmProblem Spec.FvmRun
  Spec.Yee Spec.EmRun Spec.MomentSpec Spec.Clock Spec.SolverSpec Spec.VlasovMaxwell Spec.InitFields Spec.Hybrid Spec.Symmetry Spec.Slide
  Proofs.FluxLemmas Proofs.FvmLemmas2 Proofs.FvmConserve Proofs.EmLemmas Proofs.EmStep Proofs.EmInit Proofs.EmProps Proofs.ChargeLemmas
  Proofs.VlasovMaxwell Proofs.InitFields Proofs.VmProps Proofs.HybridRun Proofs.Slide Proofs.HybridProps
  Props.ExFvm Props.ExEm Props.ExSolver Props.ExMaxwell.
Import ListNotations.
Local Open Scope R_scope.

(** One ion species, 4 x 3 cells on 2 x 2 ranks, 2 x 2 momenta, Lorentz force. *)
Definition hyb_cfg : cfg :=
  Cfg ex_lay 3 2 2 1 1 0 4 0 3 1 1 [-1] [-1] [-1] [1] [1] [2]
    "FVM" "FVM" "minmod" "ppm" "cartesian" true false
    (fun _ _ _ _ p1 p2 _ => (p1, p2)) (fun _ _ _ _ p1 p2 _ => (p1, p2)) lorentz lorentz
    (fun _ _ _ w x s => 0)
    (fun _ => "periodic"%string) (fun _ _ _ _ f => f) 0 0
    (fun v _ _ _ _ => v) 0.
Definition hfvm_em (E B : R -> R -> R * R * R) : fcfg :=
  FCfg ex_lay 3 0 0 1 1 2 1 (fun _ => "periodic"%string) (fun _ _ _ _ _ a => a)
    "fdtd" "user-defined" "FVM" true (Some E) None (Some B) None None.
Definition hyb_params (E B : R -> R -> R * R * R) : params :=
  Params hyb_cfg (hfvm_em E B) "electrodynamic" [2] nonrel_moments 0 (1/2) false mean_inst (fun a _ _ => a).

Lemma hfvm_regular E B : regular (hfvm_em E B).
Proof.
  unfold regular, periodic_fields, periodic_layout, tiles; cbn.
  repeat split; try lia; try lra; repeat constructor; try lia.
Qed.
Lemma hyb_wf : wf_cfg hyb_cfg MC PPM.
Proof.
  unfold wf_cfg. cbn [N_p1 N_p2 N_p3 N_species p1_start p2_start p3_start dp1 dp2 dp3 hyb_cfg List.length].
  repeat split; try lia; auto.
Qed.
Lemma hyb_periodic : periodic_fvm hyb_cfg MC.
Proof. unfold periodic_fvm, periodic_layout, tiles; cbn. repeat split; try lia; repeat constructor; lia. Qed.
Lemma hyb_plasma E B : plasma (hyb_params E B).
Proof. constructor; reflexivity. Qed.
Lemma hyb_fvm E B : hybrid_fvm (hyb_params E B).
Proof. constructor; try reflexivity. - cbn; lia. - apply hfvm_regular. Qed.
Lemma hyb_uniform : velocity_uniform hyb_cfg.
Proof. repeat intro; cbn; auto. Qed.
Lemma hyb_everywhere : same_everywhere hyb_cfg.
Proof. split; reflexivity. Qed.
Lemma hyb_field_driven : field_driven hyb_cfg.
Proof.
  intros s t q1 q2 p1 p2 p3. cbn [C_p hyb_cfg]. unfold lorentz.
  f_equal; [f_equal|]; ring.
Qed.
Lemma hyb_defines E B : defines_EB (hfvm_em E B) E B.
Proof. repeat split. Qed.

(** A state holding any data. *)
Definition hyb_state (u : gstate) : fstate :=
  FState (fun r1 r2 => Arr 4 1 (n1g ex_lay r1) (n2g ex_lay r2)
    (fun x s i j => u x s (off (blk1 ex_lay) r1 + i - 3)%Z (off (blk2 ex_lay) r2 + j - 3)%Z)) (fun _ _ _ => 0).
Definition beat (x s i j : Z) : R := IZR (1 + x * x + i * (4 - i) + j * x).

Lemma hyb_shaped u : shaped ex_lay 4 1 (sf (hyb_state u)).
Proof. intros r1 r2 _. repeat split. Qed.
Lemma hyb_gval u x s i j : inb 4 i -> inb 3 j -> gval ex_lay (sf (hyb_state u)) x s i j = u x s i j.
Proof.
  intros Hi Hj. unfold inb in *.
  assert (C : (i = 0 \/ i = 1 \/ i = 2 \/ i = 3)%Z) by lia. assert (D : (j = 0 \/ j = 1 \/ j = 2)%Z) by lia.
  destruct C as [->|[->|[->| ->]]]; destruct D as [->|[->| ->]]; reflexivity.
Qed.
Lemma hyb_holds u : holds hyb_cfg (sf (hyb_state u)) u.
Proof. split; [apply hyb_shaped|]. intros x s i j _ _ Hi Hj. apply hyb_gval; auto. Qed.

Lemma hyb_initial E B u :
  exists s, starts (hyb_params E B) s /\ f_of s = sf (hyb_state u) /\ time_elapsed s = 0
    /\ same_on 4 3 (view ex_lay (yee_val (fields s))) (on_shifted_grid (hfvm_em E B) E B)
    /\ same_on 4 3 (view ex_lay (cc_val (fields s))) (centred (on_shifted_grid (hfvm_em E B) E B)).
Proof.
  destruct (initial_EB (hfvm_em E B) zeroJ E B (hfvm_regular E B) (hyb_defines E B)) as (e&H&HY&HC).
  exists (Solver (hyb_state u) e 0 0). split; [split; [exists zeroJ; exact H|apply hyb_shaped]|].
  split; [reflexivity|]. split; [reflexivity|]. split; assumption.
Qed.

(** A lattice over the box known on one period. *)
Lemma view_wrap L F : (0 < gN1 L)%Z -> (0 < gN2 L)%Z -> forall Y, same_on (gN1 L) (gN2 L) (view L F) Y ->
  forall i j, let x := (i mod gN1 L)%Z in let y := (j mod gN2 L)%Z in
  E1 (view L F) i j = E1 Y x y /\ E2 (view L F) i j = E2 Y x y /\ E3 (view L F) i j = E3 Y x y
  /\ B1 (view L F) i j = B1 Y x y /\ B2 (view L F) i j = B2 Y x y /\ B3 (view L F) i j = B3 Y x y.
Proof.
  intros P1 P2 Y H i j x y.
  assert (Q : forall k, gper L F k 0 i j = gper L F k 0 x y) by (intros; unfold gper, x, y; rewrite !Zmod_mod; reflexivity).
  destruct (H x y) as (A1&A2&A3&A4&A5&A6); [apply Z.mod_pos_bound; auto|apply Z.mod_pos_bound; auto|].
  cbn [view E1 E2 E3 B1 B2 B3] in *. rewrite !Q. auto 6.
Qed.

(** ** Cold ions at rest: 3 x 3 cells on one rank, one momentum p = 0. *)
Definition lay33 : layout := Layout 3 3 [3]%Z [3]%Z 3 3 PPeriodic PPeriodic.
Definition cold_cfg : cfg :=
  Cfg lay33 3 1 1 1 1 0 3 0 3 1 1 [-1/2] [-1/2] [-1/2] [1] [1] [1]
    "FVM" "FVM" "minmod" "minmod" "cartesian" true false
    (fun _ _ _ _ p1 p2 _ => (p1, p2)) (fun _ _ _ _ p1 p2 _ => (p1, p2)) lorentz lorentz
    (fun _ _ _ w x s => 0)
    (fun _ => "periodic"%string) (fun _ _ _ _ f => f) 0 0
    (fun v _ _ _ _ => v) 0.
Definition cold_em : fcfg :=
  FCfg lay33 3 0 0 1 1 1 1 (fun _ => "periodic"%string) (fun _ _ _ _ _ a => a)
    "fdtd" "user-defined" "FVM" true (Some none) None (Some none) None None.
Definition cold : params :=
  Params cold_cfg cold_em "electrodynamic" [1] nonrel_moments 0 1 false mean_inst (fun a _ _ => a).
Lemma cold_regular : regular cold_em.
Proof.
  unfold regular, periodic_fields, periodic_layout, tiles; cbn.
  repeat split; try lia; try lra; repeat constructor; try lia.
Qed.
Lemma cold_wf : wf_cfg cold_cfg MC MC.
Proof.
  unfold wf_cfg. cbn [N_p1 N_p2 N_p3 N_species p1_start p2_start p3_start dp1 dp2 dp3 cold_cfg List.length].
  repeat split; try lia; auto.
Qed.
Lemma cold_periodic : periodic_fvm cold_cfg MC.
Proof. unfold periodic_fvm, periodic_layout, tiles; cbn. repeat split; try lia; repeat constructor; lia. Qed.
Lemma cold_plasma : plasma cold.
Proof. constructor; reflexivity. Qed.
Lemma cold_fvm : hybrid_fvm cold.
Proof. constructor; try reflexivity. - cbn; lia. - apply cold_regular. Qed.
Lemma cold_uniform : velocity_uniform cold_cfg.
Proof. repeat intro; cbn; auto. Qed.
Lemma cold_everywhere : same_everywhere cold_cfg.
Proof. split; reflexivity. Qed.

Definition cold_state (n : Z -> Z -> R) : fstate :=
  FState (fun r1 r2 => Arr 1 1 (n1g lay33 r1) (n2g lay33 r2) (fun x s i j => n (i - 3) (j - 3))%Z) (fun _ _ _ => 0).
Lemma cold_shaped n : shaped lay33 1 1 (sf (cold_state n)).
Proof. intros r1 r2 _. repeat split. Qed.
Lemma cold_gval n x s i j : inb 3 i -> inb 3 j -> gval lay33 (sf (cold_state n)) x s i j = n i j.
Proof.
  intros Hi Hj. unfold inb in *.
  assert (C : (i = 0 \/ i = 1 \/ i = 2)%Z) by lia. assert (D : (j = 0 \/ j = 1 \/ j = 2)%Z) by lia.
  destruct C as [->|[->| ->]]; destruct D as [->|[->| ->]]; reflexivity.
Qed.

Lemma cold_initial n :
  exists s, starts cold s /\ f_of s = sf (cold_state n) /\ time_elapsed s = 0
    /\ no_fields (view lay33 (yee_val (fields s))) /\ no_fields (view lay33 (cc_val (fields s))).
Proof.
  destruct (initial_EB cold_em zeroJ none none cold_regular) as (e&H&HY&HC); [repeat split|].
  exists (Solver (cold_state n) e 0 0). split; [split; [exists zeroJ; exact H|apply cold_shaped]|].
  split; [reflexivity|]. split; [reflexivity|]. cbn [fields].
  change (flay cold_em) with lay33 in HY, HC.
  split; [assert (V := view_wrap lay33 (yee_val e) ltac:(reflexivity) ltac:(reflexivity) _ HY)
         |assert (V := view_wrap lay33 (cc_val e) ltac:(reflexivity) ltac:(reflexivity) _ HC)];
    repeat split; intros i j; destruct (V i j) as (V1&V2&V3&V4&V5&V6);
    cbn [E1 E2 E3 B1 B2 B3 centred on_shifted_grid on_yee_grid] in *; unfold placed, none in *; cbn [fst snd] in *; lra.
Qed.

(** Without fields cold ions do not move. *)
Lemma cold_rhs t C u i j : no_fields C -> rhs (vm_problem cold MC MC t C) u 0%Z 0%Z i j = 0.
Proof.
  intros (Z1&Z2&Z3&Z4&Z5&Z6). cbn [E1 E2 E3 B1 B2 B3] in *.
  unfold rhs, vm_problem. rewrite src_off by reflexivity.
  assert (V : forall q1 q2, C_q cold_cfg 0 t q1 q2 (mom1 cold_cfg (1/2) 0 0) (mom2 cold_cfg (1/2) 0 0) (mom3 cold_cfg (1/2) 0 0) = (0, 0)).
  { intros. cbv -[Rplus Rmult Ropp Rdiv Rinv IZR Rminus]. f_equal; lra. }
  assert (AQ : advect_q (prob (pc cold) MC MC t (components C, components C, components C)) u 0%Z 0%Z i j = 0).
  { unfold advect_q, prob, problem_of, problem_at; cbn [vel1 vel2 kq n1 n2 h1 h2]. change (pc cold) with cold_cfg.
    unfold advect, flux. rewrite !V. cbn [fst snd]. unfold Rdiv. ring. }
  assert (AC : forall o1 o2 o3 y s' g1 g2, accel cold_cfg t (components C) o1 o2 o3 y s' g1 g2 = (0, 0, 0)).
  { intros. unfold accel, components. cbn [Z.eqb Pos.eqb]. rewrite Z1, Z2, Z3, Z4, Z5, Z6.
    cbn [C_p cold_cfg]. unfold lorentz. f_equal; [f_equal|]; ring. }
  assert (AP : advect_p (prob (pc cold) MC MC t (components C, components C, components C)) i j (fun x' s' => u x' s' i j) 0%Z 0%Z = 0).
  { unfold advect_p, prob, problem_of, problem_at; cbn [acc1 acc2 acc3 M1 M2 M3 kp hp1 hp2 hp3 fst snd]. change (pc cold) with cold_cfg.
    unfold advect, flux, periodic. rewrite !AC. cbn [fst snd]. destruct (p_is_fvm cold_cfg); unfold Rdiv; ring. }
  rewrite AQ, AP. ring.
Qed.

Lemma cold_ion w g : ion cold w g = w 0 0 0 * g 0%Z.
Proof.
  unfold ion, integral. cbn [mn1 mn2 mn3 species_grid pc cold cold_cfg N_p1 N_p2 N_p3].
  assert (V : v_of (lo1 (species_grid cold_cfg 0)) (w1 (species_grid cold_cfg 0)) 0 = 0
    /\ v_of (lo2 (species_grid cold_cfg 0)) (w2 (species_grid cold_cfg 0)) 0 = 0
    /\ v_of (lo3 (species_grid cold_cfg 0)) (w3 (species_grid cold_cfg 0)) 0 = 0)
    by (cbv -[Rplus Rmult Ropp Rdiv Rinv IZR Rminus]; lra).
  destruct V as (V1&V2&V3). rewrite !zsum_1. change (pc cold) with cold_cfg. rewrite V1, V2, V3.
  change (w1 (species_grid cold_cfg 0)) with 1. change (w2 (species_grid cold_cfg 0)) with 1. change (w3 (species_grid cold_cfg 0)) with 1.
  cbn -[Rplus Rmult]. ring.
Qed.

(** So a single step gives this E in the bulk of the box. *)
Lemma cold_step n Y C dt : (forall i j, inb 3 i -> inb 3 j -> 0 < n i j) -> no_fields Y -> no_fields C ->
  let d : grid := fun i j => n (i mod 3)%Z (j mod 3)%Z in
  let S := VM (gval lay33 (sf (cold_state n))) Y C in
  let T := hyb_step cold MC MC 0 dt S in
  (forall i j, E1 (vm_yee T) i j = - ((slope1 1 d i j + slope1 1 d (i - 1)%Z j) / 2 / d i j))
  /\ (forall i j, E2 (vm_yee T) i j = - ((slope2 1 d i j + slope2 1 d i (j - 1)%Z) / 2 / d i j))
  /\ (forall i j, E3 (vm_yee T) i j = 0)
  /\ (forall i j, B3 (vm_yee T) i j = - dt * (bwd1 1 (E2 (vm_yee T)) i j - bwd2 1 (E1 (vm_yee T)) i j)).
Proof.
  intros POS (Y1&Y2&Y3&Y4&Y5&Y6) NC d S T. cbn [E1 E2 E3 B1 B2 B3] in *.
  set (p := vm_problem cold MC MC 0 C).
  set (uh := fun x s i j => vm_f S x s i j + dt / 2 * rhs p (vm_f S) x s i j).
  assert (NN : forall i j, num (ions cold uh) i j = d i j).
  { intros i j. unfold ions. cbn [num]. rewrite cold_ion. unfold uh, p. rewrite cold_rhs by exact NC.
    unfold S; cbn [vm_f]. change (gN1 (lay (pc cold))) with 3%Z. change (gN2 (lay (pc cold))) with 3%Z.
    rewrite cold_gval by (apply Z.mod_pos_bound; lia). unfold d. ring. }
  unfold T, hyb_step. cbn [vm_cc vm_yee S]. fold p. fold uh. unfold hyb_fields, faraday. cbn [E1 E2 E3 B1 B2 B3].
  change (T_e cold) with 1. change (nth 0 (charge cold) 0) with 1. change (fdq1 (pf cold)) with 1. change (fdq2 (pf cold)) with 1.
  assert (S1 : forall i j, slope1 1 (num (ions cold uh)) i j = slope1 1 d i j) by (intros; unfold slope1; rewrite !NN; reflexivity).
  assert (S2 : forall i j, slope2 1 (num (ions cold uh)) i j = slope2 1 d i j) by (intros; unfold slope2; rewrite !NN; reflexivity).
  assert (DP : forall i j, d i j <> 0).
  { intros i j. unfold d. assert (0 < n (i mod 3)%Z (j mod 3)%Z) by (apply POS; apply Z.mod_pos_bound; lia). lra. }
  split; [|split; [|split]]; intros i j.
  - cbn [ohm E1]. cbv zeta. change (fdq1 (pf cold)) with 1. unfold fwd1, fwd2. rewrite !Y4, !Y5, !Y6, !S1, !NN.
    pose proof (DP i j). unfold Rdiv. rewrite !Rmult_1_l. ring.
  - cbn [ohm E2]. cbv zeta. change (fdq2 (pf cold)) with 1. unfold fwd1, fwd2. rewrite !Y4, !Y5, !Y6, !S2, !NN.
    pose proof (DP i j). unfold Rdiv. rewrite !Rmult_1_l. ring.
  - cbn [ohm E3]. cbv zeta. unfold fwd1, fwd2. rewrite !Y4, !Y5, !Y6. unfold Rdiv. ring.
  - cbn [ohm B3]. rewrite Y6. ring.
Qed.

(** One cell twice as dense as the others. *)
Definition bump (i j : Z) : R := if ((i =? 0) && (j =? 0))%Z then 2 else 1.
Lemma bump_pos i j : inb 3 i -> inb 3 j -> 0 < bump i j.
Proof. intros. unfold bump. destruct (_ && _); lra. Qed.

Lemma cold_run n dt : (forall i j, inb 3 i -> inb 3 j -> 0 < n i j) ->
  let d : grid := fun i j => n (i mod 3)%Z (j mod 3)%Z in
  exists s r, starts cold s /\ f_of s = sf (cold_state n) /\ time_elapsed s = 0
  /\ no_fields (vm_yee (contents cold s)) /\ no_fields (vm_cc (contents cold s))
  /\ run_steps (solver_stepper cold) [(Strang, dt)] s = Ok (r, None)
  /\ (forall i j, E1 (vm_yee (contents cold r)) i j = - ((slope1 1 d i j + slope1 1 d (i - 1)%Z j) / 2 / d i j))
  /\ (forall i j, E2 (vm_yee (contents cold r)) i j = - ((slope2 1 d i j + slope2 1 d i (j - 1)%Z) / 2 / d i j))
  /\ (forall i j, B3 (vm_yee (contents cold r)) i j
       = - dt * (bwd1 1 (E2 (vm_yee (contents cold r))) i j - bwd2 1 (E1 (vm_yee (contents cold r))) i j)).
Proof.
  intros POS d. destruct (cold_initial n) as (s&ST&F&T&NY&NC).
  set (S := VM (gval lay33 (sf (cold_state n))) (view lay33 (yee_val (fields s))) (view lay33 (cc_val (fields s)))).
  destruct (hyb_refines cold MC MC cold_wf cold_periodic cold_plasma cold_fvm [(Strang, dt)] s S ST) as (r&R&H&_).
  { split; [|split; apply same_refl]. rewrite F. split; [apply cold_shaped|]. reflexivity. }
  exists s, r. split; [exact ST|]. split; [exact F|]. split; [exact T|]. split; [exact NY|]. split; [exact NC|]. split; [exact R|].
  destruct (contents_holds cold r _ H) as (_&(A1&A2&A3&A4&A5&A6)&_). rewrite T in *. cbn [hyb_run] in *.
  destruct (cold_step n (view lay33 (yee_val (fields s))) (view lay33 (cc_val (fields s))) dt POS NY NC) as (B1&B2&B3&B4).
  fold S in B1, B2, B3, B4. fold d in B1, B2.
  split; [|split]; intros i j.
  - rewrite A1. apply B1.
  - rewrite A2. apply B2.
  - rewrite A6, B4. unfold bwd1, bwd2. rewrite !A1, !A2. reflexivity.
Qed.
