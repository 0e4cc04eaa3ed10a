(** Example configurations of the coupled solver. *)
From Coq Require Import ZArith Reals Lra Lia String List Bool.
From Verif Require Import Base.Prelude Base.ZSum Model.Af Model.Petsc Model.Config Model.Fvm Model.Em
  Model.Moments Model.Splitting Model.Timestep Model.Solver Spec.Domain Spec.Lattice Spec.FvmProblem Spec.FvmRun
  Spec.Yee Spec.EmRun Spec.Clock Spec.SolverSpec
  Proofs.EmLemmas Proofs.EmStep Proofs.EmInit Proofs.EmVector Proofs.EmProps Proofs.EmWitness Proofs.Electrostatic Proofs.FileWitness Props.ExFvm Props.ExEm.
Import ListNotations.
Local Open Scope R_scope.

(** One species, 2 x 2 x 1 momenta, semi-Lagrangian advection in q and p. *)
Definition asl_cfg (L : layout) (fields : bool) : cfg :=
  Cfg L 3 2 2 1 1 0 4 0 3 1 1 [-1] [-1] [-1] [1] [1] [2]
    "ASL" "ASL" "ppm" "ppm" "cartesian" fields true
    (fun _ _ _ _ p1 p2 _ => (p1, p2)) (fun _ _ _ _ p1 p2 _ => (p1, p2))
    (fun _ _ _ _ _ _ _ E1 E2 E3 _ _ _ => (E1, E2, E3)) (fun _ _ _ _ _ _ _ E1 E2 E3 _ _ _ => (E1, E2, E3))
    (fun _ _ _ w x s => zsum 4 (fun y => w y s) / 4 - w x s)
    (fun _ => "periodic"%string) (fun _ _ _ _ f => f) 0 0
    (fun v _ _ _ _ => v) 0.

(** The source's equilibrium: the mean over momentum. *)
Definition mean_inst : R -> R -> R -> (Z -> Z -> R) -> Z -> Z -> R :=
  fun _ _ _ w _ s => zsum 4 (fun y => w y s) / 4.

Definition one_species (L : layout) : fstate :=
  FState (fun r1 r2 => Arr 4 1 (n1g L r1) (n2g L r2)
     (fun x s i j => IZR (1 + x + (off (blk1 L) r1 + i) * (off (blk2 L) r2 + j)))) (fun _ _ _ => 0).

(** ** Hybrid, 2 x 2 ranks *)
Definition hyb_em : fcfg :=
  FCfg ex_lay 3 0 0 1 (1/2) 2 1 (fun _ => "periodic"%string) (fun _ _ _ _ _ a => a)
    "fdtd" "user-defined" "ASL" true
    (Some (fun x y => (x, x * y, y))) None None None (Some (fun x y => (wave x y, 1))).
Lemma hyb_regular : regular hyb_em.
Proof.
  unfold regular, periodic_fields, periodic_layout, tiles; cbn.
  repeat split; try lia; try lra; repeat constructor; try lia.
Qed.
Definition ex_hybrid : params :=
  Params (asl_cfg ex_lay true) hyb_em "electrodynamic" [1] nonrel_moments 0 1 false mean_inst (fun a _ _ => a).
Lemma ex_hybrid_ok : hybrid_asl ex_hybrid.
Proof.
  constructor; try reflexivity; try (eexists; reflexivity).
  - apply hyb_regular.
  - repeat split.
Qed.

(** A state a run can start from. *)
Lemma ex_hybrid_start : exists s, wf_em (pf ex_hybrid) (fields s) /\ f_of s = sf (one_species ex_lay)
  /\ fields_solver_init hyb_em zeroJ = Ok (fields s) /\ time_elapsed s = 0.
Proof.
  destruct (init_total hyb_em zeroJ) as (_&e&_&H);
    [reflexivity|left; discriminate|right; split; [reflexivity|right; discriminate]|].
  exists (Solver (one_species ex_lay) e 0 0). split; [exact (proj1 (init_good _ _ _ hyb_regular H))|].
  repeat split. exact H.
Qed.

(** ** Electrostatic, 4 x 4 cells on one rank *)
Definition lay43 : layout := Layout 4 4 [4]%Z [4]%Z 3 3 PPeriodic PPeriodic.
Definition es_em (p : string) : fcfg :=
  FCfg lay43 3 0 0 (1/4) (1/4) 1 1 (fun _ => "periodic"%string) (fun _ _ _ _ _ a => a)
    "fft" "user-defined" p false (Some (fun _ _ => (1, 0, 0))) None None None (Some (fun _ _ => (0, 0))).
Lemma es_em_ok p : electrostatic_ok (es_em p).
Proof.
  unfold electrostatic_ok, regular, periodic_fields, periodic_layout, tiles; cbn.
  repeat split; try lia; try lra; repeat constructor; try lia.
Qed.
Definition ex_poisson : params :=
  Params (with_layout (ex_cfg "minmod" true) lay43) (es_em "FVM") "electrostatic" [1; -2] nonrel_moments 0 1
    false mean_inst (fun a _ _ => a).
Lemma ex_poisson_ok : wf_cfg (pc ex_poisson) MC PPM /\ periodic_fvm (pc ex_poisson) MC /\ plasma ex_poisson.
Proof.
  split; [exact (ex_wf "minmod" true MC eq_refl)|]. split.
  - unfold periodic_fvm, periodic_layout, tiles; cbn. repeat split; try lia; repeat constructor; lia.
  - constructor; reflexivity.
Qed.
Definition ex_stale : params :=
  Params (asl_cfg lay43 true) (es_em "ASL") "electrostatic" [1] nonrel_moments 0 1 false mean_inst (fun a _ _ => a).
Lemma ex_stale_ok : asl_fft ex_stale.
Proof. constructor; try reflexivity. repeat split. Qed.

Lemma es_start p rho : exists e, fields_solver_init (es_em p) rho = Ok e /\ wf_em (es_em p) e.
Proof.
  destruct (init_total (es_em p) rho) as (_&e&_&H);
    [reflexivity|left; discriminate|right; split; [reflexivity|right; discriminate]|].
  exists e. split; [exact H|]. exact (proj1 (init_good _ _ _ (proj1 (es_em_ok p)) H)).
Qed.
