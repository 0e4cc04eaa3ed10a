(** Example electrodynamic plasmas: 4 x 3 cells on 2 x 2 ranks, two species of
    opposite charge, Lorentz force. *)
From Coq Require Import ZArith Reals Lra Lia String List Bool.
From Verif Require Import Base.Prelude Base.ZSum Model.Af Model.Petsc Model.Config Model.Fvm Model.Em
  Model.Moments Model.Splitting Model.Timestep Model.Solver Spec.Domain Spec.Lattice Spec.FvmProblem Spec.FvmRun
  Spec.Yee Spec.EmRun Spec.MomentSpec Spec.Clock Spec.SolverSpec Spec.VlasovMaxwell Spec.InitFields
  Proofs.EmLemmas Proofs.EmStep Proofs.EmInit Proofs.EmProps Proofs.VlasovMaxwell Proofs.InitFields Proofs.VmProps Props.ExFvm Props.ExEm Props.ExSolver.
Import ListNotations.
Local Open Scope R_scope.

(** q/m (E + v x B). *)
Definition lorentz (s : Z) (_ _ _ p1 p2 p3 E1 E2 E3 B1 B2 B3 : R) : R * R * R :=
  let qm := if (s =? 0)%Z then 1 else -2 in
  (qm * (E1 + p2 * B3 - p3 * B2), qm * (E2 + p3 * B1 - p1 * B3), qm * (E3 + p1 * B2 - p2 * B1)).

Definition vm_cfg (src : bool) : cfg :=
  Cfg ex_lay 3 2 2 1 2 0 4 0 3 1 1 [-1; -2] [-1; -2] [-1; -2] [1; 2] [1; 2] [2; 4]
    "FVM" "FVM" "minmod" "ppm" "cartesian" true src
    (fun _ _ _ _ p1 p2 _ => (p1, p2)) (fun _ _ _ _ p1 p2 _ => (p1, p2)) lorentz lorentz
    (fun _ _ _ w x s => zsum 4 (fun y => w y s) / 4 - w x s)
    (fun _ => "periodic"%string) (fun _ _ _ _ f => f) 0 0
    (fun v _ _ _ _ => v) 0.

(** Fields the user defines: E and B. *)
Definition vm_em (E B : R -> R -> R * R * R) : fcfg :=
  FCfg ex_lay 3 0 0 1 1 2 1 (fun _ => "periodic"%string) (fun _ _ _ _ _ a => a)
    "fdtd" "user-defined" "FVM" false (Some E) None (Some B) None None.

Definition vm_params (src : bool) (E B : R -> R -> R * R * R) : params :=
  Params (vm_cfg src) (vm_em E B) "electrodynamic" [1; -2] nonrel_moments 0 1 false mean_inst (fun a _ _ => a).

Lemma vm_regular E B : regular (vm_em E B).
Proof.
  unfold regular, periodic_fields, periodic_layout, tiles; cbn.
  repeat split; try lia; try lra; repeat constructor; try lia.
Qed.

Lemma vm_wf src : wf_cfg (vm_cfg src) MC PPM.
Proof.
  unfold wf_cfg. cbn [N_p1 N_p2 N_p3 N_species p1_start p2_start p3_start dp1 dp2 dp3 vm_cfg List.length].
  repeat split; try lia; auto.
  intros t q1 q2 w w' E x s Hx Hs. cbn [source vm_cfg]. rewrite (zsum_ext 4 (fun y => w y s) (fun y => w' y s)).
  - rewrite E by auto. reflexivity.
  - intros; apply E; auto.
Qed.
Lemma vm_periodic src : periodic_fvm (vm_cfg src) MC.
Proof. unfold periodic_fvm, periodic_layout, tiles; cbn. repeat split; try lia; repeat constructor; lia. Qed.
Lemma vm_plasma src E B : plasma (vm_params src E B).
Proof. constructor; reflexivity. Qed.
Lemma vm_maxwell src E B : maxwell (vm_params src E B).
Proof. constructor; try reflexivity. apply vm_regular. Qed.
Lemma vm_ballistic src E B : ballistic (vm_params src E B).
Proof. constructor; reflexivity. Qed.
Lemma vm_source src : source_conserves (vm_cfg src).
Proof.
  right. intros. change (N_p (vm_cfg src)) with 4%Z. cbn [source vm_cfg].
  rewrite zsum_minus, zsum_const by lia. field.
Qed.
Lemma vm_field_driven src : field_driven (vm_cfg src).
Proof.
  intros s t q1 q2 p1 p2 p3. cbn [C_p vm_cfg]. unfold lorentz.
  f_equal; [f_equal|]; ring.
Qed.
Lemma vm_uniform src : velocity_uniform (vm_cfg src).
Proof. repeat intro; cbn; auto. Qed.
Lemma vm_defines E B : defines_EB (vm_em E B) E B.
Proof. repeat split. Qed.

(** The state a solver holding [f] starts in. *)
Lemma vm_initial src E B (f : fstate) : shaped ex_lay 4 2 (sf f) ->
  exists s, starts (vm_params src E B) s /\ f_of s = sf f /\ time_elapsed s = 0
    /\ same_on 4 3 (view ex_lay (yee_val (fields s))) (on_shifted_grid (vm_em E B) E B)
    /\ same_on 4 3 (view ex_lay (cc_val (fields s))) (centred (on_shifted_grid (vm_em E B) E B)).
Proof.
  intros SH. destruct (initial_EB (vm_em E B) zeroJ E B (vm_regular E B) (vm_defines E B)) as (e&H&HY&HC).
  exists (Solver f e 0 0). split; [split; [exists zeroJ; exact H|exact SH]|]. split; [reflexivity|]. split; [reflexivity|]. split; assumption.
Qed.

Definition push (x y : R) : R * R * R := (x, x * y, 1 - y).
Definition twist (x y : R) : R * R * R := (y, x, x + y).
Definition none (x y : R) : R * R * R := (0, 0, 0).

(** f symmetric in p1 and p2, the same in every cell. *)
Definition even (x s : Z) : R := IZR (1 + s + x * (3 - x)).
Definition even_state : fstate :=
  FState (fun r1 r2 => Arr 4 2 (n1g ex_lay r1) (n2g ex_lay r2) (fun x s _ _ => even x s)) (fun _ _ _ => 0).
Lemma even_shaped : shaped ex_lay 4 2 (sf even_state).
Proof. intros r1 r2 _. repeat split. Qed.
Lemma even_holds src : holds (vm_cfg src) (sf even_state) (fun x s _ _ => even x s).
Proof. split; [apply even_shaped|]. intros. reflexivity. Qed.
Lemma even_current src E B : current_free (vm_params src E B) even.
Proof.
  unfold current_free, charge_moment, even. repeat split;
    cbv -[Rplus Rmult Rminus Ropp Rdiv Rinv IZR]; lra.
Qed.
Lemma none_fields L F c : gN1 L = 4%Z -> gN2 L = 3%Z ->
  (same_on 4 3 (view L F) (on_shifted_grid c none none) \/ same_on 4 3 (view L F) (centred (on_shifted_grid c none none))) ->
  no_fields (view L F).
Proof.
  intros G1 G2 H.
  assert (M : forall i j, inb 4 (i mod 4) /\ inb 3 (j mod 3)) by (intros; unfold inb; split; apply Z.mod_pos_bound; lia).
  assert (Q : forall k i j, gper L F k 0 i j = gper L F k 0 (i mod 4) (j mod 3)).
  { intros. unfold gper. rewrite G1, G2, !Zmod_mod. reflexivity. }
  unfold no_fields, same, view; cbn [E1 E2 E3 B1 B2 B3].
  repeat split; intros i j; rewrite Q; destruct (M i j) as (X&Y);
    (destruct H as [H|H]; destruct (H _ _ X Y) as (H1&H2&H3&H4&H5&H6);
     cbn [view E1 E2 E3 B1 B2 B3 centred on_shifted_grid on_yee_grid] in H1, H2, H3, H4, H5, H6;
     unfold placed, none in H1, H2, H3, H4, H5, H6; cbn [fst snd] in H1, H2, H3, H4, H5, H6; lra).
Qed.

(** The same plasma on one rank with four ghost zones along q1. *)
Lemma vm_periodic_serial src E B : periodic_fvm (pc (with_layouts (vm_params src E B) ex_serial)) MC.
Proof. unfold periodic_fvm, periodic_layout, tiles; cbn. repeat split; try lia; repeat constructor; lia. Qed.
