(** Example configurations that meet the hypotheses of the finite-volume
    theorems: a 4 x 3 grid on 2 x 2 ranks of unequal size, three ghost zones,
    2 x 2 x 1 momenta, two species. *)
From Coq Require Import ZArith Reals Lra Lia String List Bool.
From Verif Require Import Base.Prelude Base.ZSum Model.Af Model.Petsc Model.Config Model.Fvm
  Spec.Domain Spec.Lattice Spec.FvmProblem Spec.FvmRun.
Import ListNotations.
Local Open Scope R_scope.

Definition ex_lay : layout := Layout 4 3 [1;3]%Z [2;1]%Z 3 3 PPeriodic PPeriodic.
Definition ex_serial : layout := Layout 4 3 [4]%Z [3]%Z 4 3 PPeriodic PPeriodic.

(** [m]: reconstruction in q; [on]: forces and source switched on.  The source
    relaxes f to its mean over momentum. *)
Definition ex_cfg (m : string) (on : bool) : cfg :=
  Cfg ex_lay 3 2 2 1 2 0 4 0 3 1 1 [-1; -2] [-1; -2] [-1; -2] [1; 2] [1; 2] [2; 4]
    "FVM" "FVM" m "ppm" "cartesian" on on
    (fun _ _ _ _ p1 p2 _ => (p1, p2)) (fun _ _ _ _ p1 p2 _ => (p1, p2))
    (fun _ _ _ _ _ _ _ E1 E2 E3 _ _ _ => (E1, E2, E3)) (fun _ _ _ _ _ _ _ E1 E2 E3 _ _ _ => (E1, E2, E3))
    (fun _ _ _ w x s => zsum 4 (fun y => w y s) / 4 - w x s)
    (fun _ => "periodic"%string) (fun _ _ _ _ f => f) 0 0
    (fun v _ _ _ _ => v) 0.

(** A state that varies over cells, momenta, species; ghosts hold junk. *)
Definition ex_state (L : layout) : fstate :=
  FState (fun r1 r2 => Arr 4 2 (n1g L r1) (n2g L r2)
     (fun x s i j => if ((i <? ng1 L) || (j <? ng2 L))%Z then -7
                     else IZR (x + 2 * s + (off (blk1 L) r1 + i) * (off (blk2 L) r2 + j))))
   (fun _ _ _ => 0).

Lemma ex_wf m on k : scheme_of_name m = Some k -> wf_cfg (ex_cfg m on) k PPM.
Proof.
  intros H. unfold wf_cfg. cbn [N_p1 N_p2 N_p3 N_species p1_start p2_start p3_start dp1 dp2 dp3 ex_cfg List.length].
  repeat split; try lia; auto.
  intros t q1 q2 w w' E x s Hx Hs. cbn [source ex_cfg]. rewrite (zsum_ext 4 (fun y => w y s) (fun y => w' y s)).
  - rewrite E by auto. reflexivity.
  - intros; apply E; auto.
Qed.

Lemma ex_periodic m on k : periodic_fvm (ex_cfg m on) k.
Proof.
  unfold periodic_fvm, periodic_layout, tiles; cbn. repeat split; try lia; repeat constructor; try lia; destruct k; cbn; lia.
Qed.

Lemma ex_periodic_serial m on k : periodic_fvm (with_layout (ex_cfg m on) ex_serial) k.
Proof.
  unfold periodic_fvm, periodic_layout, tiles; cbn. repeat split; try lia; repeat constructor; try lia; destruct k; cbn; lia.
Qed.

Lemma ex_shaped m on : shaped ex_lay (N_p (ex_cfg m on)) (N_species (ex_cfg m on)) (sf (ex_state ex_lay)).
Proof. intros r1 r2 _. repeat split. Qed.

Lemma ex_vel m on : velocity_periodic (ex_cfg m on) /\ velocity_uniform (ex_cfg m on).
Proof. split; repeat intro; cbn; auto. Qed.

Lemma ex_source m on : source_conserves (ex_cfg m on).
Proof.
  right. intros. change (N_p (ex_cfg m on)) with 4%Z. cbn [source ex_cfg].
  rewrite zsum_minus, zsum_const by lia. field.
Qed.
