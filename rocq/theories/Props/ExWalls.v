(** An example with walls: a 4 x 4 grid on 2 x 1 ranks, two ghost zones,
    2 x 2 x 1 momenta, two species; mirror, mirror+dirichlet, dirichlet and mirror
    conditions at left, right, bottom and top. *)
From Coq Require Import ZArith Reals Lra Lia String List Bool.
From Verif Require Import Base.Prelude Base.ZSum Model.Af Model.Petsc Model.Config
  Spec.Domain Spec.Lattice Spec.FvmProblem Proofs.ConvLemmas Proofs.BoundaryLemmas.
Import ListNotations.
Local Open Scope R_scope.

Definition wl_lay : layout := Layout 4 4 [2;2]%Z [4]%Z 2 2 PGhosted PGhosted.

Definition wl_names (e : edge) : string :=
  match e with ELeft => "mirror" | ERight => "mirror+dirichlet" | EBottom => "dirichlet" | ETop => "mirror" end.

Definition wl_bc (r1 : nat) : arr R := Arr 4 2 6 8 (fun x s i j => IZR (x + 2 * s)).

(** [pg]: p_space_grid; [gh]: N_ghost; [nm]: boundary names. *)
Definition wl_cfg (pg : string) (gh : Z) (nm : edge -> string) : cfg :=
  Cfg wl_lay gh 2 2 1 2 0 4 0 4 1 1 [-1; -2] [-1; -2] [-1; -2] [1; 2] [1; 2] [2; 4]
    "FVM" "FVM" "minmod" "minmod" pg false false
    (fun _ _ _ _ p1 p2 _ => (p1, p2)) (fun _ _ _ _ p1 p2 _ => (p1, p2))
    (fun _ _ _ _ _ _ _ E1 E2 E3 _ _ _ => (E1, E2, E3)) (fun _ _ _ _ _ _ _ E1 E2 E3 _ _ _ => (E1, E2, E3))
    (fun _ _ _ w x s => 0)
    nm (fun _ _ _ _ _ => wl_bc 0) (3/2) 1
    (fun v _ _ _ _ => v) 0.

Definition wl_f : arr R := Arr 4 2 6 8 (fun x s i j => IZR (x + 2 * s + i * j)).

Lemma wl_wf pg gh nm : wf_cfg (wl_cfg pg gh nm) MC MC.
Proof. unfold wf_cfg. cbn. repeat split; try lia; auto. Qed.

Lemma wl_pos pg gh nm : pos_cfg (wl_cfg pg gh nm).
Proof. repeat split; cbn; lia. Qed.

Lemma wl_shaped pg gh nm : q_shaped (wl_cfg pg gh nm) 0 0 wl_f /\ q_shaped (wl_cfg pg gh nm) 0 0 (wl_bc 0).
Proof. repeat split. Qed.

Lemma wl_roomy e : roomy e 2 (n1g wl_lay 0) (n2g wl_lay 0).
Proof. destruct e; cbn; lia. Qed.
