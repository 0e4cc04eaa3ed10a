(** What inputs a physical system should be built from. *)
From Coq Require Import ZArith Reals String List Bool.
From Verif Require Import Base.Prelude Model.Config Model.Validate.
Import ListNotations.
Local Open Scope Z_scope.

(** Right kinds of modules and functions. *)
Definition well_typed (a : inputs) : Prop :=
  ~ In TOther (bc_attrs a) /\ ic_type a = TModule /\ source_type a = TFunction
  /\ (forall t, In t (adv_attrs a ++ mom_attrs a) -> t = TFunction \/ t = TModule).

(** One mass per charge, one momentum domain per species; the hybrid model has
    only one species. *)
Definition species_ok (a : inputs) : Prop :=
  n_mass a = n_charge a /\ (exists h, hybrid a = Some h /\ (h = true -> n_charge a = 1%nat)).

Definition has_domains (a : inputs) (p : plist) (l : list R) : Prop :=
  p = PList l /\ List.length l = n_charge a.

(** Python's a <= b for lists of numbers of equal length: equal, or smaller at
    the first entry where they differ. *)
Definition lex_le (a b : list R) : Prop :=
  forall k, (k < List.length a)%nat ->
  (forall k', (k' < k)%nat -> nth k' a 0%R = nth k' b 0%R) -> (nth k a 0 <= nth k b 0)%R.

(** Every species' interval is ordered: what a user expects. *)
Definition all_le (a b : list R) : Prop :=
  forall k, (k < List.length a)%nat -> (nth k a 0 <= nth k b 0)%R.

Definition solver_known (ftype fsolver : string) : Prop :=
  (ftype = "electrodynamic"%string -> upper fsolver = "FDTD"%string)
  /\ (ftype = "electrostatic"%string -> upper fsolver = "SNES"%string \/ upper fsolver = "FFT"%string).

(** [le]: the order used to compare momentum domains. *)
Definition acceptable (le : list R -> list R -> Prop) (a : inputs) : Prop :=
  well_typed a /\ species_ok a /\ solver_known (fields_type a) (fields_solver a) /\ 0 <= i_N_ghost a
  /\ 0 < i_N_q1 a /\ 0 < i_N_q2 a
  /\ (i_q1_start a <= i_q1_end a)%R /\ (i_q2_start a <= i_q2_end a)%R
  /\ 0 <= i_N_p1 a /\ 0 <= i_N_p2 a /\ 0 <= i_N_p3 a
  /\ ((0 < n_charge a)%nat -> 0 < i_N_p1 a /\ 0 < i_N_p2 a /\ 0 < i_N_p3 a)
  /\ exists s1 s2 s3 e1 e2 e3,
     has_domains a (i_p1_start a) s1 /\ has_domains a (i_p2_start a) s2 /\ has_domains a (i_p3_start a) s3
     /\ has_domains a (i_p1_end a) e1 /\ has_domains a (i_p2_end a) e2 /\ has_domains a (i_p3_end a) e3
     /\ le s1 e1 /\ le s2 e2 /\ le s3 e3.

(** The grid spacings fit: N cells of width d fill the interval. *)
Definition spacings_fit (a : inputs) (sy : system) : Prop :=
  s_species sy = n_charge a
  /\ (s_dq1 sy * IZR (i_N_q1 a) = i_q1_end a - i_q1_start a)%R
  /\ (s_dq2 sy * IZR (i_N_q2 a) = i_q2_end a - i_q2_start a)%R
  /\ (forall p e d n, In (p, e, d, n) [(i_p1_start a, i_p1_end a, s_dp1 sy, i_N_p1 a);
                                       (i_p2_start a, i_p2_end a, s_dp2 sy, i_N_p2 a);
                                       (i_p3_start a, i_p3_end a, s_dp3 sy, i_N_p3 a)] ->
      exists ls le, p = PList ls /\ e = PList le /\ List.length d = n_charge a /\
      forall k, (k < n_charge a)%nat -> (nth k d 0 * IZR n = nth k le 0 - nth k ls 0)%R).
