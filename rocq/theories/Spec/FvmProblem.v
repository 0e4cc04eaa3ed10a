(** The kinetic problem on the global grid that a solver configuration stands
    for: grid positions, momentum positions, velocities, forces, source. *)
From Coq Require Import ZArith Reals String List Bool.
From Verif Require Import Base.Prelude Model.Af Model.Petsc Model.Config Spec.Lattice Spec.Domain.
Local Open Scope R_scope.

(** Momentum coordinates of momentum index x = i1 + N_p1 (i2 + N_p2 i3) and
    species s; [o] is 1/2 for centres and 0 for lower faces. *)
Definition mom1 (c : cfg) (o : R) (x s : Z) : R :=
  nth (Z.to_nat s) (p1_start c) 0 + (o + IZR (x mod N_p1 c)) * nth (Z.to_nat s) (dp1 c) 0.
Definition mom2 (c : cfg) (o : R) (x s : Z) : R :=
  nth (Z.to_nat s) (p2_start c) 0 + (o + IZR ((x / N_p1 c) mod N_p2 c)) * nth (Z.to_nat s) (dp2 c) 0.
Definition mom3 (c : cfg) (o : R) (x s : Z) : R :=
  nth (Z.to_nat s) (p3_start c) 0 + (o + IZR (x / N_p1 c / N_p2 c)) * nth (Z.to_nat s) (dp3 c) 0.

(** Position along q1 and q2 of global cell g: [o] = 0 lower face, 1/2 centre. *)
Definition pos1 (c : cfg) (o : R) (g : Z) : R := q1_start c + (IZR g + o) * dq1 c.
Definition pos2 (c : cfg) (o : R) (g : Z) : R := q2_start c + (IZR g + o) * dq2 c.

(** The six cell-centred fields at a global cell, as seen by the force on each
    momentum axis. *)
Definition gfields : Type := Z -> Z -> Z -> R.

Definition p_is_fvm (c : cfg) : bool :=
  String.eqb (solver_method_in_p c) "FVM" && fields_enabled c.

Definition accel (c : cfg) (t : R) (E : gfields) (o1 o2 o3 : R) (x s g1 g2 : Z) : R * R * R :=
  C_p c s t (pos1 c (1/2) g1) (pos2 c (1/2) g2) (mom1 c o1 x s) (mom2 c o2 x s) (mom3 c o3 x s)
      (E 0%Z g1 g2) (E 1%Z g1 g2) (E 2%Z g1 g2) (E 3%Z g1 g2) (E 4%Z g1 g2) (E 5%Z g1 g2).

(** [o2] is the offset along q2 at which the velocity through left faces is
    taken: 1/2 (the face centre) is the textbook choice, 0 the lower corner. *)
Definition problem_at (o2 : R) (c : cfg) (k_q k_p : scheme) (t : R) (E1 E2 E3 : gfields) : problem :=
  let on := p_is_fvm c in
  Problem (gN1 (lay c)) (gN2 (lay c)) (dq1 c) (dq2 c) k_q
    (fun x s g1 g2 => fst (C_q c s t (pos1 c 0 g1) (pos2 c o2 g2)
                              (mom1 c (1/2) x s) (mom2 c (1/2) x s) (mom3 c (1/2) x s)))
    (fun x s g1 g2 => snd (C_q c s t (pos1 c (1/2) g1) (pos2 c 0 g2)
                              (mom1 c (1/2) x s) (mom2 c (1/2) x s) (mom3 c (1/2) x s)))
    (fun g1 g2 w x s => if source_enabled c
                        then source c t (pos1 c (1/2) g1) (pos2 c (1/2) g2) w x s else 0)
    (N_p1 c) (N_p2 c) (N_p3 c)
    (fun s => nth (Z.to_nat s) (dp1 c) 0) (fun s => nth (Z.to_nat s) (dp2 c) 0)
    (fun s => nth (Z.to_nat s) (dp3 c) 0) k_p
    (fun x s g1 g2 => if on then fst (fst (accel c t E1 0 (1/2) (1/2) x s g1 g2)) else 0)
    (fun x s g1 g2 => if on then snd (fst (accel c t E2 (1/2) 0 (1/2) x s g1 g2)) else 0)
    (fun x s g1 g2 => if on then snd (accel c t E3 (1/2) (1/2) 0 x s g1 g2) else 0).

(** The code's choice. *)
Definition problem_of := problem_at 0.
(** The textbook's. *)
Definition textbook_problem := problem_at (1/2).

(** A well-formed configuration: non-empty momentum grid, one entry per species,
    known reconstructions, a source that looks only at the cell's own values. *)
Definition wf_cfg (c : cfg) (k_q k_p : scheme) : Prop :=
  (0 < N_p1 c)%Z /\ (0 < N_p2 c)%Z /\ (0 < N_p3 c)%Z /\ (0 < N_species c)%Z
  /\ Z.of_nat (List.length (p1_start c)) = N_species c
  /\ Z.of_nat (List.length (p2_start c)) = N_species c
  /\ Z.of_nat (List.length (p3_start c)) = N_species c
  /\ Z.of_nat (List.length (dp1 c)) = N_species c
  /\ Z.of_nat (List.length (dp2 c)) = N_species c
  /\ Z.of_nat (List.length (dp3 c)) = N_species c
  /\ scheme_of_name (reconstruction_method_in_q c) = Some k_q
  /\ (p_is_fvm c = true -> scheme_of_name (reconstruction_method_in_p c) = Some k_p)
  /\ (forall t q1 q2 w w',
        (forall x s, inb (N_p c) x -> inb (N_species c) s -> w x s = w' x s) ->
        forall x s, inb (N_p c) x -> inb (N_species c) s ->
        source c t q1 q2 w x s = source c t q1 q2 w' x s).

(** FVM in q-space on a periodic domain with enough ghost zones. *)
Definition periodic_fvm (c : cfg) (k_q : scheme) : Prop :=
  solver_method_in_q c = "FVM"%string
  /\ (forall e, in_q c e = "periodic"%string)
  /\ periodic_layout (lay c)
  /\ (radius k_q < ng1 (lay c))%Z /\ (radius k_q < ng2 (lay c))%Z.

(** The field arrays of all ranks show [E] at their interior cells. *)
Definition shows (L : layout) (A : nat -> nat -> arr R) (E : gfields) : Prop :=
  forall r1 r2 i j n, rank_ok L r1 r2 -> inb (bsize (blk1 L) r1) i -> inb (bsize (blk2 L) r2) j ->
  inb 6 n ->
  el (A r1 r2) n 0 (ng1 L + i)%Z (ng2 L + j)%Z
  = E n (off (blk1 L) r1 + i)%Z (off (blk2 L) r2 + j)%Z.
