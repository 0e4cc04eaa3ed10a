(** Histories of finite-volume steps, and the hypotheses the conservation
    properties need. *)
From Coq Require Import ZArith Reals String List Bool.
From Verif Require Import Base.Prelude Base.ZSum Model.Af Model.Petsc Model.Config Model.Fvm
  Spec.Domain Spec.Lattice Spec.FvmProblem.
Import ListNotations.
Local Open Scope R_scope.

(** The fields seen by the force along each of the three momentum axes. *)
Definition fields3 : Type := (gfields * gfields * gfields)%type.
Definition prob (c : cfg) (k1 k2 : scheme) (t : R) (E : fields3) : problem :=
  problem_of c k1 k2 t (fst (fst E)) (snd (fst E)) (snd E).

Definition shows3 (L : layout) (A : fieldseq) (E : fields3) : Prop :=
  shows L (fun r1 r2 => fst (fst (A r1 r2))) (fst (fst E))
  /\ shows L (fun r1 r2 => snd (fst (A r1 r2))) (snd (fst E))
  /\ shows L (fun r1 r2 => snd (A r1 r2)) (snd E).

(** One call: the time, dt, and the fields handed to the two evaluations. *)
Record call : Type := Call { ct : R; cdt : R; cE0 : fieldseq; cEh : fieldseq }.

Fixpoint run_fvm (c : cfg) (l : list call) (s : fstate) : res fstate :=
  match l with
  | [] => Ok s
  | k :: l => let? s := timestep_fvm c (ct k) (cdt k) (cE0 k) (cEh k) s in run_fvm c l s
  end.

(** Velocities through faces one domain length apart are equal. *)
Definition velocity_periodic (c : cfg) : Prop :=
  forall s t q1 q2 p1 p2 p3,
    fst (C_q c s t (q1 + IZR (gN1 (lay c)) * dq1 c) q2 p1 p2 p3) = fst (C_q c s t q1 q2 p1 p2 p3)
    /\ snd (C_q c s t q1 (q2 + IZR (gN2 (lay c)) * dq2 c) p1 p2 p3) = snd (C_q c s t q1 q2 p1 p2 p3).

(** The velocity is the same everywhere in q-space. *)
Definition velocity_uniform (c : cfg) : Prop :=
  forall s t q1 q2 q1' q2' p1 p2 p3, C_q c s t q1 q2 p1 p2 p3 = C_q c s t q1' q2' p1 p2 p3.

(** The source moves particles between momenta only. *)
Definition source_conserves (c : cfg) : Prop :=
  source_enabled c = false \/
  forall t q1 q2 w s, zsum (N_p c) (fun x => source c t q1 q2 w x s) = 0.

(** Velocities seen by momentum index x and species s at time t. *)
Definition velocity (c : cfg) (t : R) (x s : Z) (q1 q2 : R) : R * R :=
  C_q c s t q1 q2 (mom1 c (1/2) x s) (mom2 c (1/2) x s) (mom3 c (1/2) x s).

(** The Courant condition for time step dt at time t. *)
Definition cfl (c : cfg) (t dt : R) : Prop :=
  0 <= dt /\ forall x s q1 q2, inb (N_p c) x -> inb (N_species c) s ->
  Rabs (fst (velocity c t x s q1 q2)) * dt / dq1 c + Rabs (snd (velocity c t x s q1 q2)) * dt / dq2 c <= 1.

(** The same configuration on another process grid, with another ghost width. *)
Definition with_layout (c : cfg) (L : layout) : cfg :=
  Cfg L (N_ghost c) (N_p1 c) (N_p2 c) (N_p3 c) (N_species c)
    (q1_start c) (q1_end c) (q2_start c) (q2_end c) (dq1 c) (dq2 c)
    (p1_start c) (p2_start c) (p3_start c) (dp1 c) (dp2 c) (dp3 c)
    (solver_method_in_q c) (solver_method_in_p c) (reconstruction_method_in_q c)
    (reconstruction_method_in_p c) (p_space_grid c) (fields_enabled c) (source_enabled c)
    (C_q c) (A_q c) (C_p c) (A_p c) (source c) (in_q c) (f_bc c) (shear_q c) (shear_omega c)
    (approx2 c) (loop_fuel c).

(** The distributed state of configuration c holds u on the global grid. *)
Definition holds (c : cfg) (F : dist R) (u : gstate) : Prop :=
  shaped (lay c) (N_p c) (N_species c) F /\
  forall x s g1 g2, inb (N_p c) x -> inb (N_species c) s ->
    inb (gN1 (lay c)) g1 -> inb (gN2 (lay c)) g2 -> gval (lay c) F x s g1 g2 = u x s g1 g2.

(** The same history on the global grid: time, dt and global fields per call. *)
Fixpoint run_global (c : cfg) (k1 k2 : scheme) (l : list (call * fields3 * fields3)) (u : gstate) : gstate :=
  match l with
  | [] => u
  | (k, E0, Eh) :: l =>
      run_global c k1 k2 l (midpoint (prob c k1 k2 (ct k) E0) (prob c k1 k2 (ct k) Eh) (cdt k) u)
  end.

(** The velocity through q1-faces does not depend on q2. *)
Definition velocity1_indep_q2 (c : cfg) : Prop :=
  forall s t q1 q2 q2' p1 p2 p3, fst (C_q c s t q1 q2 p1 p2 p3) = fst (C_q c s t q1 q2' p1 p2 p3).
