(** Dump and load of the non-linear solver.
    Models /repo/bolt/lib/nonlinear/file_io/dump.py and load.py.

    A file is the vector PETSc wrote.  DMDA vectors are written in natural
    ordering: degrees of freedom fastest, then q1, then q2, whatever the process
    grid.  Viewer headers, file names and HDF5 keys are not modelled. *)
From Coq Require Import ZArith Reals String Ascii List Bool.
From Verif Require Import Base.Prelude Model.Af Model.Petsc Model.Config Model.Fvm Model.Em Model.Moments.
Import ListNotations.
Local Open Scope Z_scope.

Record file (A : Type) : Type := File { flen : Z; fdat : Z -> A }.
Arguments File {A} _ _. Arguments flen {A} _. Arguments fdat {A} _ _.

(** viewer(vec): [G] holds every rank's part of the global vector. *)
Definition vec_view {A} (L : layout) (dof : Z) (G : nat -> nat -> Z -> A) : file A :=
  File (dof * gN1 L * gN2 L) (fun x =>
    let c := x mod dof in
    let g1 := (x / dof) mod gN1 L in
    let g2 := x / dof / gN1 L in
    let o1 := owner (blk1 L) g1 in
    let o2 := owner (blk2 L) g2 in
    G o1 o2 (c + dof * ((g1 - off (blk1 L) o1) + bsize (blk1 L) o1 * (g2 - off (blk2 L) o2)))).

(** vec.load(viewer): PETSc compares the two lengths and nothing else. *)
Definition vec_load {A} (L : layout) (dof : Z) (F : file A) : res (nat -> nat -> Z -> A) :=
  if flen F =? dof * gN1 L * gN2 L then
    Ok (fun r1 r2 x =>
      let c := x mod dof in
      let i := (x / dof) mod bsize (blk1 L) r1 in
      let j := x / dof / bsize (blk1 L) r1 in
      fdat F (c + dof * ((off (blk1 L) r1 + i) + gN1 L * (off (blk2 L) r2 + j))))
  else Err PetscError.

(** dump_distribution_function, dump.py:121-168. *)
Definition dump_distribution_function (c : cfg) (s : fstate) : file R :=
  vec_view (lay c) (N_p c * N_species c)
           (fun r1 r2 => af_to_petsc_glob_array (lay c) (sf s r1 r2)).

(** load_distribution_function, load.py:10-43. *)
Definition load_distribution_function (c : cfg) (F : file R) (s : fstate) : res fstate :=
  let L := lay c in
  let? G := vec_load L (N_species c * N_p1 c * N_p2 c * N_p3 c) F in
  let F := fun r1 r2 => petsc_local_array_to_af L r1 r2 (N_p c) (N_species c)
                          (global_to_local L (N_p c * N_species c) G (sbuf s r1 r2) r1 r2) in
  Ok (FState F (fun r1 r2 => flat (F r1 r2))).

(** dump_EM_fields, dump.py:170-233: the Yee-grid array. *)
Definition dump_EM_fields (c : fcfg) (s : em) : file R :=
  vec_view (flay c) 6 (fun r1 r2 => af_to_petsc_glob_array (flay c) (yee_val s r1 r2)).

(** load_EM_fields, load.py:45-79: the Yee-grid attribute is rebound, then the
    cell-centred array is written in place. *)
Definition load_EM_fields (c : fcfg) (F : file R) (s : em) : res em :=
  let L := flay c in
  let? G := vec_load L 6 F in
  let F := fun r1 r2 => petsc_local_array_to_af L r1 r2 6 1
                          (global_to_local L 6 G (fbuf s r1 r2) r1 r2) in
  let s := set_fbuf (fun r1 r2 => flat (F r1 r2)) s in
  Ok (yee_grid_to_cell_centered_grid Both (bind_yee F s)).

(** ** Moments *)

(** dir(): names in increasing order. *)
Fixpoint insert (x : string) (l : list string) : list string :=
  match l with
  | [] => [x]
  | y :: t => if String.leb x y then x :: l else y :: insert x t
  end.
Definition sorted_names (l : list string) : list string := fold_right insert [] l.

(** a.startswith('_') *)
Definition private (a : string) : bool :=
  match a with String ch _ => Ascii.eqb ch "_" | EmptyString => false end.

(** attributes.remove(x): the first occurrence. *)
Fixpoint remove_first (x : string) (l : list string) : list string :=
  match l with
  | [] => []
  | y :: t => if String.eqb y x then t else y :: remove_first x t
  end.

(** dump.py:87-91 and nonlinear_solver.py:287-291; [names] is the module's
    namespace. *)
Definition attributes (names : list string) : list string :=
  remove_first "integral_over_v" (filter (fun a => negb (private a)) (sorted_names names)).

(** dump.py:93-101, one rank.  The name array_to_dump is unbound when there is no
    moment. *)
Fixpoint join_moments (c : cfg) (T : moment_table) (mu : R) (f : arr R) (acc : arr R)
    (l : list string) : res (arr R) :=
  match l with
  | [] => Ok acc
  | a :: l => let? m := compute_moments c T mu a f in
              join_moments c T mu f (join1 acc m) l
  end.

Definition moments_array (c : cfg) (T : moment_table) (mu : R) (f : arr R) (l : list string)
    : res (arr R) :=
  match l with
  | [] => Err UnboundLocalError
  | a :: l => let? m := compute_moments c T mu a f in join_moments c T mu f m l
  end.

(** Writing a rank's array to a vector's buffer (to_ndarray(buffer)).  An array of
    another size than the buffer is reported as an error here; nothing after such
    a write is meaningful. *)
Definition fill_buffer {A} (a : arr A) (n : Z) : res (arr A) :=
  if size a =? n then Ok a else Err ValueError.

(** dump_moments, dump.py:41-119. *)
Definition dump_moments (c : cfg) (names : list string) (T : moment_table) (mu : R) (s : fstate)
    : res (file R) :=
  let L := lay c in
  let l := attributes names in
  let dof := N_species c * Z.of_nat (List.length l) in
  let? A := all_ranks L (fun r1 r2 =>
      let? a := moments_array c T mu (sf s r1 r2) l in
      fill_buffer (interior L a) (dof * bsize (blk1 L) r1 * bsize (blk2 L) r2)) in
  Ok (vec_view L dof (fun r1 r2 => flat (A r1 r2))).

(** ** Auxiliary arrays *)

(** arrays[i][:, :, N_g:-N_g, N_g:-N_g], dump.py:26-33. *)
Definition aux_interior {A} (n_ghost : Z) (a : arr A) : arr A :=
  slice23 a n_ghost (- n_ghost) n_ghost (- n_ghost).

Definition aux_array {A} (n_ghost : Z) (l : list (arr A)) : res (arr A) :=
  match l with
  | [] => Err UnboundLocalError
  | a :: l => Ok (fold_left (fun acc b => join0 acc (aux_interior n_ghost b)) l (aux_interior n_ghost a))
  end.

(** dump_aux_arrays, dump.py:9-39.  [da] is the number of components of the DMDA
    kept from the first call, None before it; [L] is the process grid of that
    DMDA. *)
Definition dump_aux_arrays (L : layout) (n_ghost : Z) (arrays : list (dist R)) (da : option Z)
    : res (file R * option Z) :=
  let dof := match da with Some d => d | None => Z.of_nat (List.length arrays) end in
  if dof <=? 0 then Err PetscError else
  let? A := all_ranks L (fun r1 r2 =>
      let? a := aux_array n_ghost (map (fun F => F r1 r2) arrays) in
      fill_buffer a (dof * bsize (blk1 L) r1 * bsize (blk2 L) r2)) in
  Ok (vec_view L dof (fun r1 r2 => flat (A r1 r2)), Some dof).
