(** Stopping a coupled run and continuing it from its files. *)
From Coq Require Import ZArith Reals String List Bool.
From Verif Require Import Base.Prelude Model.Af Model.Petsc Model.Config Model.Fvm Model.Em Model.FileIO Model.Solver
  Spec.Domain Spec.Yee Spec.VlasovMaxwell.
Local Open Scope R_scope.

(** The two files of a run: dump_distribution_function and dump_EM_fields. *)
Definition dumps (P : params) (s : solver) : file R * file R :=
  (dump_distribution_function (pc P) (fpart s), dump_EM_fields (pf P) (fields s)).

(** A solver that loads both, as the example problems do (for instance
    example_problems/nonrelativistic_boltzmann/magnetized_blast_test/main.py:41-45),
    and whose clock the user sets to [t]. *)
Definition resume (P : params) (d : file R * file R) (t : R) (s : solver) : res solver :=
  let? x := load_distribution_function (pc P) (fst d) (fpart s) in
  let? e := load_EM_fields (pf P) (snd d) (fields s) in
  Ok (Solver x e t (cur_dt s)).

(** What the files tell: f, the staggered fields, and their averages to the centres. *)
Definition reloaded (S : vm_state) : vm_state := VM (vm_f S) (vm_yee S) (centred (vm_yee S)).
