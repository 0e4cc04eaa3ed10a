(** C18-C20: what the constructors check. *)
From Coq Require Import ZArith Reals Lra Lia String List Bool.
From Verif Require Import Base.Prelude Model.Af Model.Petsc Model.Config Model.Boundaries Model.Validate
  Spec.Inputs Proofs.ValidateLemmas Props.ExWalls.
Import ListNotations.
Local Open Scope Z_scope.

(** C18.  Missing: the same requirement when only the right or top end is
    'periodic', 'shearing-box' or 'none' (refuted below). *)
Theorem C18_pairs_partial : forall in_q, (exists r, check_boundaries in_q = Ok r)
  <-> (forall name, In name ["periodic"; "shearing-box"; "none"]%string ->
        (in_q ELeft = name -> in_q ERight = name) /\ (in_q EBottom = name -> in_q ETop = name)).
Proof. exact pairs_iff. Qed.
Print Assumptions C18_pairs_partial.

(** A one-sided periodic axis is accepted; nothing is then exchanged across the
    axis and the right ghost zones are never written. *)
Theorem C18_one_sided_refuted : exists in_q,
  is_ok (check_boundaries in_q) /\ in_q ELeft <> "periodic"%string /\ in_q ERight = "periodic"%string
  /\ fst (axis_type (in_q ELeft) 2) = PGhosted
  /\ forall r1 r2 t f, apply_edge (wl_cfg "cartesian" 2 in_q) r1 r2 t ERight f = Ok f.
Proof.
  exists (fun e => match e with ELeft => "mirror" | ERight => "periodic" | _ => "mirror" end%string).
  split; [|split; [discriminate|split; [reflexivity|split; [reflexivity|reflexivity]]]].
  eexists. reflexivity.
Qed.
Print Assumptions C18_one_sided_refuted.

Example C18_applies : check_boundaries (fun e => match e with ELeft | ERight => "shearing-box" | EBottom => "periodic" | _ => "mirror" end%string)
  = Err GenericException
  /\ check_boundaries (fun e => match e with ELeft | ERight => "shearing-box" | _ => "periodic" end%string) = Ok (None, Some 1).
Proof. split; reflexivity. Qed.

(** C19.  Exactly the inputs in [acceptable lex_le] are accepted, and then the
    spacings fit the domain.  Missing: start <= end for every species: lists of
    domain ends are compared lexicographically, so only the first species at which
    start and end differ is checked. *)
Theorem C19_validation_partial : forall a,
  ((exists sy, physical_system a = Ok sy) <-> acceptable lex_le a)
  /\ (forall sy, physical_system a = Ok sy -> spacings_fit a sy).
Proof. exact (fun a => conj (accepted_iff a) (accepted_spacings a)). Qed.
Print Assumptions C19_validation_partial.

Definition ex_inputs (starts ends : list R) : inputs :=
  Inputs [TStr; TFunction] TModule TFunction [TFunction] [TFunction; TModule] 2 2 (Some false)
    4 0 1 3 0 1 8 (PList starts) (PList ends) 8 (PList starts) (PList ends) 1 (PList [-1; -1]%R) (PList [1; 1]%R)
    3 "electrostatic" "fft".

Lemma ex_inputs_ok s e : List.length s = 2%nat -> List.length e = 2%nat -> lex_le s e ->
  acceptable lex_le (ex_inputs s e).
Proof.
  intros Ls Le H. unfold acceptable, well_typed, species_ok, has_domains. cbn.
  split; [|split; [|split; [|repeat split; try lia; try lra]]].
  - split; [intuition discriminate|]. split; [auto|]. split; auto. intuition auto.
  - split; auto. eexists; split; [reflexivity|discriminate].
  - unfold solver_known. split; [discriminate|]. intros _. right. reflexivity.
  - exists s, s, [-1; -1]%R, e, e, [1; 1]%R. repeat split; auto.
    intros k Hk _. destruct k as [|[|k]]; cbn in *; try lra; lia.
Qed.

Example C19_applies : exists sy, physical_system (ex_inputs [-4; -8]%R [4; 8]%R) = Ok sy /\ nth 1 (s_dp1 sy) 0%R = 2%R.
Proof.
  destruct (C19_validation_partial (ex_inputs [-4; -8]%R [4; 8]%R)) as [[_ H] F].
  destruct H as [sy E].
  { apply ex_inputs_ok; auto. intros k Hk _. destruct k as [|[|k]]; cbn in *; try lra; lia. }
  exists sy. split; auto. destruct (F sy E) as (_&_&_&K).
  destruct (K _ _ _ _ (or_introl eq_refl)) as (ls&le&E1&E2&_&V). cbn in E1, E2. injection E1 as <-. injection E2 as <-.
  specialize (V 1%nat ltac:(cbn; lia)). cbn in V. lra.
Qed.

(** A two-species domain whose second species has its end before its start. *)
Theorem C19_later_species_refuted : exists a sy ls le, physical_system a = Ok sy
  /\ i_p1_start a = PList ls /\ i_p1_end a = PList le /\ ~ all_le ls le /\ (nth 1 (s_dp1 sy) 0 < 0)%R.
Proof.
  destruct (C19_validation_partial (ex_inputs [-4; 8]%R [4; -8]%R)) as [[_ H] F].
  destruct H as [sy E].
  { apply ex_inputs_ok; auto. intros k Hk D. destruct k as [|[|k]]; cbn in *; [lra| |lia].
    specialize (D 0%nat ltac:(lia)). cbn in D. lra. }
  exists (ex_inputs [-4; 8]%R [4; -8]%R), sy, [-4; 8]%R, [4; -8]%R.
  split; [exact E|]. split; [reflexivity|]. split; [reflexivity|]. split.
  - intros L. specialize (L 1%nat ltac:(cbn; lia)). cbn in L. lra.
  - destruct (F sy E) as (_&_&_&K).
    destruct (K _ _ _ _ (or_introl eq_refl)) as (ls&le&E1&E2&_&V). cbn in E1, E2. injection E1 as <-. injection E2 as <-.
    specialize (V 1%nat ltac:(cbn; lia)). cbn in V. lra.
Qed.
Print Assumptions C19_later_species_refuted.

(** C20.  What each name leads to: with FVM in p-space an electrodynamic run is
    evolved whatever the accepted spelling, an electrostatic one only under the
    name 'fft'; with ASL in p-space only the name 'fdtd' has an effect. *)
Theorem C20_selection_partial : forall ft fs,
  (forall at_n, (In UFdtd (df_dt_updates ft fs at_n) <-> ft = "electrodynamic"%string /\ at_n = false)
             /\ (In UFft (df_dt_updates ft fs at_n) <-> ft = "electrostatic"%string /\ fs = "fft"%string))
  /\ op_fields_updates fs = if String.eqb fs "fdtd" then [UFdtd] else [].
Proof. exact (fun ft fs => conj (df_dt_updates_spec ft fs) (op_fields_updates_spec fs)). Qed.
Print Assumptions C20_selection_partial.

(** Accepted names that are not honoured: 'snes' in any spelling and 'FFT' never
    update the field; with ASL in p-space no electrostatic name does, nor does
    'FDTD' in capitals. *)
Theorem C20_names_refuted :
  (forall fs, upper fs = "SNES"%string -> solver_known "electrostatic" fs
     /\ (forall at_n, df_dt_updates "electrostatic" fs at_n = []) /\ op_fields_updates fs = [])
  /\ (solver_known "electrostatic" "FFT" /\ forall at_n, df_dt_updates "electrostatic" "FFT" at_n = [])
  /\ (forall fs, solver_known "electrostatic" fs -> op_fields_updates fs = [])
  /\ (solver_known "electrodynamic" "FDTD" /\ op_fields_updates "FDTD" = []).
Proof.
  split; [|split; [|split]].
  - intros fs H. assert (NF : fs <> "fft"%string) by (intros ->; discriminate).
    assert (ND : fs <> "fdtd"%string) by (intros ->; discriminate).
    split; [split; [discriminate|auto]|]. split.
    + intros at_n. unfold df_dt_updates. destruct (String.eqb_spec fs "fft"); [contradiction|]. reflexivity.
    + rewrite op_fields_updates_spec. destruct (String.eqb_spec fs "fdtd"); [contradiction|reflexivity].
  - split; [split; [discriminate|auto]|]. reflexivity.
  - intros fs [_ H]. rewrite op_fields_updates_spec. destruct (String.eqb_spec fs "fdtd") as [->|]; [|reflexivity].
    destruct (H eq_refl); discriminate.
  - split; [split; [auto|discriminate]|reflexivity].
Qed.
Print Assumptions C20_names_refuted.

Example C20_applies : upper "sNes" = "SNES"%string /\ solver_known "electrodynamic" "fdtd".
Proof. split; [reflexivity|]. split; [reflexivity|discriminate]. Qed.
