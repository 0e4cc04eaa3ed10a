(** What a field dump of an electrostatic run holds. *)
From Coq Require Import ZArith Reals Lia Lra String List Bool.
From Verif Require Import Base.Prelude Base.ZSum Model.Af Model.Grid Model.Petsc Model.Config
  Model.Boundaries Model.Fvm Model.Fft Model.Em Model.FileIO Spec.Domain Spec.Yee Spec.EmRun Spec.Files
  Proofs.AfLemmas Proofs.PetscLemmas Proofs.EmLemmas Proofs.EmStep Proofs.EmGrids Proofs.EmInit Proofs.EmVector
  Proofs.FileLemmas Proofs.FileMore Proofs.Electrostatic.
Import ListNotations.
Local Open Scope R_scope.

(** A user-defined uniform electric field. *)
Definition uniform_E (c : fcfg) (e : R) : Prop :=
  exists E, init_E c = Some E /\ (forall x y, fst (fst (E x y)) = e) /\ fields_initialize c = "user-defined"%string.

Lemma init_uniform c e rho s : regular c -> uniform_E c e -> fields_solver_init c rho = Ok s ->
  forall i j, inb (gN1 (flay c)) i -> inb (gN2 (flay c)) j -> gval (flay c) (yee_val s) 0 0 i j = e.
Proof.
  intros RG (E&IE&HE&UB) H. pose proof RG as ((PL&PE)&_).
  unfold fields_solver_init in H.
  destruct (initialize_fields c (dmap asum1 rho)) as [s1|er] eqn:E1; cbn [rbind] in H; [|discriminate H].
  destruct (initialize_ok c _ s1 PE E1) as (W1&_).
  assert (Hs : s = communicate_fields c true s1) by (injection H as <-; reflexivity).
  assert (Y1 : forall r1 r2 i j, rank_ok (flay c) r1 r2 -> el (yee_val s1 r1 r2) 0 0 i j = e).
  { intros r1 r2 i j RK. unfold initialize_fields in E1. rewrite UB in E1. cbn [String.eqb Ascii.eqb eqb] in E1.
    destruct (initialize_electric_fields c (fresh c)) as [s2|er] eqn:E2; cbn [rbind] in E1; [|discriminate E1].
    destruct (initialize_magnetic_fields c s2) as [s3|er] eqn:E3; cbn [rbind] in E1; [|discriminate E1].
    assert (W2 : wf_em c s2) by (eapply wf_set_joined; [|exact E2]; apply wf_fresh).
    assert (W3 : wf_em c s3) by (eapply wf_set_joined; [exact W2|exact E3]).
    assert (Y : yee_val s1 = yee_val s3).
    { apply Ok_inj in E1. rewrite <- E1.
      transitivity (yee_val (yee_grid_to_cell_centered_grid Both s3)); [reflexivity|]. apply (y2c_yee_val c); auto. }
    rewrite Y. clear Y E1 H Hs W1 W2 W3.
    unfold initialize_magnetic_fields, set_joined in E3.
    destruct (all_ranks (flay c) _) as [F|er] eqn:EF; cbn [rbind] in E3; [|discriminate E3].
    pose proof (all_ranks_Ok _ _ _ EF r1 r2 RK) as HF. cbv beta in HF.
    apply Ok_inj in E3. rewrite <- E3, yee_val_write.
    destruct (initial_B_rank c r1 r2) as [((a&b)&d)|er]; cbn [rbind] in HF; [|discriminate HF].
    apply Ok_inj in HF. rewrite <- HF. unfold set_rows at 1; cbn [el Z.leb Z.ltb Z.compare andb].
    clear HF EF F E3 a b d.
    unfold initialize_electric_fields, set_joined in E2.
    destruct (all_ranks (flay c) _) as [F|er] eqn:EF; cbn [rbind] in E2; [|discriminate E2].
    pose proof (all_ranks_Ok _ _ _ EF r1 r2 RK) as HF. cbv beta in HF.
    apply Ok_inj in E2. rewrite <- E2, yee_val_write.
    unfold initial_E_rank in HF. rewrite IE in HF. cbn [rbind] in HF.
    apply Ok_inj in HF. rewrite <- HF.
    match goal with |- context [join3 ?a ?b ?d] => pose proof (set_joined_rows 0 3 a b d (yee_val (fresh c) r1 r2) 0 i j
     eq_refl eq_refl eq_refl) as (X0&_) end.
    rewrite X0. unfold sample, amap2; cbn [el]. apply HE. }
  intros i j Hi Hj. rewrite Hs, yee_val_communicate.
  assert (inb 6 0) by (unfold inb; lia). assert (inb 1 0) by (unfold inb; lia).
  pose proof (communicate_gper (flay c) 6 1 (fbuf s1) (yee_val s1) 0 0 i j PL (shaped_yee c s1 W1) H0 H1) as X.
  unfold gper in X. unfold inb in Hi, Hj. rewrite !Z.mod_small in X by lia. rewrite X.
  apply (gval_of_el (flay c) (yee_val s1) 0 (fun _ _ => e)); auto.
Qed.

(** Any number of electrostatic updates. *)
Fixpoint electrostatic_run (c : fcfg) (l : list (dist R)) (s : em) : res em :=
  match l with
  | [] => Ok s
  | rho :: l => let? s := compute_electrostatic_fields c rho s in electrostatic_run c l s
  end.

Lemma run_dump c l : (forall e, fin_q c e = "periodic"%string) -> forall s s', wf_em c s ->
  electrostatic_run c l s = Ok s' -> dump_EM_fields c s' = dump_EM_fields c s /\ wf_em c s'.
Proof.
  intros PE. induction l as [|rho l IH]; intros s s' W H; cbn [electrostatic_run] in H.
  { apply Ok_inj in H. rewrite <- H. auto. }
  destruct (compute_electrostatic_fields c rho s) as [s1|e] eqn:E; cbn [rbind] in H; [|discriminate H].
  destruct (electrostatic_dump c rho s s1 W E PE) as (D1&W1).
  destruct (IH s1 s' W1 H) as (D2&W2). split; [congruence|auto].
Qed.

(** The dump of an electrostatic run is the dump of the initial fields. *)
Lemma stale_dump c l rho s0 s : regular c -> fields_solver_init c rho = Ok s0 -> electrostatic_run c l s0 = Ok s ->
  dump_EM_fields c s = dump_EM_fields c s0.
Proof.
  intros RG H0 H. pose proof RG as ((_&PE)&_). destruct (init_good c rho s0 RG H0) as (W&_).
  apply (run_dump c l PE s0 s W H).
Qed.

Lemma run_last c l rho : electrostatic_ok c -> forall s, wf_em c s ->
  (forall r, In r (l ++ [rho]) -> shaped (flay c) 1 1 (dmap asum1 r)) ->
  exists s', electrostatic_run c (l ++ [rho]) s = Ok s'
  /\ zsum (gN1 (flay c)) (fun i => zsum (gN2 (flay c)) (fun j => gval (flay c) (fst (get_fields c s')) 0 0 i j)) = 0.
Proof.
  intros OK. induction l as [|r l IH]; intros s W SH; cbn [app electrostatic_run].
  - destruct (electrostatic_fields c rho s OK W (SH rho (or_introl eq_refl))) as (s1&H1&_).
    rewrite H1. cbn [rbind]. exists s1. split; [reflexivity|].
    unfold get_fields. destruct OK as (A1&A2&A3&A4&A5&FS&A7). rewrite FS. cbn [String.eqb Ascii.eqb eqb negb fst].
    apply (electrostatic_mean c rho s s1); auto; [repeat split; auto; apply A1|]. apply SH; left; auto.
  - destruct (electrostatic_fields c r s OK W (SH r (or_introl eq_refl))) as (s1&H1&W1&_).
    rewrite H1. cbn [rbind]. apply IH; auto. intros x Hx. apply SH. right. exact Hx.
Qed.

Lemma stale_differs c e l rho0 rho s0 : electrostatic_ok c -> uniform_E c e -> e <> 0 -> fields_solver_init c rho0 = Ok s0 ->
  (forall r, In r (l ++ [rho]) -> shaped (flay c) 1 1 (dmap asum1 r)) ->
  exists s, electrostatic_run c (l ++ [rho]) s0 = Ok s
  /\ (forall i j, inb (gN1 (flay c)) i -> inb (gN2 (flay c)) j ->
        component (dump_EM_fields c s) (gN1 (flay c)) 6 0 i j = e)
  /\ exists i j, inb (gN1 (flay c)) i /\ inb (gN2 (flay c)) j
     /\ gval (flay c) (fst (get_fields c s)) 0 0 i j <> e.
Proof.
  intros OK UE NE H0 SH. pose proof (proj1 OK) as RG. pose proof RG as ((PL&PE)&_). pose proof PL as (T1&T2&_).
  destruct (init_good c rho0 s0 RG H0) as (W&_).
  destruct (run_last c l rho OK s0 W SH) as (s&H&Z). exists s. split; [exact H|]. split.
  - intros i j Hi Hj. rewrite (stale_dump c _ rho0 s0 s RG H0 H).
    rewrite <- (init_uniform c e rho0 s0 RG UE H0 i j Hi Hj).
    apply (view_component (flay c) 6 1 (yee_val s0) 0 0 i j); auto; try (unfold inb; lia).
    + apply periodic_layout_ok; auto.
    + apply shaped_yee; auto.
  - destruct (Req_EM_T (gval (flay c) (fst (get_fields c s)) 0 0 0 0) e) as [A|A].
    2:{ exists 0%Z, 0%Z. unfold inb. destruct T1, T2. repeat split; auto; lia. }
    (* some cell differs, since the sum is zero *)
    assert (X : forall N f, (0 <= N)%Z -> zsum N f <> IZR N * e -> exists i, inb N i /\ f i <> e).
    { intros N f HN. revert HN. apply (natlike_ind (fun N => zsum N f <> IZR N * e -> exists i, inb N i /\ f i <> e)).
      - intros C. exfalso. apply C. rewrite zsum_0 by lia. lra.
      - intros n Hn IH C. destruct (Req_EM_T (f n) e) as [B|B].
        + destruct IH as (i&Hi&Hf).
          * intros D. apply C. unfold Z.succ. rewrite zsum_succ, plus_IZR by lia. rewrite D, B. ring.
          * exists i. split; [unfold inb in *; lia|auto].
        + exists n. split; [unfold inb; lia|auto]. }
    destruct (X (gN1 (flay c)) (fun i => zsum (gN2 (flay c)) (fun j => gval (flay c) (fst (get_fields c s)) 0 0 i j) / IZR (gN2 (flay c)))) as (i&Hi&Fi).
    + destruct T1; lia.
    + unfold Rdiv. rewrite zsum_scal_r. rewrite Z, Rmult_0_l. intros C. symmetry in C. apply Rmult_integral in C.
      destruct C as [C|C]; [|auto]. apply eq_IZR in C. destruct T1; lia.
    + destruct (X (gN2 (flay c)) (fun j => gval (flay c) (fst (get_fields c s)) 0 0 i j)) as (j&Hj&Fj).
      * destruct T2; lia.
      * intros C. apply Fi. rewrite C. field. apply not_0_IZR. destruct T2; lia.
      * exists i, j. auto.
Qed.
