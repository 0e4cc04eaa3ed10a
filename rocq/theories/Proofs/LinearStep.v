(** The linear solver's time step: invariants. *)
From Coq Require Import ZArith Reals Lra Lia String List Bool FunctionalExtensionality.
From Verif Require Import Base.Prelude Base.ZSum Base.Cplx Model.Af Model.Grid Model.Petsc Model.Config Model.Fft
  Model.Moments Model.Integrators Model.Linear Spec.Dft Spec.Waves Spec.MomentSpec Spec.LinearSpec Spec.RungeKutta
  Proofs.AfLemmas Proofs.DftLemmas Proofs.ConvLemmas Proofs.MomentLemmas Proofs.FourierLemmas Proofs.LinearLemmas
  Proofs.IntegratorProps.
Import ListNotations.
Local Open Scope R_scope.

(** ** Runge-Kutta methods keep linear invariants *)
Definition functional {I} (L : (I -> R) -> R) : Prop :=
  forall a b x y, L (fun i => a * x i + b * y i) = a * L x + b * L y.

Section Invariant.
  Context {I : Type} (L : (I -> R) -> R) (HL : functional L).
  Lemma L_zero : L (fun _ => 0) = 0.
  Proof.
    replace (fun _ : I => 0) with (fun i : I => 0 * (fun _ : I => 0) i + 0 * (fun _ : I => 0) i)
      by (apply functional_extensionality; intros; ring).
    rewrite HL. ring.
  Qed.
  Lemma combine_inv cs ks : Forall (fun k => L k = 0) ks -> L (combine_stages cs ks) = 0.
  Proof.
    intros H. revert cs. induction H as [|k ks Hk Hks IH]; intros cs.
    - replace (combine_stages cs []) with (fun _ : I => 0); [apply L_zero|].
      apply functional_extensionality; intros i. unfold combine_stages. destruct cs; reflexivity.
    - destruct cs as [|a cs].
      + replace (combine_stages [] (k :: ks)) with (fun _ : I => 0); [apply L_zero|].
        apply functional_extensionality; intros i. reflexivity.
      + replace (combine_stages (a :: cs) (k :: ks)) with (fun i : I => a * k i + 1 * combine_stages cs ks i).
        * rewrite HL, Hk, IH. ring.
        * apply functional_extensionality; intros i. unfold combine_stages. cbn. ring.
  Qed.
  Lemma stages_inv f t x dt rs ks : (forall t x, L (f t x) = 0) -> Forall (fun k => L k = 0) ks ->
    Forall (fun k => L k = 0) (stages f t x dt rs ks).
  Proof.
    intros Hf. revert ks. induction rs as [|r rs IH]; intros ks H; cbn; auto.
    apply IH. apply Forall_app. split; auto.
  Qed.
  Lemma rk_inv T f t x dt : (forall t x, L (f t x) = 0) -> L (rk_step T f t x dt) = L x.
  Proof.
    intros Hf. unfold rk_step.
    replace (fun i => x i + dt * combine_stages (weights T) (stages f t x dt (rows T) []) i)
      with (fun i => 1 * x i + dt * combine_stages (weights T) (stages f t x dt (rows T) []) i)
      by (apply functional_extensionality; intros; ring).
    rewrite HL, combine_inv by (apply stages_inv; auto). ring.
  Qed.
End Invariant.

Lemma ext_all {I J} (f : (I -> R) -> (J -> R)) : extensional f.
Proof. intros x y H. apply functional_extensionality in H. subst. auto. Qed.
Lemma ext2_all {I J K} (f : (I -> R) -> (J -> R) -> (K -> R)) : extensional2 f.
Proof. intros x x' y y' H H'. apply functional_extensionality in H, H'. subst. auto. Qed.

Lemma lin_RK_is m {I} (f : R -> vec I -> vec I) x dt t :
  lin_RK m f x dt t = (rk_step (tableau_of m) f t x dt, t + dt).
Proof.
  destruct (proj1 linear_methods I f x dt t (fun s => ext_all _)) as (A&B&C&D&E&F).
  destruct m; cbn [lin_RK tableau_of];
    [rewrite (surjective_pairing (lin_RK2 f x dt t)), D
    |rewrite (surjective_pairing (lin_RK4 f x dt t)), E
    |rewrite (surjective_pairing (lin_RK5 f x dt t)), F]; f_equal; apply functional_extensionality; auto.
Qed.
Lemma lin_RK_coupled_is m {I J} (fx : R -> vec I -> vec J -> vec I) (fy : R -> vec I -> vec J -> vec J) x y dt t :
  lin_RK_coupled m fx x fy y dt t
  = ((fun i => rk_step (tableau_of m) (coupled fx fy) t (both x y) dt (inl i)),
     (fun j => rk_step (tableau_of m) (coupled fx fy) t (both x y) dt (inr j)), t + dt).
Proof.
  destruct (proj1 (proj2 linear_methods) I J fx fy x y dt t (fun s => ext2_all _) (fun s => ext2_all _)) as ((A&A')&(B&B')&(C&C')).
  destruct m; cbn [lin_RK_coupled tableau_of];
    [destruct (lin_RK2_coupled fx x fy y dt t) as ((u&v)&w)
    |destruct (lin_RK4_coupled fx x fy y dt t) as ((u&v)&w)
    |destruct (lin_RK5_coupled fx x fy y dt t) as ((u&v)&w)]; cbn [fst snd] in *; subst w; f_equal; f_equal;
  apply functional_extensionality; intros i;
  solve [exact (A (inl i))|exact (A (inr i))|exact (B (inl i))|exact (B (inr i))|exact (C (inl i))|exact (C (inr i))].
Qed.

(** ** Sums over momentum space *)
Lemma csum_lin n a b f g : csum n (fun i => cadd (cscale a (f i)) (cscale b (g i))) = cadd (cscale a (csum n f)) (cscale b (csum n g)).
Proof. rewrite csum_add, !csum_scale. reflexivity. Qed.

Section S3.
  Context (c : cfg).
  Lemma csum3_ext g h : (forall i1 i2 i3, inb (N_p1 c) i1 -> inb (N_p2 c) i2 -> inb (N_p3 c) i3 -> g i1 i2 i3 = h i1 i2 i3) ->
    csum3 c g = csum3 c h.
  Proof. intros H. unfold csum3. apply csum_ext; intros. apply csum_ext; intros. apply csum_ext; intros. auto. Qed.
  Lemma csum3_lin a b g h : csum3 c (fun i1 i2 i3 => cadd (cscale a (g i1 i2 i3)) (cscale b (h i1 i2 i3)))
    = cadd (cscale a (csum3 c g)) (cscale b (csum3 c h)).
  Proof.
    unfold csum3. rewrite <- csum_lin. apply csum_ext; intros. rewrite <- csum_lin. apply csum_ext; intros. apply csum_lin.
  Qed.
  Lemma csum3_add g h : csum3 c (fun i1 i2 i3 => cadd (g i1 i2 i3) (h i1 i2 i3)) = cadd (csum3 c g) (csum3 c h).
  Proof.
    unfold csum3. rewrite <- csum_add. apply csum_ext; intros. rewrite <- csum_add. apply csum_ext; intros. apply csum_add.
  Qed.
  Lemma csum3_sub g h : csum3 c (fun i1 i2 i3 => csub (g i1 i2 i3) (h i1 i2 i3)) = csub (csum3 c g) (csum3 c h).
  Proof.
    unfold csum3. rewrite <- csum_sub. apply csum_ext; intros. rewrite <- csum_sub. apply csum_ext; intros. apply csum_sub.
  Qed.
  Lemma csum3_mul z g : csum3 c (fun i1 i2 i3 => cmul z (g i1 i2 i3)) = cmul z (csum3 c g).
  Proof.
    unfold csum3. rewrite <- csum_mul_l. apply csum_ext; intros. rewrite <- csum_mul_l. apply csum_ext; intros. apply csum_mul_l.
  Qed.
  Lemma csum3_scale a g : csum3 c (fun i1 i2 i3 => cscale a (g i1 i2 i3)) = cscale a (csum3 c g).
  Proof.
    unfold csum3. rewrite <- csum_scale. apply csum_ext; intros. rewrite <- csum_scale. apply csum_ext; intros. apply csum_scale.
  Qed.
  Lemma csum3_z1 g : (forall i2 i3, inb (N_p2 c) i2 -> inb (N_p3 c) i3 -> csum (N_p1 c) (fun i1 => g i1 i2 i3) = c0) -> csum3 c g = c0.
  Proof.
    intros H. unfold csum3. rewrite (csum_ext _ _ (fun _ => c0)); [apply csum_zero|]. intros i3 H3.
    rewrite (csum_ext _ _ (fun _ => c0)); [apply csum_zero|]. auto.
  Qed.
  Lemma csum3_z2 g : (forall i1 i3, inb (N_p1 c) i1 -> inb (N_p3 c) i3 -> csum (N_p2 c) (fun i2 => g i1 i2 i3) = c0) -> csum3 c g = c0.
  Proof.
    intros H. unfold csum3. rewrite (csum_ext _ _ (fun _ => c0)); [apply csum_zero|]. intros i3 H3. rewrite csum_swap.
    rewrite (csum_ext _ _ (fun _ => c0)); [apply csum_zero|]. auto.
  Qed.
  Lemma csum3_z3 g : (forall i1 i2, inb (N_p1 c) i1 -> inb (N_p2 c) i2 -> csum (N_p3 c) (fun i3 => g i1 i2 i3) = c0) -> csum3 c g = c0.
  Proof.
    intros H. unfold csum3. rewrite csum_swap. rewrite (csum_ext _ _ (fun _ => c0)); [apply csum_zero|]. intros i2 H2. rewrite csum_swap.
    rewrite (csum_ext _ _ (fun _ => c0)); [apply csum_zero|]. auto.
  Qed.
  Lemma csum_np g : momentum_grid_ok c -> csum (N_p c) g = csum3 c (fun i1 i2 i3 => g (i1 + N_p1 c * (i2 + N_p2 c * i3))%Z).
  Proof.
    intros (A&B&C&_). unfold csum3, N_p. apply cplx_eq; cbn [csum re im fst snd];
    rewrite <- Z.mul_assoc, zsum_mul by lia; rewrite zsum_mul by lia; reflexivity.
  Qed.
End S3.

(** The periodic stencils sum to nothing. *)
Lemma csum_shift n d (f : Z -> cplx) : (0 < n)%Z -> csum n (fun i => f ((i - d) mod n)%Z) = csum n f.
Proof.
  intros H. apply cplx_eq; cbn [csum re im fst snd].
  - apply (zsum_shift_sub n (fun i => re (f i)) d H).
  - apply (zsum_shift_sub n (fun i => im (f i)) d H).
Qed.
Lemma stencil_zero n (g : Z -> Z -> cplx) (s : cplx) :
  (forall d, csum n (fun i => g d i) = s) ->
  csum n (fun i => csub (cadd (cadd (copp (g (-2)%Z i)) (cscale 8 (g (-1)%Z i))) (g 2%Z i)) (cscale 8 (g 1%Z i))) = c0.
Proof.
  intros H. rewrite csum_sub, !csum_add, !csum_scale.
  rewrite (csum_ext n (fun i => copp (g (-2)%Z i)) (fun i => cscale (-1) (g (-2)%Z i))) by (intros; cplx_ring).
  rewrite csum_scale, !H. cplx_ring.
Qed.
Lemma stencil4_zero0 (a : arr cplx) j k l : (0 < d0 a)%Z -> csum (d0 a) (fun i => el (stencil4 (shift_axis 0 a)) i j k l) = c0.
Proof.
  intros H. apply (stencil_zero _ (fun d i => el (shift a d 0 0 0) i j k l) (csum (d0 a) (fun i => el a i ((j-0) mod d1 a) ((k-0) mod d2 a) ((l-0) mod d3 a))%Z)).
  intros d. cbn [shift el]. apply (csum_shift (d0 a) d (fun i => el a i ((j-0) mod d1 a) ((k-0) mod d2 a) ((l-0) mod d3 a))%Z H).
Qed.
Lemma stencil4_zero1 (a : arr cplx) i k l : (0 < d1 a)%Z -> csum (d1 a) (fun j => el (stencil4 (shift_axis 1 a)) i j k l) = c0.
Proof.
  intros H. apply (stencil_zero _ (fun d j => el (shift a 0 d 0 0) i j k l) (csum (d1 a) (fun j => el a ((i-0) mod d0 a) j ((k-0) mod d2 a) ((l-0) mod d3 a))%Z)).
  intros d. cbn [shift el]. apply (csum_shift (d1 a) d (fun j => el a ((i-0) mod d0 a) j ((k-0) mod d2 a) ((l-0) mod d3 a))%Z H).
Qed.
Lemma stencil4_zero2 (a : arr cplx) i j l : (0 < d2 a)%Z -> csum (d2 a) (fun k => el (stencil4 (shift_axis 2 a)) i j k l) = c0.
Proof.
  intros H. apply (stencil_zero _ (fun d k => el (shift a 0 0 d 0) i j k l) (csum (d2 a) (fun k => el a ((i-0) mod d0 a) ((j-0) mod d1 a) k ((l-0) mod d3 a))%Z)).
  intros d. cbn [shift el]. apply (csum_shift (d2 a) d (fun k => el a ((i-0) mod d0 a) ((j-0) mod d1 a) k ((l-0) mod d3 a))%Z H).
Qed.
(** The real stencil is the complex one. *)
Lemma stencil4r_C axis (a : arr R) i j k l :
  RtoC (el (stencil4r (shift_axis axis a)) i j k l) = el (stencil4 (shift_axis axis (amap RtoC a))) i j k l.
Proof. destruct axis as [|[|]]; cbn; cplx_ring. Qed.

(** ** The right-hand side *)
Section R.
  Context (c : lcfg) (OK : lin_ok c).
  Notation p := (ph c).
  Notation np := (N_p (ph c)).
  Notation ns := (N_species (ph c)).
  Notation row := (fun i1 i2 i3 => i1 + N_p1 p * (i2 + N_p2 p * i3))%Z.
  Let MG : momentum_grid_ok p := proj1 OK.
  Let P1 : (0 < lN1 c)%Z := proj1 (proj2 OK).
  Let P2 : (0 < lN2 c)%Z := proj1 (proj2 (proj2 OK)).

  Lemma dfdp_el axis dp (b : arr R) i1 i2 i3 s : inb (N_p1 p) i1 -> inb (N_p2 p) i2 -> inb (N_p3 p) i3 -> inb ns s ->
    el (dfdp_background c axis dp b) (row i1 i2 i3) s 0 0
    = el (stencil4r (shift_axis axis (moddims b (N_p1 p) (N_p2 p) (N_p3 p) ns))) i1 i2 i3 s * / (12 * nth (Z.to_nat s) dp 0).
  Proof.
    intros H1 H2 H3 Hs. pose proof MG as (A&B&C&E&_). unfold dfdp_background.
    set (a := moddims b _ _ _ _). set (w := Arr 1 1 1 ns _).
    set (S := stencil4r _).
    assert (DS : dims4 S (N_p1 p) (N_p2 p) (N_p3 p) ns) by (destruct axis as [|[|]]; repeat split).
    assert (DB : dims4 (bcast2 Rmult S w) (N_p1 p) (N_p2 p) (N_p3 p) ns).
    { destruct DS as (X&Y&Z'&W). unfold dims4. cbn [bcast2 d0 d1 d2 d3 w]. rewrite X, Y, Z', W. lia. }
    destruct DB as (X&Y&Z'&W). unfold moddims at 1, of_flat. cbn [el].
    replace (lin np ns 1 (row i1 i2 i3) s 0 0) with (lin (d0 (bcast2 Rmult S w)) (d1 (bcast2 Rmult S w)) (d2 (bcast2 Rmult S w)) i1 i2 i3 s)
      by (rewrite X, Y, Z'; unfold lin, N_p; ring).
    rewrite flat_lin by (unfold inside; rewrite X, Y, Z', W; auto).
    cbn [bcast2 el]. unfold bel. destruct DS as (X'&Y'&Z''&W'). rewrite X', Y', Z'', W', !bidx_in by auto.
    f_equal. change (/ (12 * nth (Z.to_nat (bidx ns s)) dp 0) = / (12 * nth (Z.to_nat s) dp 0)). rewrite bidx_in by auto. reflexivity.
  Qed.

  Lemma check_species : ddelta_check c = Ok tt -> ns = 1%Z \/ ns = N_p2 p.
  Proof.
    pose proof MG as (A&B&C&E&_). unfold ddelta_check, bcompat, N_p.
    destruct (Z.eqb_spec (N_p2 p) ns); [auto|]. destruct (Z.eqb_spec ns 1); [auto|].
    destruct (Z.eqb_spec (N_p2 p) 1) as [Q|Q]; cbn; [|discriminate]. rewrite Q.
    destruct (Z.eqb_spec (N_p1 p * Z.max 1 ns * N_p3 p * (ns * lN1 c * lN2 c)) (N_p1 p * 1 * N_p3 p * ns * lN1 c * lN2 c)) as [Q2|Q2]; [|discriminate].
    intros _. exfalso. rewrite Z.max_r in Q2 by lia.
    assert (X : (0 < N_p1 p * N_p3 p * ns * lN1 c * lN2 c)%Z) by (repeat apply Z.mul_pos_pos; auto).
    assert (Y : ((ns - 1) * (N_p1 p * N_p3 p * ns * lN1 c * lN2 c) = 0)%Z) by lia.
    apply Z.mul_eq_0 in Y. lia.
  Qed.

  Definition wid (s k l : Z) : Z := (s + ns * (k + lN1 c * l))%Z.

  Lemma ddelta_el axis dp fh i1 i2 i3 s k l : ddelta_check c = Ok tt ->
    inb (N_p1 p) i1 -> inb (N_p2 p) i2 -> inb (N_p3 p) i3 -> inb ns s -> inb (lN1 c) k -> inb (lN2 c) l ->
    el (ddelta_f_dp c axis dp fh) (row i1 i2 i3) s k l
    = cscale (/ (12 * nth (Z.to_nat (bidx ns i2)) dp 0))
        (el (stencil4 (shift_axis axis (moddims fh (N_p1 p) (N_p2 p) (N_p3 p) (ns * lN1 c * lN2 c)))) i1 i2 i3 (wid s k l)).
  Proof.
    intros CH H1 H2 H3 Hs Hk Hl. pose proof MG as (A&B&C&E&_). unfold ddelta_f_dp.
    set (a := moddims fh _ _ _ _). set (w := Arr 1 ns 1 1 _). set (f := fun (z : cplx) (v : R) => cscale v z).
    set (S := stencil4 _).
    assert (DS : dims4 S (N_p1 p) (N_p2 p) (N_p3 p) (ns * lN1 c * lN2 c)) by (destruct axis as [|[|]]; repeat split).
    assert (HW : inb (ns * lN1 c * lN2 c) (wid s k l)) by (apply pidx_bound; auto).
    assert (DB : dims4 (bcast2 f S w) (N_p1 p) (N_p2 p) (N_p3 p) (ns * lN1 c * lN2 c)).
    { destruct DS as (X&Y&Z'&W). unfold dims4. cbn [bcast2 d0 d1 d2 d3 w]. rewrite X, Y, Z', W.
      unfold inb in HW. destruct (check_species CH); lia. }
    destruct DB as (X&Y&Z'&W). unfold moddims at 1, of_flat. cbn [el].
    replace (lin np ns (lN1 c) (row i1 i2 i3) s k l) with (lin (d0 (bcast2 f S w)) (d1 (bcast2 f S w)) (d2 (bcast2 f S w)) i1 i2 i3 (wid s k l))
      by (rewrite X, Y, Z'; unfold lin, wid, N_p; ring).
    rewrite flat_lin by (unfold inside; rewrite X, Y, Z', W; auto).
    cbn [bcast2 el]. unfold bel. destruct DS as (X'&Y'&Z''&W'). rewrite X', Y', Z'', W', !bidx_in by auto.
    reflexivity.
  Qed.

  Context (FD : force_divergence_free c).

  Lemma center_el i1 i2 i3 s : inb (N_p1 p) i1 -> inb (N_p2 p) i2 -> inb (N_p3 p) i3 ->
    el (p1_center p) (row i1 i2 i3) s 0 0 = v_of (lo1 (species_grid p s)) (w1 (species_grid p s)) i1
    /\ el (p2_center p) (row i1 i2 i3) s 0 0 = v_of (lo2 (species_grid p s)) (w2 (species_grid p s)) i2
    /\ el (p3_center p) (row i1 i2 i3) s 0 0 = v_of (lo3 (species_grid p s)) (w3 (species_grid p s)) i3.
  Proof. intros. apply p_center_el; auto. Qed.

  (** Neither force term changes the number of particles of any mode. *)
  Lemma fields_term_zero f t F fh s k l : inb ns s ->
    csum3 p (fun i1 i2 i3 => el (fields_term c (make_background c f) t F fh) (row i1 i2 i3) s k l) = c0.
  Proof.
    intros Hs. pose proof MG as (A&B&C&E&_). unfold fields_term, make_background. cbn [el dfdp1 dfdp2 dfdp3].
    set (b := f_background c f). set (F' := get_fields c F).
    set (a := moddims b (N_p1 p) (N_p2 p) (N_p3 p) ns).
    set (v1 i := v_of (lo1 (species_grid p s)) (w1 (species_grid p s)) i).
    set (v2 i := v_of (lo2 (species_grid p s)) (w2 (species_grid p s)) i).
    set (v3 i := v_of (lo3 (species_grid p s)) (w3 (species_grid p s)) i).
    set (acc x y z := lA_p c s t (lq1 c k) (lq2 c l) x y z
        (el (E1h F') 0 0 k l) (el (E2h F') 0 0 k l) (el (E3h F') 0 0 k l)
        (el (B1h F') 0 0 k l) (el (B2h F') 0 0 k l) (el (B3h F') 0 0 k l)).
    assert (FD' : forall x y z q, fst (fst (acc x y z)) = fst (fst (acc q y z))
      /\ snd (fst (acc x y z)) = snd (fst (acc x q z)) /\ snd (acc x y z) = snd (acc x y q)) by (intros; apply FD).
    rewrite (csum3_ext p _ (fun i1 i2 i3 => cadd (cadd
       (cmul (cscale (/ (12 * nth (Z.to_nat s) (dp1 p) 0)) (fst (fst (acc 0 (v2 i2) (v3 i3))))) (el (stencil4 (shift_axis 0 (amap RtoC a))) i1 i2 i3 s))
       (cmul (cscale (/ (12 * nth (Z.to_nat s) (dp2 p) 0)) (snd (fst (acc (v1 i1) 0 (v3 i3))))) (el (stencil4 (shift_axis 1 (amap RtoC a))) i1 i2 i3 s)))
       (cmul (cscale (/ (12 * nth (Z.to_nat s) (dp3 p) 0)) (snd (acc (v1 i1) (v2 i2) 0))) (el (stencil4 (shift_axis 2 (amap RtoC a))) i1 i2 i3 s)))).
    2:{ intros i1 i2 i3 H1 H2 H3. destruct (center_el i1 i2 i3 s H1 H2 H3) as (X&Y&Z'). rewrite X, Y, Z'.
        fold (v1 i1) (v2 i2) (v3 i3). fold (acc (v1 i1) (v2 i2) (v3 i3)). clearbody acc. rewrite !dfdp_el by auto. fold a. rewrite <- !stencil4r_C.
        destruct (FD' (v1 i1) (v2 i2) (v3 i3) 0) as (Q1&Q2&Q3). rewrite <- Q1, <- Q2, <- Q3.
        destruct (acc (v1 i1) (v2 i2) (v3 i3)) as ((a1&a2)&a3). cbn [fst snd].
        generalize (/ (12 * nth (Z.to_nat s) (dp1 p) 0)) (/ (12 * nth (Z.to_nat s) (dp2 p) 0)) (/ (12 * nth (Z.to_nat s) (dp3 p) 0)).
        generalize (el (stencil4r (shift_axis 0 a)) i1 i2 i3 s) (el (stencil4r (shift_axis 1 a)) i1 i2 i3 s) (el (stencil4r (shift_axis 2 a)) i1 i2 i3 s).
        clear. intros. cplx_ring. }
    rewrite !csum3_add. rewrite csum3_z1; [rewrite csum3_z2; [rewrite csum3_z3; [ring|]|]|].
    - intros i1 i2 H1 H2. rewrite csum_mul_l. change (N_p3 p) with (d2 (amap RtoC a)). rewrite stencil4_zero2 by auto. ring.
    - intros i1 i3 H1 H3. rewrite csum_mul_l. change (N_p2 p) with (d1 (amap RtoC a)). rewrite stencil4_zero1 by auto. ring.
    - intros i2 i3 H2 H3. rewrite csum_mul_l. change (N_p1 p) with (d0 (amap RtoC a)). rewrite stencil4_zero0 by auto. ring.
  Qed.

  Context (U2 : uniform_dp2 c).

  Lemma mean_B_zero F fh s k l : ddelta_check c = Ok tt -> inb ns s -> inb (lN1 c) k -> inb (lN2 c) l ->
    csum3 p (fun i1 i2 i3 => el (mean_B_term c F fh) (row i1 i2 i3) s k l) = c0.
  Proof.
    intros CH Hs Hk Hl. pose proof MG as (A&B&C&E&_). unfold mean_B_term. cbn [el].
    set (b1 := cscale (/ 2) (el (fields_hat F) 3 0 0 0)%Z). set (b2 := cscale (/ 2) (el (fields_hat F) 4 0 0 0)%Z).
    set (b3 := cscale (/ 2) (el (fields_hat F) 5 0 0 0)%Z).
    set (a := moddims fh (N_p1 p) (N_p2 p) (N_p3 p) (ns * lN1 c * lN2 c)).
    set (v1 i := v_of (lo1 (species_grid p s)) (w1 (species_grid p s)) i).
    set (v2 i := v_of (lo2 (species_grid p s)) (w2 (species_grid p s)) i).
    set (v3 i := v_of (lo3 (species_grid p s)) (w3 (species_grid p s)) i).
    rewrite csum3_scale.
    rewrite (csum3_ext p _ (fun i1 i2 i3 => cadd (cadd
       (cmul (cscale (/ (12 * nth (Z.to_nat (bidx ns i2)) (dp1 p) 0)) (csub (cscale (v2 i2) b3) (cscale (v3 i3) b2))) (el (stencil4 (shift_axis 0 a)) i1 i2 i3 (wid s k l)))
       (cmul (cscale (/ (12 * nth 0 (dp2 p) 0)) (csub (cscale (v3 i3) b1) (cscale (v1 i1) b3))) (el (stencil4 (shift_axis 1 a)) i1 i2 i3 (wid s k l))))
       (cmul (cscale (/ (12 * nth (Z.to_nat (bidx ns i2)) (dp3 p) 0)) (csub (cscale (v1 i1) b2) (cscale (v2 i2) b1))) (el (stencil4 (shift_axis 2 a)) i1 i2 i3 (wid s k l))))).
    2:{ intros i1 i2 i3 H1 H2 H3. destruct (center_el i1 i2 i3 s H1 H2 H3) as (X&Y&Z'). rewrite X, Y, Z'.
        fold (v1 i1) (v2 i2) (v3 i3). rewrite !ddelta_el by auto. fold a.
        replace (nth (Z.to_nat (bidx ns i2)) (dp2 p) 0) with (nth 0 (dp2 p) 0).
        2:{ symmetry. apply U2. unfold bidx. destruct (Z.eqb_spec ns 1); [lia|]. destruct (check_species CH); [lia|].
            unfold inb in H2. lia. }
        generalize (/ (12 * nth (Z.to_nat (bidx ns i2)) (dp1 p) 0)) (/ (12 * nth 0 (dp2 p) 0)) (/ (12 * nth (Z.to_nat (bidx ns i2)) (dp3 p) 0)).
        generalize (v1 i1) (v2 i2) (v3 i3). clearbody b1 b2 b3.
        generalize (el (stencil4 (shift_axis 0 a)) i1 i2 i3 (wid s k l)) (el (stencil4 (shift_axis 1 a)) i1 i2 i3 (wid s k l)) (el (stencil4 (shift_axis 2 a)) i1 i2 i3 (wid s k l)).
        clear. intros. cplx_ring. }
    rewrite !csum3_add. rewrite csum3_z1; [rewrite csum3_z2; [rewrite csum3_z3; [cplx_ring|]|]|].
    - intros i1 i2 H1 H2. rewrite csum_mul_l. change (N_p3 p) with (d2 a). rewrite stencil4_zero2 by auto. ring.
    - intros i1 i3 H1 H3. rewrite csum_mul_l. change (N_p2 p) with (d1 a). rewrite stencil4_zero1 by auto. ring.
    - intros i2 i3 H2 H3. rewrite csum_mul_l. change (N_p1 p) with (d0 a). rewrite stencil4_zero0 by auto. ring.
  Qed.

  (** Continuity: what remains is free streaming. *)
  Lemma df_number f F t fh s k l : source_enabled p = false -> df_hat_check c F fh = Ok tt ->
    inb ns s -> inb (lN1 c) k -> inb (lN2 c) l ->
    csum3 p (fun i1 i2 i3 => el (df_hat_value c (make_background c f) F t fh) (row i1 i2 i3) s k l)
    = csum3 p (fun i1 i2 i3 => el (free_streaming c t fh) (row i1 i2 i3) s k l).
  Proof.
    intros SE CH Hs Hk Hl. unfold df_hat_value, df_hat_check in *. rewrite SE.
    destruct (fields_enabled p); [|reflexivity].
    destruct (fields_seen c F fh) as [F'|e]; [|discriminate]. cbn [rbind] in CH.
    cbn [amap2 el]. rewrite csum3_sub, csum3_add, fields_term_zero, mean_B_zero by auto. ring.
  Qed.
End R.
