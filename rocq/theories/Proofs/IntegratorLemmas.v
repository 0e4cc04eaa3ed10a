(** Proofs about the Runge-Kutta integrators. *)
From Coq Require Import Reals List Lra Lia Arith.
From Verif Require Import Model.Integrators Spec.RungeKutta.
Import ListNotations.
Local Open Scope R_scope.

Definition eqv {I} (x y : vec I) : Prop := forall i, x i = y i.

(** ** The code is the textbook method with the given tableau *)

Fixpoint stage_eqs {I} (f : R -> vec I -> vec I) (t : R) (x : vec I) (dt : R)
    (rs : list (list R)) (done todo : list (vec I)) : Prop :=
  match rs, todo with
  | [], [] => True
  | r :: rs, k :: todo =>
      eqv k (f (t + total r * dt) (fun j => x j + dt * combine_stages r done j))
      /\ stage_eqs f t x dt rs (done ++ [k]) todo
  | _, _ => False
  end.

Lemma combine_eqv {I} cs (ks ks' : list (vec I)) : Forall2 eqv ks ks' ->
  eqv (combine_stages cs ks) (combine_stages cs ks').
Proof.
  intros H i. unfold combine_stages. revert cs. induction H; intros cs; cbn; auto.
  destruct cs; cbn; auto. rewrite H, IHForall2. reflexivity.
Qed.

Lemma stages_eqv {I} (f : R -> vec I -> vec I) t x dt :
  (forall s, extensional (f s)) ->
  forall rs done todo done', stage_eqs f t x dt rs done todo -> Forall2 eqv done done' ->
  Forall2 eqv (done ++ todo) (stages f t x dt rs done').
Proof.
  intros E rs. induction rs as [|r rs IH]; intros done todo done' H D.
  - destruct todo; [|contradiction]. rewrite app_nil_r. exact D.
  - destruct todo as [|k todo]; [contradiction|]. destruct H as [H1 H2]. cbn.
    change (k :: todo) with ([k] ++ todo). rewrite app_assoc. apply IH; auto.
    apply Forall2_app; auto. constructor; [|constructor].
    intros i. rewrite H1. apply E. intros j. rewrite (combine_eqv r done done' D). reflexivity.
Qed.

Lemma rk_step_by {I} (T : tableau) (f : R -> vec I -> vec I) t x dt ks :
  (forall s, extensional (f s)) -> stage_eqs f t x dt (rows T) [] ks ->
  forall i, rk_step T f t x dt i = x i + dt * combine_stages (weights T) ks i.
Proof.
  intros E H i. unfold rk_step. f_equal. f_equal. symmetry.
  refine (combine_eqv _ _ _ _ i). change ks with ([] ++ ks). apply stages_eqv; auto.
Qed.

Lemma ext_at {I} (f : R -> vec I -> vec I) : (forall s, extensional (f s)) ->
  forall s s' x y, s = s' -> eqv x y -> eqv (f s x) (f s' y).
Proof. intros E s s' x y -> H. exact (E s' x y H). Qed.

Ltac stage_goal E :=
  match goal with
  | |- eqv _ _ => apply (ext_at _ E); [cbn; field | intros ?; unfold combine_stages; cbn; field]
  | |- True => exact Logic.I
  | |- _ /\ _ => split; stage_goal E
  end.

Lemma lin_RK2_is {I} (f : R -> vec I -> vec I) x dt t : (forall s, extensional (f s)) ->
  (forall i, fst (lin_RK2 f x dt t) i = rk_step midpoint_tableau f t x dt i)
  /\ snd (lin_RK2 f x dt t) = t + dt.
Proof.
  intros E. split; [|cbn; field]. intros i. unfold lin_RK2; cbv zeta; cbn [fst].
  set (k1 := f t x). set (k2 := f (t + 1 / 2 * dt) (fun i0 => x i0 + k1 i0 * (dt / 2))).
  rewrite (rk_step_by midpoint_tableau f t x dt [k1; k2]); auto.
  - unfold combine_stages; cbn. field.
  - cbn [rows midpoint_tableau stage_eqs app]. unfold k2, k1. stage_goal E.
Qed.

Lemma lin_RK4_is {I} (f : R -> vec I -> vec I) x dt t : (forall s, extensional (f s)) ->
  (forall i, fst (lin_RK4 f x dt t) i = rk_step classical_tableau f t x dt i)
  /\ snd (lin_RK4 f x dt t) = t + dt.
Proof.
  intros E. split; [|cbn; field]. intros i. unfold lin_RK4; cbv zeta; cbn [fst].
  set (k1 := f t x).
  set (k2 := f (t + 1 / 2 * dt) (fun i0 => x i0 + 1 / 2 * k1 i0 * dt)).
  set (k3 := f (t + 1 / 2 * dt) (fun i0 => x i0 + 1 / 2 * k2 i0 * dt)).
  set (k4 := f (t + 1 / 2 * dt + 1 / 2 * dt) (fun i0 => x i0 + k3 i0 * dt)).
  rewrite (rk_step_by classical_tableau f t x dt [k1; k2; k3; k4]); auto.
  - unfold combine_stages; cbn. field.
  - cbn [rows classical_tableau stage_eqs app].
    split; [unfold k1 at 1|split; [unfold k2 at 1|split; [unfold k3 at 1|split; [unfold k4 at 1|]]]];
      clearbody k1; try clearbody k2; try clearbody k3; stage_goal E.
Qed.

Lemma lin_RK5_is {I} (f : R -> vec I -> vec I) x dt t : (forall s, extensional (f s)) ->
  (forall i, fst (lin_RK5 f x dt t) i = rk_step butcher_tableau f t x dt i)
  /\ snd (lin_RK5 f x dt t) = t + dt.
Proof.
  intros E. split; [|cbn; field]. intros i. unfold lin_RK5; cbv zeta; cbn [fst].
  set (k1 := f t x).
  set (k2 := f _ (fun i0 => x i0 + 1 / 4 * k1 i0 * dt)).
  set (k3 := f _ (fun i0 => x i0 + 1 / 8 * (k1 i0 + k2 i0) * dt)).
  set (k4 := f _ (fun i0 => x i0 - (1 / 2 * k2 i0 - k3 i0) * dt)).
  set (k5 := f _ (fun i0 => x i0 + (3 * k1 i0 + 9 * k4 i0) * dt / 16)).
  set (k6 := f _ (fun i0 => x i0 - _)).
  rewrite (rk_step_by butcher_tableau f t x dt [k1; k2; k3; k4; k5; k6]); auto.
  - unfold combine_stages; cbn. field.
  - cbn [rows butcher_tableau stage_eqs app].
    split; [unfold k1 at 1|split; [unfold k2 at 1|split; [unfold k3 at 1|
     split; [unfold k4 at 1|split; [unfold k5 at 1|split; [unfold k6 at 1|]]]]]];
      clearbody k1; try clearbody k2; try clearbody k3; try clearbody k4; try clearbody k5;
      stage_goal E.
Qed.

Lemma RK2_is {I} (f : vec I -> vec I) x dt : extensional f ->
  forall i, RK2 f x dt i = rk_step midpoint_tableau (fun _ => f) 0 x dt i.
Proof.
  intros E. apply (proj1 (lin_RK2_is (fun _ => f) x dt 0 (fun _ => E))).
Qed.

Lemma RK4_is {I} (f : vec I -> vec I) x dt : extensional f ->
  forall i, RK4 f x dt i = rk_step classical_tableau (fun _ => f) 0 x dt i.
Proof.
  intros E. apply (proj1 (lin_RK4_is (fun _ => f) x dt 0 (fun _ => E))).
Qed.

Lemma RK5_is {I} (f : vec I -> vec I) x dt : extensional f ->
  forall i, RK5 f x dt i = rk_step fehlberg_tableau (fun _ => f) 0 x dt i.
Proof.
  intros E0 i. assert (E : forall s : R, extensional ((fun _ => f) s)) by auto.
  unfold RK5; cbv zeta.
  set (k1 := f x).
  set (k2 := f (fun i0 => x i0 + 1 / 4 * k1 i0 * dt)).
  set (k3 := f (fun i0 => x i0 + 3 / 32 * (k1 i0 + 3 * k2 i0) * dt)).
  set (k4 := f (fun i0 => x i0 + 12 / 2197 * _ * dt)).
  set (k5 := f (fun i0 => x i0 + 1 / 4104 * _ * dt)).
  set (k6 := f (fun i0 => x i0 + _)).
  rewrite (rk_step_by fehlberg_tableau (fun _ => f) 0 x dt [k1; k2; k3; k4; k5; k6]); auto.
  - unfold combine_stages; cbn. field.
  - cbn [rows fehlberg_tableau stage_eqs app].
    split; [unfold k1 at 1|split; [unfold k2 at 1|split; [unfold k3 at 1|
     split; [unfold k4 at 1|split; [unfold k5 at 1|split; [unfold k6 at 1|exact Logic.I]]]]]];
      clearbody k1; try clearbody k2; try clearbody k3; try clearbody k4; try clearbody k5;
      (intros ?j; apply E0; intros ?; unfold combine_stages; cbn; field).
Qed.

(** ** Order conditions *)

Lemma order_pos t : (1 <= order t)%nat.
Proof. induction t; cbn; lia. Qed.

Ltac kill_bad H :=
  repeat match goal with
    | x : tree |- _ =>
        lazymatch goal with _ : (1 <= order x)%nat |- _ => fail | _ => pose proof (order_pos x) end
    end;
  try (exfalso; cbn [order] in *; lia).

Ltac check_tree := unfold density; cbn; field.

(** All trees of order at most 5 by repeated case analysis. *)
Ltac split_trees H :=
  kill_bad H;
  lazymatch goal with
  | x : tree |- _ => destruct x; split_trees H
  | _ => idtac
  end.

Lemma midpoint_order : order_conditions 2 midpoint_tableau.
Proof. intros t H. split_trees H; check_tree. Qed.

Lemma classical_order : order_conditions 4 classical_tableau.
Proof. intros t H. split_trees H; check_tree. Qed.

Lemma fehlberg_order : order_conditions 5 fehlberg_tableau.
Proof. intros t H. split_trees H; check_tree. Qed.

Lemma butcher_order : order_conditions 5 butcher_tableau.
Proof. intros t H. split_trees H; check_tree. Qed.

(** The midpoint rule is of order two, not three. *)
Lemma midpoint_not3 : ~ order_conditions 3 midpoint_tableau.
Proof.
  intros H. specialize (H (Graft (Graft Root Root) Root) (le_n 3)). unfold density in H. cbn in H. lra.
Qed.

(** ** Linear right-hand sides: every stage is a polynomial in L applied to x *)

Fixpoint lpol {I} (L : vec I -> vec I) (x : vec I) (cs : list R) : vec I :=
  match cs with [] => fun _ => 0 | c :: cs => fun i => c * x i + lpol L (L x) cs i end.

Fixpoint padd (a b : list R) : list R :=
  match a, b with
  | [], b => b
  | a, [] => a
  | x :: a, y :: b => x + y :: padd a b
  end.
Definition pscale (c : R) (a : list R) : list R := map (Rmult c) a.
Fixpoint pcomb (cs : list R) (ks : list (list R)) : list R :=
  match cs, ks with c :: cs, k :: ks => padd (pscale c k) (pcomb cs ks) | _, _ => [] end.

Lemma lpol_padd {I} (L : vec I -> vec I) x a b i :
  lpol L x (padd a b) i = lpol L x a i + lpol L x b i.
Proof.
  revert x b; induction a as [|u a IH]; intros x b; cbn; [ring|].
  destruct b; cbn; [ring|]. rewrite IH. ring.
Qed.

Lemma lpol_pscale {I} (L : vec I -> vec I) x c a i : lpol L x (pscale c a) i = c * lpol L x a i.
Proof. revert x; induction a as [|u a IH]; intros x; cbn; [ring|]. unfold pscale in IH. rewrite IH. ring. Qed.

Lemma linear_zero {I} (L : vec I -> vec I) : linear L -> forall i, L (fun _ => 0) i = 0.
Proof.
  intros [E H] i. rewrite (E _ (fun j => 0 * (fun _ => 0) j + 0 * (fun _ => 0) j)) by (intros; ring).
  rewrite H. ring.
Qed.

Lemma linear_lpol {I} (L : vec I -> vec I) : linear L ->
  forall cs x i, L (lpol L x cs) i = lpol L (L x) cs i.
Proof.
  intros HL cs. induction cs as [|c cs IH]; intros x i; cbn.
  - apply linear_zero; auto.
  - destruct HL as [E H].
    rewrite (E _ (fun j => c * x j + 1 * lpol L (L x) cs j)) by (intros; ring).
    rewrite H, IH. ring.
Qed.

Fixpoint cstages (dt : R) (rs : list (list R)) (ks : list (list R)) : list (list R) :=
  match rs with
  | [] => ks
  | r :: rs => cstages dt rs (ks ++ [0 :: padd [1] (pscale dt (pcomb r ks))])
  end.

Lemma combine_pcomb {I} (L : vec I -> vec I) x cs ks i :
  combine_stages cs (map (lpol L x) ks) i = lpol L x (pcomb cs ks) i.
Proof.
  unfold combine_stages. revert ks; induction cs as [|c cs IH]; intros ks; cbn; auto.
  destruct ks as [|k ks]; cbn; auto. rewrite lpol_padd, lpol_pscale, <- IH. reflexivity.
Qed.

Lemma cstages_ok {I} (L : vec I -> vec I) t x dt : linear L ->
  forall rs ks vs, Forall2 eqv (map (lpol L x) ks) vs ->
  Forall2 eqv (map (lpol L x) (cstages dt rs ks)) (stages (fun _ => L) t x dt rs vs).
Proof.
  intros HL rs. induction rs as [|r rs IH]; intros ks vs H; cbn [cstages stages]; auto.
  apply IH. rewrite map_app. apply Forall2_app; auto. constructor; [|constructor].
  intros i. cbn [lpol]. rewrite <- linear_lpol by auto. rewrite Rmult_0_l, Rplus_0_l.
  apply (proj1 HL). intros j. rewrite lpol_padd, lpol_pscale. cbn.
  rewrite <- (combine_eqv r _ _ H j), combine_pcomb. ring.
Qed.

Lemma rk_linear {I} (T : tableau) (L : vec I -> vec I) t x dt i : linear L ->
  rk_step T (fun _ => L) t x dt i
  = lpol L x (padd [1] (pscale dt (pcomb (weights T) (cstages dt (rows T) [])))) i.
Proof.
  intros HL. unfold rk_step. rewrite lpol_padd, lpol_pscale. cbn [lpol].
  rewrite <- combine_pcomb.
  pose proof (combine_eqv (weights T) _ _ (cstages_ok L t x dt HL (rows T) [] [] (Forall2_nil _)) i) as E.
  cbv beta in *. unfold vec in *. rewrite <- E. ring.
Qed.

Lemma midpoint_taylor {I} (L : vec I -> vec I) t x dt i : linear L ->
  rk_step midpoint_tableau (fun _ => L) t x dt i = taylor 3 L dt x i.
Proof. intros HL. rewrite rk_linear by auto. cbn. field. Qed.

Lemma classical_taylor {I} (L : vec I -> vec I) t x dt i : linear L ->
  rk_step classical_tableau (fun _ => L) t x dt i = taylor 5 L dt x i.
Proof. intros HL. rewrite rk_linear by auto. cbn. field. Qed.

Lemma fehlberg_taylor {I} (L : vec I -> vec I) t x dt i : linear L ->
  rk_step fehlberg_tableau (fun _ => L) t x dt i
  = taylor 6 L dt x i + 1 / 2080 * dt ^ 6 * iter 6 L x i.
Proof. intros HL. rewrite rk_linear by auto. cbn. field. Qed.

Lemma butcher_taylor {I} (L : vec I -> vec I) t x dt i : linear L ->
  rk_step butcher_tableau (fun _ => L) t x dt i
  = taylor 6 L dt x i + 1 / 640 * dt ^ 6 * iter 6 L x i.
Proof. intros HL. rewrite rk_linear by auto. cbn. field. Qed.

(** ** Slopes that depend on the time only *)


Lemma poly_exact {I} (T : tableau) (p : nat) (cs : I -> list R) t x dt :
  (forall l, (length l <= p)%nat ->
     dt * dot (weights T) (map (fun r => poly l (t + total r * dt)) (rows T))
     = poly_int l (t + dt) - poly_int l t) ->
  (forall i, (length (cs i) <= p)%nat) ->
  forall i, rk_step T (fun s _ i => poly (cs i) s) t x dt i
            = x i + (poly_int (cs i) (t + dt) - poly_int (cs i) t).
Proof.
  intros H HL i. unfold rk_step. rewrite <- (H (cs i) (HL i)). f_equal. f_equal.
  unfold combine_stages. f_equal.
  assert (G : forall rs ks, map (fun k => k i) (stages (fun s _ j => poly (cs j) s) t x dt rs ks)
              = map (fun k => k i) ks ++ map (fun r => poly (cs i) (t + total r * dt)) rs).
  { induction rs as [|r rs IH]; intros ks; cbn [stages map]; [rewrite app_nil_r; reflexivity|].
    rewrite IH, map_app, <- app_assoc. reflexivity. }
  rewrite G. reflexivity.
Qed.

Ltac short_lists l H :=
  cbn in H;
  first [ exfalso; lia
        | destruct l as [|? l]; [unfold poly_int, total; cbn; field|short_lists l H] ].

Lemma midpoint_poly {I} (cs : I -> list R) t x dt : (forall i, (length (cs i) <= 2)%nat) ->
  forall i, rk_step midpoint_tableau (fun s _ i => poly (cs i) s) t x dt i
            = x i + (poly_int (cs i) (t + dt) - poly_int (cs i) t).
Proof. apply poly_exact. intros l H. short_lists l H. Qed.

Lemma classical_poly {I} (cs : I -> list R) t x dt : (forall i, (length (cs i) <= 4)%nat) ->
  forall i, rk_step classical_tableau (fun s _ i => poly (cs i) s) t x dt i
            = x i + (poly_int (cs i) (t + dt) - poly_int (cs i) t).
Proof. apply poly_exact. intros l H. short_lists l H. Qed.

Lemma butcher_poly {I} (cs : I -> list R) t x dt : (forall i, (length (cs i) <= 5)%nat) ->
  forall i, rk_step butcher_tableau (fun s _ i => poly (cs i) s) t x dt i
            = x i + (poly_int (cs i) (t + dt) - poly_int (cs i) t).
Proof. apply poly_exact. intros l H. short_lists l H. Qed.

(** ** The coupled integrators are the plain ones on the combined system *)

Lemma coupled_ext {I J} (fx : R -> vec I -> vec J -> vec I) fy :
  (forall s, extensional2 (fx s)) -> (forall s, extensional2 (fy s)) ->
  forall s, extensional (coupled fx fy s).
Proof.
  intros EX EY s x y H [i|j]; cbn; [apply EX|apply EY]; intros; apply H.
Qed.

Lemma coupled2_plain {I J} (fx : R -> vec I -> vec J -> vec I) x fy (y : vec J) dt t :
  let '(x1, y1, t1) := lin_RK2_coupled fx x fy y dt t in
  (forall k, both x1 y1 k = fst (lin_RK2 (coupled fx fy) (both x y) dt t) k)
  /\ t1 = snd (lin_RK2 (coupled fx fy) (both x y) dt t).
Proof. split; [intros [i|j]|]; reflexivity. Qed.

Lemma coupled4_plain {I J} (fx : R -> vec I -> vec J -> vec I) x fy (y : vec J) dt t :
  let '(x1, y1, t1) := lin_RK4_coupled fx x fy y dt t in
  (forall k, both x1 y1 k = fst (lin_RK4 (coupled fx fy) (both x y) dt t) k)
  /\ t1 = snd (lin_RK4 (coupled fx fy) (both x y) dt t).
Proof. split; [intros [i|j]|]; reflexivity. Qed.

Lemma coupled5_plain {I J} (fx : R -> vec I -> vec J -> vec I) x fy (y : vec J) dt t :
  let '(x1, y1, t1) := lin_RK5_coupled fx x fy y dt t in
  (forall k, both x1 y1 k = fst (lin_RK5 (coupled fx fy) (both x y) dt t) k)
  /\ t1 = snd (lin_RK5 (coupled fx fy) (both x y) dt t).
Proof. split; [intros [i|j]|]; reflexivity. Qed.
