(** Reconstruction, Riemann solver and flux differences along one axis of an
    array, against the textbook scheme on a line. *)
From Coq Require Import ZArith Reals Lra Lia String List.
From Verif Require Import Base.Prelude Base.ZSum Model.Af Model.Reconstruct Spec.Limiters Spec.Stencil
  Spec.Lattice Proofs.AfLemmas Proofs.ReconstructLemmas Proofs.ReconstructApi.
Local Open Scope R_scope.

(** The line of an array through an index along an axis. *)
Definition line {A} (a : arr A) (x : axis) (i j k l : Z) : Z -> A :=
  fun z => match x with
  | Ax0 => el a z j k l | Ax1 => el a i z k l | Ax2 => el a i j z l | Ax3 => el a i j k z end.
Definition pos (x : axis) (i j k l : Z) : Z :=
  match x with Ax0 => i | Ax1 => j | Ax2 => k | Ax3 => l end.
Definition len {A} (a : arr A) (x : axis) : Z :=
  match x with Ax0 => d0 a | Ax1 => d1 a | Ax2 => d2 a | Ax3 => d3 a end.

Lemma neigh_line (a : arr R) x d i j k l :
  neigh a x d i j k l = periodic (len a x) (line a x i j k l) (pos x i j k l + d).
Proof. destruct x; reflexivity. Qed.

Lemma pos_in {A} (a : arr A) x i j k l : inside a i j k l -> (0 <= pos x i j k l < len a x)%Z.
Proof. intros (I&J&K&L). unfold inb in *. destruct x; simpl; auto. Qed.

Lemma el_line {A} (a : arr A) x i j k l : el a i j k l = line a x i j k l (pos x i j k l).
Proof. destruct x; reflexivity. Qed.

(** The index with one coordinate replaced. *)
Lemma neigh_inside {A} (a : arr A) x d i j k l : inside a i j k l ->
  exists i' j' k' l', inside a i' j' k' l'
    /\ pos x i' j' k' l' = ((pos x i j k l + d) mod len a x)%Z
    /\ (forall B (b : arr B), line b x i' j' k' l' = line b x i j k l)
    /\ (forall B (b : arr B), len b x = len a x -> neigh b x d i j k l = el b i' j' k' l').
Proof.
  intros H. assert (P := pos_in a x _ _ _ _ H). destruct H as (I&J&K&L). unfold inb in *.
  assert (0 <= (pos x i j k l + d) mod len a x < len a x)%Z by (apply Z.mod_pos_bound; lia).
  destruct x; simpl in *.
  - exists ((i + d) mod d0 a)%Z, j, k, l. unfold inside, inb. repeat split; try lia; intros;
    try reflexivity. rewrite <- H0. reflexivity.
  - exists i, ((j + d) mod d1 a)%Z, k, l. unfold inside, inb. repeat split; try lia; intros;
    try reflexivity. rewrite <- H0. reflexivity.
  - exists i, j, ((k + d) mod d2 a)%Z, l. unfold inside, inb. repeat split; try lia; intros;
    try reflexivity. rewrite <- H0. reflexivity.
  - exists i, j, k, ((l + d) mod d3 a)%Z. unfold inside, inb. repeat split; try lia; intros;
    try reflexivity. rewrite <- H0. reflexivity.
Qed.

(** ** Invariance of the profiles *)
Lemma cell_faces_ext k u v i :
  (forall z, (i - radius k <= z <= i + radius k)%Z -> u z = v z) ->
  cell_faces k u i = cell_faces k v i.
Proof.
  intros H. destruct k; simpl in *.
  - rewrite H by lia. reflexivity.
  - rewrite !H by lia. reflexivity.
  - rewrite !H by lia. reflexivity.
Qed.

Lemma cell_faces_shift k u i d : cell_faces k (fun z => u (z + d)%Z) i = cell_faces k u (i + d).
Proof.
  destruct k; simpl; try reflexivity.
  - replace (i - 1 + d)%Z with (i + d - 1)%Z by lia. replace (i + 1 + d)%Z with (i + d + 1)%Z by lia.
    reflexivity.
  - replace (i - 1 + d)%Z with (i + d - 1)%Z by lia. replace (i + 1 + d)%Z with (i + d + 1)%Z by lia.
    replace (i - 2 + d)%Z with (i + d - 2)%Z by lia. replace (i + 2 + d)%Z with (i + d + 2)%Z by lia.
    reflexivity.
Qed.

Lemma periodic_add_mul n u i m : n <> 0%Z -> periodic n u (i + m * n) = periodic n u i.
Proof. intros. unfold periodic. rewrite Z_mod_plus_full. reflexivity. Qed.

Lemma cell_faces_periodic_mod k n u i : (0 < n)%Z ->
  cell_faces k (periodic n u) (i mod n) = cell_faces k (periodic n u) i.
Proof.
  intros Hn.
  assert (E : i = (i mod n + (i / n) * n)%Z) by (pose proof (Z.div_mod i n); lia).
  rewrite E at 2. rewrite <- cell_faces_shift. apply cell_faces_ext. intros z _.
  rewrite periodic_add_mul by lia. reflexivity.
Qed.

Lemma upwind_ext k v v' u u' i : v i = v' i ->
  (forall z, (i - 1 - radius k <= z <= i + radius k)%Z -> u z = u' z) ->
  upwind k v u i = upwind k v' u' i.
Proof.
  intros Hv Hu. unfold upwind. rewrite Hv.
  rewrite (cell_faces_ext k u u' i) by (intros; apply Hu; lia).
  rewrite (cell_faces_ext k u u' (i - 1)) by (intros; apply Hu; lia). reflexivity.
Qed.

Lemma flux_ext k v v' u u' i : v i = v' i ->
  (forall z, (i - 1 - radius k <= z <= i + radius k)%Z -> u z = u' z) ->
  flux k v u i = flux k v' u' i.
Proof. intros Hv Hu. unfold flux. rewrite (upwind_ext k v v' u u' i) by auto. rewrite Hv. reflexivity. Qed.

Lemma advect_ext k h v v' u u' i : v i = v' i -> v (i + 1)%Z = v' (i + 1)%Z ->
  (forall z, (i - 1 - radius k <= z <= i + 1 + radius k)%Z -> u z = u' z) ->
  advect k h v u i = advect k h v' u' i.
Proof.
  intros H1 H2 Hu. unfold advect.
  rewrite (flux_ext k v v' u u' i) by (auto; intros; apply Hu; lia).
  rewrite (flux_ext k v v' u u' (i + 1)) by (auto; intros; apply Hu; lia). reflexivity.
Qed.

Lemma upwind_shift k v u i d :
  upwind k (fun z => v (z + d)%Z) (fun z => u (z + d)%Z) i = upwind k v u (i + d).
Proof.
  unfold upwind. rewrite !cell_faces_shift. replace (i - 1 + d)%Z with (i + d - 1)%Z by lia. reflexivity.
Qed.

Lemma flux_shift k v u i d :
  flux k (fun z => v (z + d)%Z) (fun z => u (z + d)%Z) i = flux k v u (i + d).
Proof. unfold flux. rewrite upwind_shift. reflexivity. Qed.

Lemma advect_shift k h v u i d :
  advect k h (fun z => v (z + d)%Z) (fun z => u (z + d)%Z) i = advect k h v u (i + d).
Proof.
  unfold advect. rewrite !flux_shift. replace (i + 1 + d)%Z with (i + d + 1)%Z by lia. reflexivity.
Qed.

Lemma flux_periodic_mod k n v u i : (0 < n)%Z ->
  flux k (periodic n v) (periodic n u) (i mod n) = flux k (periodic n v) (periodic n u) i.
Proof.
  intros Hn.
  assert (E : i = (i mod n + (i / n) * n)%Z) by (pose proof (Z.div_mod i n); lia).
  rewrite E at 2. rewrite <- flux_shift. apply flux_ext.
  - rewrite periodic_add_mul by lia. reflexivity.
  - intros z _. rewrite periodic_add_mul by lia. reflexivity.
Qed.

(** ** The arrays *)
Lemma stencil_scheme k (u : Z -> R) i :
  k = FirstOrder \/ 
  (k = MC /\ cell_faces k u i = (minmod_left (u (i + -1)%Z) (u (i + 0)%Z) (u (i + 1)%Z),
                                 minmod_right (u (i + -1)%Z) (u (i + 0)%Z) (u (i + 1)%Z))) \/
  (k = PPM /\ cell_faces k u i = (ppm_left (u (i + -2)%Z) (u (i + -1)%Z) (u (i + 0)%Z) (u (i + 1)%Z) (u (i + 2)%Z),
                                  ppm_right (u (i + -2)%Z) (u (i + -1)%Z) (u (i + 0)%Z) (u (i + 1)%Z) (u (i + 2)%Z))).
Proof.
  destruct k; [left; auto|right; left|right; right]; split; auto; simpl; rewrite Z.add_0_r.
  - rewrite minmod_left_mc, minmod_right_mc. reflexivity.
  - unfold ppm_left, ppm_right. rewrite !ppm_is_cw.
    change (i + -2)%Z with (i - 2)%Z. change (i + -1)%Z with (i - 1)%Z.
    destruct (cw_ppm _ _ _ _ _); reflexivity.
Qed.

Lemma reconstruct_faces a x m k : scheme_of_name m = Some k ->
  exists l r, reconstruct a x m = Ok (l, r) /\ same_dims l a /\ same_dims r a
  /\ forall i j q s, inside a i j q s ->
       (el l i j q s, el r i j q s)
       = cell_faces k (periodic (len a x) (line a x i j q s)) (pos x i j q s).
Proof.
  unfold scheme_of_name, reconstruct.
  destruct (String.eqb m "piecewise-constant").
  { intros [= <-]. exists a, a. split; [reflexivity|]. split; [repeat split|]. split; [repeat split|].
    intros i j q s H. simpl. unfold periodic. rewrite Z.mod_small by (apply pos_in; auto).
    rewrite <- (el_line a x). reflexivity. }
  destruct (String.eqb m "minmod").
  { intros [= <-]. exists (stencil3 minmod_left a x), (stencil3 minmod_right a x).
    split; [reflexivity|]. split; [repeat split|]. split; [repeat split|].
    intros i j q s H. rewrite !stencil3_el by auto. rewrite !neigh_line.
    destruct (stencil_scheme MC (periodic (len a x) (line a x i j q s)) (pos x i j q s))
      as [E|[[_ E]|[E _]]]; try discriminate. symmetry. exact E. }
  destruct (String.eqb m "ppm"); [|discriminate].
  intros [= <-]. exists (stencil5 ppm_left a x), (stencil5 ppm_right a x).
  split; [reflexivity|]. split; [repeat split|]. split; [repeat split|].
  intros i j q s H. rewrite !stencil5_el by auto. rewrite !neigh_line.
  destruct (stencil_scheme PPM (periodic (len a x) (line a x i j q s)) (pos x i j q s))
    as [E|[[E _]|[_ E]]]; try discriminate. symmetry. exact E.
Qed.

Lemma bel_inside {A} (a : arr A) i j k l : inside a i j k l -> bel a i j k l = el a i j k l.
Proof.
  intros (I&J&K&L). unfold bel, bidx, inb in *.
  destruct (Z.eqb_spec (d0 a) 1); destruct (Z.eqb_spec (d1 a) 1);
  destruct (Z.eqb_spec (d2 a) 1); destruct (Z.eqb_spec (d3 a) 1); f_equal; lia.
Qed.

Lemma inside_dims {A B} (a : arr A) (b : arr B) i j k l :
  same_dims a b -> inside a i j k l -> inside b i j k l.
Proof. intros (H0&H1&H2&H3). unfold inside. rewrite H0, H1, H2, H3. auto. Qed.

Lemma same_dims_sym {A B} (a : arr A) (b : arr B) : same_dims a b -> same_dims b a.
Proof. intros (H0&H1&H2&H3). repeat split; auto. Qed.

Lemma len_dims {A B} (a : arr A) (b : arr B) x : same_dims a b -> len a x = len b x.
Proof. intros (H0&H1&H2&H3). destruct x; auto. Qed.

Lemma shift_ax_dims {A} (a : arr A) x s : same_dims (shift_ax a x s) a.
Proof. destruct x; repeat split. Qed.

(** Upwind state at the lower face of every cell. *)
Lemma face_el a x m k V l r : scheme_of_name m = Some k ->
  reconstruct a x m = Ok (l, r) -> same_dims V a ->
  forall i j q s, inside a i j q s ->
  el (riemann_solver (shift_ax r x 1) l V) i j q s
  = upwind k (periodic (len a x) (line V x i j q s)) (periodic (len a x) (line a x i j q s)) (pos x i j q s).
Proof.
  intros Hm Hr HV i j q s H.
  destruct (reconstruct_faces a x m k Hm) as (l0&r0&E&Dl&Dr&F).
  rewrite Hr in E. injection E as <- <-.
  unfold riemann_solver; cbn [el].
  rewrite bel_inside by (apply (inside_dims a); [apply same_dims_sym|]; auto).
  rewrite shift_ax_el by (apply (inside_dims a); [apply same_dims_sym|]; auto).
  change (- (1))%Z with (-1)%Z.
  unfold upwind, Rgtb, Rltb.
  assert (EV : periodic (len a x) (line V x i j q s) (pos x i j q s) = el V i j q s).
  { unfold periodic. rewrite Z.mod_small by (apply pos_in; auto). symmetry. apply el_line. }
  rewrite EV. destruct (Rlt_dec 0 (el V i j q s)).
  - destruct (neigh_inside a x (-1) i j q s H) as (i'&j'&q'&s'&H'&P'&L'&N').
    rewrite (N' _ r) by (apply len_dims; auto).
    specialize (F _ _ _ _ H'). apply (f_equal snd) in F. cbn [snd] in F. rewrite F, P', (L' _ a).
    rewrite cell_faces_periodic_mod by (pose proof (pos_in a x _ _ _ _ H); lia). reflexivity.
  - specialize (F _ _ _ _ H). apply (f_equal fst) in F. exact F.
Qed.

(** Flux difference across every cell. *)
Lemma fluxdiff_el a x m k V l r : scheme_of_name m = Some k ->
  reconstruct a x m = Ok (l, r) -> same_dims V a ->
  let fl := bcast2 Rmult V (riemann_solver (shift_ax r x 1) l V) in
  same_dims fl a /\
  forall i j q s, inside a i j q s ->
  let n := len a x in
  let v := periodic n (line V x i j q s) in
  let u := periodic n (line a x i j q s) in
  el fl i j q s = flux k v u (pos x i j q s)
  /\ el (shift_ax fl x (-1)) i j q s = flux k v u (pos x i j q s + 1).
Proof.
  intros Hm Hr HV fl.
  assert (Df : same_dims (riemann_solver (shift_ax r x 1) l V) a).
  { destruct (reconstruct_faces a x m k Hm) as (l0&r0&E&Dl&Dr&F).
    rewrite Hr in E. injection E as <- <-.
    assert (D := shift_ax_dims r x 1). destruct D as (A0&A1&A2&A3), Dr as (B0&B1&B2&B3).
    unfold riemann_solver; repeat split; simpl; congruence. }
  assert (D : same_dims fl a).
  { destruct Df as (A0&A1&A2&A3), HV as (B0&B1&B2&B3). unfold fl, bcast2. repeat split; cbn [d0 d1 d2 d3];
    rewrite ?A0, ?A1, ?A2, ?A3, ?B0, ?B1, ?B2, ?B3; apply Z.max_id. }
  split; [exact D|].
  assert (G : forall i j q s, inside a i j q s -> el fl i j q s =
    flux k (periodic (len a x) (line V x i j q s)) (periodic (len a x) (line a x i j q s)) (pos x i j q s)).
  { intros i j q s H. unfold fl, bcast2; cbn [el].
    rewrite bel_inside by (apply (inside_dims a); [apply same_dims_sym|]; auto).
    rewrite bel_inside by (apply (inside_dims a); [apply same_dims_sym|]; auto).
    rewrite (face_el a x m k V l r) by auto. unfold flux. f_equal.
    unfold periodic. rewrite Z.mod_small by (apply pos_in; auto). apply el_line. }
  intros i j q s H n v u. split; [apply G; auto|].
  rewrite shift_ax_el by (apply (inside_dims a); [apply same_dims_sym|]; auto).
  change (- -1)%Z with 1%Z.
  destruct (neigh_inside a x 1 i j q s H) as (i'&j'&q'&s'&H'&P'&L'&N').
  rewrite (N' _ fl) by (apply len_dims; auto).
  rewrite G by auto. rewrite (L' _ V), (L' _ a), P'.
  apply flux_periodic_mod. pose proof (pos_in a x _ _ _ _ H); lia.
Qed.

(** Extending the local line to the global one away from the local ends. *)
Lemma periodic_small n u i : (0 <= i < n)%Z -> periodic n u i = u i.
Proof. intros. unfold periodic. rewrite Z.mod_small by lia. reflexivity. Qed.

(** ** Sums of flux differences *)
Lemma advect_sum k n h v u : (0 <= n)%Z ->
  flux k v u n = flux k v u 0 -> zsum n (advect k h v u) = 0.
Proof.
  intros Hn H. unfold advect.
  rewrite (zsum_ext n _ (fun i => (- / h) * (flux k v u (i + 1) - flux k v u i))).
  - rewrite zsum_scal. rewrite (zsum_telescope n (flux k v u)) by auto. rewrite H. lra.
  - intros. unfold Rdiv. lra.
Qed.

Lemma advect_sum_periodic k n h v u : (0 < n)%Z ->
  v n = v 0%Z -> zsum n (advect k h v (periodic n u)) = 0.
Proof.
  intros Hn Hv. apply advect_sum; [lia|].
  change (flux k v (periodic n u) n) with (flux k v (periodic n u) (0 + n)%Z).
  rewrite <- (flux_shift k v). apply flux_ext.
  - simpl. rewrite Hv. reflexivity.
  - intros z _. replace (z + n)%Z with (z + 1 * n)%Z by lia. apply periodic_add_mul; lia.
Qed.
