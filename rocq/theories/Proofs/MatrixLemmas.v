(** The explicit 3x3 and 4x4 inverses, and Gram determinants. *)
From Coq Require Import ZArith Reals List Lra Lia.
From Verif Require Import Base.ZSum Model.Electronic Spec.Electrons.
Import ListNotations.
Local Open Scope R_scope.

Lemma det3_spec A : det3 A = det 3 A.
Proof. unfold det3. cbn. unfold minor. cbn. ring. Qed.

Lemma det4_spec A : det4 A = det 4 A.
Proof. unfold det4. cbn. unfold minor. cbn. ring. Qed.

Ltac small n := destruct n as [|[|[|[|n]]]]; try lia.

Lemma inverse3_spec A : det 3 A <> 0 -> inverse_of 3 A (inverse_3x3_matrix A).
Proof.
  rewrite <- det3_spec. intros Hd i j Hi Hj.
  unfold product, inverse_3x3_matrix, of_rows. cbv zeta. cbn [upto].
  remember (det3 A) as D eqn:HD. unfold det3 in HD.
  small i; small j; cbn [nth identity Nat.eqb]; split; unfold identity; cbn [Nat.eqb];
    (apply (Rmult_eq_reg_r D); [|exact Hd]; field_simplify; [|exact Hd ..]; rewrite ?HD; ring).
Qed.

Lemma inverse4_spec A : det 4 A <> 0 -> inverse_of 4 A (inverse_4x4_matrix A).
Proof.
  rewrite <- det4_spec. intros Hd i j Hi Hj.
  unfold product, inverse_4x4_matrix, of_rows. cbv zeta. cbn [upto].
  remember (det4 A) as D eqn:HD. unfold det4 in HD.
  small i; small j; cbn [nth identity Nat.eqb]; split; unfold identity; cbn [Nat.eqb];
    (apply (Rmult_eq_reg_r D); [|exact Hd]; field_simplify; [|exact Hd ..]; rewrite ?HD; ring).
Qed.

(** ** Gram determinants are positive *)
Section Gram.
  Context (N : Z) (w : Z -> R) (Hw : forall x, (0 <= x < N)%Z -> 0 < w x).

  Definition ip (u v : Z -> R) : R := zsum N (fun x => w x * (u x * v x)).

  Lemma ip_sym u v : ip u v = ip v u.
  Proof. apply zsum_ext. intros. ring. Qed.

  Lemma ip_nonneg u : 0 <= ip u u.
  Proof.
    apply zsum_nonneg. intros i Hi. apply Rmult_le_pos; [now apply Rlt_le, Hw|apply Rle_0_sqr].
  Qed.

  Lemma ip_zero u : ip u u = 0 -> forall x, (0 <= x < N)%Z -> u x = 0.
  Proof.
    intros H x Hx. destruct (Req_dec (u x) 0) as [|Hne]; [assumption|exfalso].
    assert (Hle : zsum N (fun y => if Z.eqb y x then w x * (u x * u x) else 0) <= ip u u).
    { apply zsum_le. intros i Hi. destruct (Z.eqb_spec i x) as [->|].
      - lra.
      - apply Rmult_le_pos; [now apply Rlt_le, Hw|apply Rle_0_sqr]. }
    rewrite (zsum_single N x) in Hle; [|lia|intros i _ Hi; now apply Z.eqb_neq in Hi; rewrite Hi].
    rewrite Z.eqb_refl, H in Hle.
    assert (0 < w x * (u x * u x)) by (apply Rmult_lt_0_compat; [now apply Hw|now apply Rlt_0_sqr]).
    lra.
  Qed.

  Lemma ip_pos u x : (0 <= x < N)%Z -> u x <> 0 -> 0 < ip u u.
  Proof.
    intros Hx Hu. destruct (Rle_lt_or_eq_dec _ _ (ip_nonneg u)) as [H|H]; [exact H|].
    now destruct Hu; apply ip_zero.
  Qed.

  (** v without its component along u *)
  Definition off (u v : Z -> R) : Z -> R := fun x => v x - ip u v / ip u u * u x.

  Lemma ip_off u v z : ip u u <> 0 -> ip (off u v) (off u z) = ip v z - ip u v * ip u z / ip u u.
  Proof.
    intros H. unfold off, ip at 1.
    rewrite (zsum_ext N _ (fun x => w x * (v x * z x) - ip u z / ip u u * (w x * (u x * v x))
      - ip u v / ip u u * (w x * (u x * z x)) + ip u v / ip u u * (ip u z / ip u u) * (w x * (u x * u x))))
      by (intros; ring).
    rewrite zsum_plus, !zsum_minus, !zsum_scal.
    change (zsum N (fun x => w x * (u x * u x))) with (ip u u).
    change (zsum N (fun x => w x * (u x * v x))) with (ip u v).
    change (zsum N (fun x => w x * (u x * z x))) with (ip u z).
    change (zsum N (fun x => w x * (v x * z x))) with (ip v z).
    field. exact H.
  Qed.

  Definition gram (us : list (Z -> R)) : nat -> nat -> R :=
    fun i j => ip (nth i us one) (nth j us one).

  Lemma independent_pos u us : independent N (u :: us) -> 0 < ip u u.
  Proof.
    intros H. destruct (Rle_lt_or_eq_dec _ _ (ip_nonneg u)) as [Hlt|Heq]; [exact Hlt|].
    specialize (H (1 :: map (fun _ => 0) us)).
    assert (Hc : Forall (fun c => c = 0) (1 :: map (fun _ : Z -> R => 0) us)).
    { apply H; [cbn; now rewrite map_length|]. intros x Hx. cbn.
      rewrite (ip_zero u) by (auto; lia).
      replace (fold_right _ _ _) with 0; [ring|]. clear. symmetry.
      induction us as [|v us IH]; [reflexivity|]. cbn. rewrite IH. ring. }
    inversion Hc. lra.
  Qed.

  Lemma independent_off u us : independent N (u :: us) -> independent N (map (off u) us).
  Proof.
    intros H cs Hlen Hz. rewrite map_length in Hlen.
    assert (Hs : exists c0, forall x, fold_right Rplus 0 (map (fun cw => fst cw * snd cw x) (combine cs us)) + c0 * u x
       = fold_right Rplus 0 (map (fun cw => fst cw * snd cw x) (combine cs (map (off u) us)))).
    { clear - Hlen. revert us Hlen. induction cs as [|c cs IH]; intros us Hlen.
      - exists 0. intros x. cbn. ring.
      - destruct us as [|v us]; [discriminate|]. destruct (IH us) as [c0 Hc]; [now injection Hlen|].
        exists (c0 - c * (ip u v / ip u u)). intros x. cbn [combine map fold_right fst snd].
        rewrite <- Hc. unfold off. ring. }
    destruct Hs as [c0 Hs].
    assert (Hall : Forall (fun c => c = 0) (c0 :: cs)).
    { apply H; [cbn; now rewrite Hlen|]. intros x Hx. cbn [combine map fold_right fst snd].
      specialize (Hs x). rewrite (Hz x Hx) in Hs. lra. }
    now inversion Hall.
  Qed.

  Lemma gram1_pos a : independent N [a] -> 0 < ip a a.
  Proof. apply independent_pos. Qed.

  Lemma gram2_pos a b : independent N [a; b] -> 0 < ip a a * ip b b - ip a b * ip a b.
  Proof.
    intros H. pose proof (independent_pos _ _ H) as Ha.
    pose proof (gram1_pos _ (independent_off _ _ H)) as Hb.
    rewrite ip_off in Hb by lra.
    replace (ip a a * ip b b - ip a b * ip a b) with (ip a a * (ip b b - ip a b * ip a b / ip a a)) by (field; lra).
    now apply Rmult_lt_0_compat.
  Qed.

  Lemma gram3_pos a b c : independent N [a; b; c] -> 0 < det3 (gram [a; b; c]).
  Proof.
    intros H. pose proof (independent_pos _ _ H) as Ha.
    pose proof (gram2_pos _ _ (independent_off _ _ H)) as Hb.
    rewrite !ip_off in Hb by lra.
    unfold det3, gram. cbn [nth].
    rewrite (ip_sym b a), (ip_sym c a), (ip_sym c b).
    match goal with |- 0 < ?G => match type of Hb with 0 < ?H => replace G with (ip a a * H) by (field; lra) end end.
    now apply Rmult_lt_0_compat.
  Qed.

  Lemma gram4_pos a b c d : independent N [a; b; c; d] -> 0 < det4 (gram [a; b; c; d]).
  Proof.
    intros H. pose proof (independent_pos _ _ H) as Ha.
    pose proof (gram3_pos _ _ _ (independent_off _ _ H)) as Hb.
    unfold det3, gram in Hb. cbn [nth map] in Hb.
    rewrite !ip_off in Hb by lra.
    unfold det4, gram. cbn [nth].
    rewrite (ip_sym b a), (ip_sym c a), (ip_sym c b) in *. rewrite (ip_sym d a), (ip_sym d b), (ip_sym d c) in *.
    match goal with |- 0 < ?G => match type of Hb with 0 < ?H => replace G with (ip a a * H) by (field; lra) end end.
    now apply Rmult_lt_0_compat.
  Qed.
End Gram.

(** ** Solving linear systems *)
Lemma upto_ext n g h : (forall i, (i < n)%nat -> g i = h i) -> upto n g = upto n h.
Proof. induction n; intros H; [reflexivity|]. cbn. rewrite IHn, H; auto with arith. Qed.

Lemma upto_zero n : upto n (fun _ => 0) = 0.
Proof. induction n; cbn; [reflexivity|rewrite IHn; ring]. Qed.

Lemma upto_plus n g h : upto n (fun i => g i + h i) = upto n g + upto n h.
Proof. induction n; cbn; [ring|rewrite IHn; ring]. Qed.

Lemma upto_scal n c g : upto n (fun i => c * g i) = c * upto n g.
Proof. induction n; cbn; [ring|rewrite IHn; ring]. Qed.

Lemma upto_swap n m (g : nat -> nat -> R) :
  upto n (fun i => upto m (g i)) = upto m (fun j => upto n (fun i => g i j)).
Proof.
  induction n; cbn; [now rewrite upto_zero|]. rewrite IHn, <- upto_plus. reflexivity.
Qed.

Lemma upto_single n i (g : nat -> R) : (i < n)%nat -> upto n (fun j => identity i j * g j) = g i.
Proof.
  induction n as [|n IH]; intros Hi; [lia|]. cbn. unfold identity at 2.
  destruct (Nat.eqb_spec i n) as [->|Hne].
  - rewrite (upto_ext n _ (fun _ => 0)), upto_zero; [ring|].
    intros j Hj. unfold identity. destruct (Nat.eqb_spec n j); [lia|ring].
  - rewrite IH by lia. ring.
Qed.

Lemma apply_product n A B v i :
  upto n (fun j => product n A B i j * v j) = upto n (fun j => A i j * upto n (fun l => B j l * v l)).
Proof.
  unfold product.
  rewrite (upto_ext n (fun j => A i j * _) (fun m => upto n (fun j => A i m * B m j * v j))).
  - rewrite upto_swap. apply upto_ext. intros j _.
    rewrite Rmult_comm, <- upto_scal. apply upto_ext. intros. ring.
  - intros j _. rewrite <- upto_scal. apply upto_ext. intros. ring.
Qed.

Lemma solve_linear n A B b d : inverse_of n A B ->
  (forall i, (i < n)%nat -> upto n (fun j => A i j * d j) = b i)
  <-> (forall i, (i < n)%nat -> d i = upto n (fun j => B i j * b j)).
Proof.
  intros Hinv. split; intros H i Hi.
  - rewrite (upto_ext n (fun j => B i j * b j) (fun j => B i j * upto n (fun l => A j l * d l)))
      by (intros j Hj; now rewrite H).
    rewrite <- apply_product.
    rewrite (upto_ext n _ (fun j => identity i j * d j)) by (intros j Hj; now rewrite (proj2 (Hinv i j Hi Hj))).
    now rewrite upto_single.
  - rewrite (upto_ext n _ (fun j => A i j * upto n (fun l => B j l * b l)))
      by (intros j Hj; now rewrite (H j)).
    rewrite <- apply_product.
    rewrite (upto_ext n _ (fun j => identity i j * b j)) by (intros j Hj; now rewrite (proj1 (Hinv i j Hi Hj))).
    now rewrite upto_single.
Qed.
