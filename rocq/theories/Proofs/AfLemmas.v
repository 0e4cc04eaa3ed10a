(** Index arithmetic for the array model. *)
From Coq Require Import ZArith Reals Bool Lia Lra.
From Verif Require Import Base.Prelude Base.ZSum Model.Af.
Local Open Scope Z_scope.

Lemma aeq_refl {A} (a : arr A) : aeq a a.
Proof. split; [repeat split|auto]. Qed.

Lemma aeq_sym {A} (a b : arr A) : aeq a b -> aeq b a.
Proof.
  intros [(H0&H1&H2&H3) H]. split; [repeat split; congruence|].
  intros i j k l (I&J&K&L). symmetry. apply H.
  unfold inside. rewrite H0, H1, H2, H3. repeat split; auto; apply I || apply J || apply K || apply L.
Qed.

Lemma aeq_trans {A} (a b c : arr A) : aeq a b -> aeq b c -> aeq a c.
Proof.
  intros [(H0&H1&H2&H3) H] [(G0&G1&G2&G3) G]. split; [repeat split; congruence|].
  intros i j k l I. rewrite H by exact I. apply G.
  destruct I as (I&J&K&L). unfold inside, inb in *. rewrite <- H0, <- H1, <- H2, <- H3. tauto.
Qed.

(** Modular helpers *)
Lemma mod_add_mul n i m : 0 < n -> (i + n * m) mod n = i mod n.
Proof. intros. rewrite Z.mul_comm. apply Z_mod_plus_full. Qed.

Lemma div_add_mul n i m : 0 < n -> 0 <= i < n -> (i + n * m) / n = m.
Proof.
  intros. rewrite Z.mul_comm. rewrite Z.div_add by lia. rewrite Z.div_small by lia. lia.
Qed.

Lemma mod_unique_small n i m : 0 < n -> 0 <= i < n -> (i + n * m) mod n = i.
Proof. intros. rewrite mod_add_mul by lia. apply Z.mod_small; lia. Qed.

Lemma unlin_lin n0 n1 n2 i j k l :
  inb n0 i -> inb n1 j -> inb n2 k ->
  let x := lin n0 n1 n2 i j k l in
  unlin0 n0 x = i /\ unlin1 n0 n1 x = j /\ unlin2 n0 n1 n2 x = k /\ unlin3 n0 n1 n2 x = l.
Proof.
  intros Hi Hj Hk x. unfold inb in *. unfold unlin0, unlin1, unlin2, unlin3.
  assert (E0 : x / n0 = j + n1 * (k + n2 * l)) by (unfold x, lin; apply div_add_mul; lia).
  assert (E1 : x / n0 / n1 = k + n2 * l) by (rewrite E0; apply div_add_mul; lia).
  rewrite E1, E0. repeat split.
  - unfold x, lin. apply mod_unique_small; lia.
  - apply mod_unique_small; lia.
  - apply mod_unique_small; lia.
  - apply div_add_mul; lia.
Qed.

Lemma lin_unlin n0 n1 n2 x :
  0 < n0 -> 0 < n1 -> 0 < n2 ->
  lin n0 n1 n2 (unlin0 n0 x) (unlin1 n0 n1 x) (unlin2 n0 n1 n2 x) (unlin3 n0 n1 n2 x) = x.
Proof.
  intros H0 H1 H2. unfold lin, unlin0, unlin1, unlin2, unlin3.
  pose proof (Z.div_mod x n0). pose proof (Z.div_mod (x / n0) n1).
  pose proof (Z.div_mod (x / n0 / n1) n2). lia.
Qed.

Lemma lin_bound n0 n1 n2 n3 i j k l :
  inb n0 i -> inb n1 j -> inb n2 k -> inb n3 l ->
  0 <= lin n0 n1 n2 i j k l < n0 * n1 * n2 * n3.
Proof.
  unfold inb, lin. intros. split.
  - repeat (apply Z.add_nonneg_nonneg; [lia|apply Z.mul_nonneg_nonneg; [lia|]]). lia.
  - assert (k + n2 * l < n2 * n3) by nia.
    assert (0 <= k + n2 * l) by nia.
    assert (j + n1 * (k + n2 * l) < n1 * (n2 * n3)) by nia.
    assert (0 <= j + n1 * (k + n2 * l)) by nia. nia.
Qed.

Lemma unlin_bound n0 n1 n2 n3 x :
  0 < n0 -> 0 < n1 -> 0 < n2 -> 0 <= x < n0 * n1 * n2 * n3 ->
  inb n0 (unlin0 n0 x) /\ inb n1 (unlin1 n0 n1 x) /\ inb n2 (unlin2 n0 n1 n2 x) /\ inb n3 (unlin3 n0 n1 n2 x).
Proof.
  intros H0 H1 H2 Hx. unfold inb, unlin0, unlin1, unlin2, unlin3.
  repeat split; try (apply Z.mod_pos_bound; lia).
  - repeat (apply Z.div_pos; [|lia]). lia.
  - rewrite Z.div_div by lia. rewrite Z.div_div by nia.
    apply Z.div_lt_upper_bound; nia.
Qed.

Lemma flat_lin {A} (a : arr A) i j k l :
  inside a i j k l -> flat a (lin (d0 a) (d1 a) (d2 a) i j k l) = el a i j k l.
Proof.
  intros (Hi&Hj&Hk&Hl). unfold flat.
  destruct (unlin_lin (d0 a) (d1 a) (d2 a) i j k l) as (E0&E1&E2&E3); auto.
  rewrite E0, E1, E2, E3. reflexivity.
Qed.

Lemma of_flat_flat {A} (a : arr A) : aeq (of_flat (d0 a) (d1 a) (d2 a) (d3 a) (flat a)) a.
Proof.
  split; [repeat split|]. intros i j k l H. simpl. apply flat_lin. exact H.
Qed.

(** Shifted elements in terms of neighbours, away from the wrap. *)
Lemma shift_el {A} (a : arr A) s0 s1 s2 s3 i j k l :
  el (shift a s0 s1 s2 s3) i j k l
  = el a ((i - s0) mod d0 a) ((j - s1) mod d1 a) ((k - s2) mod d2 a) ((l - s3) mod d3 a).
Proof. reflexivity. Qed.

Lemma mod_small' n i : 0 <= i < n -> i mod n = i.
Proof. apply Z.mod_small. Qed.

(** Comparisons *)
Lemma Rltb_spec x y : Bool.reflect (x < y)%R (Rltb x y).
Proof. unfold Rltb. destruct (Rlt_dec x y); constructor; auto. Qed.
Lemma Rleb_spec x y : Bool.reflect (x <= y)%R (Rleb x y).
Proof. unfold Rleb. destruct (Rle_dec x y); constructor; auto. Qed.
