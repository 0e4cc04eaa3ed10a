(** q-expanded and p-expanded layouts. *)
From Coq Require Import ZArith Reals Lia String List.
From Verif Require Import Base.Prelude Model.Af Model.Grid Model.Petsc Model.Config Proofs.AfLemmas.
Local Open Scope Z_scope.

Definition pos_cfg (c : cfg) : Prop :=
  0 < N_p1 c /\ 0 < N_p2 c /\ 0 < N_p3 c /\ 0 < N_species c.

(** Arrays in q-expanded form on rank (r1, r2). *)
Definition q_shaped {A} (c : cfg) (r1 r2 : nat) (a : arr A) : Prop :=
  d0 a = N_p c /\ d1 a = N_species c /\ d2 a = n1g (lay c) r1 /\ d3 a = n2g (lay c) r2.
Definition p_shaped {A} (c : cfg) (r1 r2 : nat) (a : arr A) : Prop :=
  d0 a = N_p1 c /\ d1 a = N_p2 c /\ d2 a = N_p3 c
  /\ d3 a = N_species c * n1g (lay c) r1 * n2g (lay c) r2.

Lemma conv_p_shaped {A} c r1 r2 (a : arr A) : p_shaped c r1 r2 (convert_to_p_expanded c r1 r2 a).
Proof. repeat split. Qed.
Lemma conv_q_shaped {A} c r1 r2 (a : arr A) : q_shaped c r1 r2 (convert_to_q_expanded c r1 r2 a).
Proof. repeat split. Qed.

Lemma pidx_bound n1 n2 n3 i1 i2 i3 : inb n1 i1 -> inb n2 i2 -> inb n3 i3 ->
  inb (n1 * n2 * n3) (i1 + n1 * (i2 + n2 * i3)).
Proof.
  unfold inb. intros. assert (i2 + n2 * i3 < n2 * n3) by nia. assert (0 <= i2 + n2 * i3) by nia. nia.
Qed.

Lemma row_split n1 n2 n3 x : 0 < n1 -> 0 < n2 -> inb (n1 * n2 * n3) x ->
  x = x mod n1 + n1 * ((x / n1) mod n2 + n2 * (x / n1 / n2))
  /\ inb n1 (x mod n1) /\ inb n2 ((x / n1) mod n2) /\ inb n3 (x / n1 / n2).
Proof.
  intros H1 H2 Hx. unfold inb in *.
  pose proof (Z.div_mod x n1). pose proof (Z.div_mod (x / n1) n2).
  pose proof (Z.mod_pos_bound x n1). pose proof (Z.mod_pos_bound (x / n1) n2).
  repeat split; try lia.
  - repeat (apply Z.div_pos; [|lia]). lia.
  - rewrite Z.div_div by lia. apply Z.div_lt_upper_bound; nia.
Qed.

Lemma pidx_split n1 n2 i1 i2 i3 : inb n1 i1 -> inb n2 i2 ->
  let x := i1 + n1 * (i2 + n2 * i3) in
  x mod n1 = i1 /\ (x / n1) mod n2 = i2 /\ x / n1 / n2 = i3.
Proof.
  intros H1 H2 x. unfold inb in *.
  assert (E : x / n1 = i2 + n2 * i3) by (unfold x; apply div_add_mul; lia).
  rewrite E. repeat split.
  - unfold x. apply mod_unique_small; lia.
  - apply mod_unique_small; lia.
  - apply div_add_mul; lia.
Qed.

(** Fourth index of the p-expanded form. *)
Definition widx (c : cfg) (r1 : nat) (s i j : Z) : Z := s + N_species c * (i + n1g (lay c) r1 * j).

Lemma widx_bound c r1 r2 s i j :
  inb (N_species c) s -> inb (n1g (lay c) r1) i -> inb (n2g (lay c) r2) j ->
  inb (N_species c * n1g (lay c) r1 * n2g (lay c) r2) (widx c r1 s i j).
Proof. intros. apply pidx_bound; auto. Qed.

Lemma conv_p_el {A} c r1 r2 (a : arr A) i1 i2 i3 s i j :
  pos_cfg c -> q_shaped c r1 r2 a -> inb (N_p1 c) i1 -> inb (N_p2 c) i2 -> inb (N_p3 c) i3 ->
  inb (N_species c) s -> inb (n1g (lay c) r1) i -> inb (n2g (lay c) r2) j ->
  el (convert_to_p_expanded c r1 r2 a) i1 i2 i3 (widx c r1 s i j)
  = el a (i1 + N_p1 c * (i2 + N_p2 c * i3)) s i j.
Proof.
  intros (P1&P2&P3&PS) (D0&D1&D2&D3) H1 H2 H3 Hs Hi Hj.
  unfold convert_to_p_expanded, moddims, of_flat; cbn [el].
  rewrite <- (flat_lin a).
  - f_equal. rewrite D0, D1, D2. unfold lin, widx, N_p. ring.
  - unfold inside. rewrite D0, D1, D2, D3. repeat split; auto; try apply Hs; try apply Hi; try apply Hj;
    apply (pidx_bound (N_p1 c) (N_p2 c) (N_p3 c)); auto.
Qed.

Lemma conv_q_el {A} c r1 r2 (a : arr A) x s i j :
  pos_cfg c -> p_shaped c r1 r2 a -> inb (N_p c) x ->
  inb (N_species c) s -> inb (n1g (lay c) r1) i -> inb (n2g (lay c) r2) j ->
  el (convert_to_q_expanded c r1 r2 a) x s i j
  = el a (x mod N_p1 c) ((x / N_p1 c) mod N_p2 c) (x / N_p1 c / N_p2 c) (widx c r1 s i j).
Proof.
  intros (P1&P2&P3&PS) (D0&D1&D2&D3) Hx Hs Hi Hj.
  unfold convert_to_q_expanded, moddims, of_flat; cbn [el].
  destruct (row_split (N_p1 c) (N_p2 c) (N_p3 c) x) as (E&B1&B2&B3); auto.
  rewrite <- (flat_lin a).
  - f_equal. rewrite D0, D1, D2. unfold lin, widx, N_p.
    rewrite E at 1. ring.
  - unfold inside. rewrite D0, D1, D2, D3. repeat split; try apply B1; try apply B2; try apply B3;
    apply (widx_bound c r1 r2); auto.
Qed.

(** Round trips. *)
Lemma conv_q_p {A} c r1 r2 (a : arr A) : pos_cfg c -> q_shaped c r1 r2 a ->
  aeq (convert_to_q_expanded c r1 r2 (convert_to_p_expanded c r1 r2 a)) a.
Proof.
  intros P D. split.
  - destruct D as (D0&D1&D2&D3). repeat split; simpl; auto.
  - intros x s i j (Hx&Hs&Hi&Hj). cbn [d0 d1 d2 d3 convert_to_q_expanded moddims of_flat] in *.
    rewrite conv_q_el by (auto; apply conv_p_shaped).
    pose proof P as (P1&P2&P3&PS).
    destruct (row_split (N_p1 c) (N_p2 c) (N_p3 c) x) as (E&B1&B2&B3); auto.
    rewrite conv_p_el by auto. rewrite <- E. reflexivity.
Qed.

Lemma widx_split c r1 w : 0 < N_species c -> 0 < n1g (lay c) r1 -> 0 <= w ->
  w = widx c r1 (w mod N_species c) ((w / N_species c) mod n1g (lay c) r1)
        (w / N_species c / n1g (lay c) r1).
Proof.
  intros. unfold widx. pose proof (Z.div_mod w (N_species c)).
  pose proof (Z.div_mod (w / N_species c) (n1g (lay c) r1)). lia.
Qed.

Lemma conv_p_q {A} c r1 r2 (a : arr A) : pos_cfg c -> p_shaped c r1 r2 a ->
  0 < n1g (lay c) r1 -> 0 < n2g (lay c) r2 ->
  aeq (convert_to_p_expanded c r1 r2 (convert_to_q_expanded c r1 r2 a)) a.
Proof.
  intros P D PN1 PN2. split.
  - destruct D as (D0&D1&D2&D3). repeat split; simpl; auto.
  - intros i1 i2 i3 w (H1&H2&H3&Hw). cbn [d0 d1 d2 d3 convert_to_p_expanded moddims of_flat] in *.
    pose proof P as (P1&P2&P3&PS).
    destruct (row_split (N_species c) (n1g (lay c) r1) (n2g (lay c) r2) w) as (E&B1&B2&B3); auto.
    unfold inb in Hw.
    pose proof (widx_split c r1 w PS PN1 ltac:(lia)) as W.
    rewrite W.
    rewrite conv_p_el by (auto; apply conv_q_shaped).
    rewrite conv_q_el; auto.
    + destruct (pidx_split (N_p1 c) (N_p2 c) i1 i2 i3) as (Q1&Q2&Q3); auto. rewrite Q1, Q2, Q3.
      rewrite <- W. reflexivity.
    + apply pidx_bound; auto.
Qed.
