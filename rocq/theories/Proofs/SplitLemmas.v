(** Order of the operator splittings: non-commutative expansions. *)
From Coq Require Import Reals List Lra Lia Arith Bool FinFun.
From Verif Require Import Base.Prelude Model.Integrators Model.Splitting Spec.RungeKutta Spec.SplitOrder
  Proofs.IntegratorLemmas.
Import ListNotations.
Local Open Scope R_scope.

Section Words.
Context {I : Type} (N : vec I -> R) (HN : seminorm N).
Context (A B : vec I -> vec I) (HA : linear A) (HB : linear B)
        (BA : bounded_by N A) (BB : bounded_by N B).

Lemma N_ext x y : eqv x y -> N x = N y.
Proof. apply HN. Qed.
Lemma N_add x y : N (fun i => x i + y i) <= N x + N y.
Proof. apply HN. Qed.
Lemma N_scal c x : N (fun i => c * x i) = Rabs c * N x.
Proof. apply HN. Qed.
Lemma N_zero : N (fun _ => 0) = 0.
Proof. rewrite (N_ext _ (fun i => 0 * 0)) by (intros i; ring). rewrite (N_scal 0 (fun _ => 0)), Rabs_R0. ring. Qed.
Lemma N_nonneg x : 0 <= N x.
Proof.
  pose proof (N_add x (fun i => -1 * x i)) as H. rewrite N_scal in H.
  rewrite (N_ext _ (fun _ => 0)) in H by (intros i; ring). rewrite N_zero in H.
  rewrite Rabs_left in H by lra. lra.
Qed.

Definition letter (b : bool) : vec I -> vec I := if b then A else B.
Fixpoint wapp (w : list bool) (x : vec I) : vec I :=
  match w with [] => x | b :: w => letter b (wapp w x) end.

Lemma letter_linear b : linear (letter b).
Proof. destruct b; auto. Qed.
Lemma letter_bounded b : exists c, 0 <= c /\ forall x, N (letter b x) <= c * N x.
Proof.
  assert (H : bounded_by N (letter b)) by (destruct b; auto). destruct H as [c H].
  exists (Rabs c). split; [apply Rabs_pos|]. intros x. eapply Rle_trans; [apply H|].
  apply Rmult_le_compat_r; [apply N_nonneg|apply Rle_abs].
Qed.

Lemma wapp_bounded w : exists c, 0 <= c /\ forall x, N (wapp w x) <= c * N x.
Proof.
  induction w as [|b w [c [Hc IH]]]; cbn.
  - exists 1. split; [lra|]. intros; lra.
  - destruct (letter_bounded b) as [d [Hd H]]. exists (d * c). split; [nra|].
    intros x. eapply Rle_trans; [apply H|]. rewrite Rmult_assoc. apply Rmult_le_compat_l; auto.
Qed.

Lemma wapp_linear w : linear (wapp w).
Proof.
  induction w as [|b w [E L]]; cbn.
  - split; [intros x y H; exact H|]. intros; reflexivity.
  - destruct (letter_linear b) as [E' L']. split.
    + intros x y H. apply E'. intros j. apply E; exact H.
    + intros a x c y i. rewrite (E' _ (fun j => a * wapp w x j + c * wapp w y j)) by (intros; apply L).
      apply L'.
Qed.

Lemma wapp_app u v x : wapp (u ++ v) x = wapp u (wapp v x).
Proof. induction u; cbn; congruence. Qed.

(** Formal sums of words; a word of length k carries h^k. *)
Definition series : Type := list (R * list bool).
Fixpoint ev (l : series) (h : R) (x : vec I) : vec I :=
  match l with
  | [] => fun _ => 0
  | (c, w) :: l => fun i => c * h ^ length w * wapp w x i + ev l h x i
  end.

Lemma ev_app l m h x i : ev (l ++ m) h x i = ev l h x i + ev m h x i.
Proof. induction l as [|[c w] l IH]; cbn; [ring|]. rewrite IH. ring. Qed.

Lemma ev_ext l h x y : eqv x y -> eqv (ev l h x) (ev l h y).
Proof.
  intros H. induction l as [|[c w] l IH]; intros i; cbn; auto.
  rewrite (proj1 (wapp_linear w) x y H), IH. reflexivity.
Qed.

Lemma ev_linear l h : linear (ev l h).
Proof.
  split; [intros x y H; apply ev_ext; exact H|]. intros a x b y i.
  induction l as [|[c w] l IH]; cbn; [ring|].
  rewrite (proj2 (wapp_linear w)), IH. ring.
Qed.

Definition smul (l m : series) : series :=
  flat_map (fun p => map (fun q => (fst p * fst q, snd p ++ snd q)) m) l.
Definition strunc (n : nat) (l : series) : series := filter (fun p => length (snd p) <? n)%nat l.
Definition sscale (s : R) (l : series) : series := map (fun p => (fst p * s ^ length (snd p), snd p)) l.
Definition scoef (c : R) (l : series) : series := map (fun p => (c * fst p, snd p)) l.

Lemma ev_scoef c l h x i : ev (scoef c l) h x i = c * ev l h x i.
Proof. induction l as [|[d w] l IH]; cbn; [ring|]. unfold scoef in IH. rewrite IH. ring. Qed.

Lemma ev_sscale s l h x i : ev (sscale s l) h x i = ev l (s * h) x i.
Proof.
  induction l as [|[d w] l IH]; cbn; [ring|]. unfold sscale in IH. rewrite IH, Rpow_mult_distr. ring.
Qed.

Lemma ev_word c w m h x i :
  ev (map (fun q => (c * fst q, w ++ snd q)) m) h x i = c * h ^ length w * wapp w (ev m h x) i.
Proof.
  induction m as [|[d v] m IH]; cbn.
  - rewrite (linear_zero (wapp w) (wapp_linear w)). ring.
  - rewrite IH. rewrite app_length, pow_add, wapp_app.
    rewrite (proj1 (wapp_linear w) (fun j => d * h ^ length v * wapp v x j + ev m h x j)
                   (fun j => (d * h ^ length v) * wapp v x j + 1 * ev m h x j))
      by (intros; ring).
    rewrite (proj2 (wapp_linear w)). ring.
Qed.

Lemma ev_smul l m h x i : ev (smul l m) h x i = ev l h (ev m h x) i.
Proof.
  induction l as [|[c w] l IH]; cbn; auto. rewrite ev_app. rewrite <- IH. f_equal. apply ev_word.
Qed.

Lemma pow_le1 r n : 0 <= r <= 1 -> 0 <= r ^ n <= 1.
Proof. intros H. induction n; cbn; [lra|]. nra. Qed.

Lemma ev_bound n l : Forall (fun p => (n <= length (snd p))%nat) l ->
  exists K, 0 <= K /\ forall h x, Rabs h <= 1 -> N (ev l h x) <= K * Rabs h ^ n * N x.
Proof.
  induction 1 as [|[c w] l Hw Hl [K [HK IH]]]; cbn.
  - exists 0. split; [lra|]. intros. rewrite N_zero. lra.
  - destruct (wapp_bounded w) as [d [Hd Bd]]. exists (Rabs c * d + K).
    split; [pose proof (Rabs_pos c); nra|]. intros h x Hh.
    eapply Rle_trans; [apply (N_add (fun i => c * h ^ length w * wapp w x i))|].
    rewrite N_scal, Rabs_mult, <- RPow_abs.
    specialize (IH h x Hh).
    assert (P : Rabs h ^ length w <= Rabs h ^ n).
    { cbn in Hw. replace (length w) with (n + (length w - n))%nat by lia. rewrite pow_add.
      pose proof (pow_le1 (Rabs h) (length w - n) (conj (Rabs_pos h) Hh)).
      pose proof (pow_le1 (Rabs h) n (conj (Rabs_pos h) Hh)). nra. }
    assert (Q : Rabs c * Rabs h ^ length w * N (wapp w x) <= Rabs c * d * Rabs h ^ n * N x).
    { replace (Rabs c * d * Rabs h ^ n * N x) with (Rabs c * Rabs h ^ n * (d * N x)) by ring.
      apply Rmult_le_compat; [|apply N_nonneg| |apply Bd].
      - apply Rmult_le_pos; [apply Rabs_pos|apply pow_le, Rabs_pos].
      - apply Rmult_le_compat_l; [apply Rabs_pos|exact P]. }
    lra.
Qed.

Lemma ev_bounded l : exists K, 0 <= K /\ forall h x, Rabs h <= 1 -> N (ev l h x) <= K * N x.
Proof.
  destruct (ev_bound 0 l) as [K [HK H]].
  - apply Forall_forall. intros; lia.
  - exists K. split; auto. intros h x Hh. pose proof (H h x Hh). cbn in H0. lra.
Qed.

Definition near (n : nat) (F : R -> vec I -> vec I) (l : series) : Prop := agree_to N n F (ev l).

Lemma agree_pos n F G : agree_to N n F G ->
  exists K, 0 <= K /\ forall h x, Rabs h <= 1 -> N (fun i => F h x i - G h x i) <= K * Rabs h ^ n * N x.
Proof.
  intros [K H]. exists (Rabs K). split; [apply Rabs_pos|]. intros h x Hh.
  eapply Rle_trans; [apply H; auto|]. apply Rmult_le_compat_r; [apply N_nonneg|].
  apply Rmult_le_compat_r; [apply pow_le, Rabs_pos|apply Rle_abs].
Qed.

Lemma agree_trans n F G H : agree_to N n F G -> agree_to N n G H -> agree_to N n F H.
Proof.
  intros [K1 H1] [K2 H2]. exists (K1 + K2). intros h x Hh.
  rewrite (N_ext _ (fun i => (F h x i - G h x i) + (G h x i - H h x i))) by (intros i; ring).
  eapply Rle_trans; [apply N_add|]. specialize (H1 h x Hh). specialize (H2 h x Hh). lra.
Qed.

Lemma agree_sym n F G : agree_to N n F G -> agree_to N n G F.
Proof.
  intros [K H]. exists K. intros h x Hh.
  rewrite (N_ext _ (fun i => -1 * (F h x i - G h x i))) by (intros i; ring).
  rewrite N_scal. rewrite Rabs_left by lra. specialize (H h x Hh). lra.
Qed.

Lemma agree_ext n F G : (forall h x i, F h x i = G h x i) -> agree_to N n F G.
Proof.
  intros E. exists 0. intros h x Hh.
  rewrite (N_ext _ (fun _ => 0)) by (intros i; rewrite E; ring). rewrite N_zero. lra.
Qed.

Lemma near_trunc n l : agree_to N n (ev l) (ev (strunc n l)).
Proof.
  set (m := filter (fun p => negb (length (snd p) <? n)%nat) l).
  destruct (ev_bound n m) as [K [HK H]].
  - apply Forall_forall. intros p Hp. apply filter_In in Hp. destruct Hp as [_ Hp].
    destruct (Nat.ltb_spec (length (snd p)) n); [discriminate|lia].
  - exists K. intros h x Hh. eapply Rle_trans; [|apply (H h x Hh)]. right. apply N_ext.
    intros i. subst m. clear. unfold strunc in *.
    induction l as [|[c w] l IH]; cbn [ev filter snd]; [ring|].
    destruct (Nat.ltb_spec (length w) n); cbn [negb ev]; rewrite <- IH; ring.
Qed.

Lemma near_comp n F G l m : near n F l -> near n G m ->
  near n (fun h x => F h (G h x)) (strunc n (smul l m)).
Proof.
  intros HF HG. eapply agree_trans; [|apply near_trunc].
  destruct (agree_pos _ _ _ HF) as [K1 [P1 H1]]. destruct (agree_pos _ _ _ HG) as [K2 [P2 H2]].
  destruct (ev_bounded l) as [K3 [P3 H3]]. destruct (ev_bounded m) as [K4 [P4 H4]].
  exists (K1 * (K2 + K4) + K3 * K2). intros h x Hh.
  rewrite (N_ext _ (fun i => (F h (G h x) i - ev l h (G h x) i)
                             + (ev l h (fun j => G h x j - ev m h x j) i))).
  2:{ intros i. rewrite ev_smul.
      rewrite (proj1 (ev_linear l h) (fun j => G h x j - ev m h x j)
                     (fun j => 1 * G h x j + -1 * ev m h x j)) by (intros; ring).
      rewrite (proj2 (ev_linear l h)). ring. }
  eapply Rle_trans; [apply N_add|].
  pose proof (H1 h (G h x) Hh) as Q1. pose proof (H3 h (fun j => G h x j - ev m h x j) Hh) as Q3.
  pose proof (H2 h x Hh) as Q2.
  assert (QG : N (G h x) <= (K2 + K4) * N x).
  { rewrite (N_ext _ (fun i => (G h x i - ev m h x i) + ev m h x i)) by (intros i; ring).
    eapply Rle_trans; [apply N_add|]. specialize (H4 h x Hh).
    pose proof (pow_le1 (Rabs h) n (conj (Rabs_pos h) Hh)) as Hp.
    assert (K2 * Rabs h ^ n * N x <= K2 * N x).
    { apply Rmult_le_compat_r; [apply N_nonneg|]. nra. }
    lra. }
  assert (Hp : 0 <= Rabs h ^ n) by (apply pow_le, Rabs_pos).
  assert (R1 : K1 * Rabs h ^ n * N (G h x) <= K1 * Rabs h ^ n * ((K2 + K4) * N x)).
  { apply Rmult_le_compat_l; [apply Rmult_le_pos; auto|exact QG]. }
  assert (R3 : K3 * N (fun j => G h x j - ev m h x j) <= K3 * (K2 * Rabs h ^ n * N x)).
  { apply Rmult_le_compat_l; auto. }
  lra.
Qed.

Lemma near_scale n s F l : Rabs s <= 1 -> near n F l -> near n (fun h => F (s * h)) (sscale s l).
Proof.
  intros Hs HF. destruct (agree_pos _ _ _ HF) as [K [HK H]]. exists K. intros h x Hh.
  rewrite (N_ext _ (fun i => F (s * h) x i - ev l (s * h) x i))
    by (intros i; rewrite ev_sscale; reflexivity).
  assert (E : Rabs (s * h) <= 1).
  { rewrite Rabs_mult. pose proof (Rabs_pos s). pose proof (Rabs_pos h). nra. }
  eapply Rle_trans; [apply H; exact E|]. apply Rmult_le_compat_r; [apply N_nonneg|].
  apply Rmult_le_compat_l; auto. apply pow_incr. split; [apply Rabs_pos|].
  rewrite Rabs_mult. pose proof (Rabs_pos s). pose proof (Rabs_pos h). nra.
Qed.

Lemma near_lin n a F l b G m : near n F l -> near n G m ->
  near n (fun h x i => a * F h x i + b * G h x i) (scoef a l ++ scoef b m).
Proof.
  intros HF HG. destruct HF as [K1 H1]. destruct HG as [K2 H2].
  exists (Rabs a * K1 + Rabs b * K2). intros h x Hh.
  rewrite (N_ext _ (fun i => a * (F h x i - ev l h x i) + b * (G h x i - ev m h x i))).
  2:{ intros i. rewrite ev_app, !ev_scoef. ring. }
  eapply Rle_trans; [apply (N_add (fun i => a * _) (fun i => b * _))|]. rewrite !N_scal.
  specialize (H1 h x Hh). specialize (H2 h x Hh).
  pose proof (Rmult_le_compat_l _ _ _ (Rabs_pos a) H1).
  pose proof (Rmult_le_compat_l _ _ _ (Rabs_pos b) H2). lra.
Qed.

(** Canonical form: one coefficient per word. *)
Fixpoint weq (u v : list bool) : bool :=
  match u, v with
  | [], [] => true
  | a :: u, b :: v => if Bool.eqb a b then weq u v else false
  | _, _ => false
  end.
Fixpoint coef (l : series) (w : list bool) : R :=
  match l with [] => 0 | (c, u) :: l => (if weq u w then c else 0) + coef l w end.
Fixpoint words_of (n : nat) : list (list bool) :=
  match n with O => [[]] | S n => map (cons true) (words_of n) ++ map (cons false) (words_of n) end.
Fixpoint words (n : nat) : list (list bool) :=
  match n with O => [] | S n => words n ++ words_of n end.

Lemma words_of_len n w : In w (words_of n) <-> length w = n.
Proof.
  revert w; induction n as [|n IH]; intros w; cbn.
  - split; [intros [<-|[]]; reflexivity|]. destruct w; [auto|discriminate].
  - rewrite in_app_iff, !in_map_iff. split.
    + intros [[v [<- H]]|[v [<- H]]]; cbn; f_equal; apply IH; exact H.
    + destruct w as [|b w]; [discriminate|]. intros H. injection H as H.
      destruct b; [left|right]; exists w; split; auto; apply IH; exact H.
Qed.

Lemma words_len n w : In w (words n) <-> (length w < n)%nat.
Proof.
  induction n as [|n IH]; cbn; [lia|]. rewrite in_app_iff, IH, words_of_len. lia.
Qed.

Lemma NoDup_app {X} (a b : list X) : NoDup a -> NoDup b -> (forall x, In x a -> ~ In x b) -> NoDup (a ++ b).
Proof.
  intros HA0 HB0 H. induction HA0 as [|x a Hx HA1 IH]; cbn; auto. constructor.
  - rewrite in_app_iff. intros [Q|Q]; [auto|]. apply (H x); [left; reflexivity|exact Q].
  - apply IH. intros y Hy. apply H. right; exact Hy.
Qed.

Lemma words_of_nodup n : NoDup (words_of n).
Proof.
  induction n; cbn; [constructor; [intros []|constructor]|].
  apply NoDup_app.
  - apply Injective_map_NoDup; auto. intros u v E. congruence.
  - apply Injective_map_NoDup; auto. intros u v E. congruence.
  - intros w H1 H2. apply in_map_iff in H1, H2. destruct H1 as [u [<- _]]. destruct H2 as [v [E _]]. discriminate.
Qed.

Lemma words_nodup n : NoDup (words n).
Proof.
  induction n; cbn; [constructor|]. apply NoDup_app; auto using words_of_nodup.
  intros w H1 H2. apply words_len in H1. apply words_of_len in H2. lia.
Qed.

Definition canon (n : nat) (l : series) : series := map (fun w => (coef l w, w)) (words n).

Lemma weq_spec u v : Bool.reflect (u = v) (weq u v).
Proof.
  revert v; induction u as [|a u IH]; intros [|b v]; cbn; try (constructor; congruence).
  destruct (Bool.eqb_spec a b); [|constructor; congruence].
  destruct (IH v); constructor; congruence.
Qed.

Lemma ev_canon n l h x i : Forall (fun p => (length (snd p) < n)%nat) l ->
  ev l h x i = ev (canon n l) h x i.
Proof.
  unfold canon. induction 1 as [|[c w] l Hw Hl IH]; cbn [coef].
  - cbn. symmetry. induction (words n) as [|u ws IH]; cbn; [reflexivity|]. rewrite IH. ring.
  - cbn [ev]. rewrite IH. clear IH. cbn in Hw. rewrite <- words_len in Hw.
    generalize (words_nodup n). revert Hw. generalize (words n). intros ws Hin Hnd.
    induction ws as [|u ws IHw]; [destruct Hin|]. cbn. inversion Hnd; subst.
    destruct (weq_spec w u) as [->|Ne].
    + assert (Q : ev (map (fun w0 => ((if weq u w0 then c else 0) + coef l w0, w0)) ws) h x i
                  = ev (map (fun w0 => (coef l w0, w0)) ws) h x i).
      { clear - H1. induction ws as [|v ws IHv]; cbn; auto.
        destruct (weq_spec u v) as [->|_]; [exfalso; apply H1; left; reflexivity|].
        rewrite IHv by (intros Q; apply H1; right; exact Q). ring. }
      rewrite Q. ring.
    + destruct Hin as [->|Hin]; [congruence|]. rewrite <- (IHw Hin H2). ring.
Qed.

Lemma near_canon n F l m : near n F l ->
  Forall (fun w => coef l w = coef m w) (words n) ->
  Forall (fun p => (length (snd p) < n)%nat) l -> Forall (fun p => (length (snd p) < n)%nat) m ->
  near n F m.
Proof.
  intros HF HC Hl Hm. eapply agree_trans; [exact HF|]. apply agree_ext. intros h x i.
  rewrite (ev_canon n l), (ev_canon n m) by auto. unfold canon.
  assert (E : map (fun w => (coef l w, w)) (words n) = map (fun w => (coef m w, w)) (words n)).
  { clear - HC. induction HC; cbn; [reflexivity|]. rewrite H, IHHC. reflexivity. }
  rewrite E. reflexivity.
Qed.

(** Taylor polynomials as series. *)
Definition tay1 (b : bool) (n : nat) : series :=
  map (fun k => (1 / INR (fact k), repeat b k)) (seq 0 n).
Definition tay2 (n : nat) : series :=
  flat_map (fun k => map (fun w => (1 / INR (fact k), w)) (words_of k)) (seq 0 n).

Lemma iter_letter b n x : iter n (letter b) x = wapp (repeat b n) x.
Proof. induction n; cbn; congruence. Qed.

Lemma taylor_tay1 b n h x i : taylor n (letter b) h x i = ev (tay1 b n) h x i.
Proof.
  unfold tay1. induction n; cbn [taylor]; [reflexivity|].
  rewrite seq_S, map_app, ev_app, IHn. cbn. rewrite repeat_length, <- iter_letter. unfold Rdiv. ring.
Qed.

Definition wsum (ws : list (list bool)) (x : vec I) : vec I :=
  fun i => fold_right (fun w a => wapp w x i + a) 0 ws.

Lemma wsum_app u v x i : wsum (u ++ v) x i = wsum u x i + wsum v x i.
Proof. unfold wsum. induction u; cbn; [ring|]. rewrite IHu. ring. Qed.

Lemma letter_wsum b ws x i : letter b (wsum ws x) i = wsum (map (cons b) ws) x i.
Proof.
  unfold wsum. revert i. induction ws as [|w ws IH]; intros i; cbn.
  - apply linear_zero, letter_linear.
  - rewrite (proj1 (letter_linear b) _
       (fun j => 1 * wapp w x j + 1 * fold_right (fun w0 a => wapp w0 x j + a) 0 ws)) by (intros; ring).
    rewrite (proj2 (letter_linear b)), IH. ring.
Qed.

Lemma iter_plus n x : eqv (iter n (plus_op A B) x) (wsum (words_of n) x).
Proof.
  induction n as [|n IH]; intros i; cbn [iter words_of].
  - unfold wsum; cbn. ring.
  - unfold plus_op at 1. rewrite wsum_app, <- !letter_wsum. cbn [letter].
    rewrite (proj1 HA _ _ IH), (proj1 HB _ _ IH). reflexivity.
Qed.

Lemma ev_words_of k c h x i : ev (map (fun w => (c, w)) (words_of k)) h x i
  = c * h ^ k * wsum (words_of k) x i.
Proof.
  unfold wsum. assert (H : Forall (fun w => length w = k) (words_of k))
    by (apply Forall_forall; intros; apply words_of_len; auto).
  induction H; cbn; [ring|]. rewrite IHForall, H. ring.
Qed.

Lemma taylor_tay2 n h x i : taylor n (plus_op A B) h x i = ev (tay2 n) h x i.
Proof.
  unfold tay2. induction n; cbn [taylor]; [reflexivity|].
  rewrite seq_S, flat_map_app, ev_app, IHn. cbn [flat_map Nat.add]. rewrite app_nil_r.
  rewrite ev_words_of, iter_plus. unfold Rdiv. ring.
Qed.

Lemma solves_near1 n F b : solves_to N n (letter b) F -> near n F (tay1 b n).
Proof. intros H. eapply agree_trans; [exact H|]. apply agree_ext, taylor_tay1. Qed.

Lemma near_solves n F G : near n F (tay2 n) -> solves_to N n (plus_op A B) G -> agree_to N n F G.
Proof.
  intros H HG. eapply agree_trans; [exact H|]. apply agree_sym.
  eapply agree_trans; [exact HG|]. apply agree_ext, taylor_tay2.
Qed.

End Words.

(** ** The four methods *)
Section Methods.
Context {I : Type} (N : vec I -> R) (HN : seminorm N).
Context (A B : vec I -> vec I) (HA : linear A) (HB : linear B)
        (BA : bounded_by N A) (BB : bounded_by N B).
Context (o1 o2 ex : R -> vec I -> vec I).

Lemma half_le1 : Rabs (1 / 2) <= 1.
Proof. rewrite Rabs_right; lra. Qed.

Definition lie_s (n : nat) (a b : bool) : series := strunc n (smul (tay1 b n) (tay1 a n)).
Definition strang_s (n : nat) (a b : bool) : series :=
  strunc n (smul (sscale (1 / 2) (tay1 a n)) (strunc n (smul (tay1 b n) (sscale (1 / 2) (tay1 a n))))).
Definition swss_s (n : nat) : series :=
  scoef (1 / 2) (lie_s n false true) ++ scoef (1 / 2) (lie_s n true false).
Definition jia_s (n : nat) : series :=
  scoef 1 (scoef (2 / 3) (strang_s n true false) ++ scoef (2 / 3) (strang_s n false true))
  ++ scoef (- (1 / 3)) (swss_s n).

Lemma near_lie n a b (p q : R -> vec I -> vec I) :
  near N A B n p (tay1 a n) -> near N A B n q (tay1 b n) ->
  near N A B n (fun h x => q h (p h x)) (lie_s n a b).
Proof. intros. apply near_comp; auto. Qed.

Lemma near_strang n a b (p q : R -> vec I -> vec I) :
  near N A B n p (tay1 a n) -> near N A B n q (tay1 b n) ->
  near N A B n (fun h x => p (1 / 2 * h) (q h (p (1 / 2 * h) x))) (strang_s n a b).
Proof.
  intros Hp Hq.
  pose proof (near_scale N HN A B n (1 / 2) p _ half_le1 Hp) as Hp2.
  apply (near_comp N HN A B HA HB BA BB n (fun h => p (1 / 2 * h))
           (fun h x => q h (p (1 / 2 * h) x))); auto.
  apply (near_comp N HN A B HA HB BA BB n q (fun h => p (1 / 2 * h))); auto.
Qed.

Ltac coefs := repeat constructor; cbn; field.
Ltac small := repeat constructor; cbn; lia.

Lemma lie_order :
  solves_to N 2 A o1 -> solves_to N 2 B o2 -> solves_to N 2 (plus_op A B) ex ->
  exists F, (forall h x, lie (plain o1) (plain o2) h x = Ok (F h x)) /\ agree_to N 2 F ex.
Proof.
  intros H1 H2 HE. exists (fun h x => o2 h (o1 h x)). split; [reflexivity|].
  eapply (near_solves N HN A B HA HB); [|exact HE].
  eapply (near_canon N HN A B); [apply (near_lie 2 true false)| | |].
  - apply (solves_near1 N HN A B 2 o1 true); auto.
  - apply (solves_near1 N HN A B 2 o2 false); auto.
  - coefs.
  - small.
  - small.
Qed.

Lemma strang_order :
  solves_to N 3 A o1 -> solves_to N 3 B o2 -> solves_to N 3 (plus_op A B) ex ->
  exists F, (forall h x, strang (plain o1) (plain o2) h x = Ok (F h x)) /\ agree_to N 3 F ex.
Proof.
  intros H1 H2 HE. exists (fun h x => o1 (1 / 2 * h) (o2 h (o1 (1 / 2 * h) x))). split; [reflexivity|].
  eapply (near_solves N HN A B HA HB); [|exact HE].
  eapply (near_canon N HN A B); [apply (near_strang 3 true false)| | |].
  - apply (solves_near1 N HN A B 3 o1 true); auto.
  - apply (solves_near1 N HN A B 3 o2 false); auto.
  - coefs.
  - small.
  - small.
Qed.

Definition swss_f (h : R) (x : vec I) : vec I :=
  fun i => 1 / 2 * o1 h (o2 h x) i + 1 / 2 * o2 h (o1 h x) i.

Lemma near_swss n : near N A B n o1 (tay1 true n) -> near N A B n o2 (tay1 false n) ->
  near N A B n swss_f (swss_s n).
Proof.
  intros H1 H2. apply (near_lin N HN A B n (1 / 2) (fun h x => o1 h (o2 h x)) _ (1 / 2)
                         (fun h x => o2 h (o1 h x))); apply near_lie; auto.
Qed.

Lemma swss_order :
  solves_to N 3 A o1 -> solves_to N 3 B o2 -> solves_to N 3 (plus_op A B) ex ->
  exists F, (forall h x, swss (f_only I) (plain o1) (plain o2) h x = Ok (F h x)) /\ agree_to N 3 F ex.
Proof.
  intros H1 H2 HE. exists swss_f. split; [reflexivity|].
  eapply (near_solves N HN A B HA HB); [|exact HE].
  eapply (near_canon N HN A B); [apply (near_swss 3)| | |].
  - apply (solves_near1 N HN A B 3 o1 true); auto.
  - apply (solves_near1 N HN A B 3 o2 false); auto.
  - coefs.
  - small.
  - small.
Qed.

Definition jia_f (h : R) (x : vec I) : vec I :=
  fun i => 1 * (2 / 3 * o1 (1 / 2 * h) (o2 h (o1 (1 / 2 * h) x)) i
                + 2 / 3 * o2 (1 / 2 * h) (o1 h (o2 (1 / 2 * h) x)) i)
           + - (1 / 3) * swss_f h x i.

Lemma jia_order :
  solves_to N 4 A o1 -> solves_to N 4 B o2 -> solves_to N 4 (plus_op A B) ex ->
  exists F, (forall h x, jia (f_only I) (plain o1) (plain o2) h x = Ok (F h x)) /\ agree_to N 4 F ex.
Proof.
  intros H1 H2 HE. exists jia_f. split; [reflexivity|].
  assert (N1 : near N A B 4 o1 (tay1 true 4)) by (apply (solves_near1 N HN A B 4 o1 true); auto).
  assert (N2 : near N A B 4 o2 (tay1 false 4)) by (apply (solves_near1 N HN A B 4 o2 false); auto).
  eapply (near_solves N HN A B HA HB); [|exact HE].
  eapply (near_canon N HN A B _ _ (jia_s 4)).
  - apply (near_lin N HN A B 4 1
       (fun h x i => 2 / 3 * o1 (1 / 2 * h) (o2 h (o1 (1 / 2 * h) x)) i
                + 2 / 3 * o2 (1 / 2 * h) (o1 h (o2 (1 / 2 * h) x)) i) _ (- (1 / 3)) swss_f).
    + apply (near_lin N HN A B 4 (2 / 3) (fun h x => o1 (1 / 2 * h) (o2 h (o1 (1 / 2 * h) x))) _
              (2 / 3) (fun h x => o2 (1 / 2 * h) (o1 h (o2 (1 / 2 * h) x)))); apply near_strang; auto.
    + apply near_swss; auto.
  - coefs.
  - small.
  - small.
Qed.

End Methods.

(** ** Commuting flows *)
Lemma commuting_exact {I} (o1 o2 : R -> vec I -> vec I) dt x :
  (forall h, extensional (o1 h)) -> (forall h, extensional (o2 h)) ->
  (forall a b y, eqv (o1 a (o1 b y)) (o1 (a + b) y)) ->
  (forall a b y, eqv (o2 a (o2 b y)) (o2 (a + b) y)) ->
  (forall a b y, eqv (o1 a (o2 b y)) (o2 b (o1 a y))) ->
  (forall m, In m [lie (plain o1) (plain o2); strang (plain o1) (plain o2);
             swss (f_only I) (plain o1) (plain o2); jia (f_only I) (plain o1) (plain o2)] ->
   exists y, m dt x = Ok y /\ eqv y (o2 dt (o1 dt x))).
Proof.
  intros E1 E2 G1 G2 C.
  assert (S12 : eqv (o1 (1 / 2 * dt) (o2 dt (o1 (1 / 2 * dt) x))) (o2 dt (o1 dt x))).
  { intros i. rewrite (C _ _ _ i). apply E2. intros j. rewrite (G1 _ _ _ j).
    replace (1 / 2 * dt + 1 / 2 * dt) with dt by field. reflexivity. }
  assert (S21 : eqv (o2 (1 / 2 * dt) (o1 dt (o2 (1 / 2 * dt) x))) (o2 dt (o1 dt x))).
  { intros i. rewrite (E2 _ _ (o2 (1 / 2 * dt) (o1 dt x))) by (intros j; apply C).
    rewrite (G2 _ _ _ i). replace (1 / 2 * dt + 1 / 2 * dt) with dt by field. reflexivity. }
  assert (W : eqv (swss_f o1 o2 dt x) (o2 dt (o1 dt x))).
  { intros i. unfold swss_f. rewrite (C _ _ _ i). field. }
  intros m [<-|[<-|[<-|[<-|[]]]]].
  - eexists; split; [reflexivity|]. intros i; reflexivity.
  - eexists; split; [reflexivity|]. exact S12.
  - eexists; split; [reflexivity|]. exact W.
  - exists (jia_f o1 o2 dt x). split; [reflexivity|]. intros i. unfold jia_f.
    rewrite (S12 i), (S21 i), (W i). field.
Qed.
