(** Proofs about the reductions over ranks. *)
From Coq Require Import Reals List Lra Lia.
From Verif Require Import Base.Prelude Model.Reductions Spec.Ranks.
Import ListNotations.
Local Open Scope R_scope.

Lemma fold_min_least l : forall x, least (fold_left Rmin l x) (x :: l).
Proof.
  induction l as [|y l IH]; intros x.
  - split; [now left|]. intros z [->|[]]. simpl. lra.
  - cbn [fold_left]. destruct (IH (Rmin x y)) as [Hin Hle]. split.
    + destruct Hin as [H|H]; [|right; right; exact H].
      rewrite <- H. unfold Rmin. destruct (Rle_dec x y); [left|right; left]; reflexivity.
    + intros z [->|[->|H]].
      * apply Rle_trans with (Rmin z y); [apply Hle; now left|apply Rmin_l].
      * apply Rle_trans with (Rmin x z); [apply Hle; now left|apply Rmin_r].
      * apply Hle. now right.
Qed.

Lemma on_ranks_ok {A} (g : list R -> res A) D r :
  on_ranks g D = Ok r -> Forall2 (fun l x => g l = Ok x) D r.
Proof.
  revert r. induction D as [|l D IH]; cbn [on_ranks]; intros r H.
  - injection H as <-. constructor.
  - destruct (g l) as [x|e] eqn:Hg; [|discriminate].
    cbn in H. destruct (on_ranks g D) as [r'|e]; [|discriminate].
    injection H as <-. constructor; [exact Hg|]. now apply IH.
Qed.

Lemma on_ranks_total {A} (g : list R -> res A) D :
  (forall l, In l D -> exists x, g l = Ok x) -> exists r, on_ranks g D = Ok r.
Proof.
  induction D as [|l D IH]; cbn [on_ranks]; intros H; [now eexists|].
  destruct (H l (or_introl eq_refl)) as [x ->].
  destruct IH as [r ->]; [intros; apply H; now right|]. cbn. now eexists.
Qed.

Lemma global_min_spec D : D <> [] -> (forall l, In l D -> l <> []) ->
  exists m, global_min D = Ok m /\ least m (everything D).
Proof.
  intros Hne Hl. unfold global_min.
  destruct (on_ranks_total np_min D) as [r Hr].
  { intros l Hin. destruct l; [now destruct (Hl [] Hin)|]. now eexists. }
  rewrite Hr. cbn. eexists; split; [reflexivity|].
  apply on_ranks_ok in Hr. unfold everything.
  assert (Hcol : Forall2 (fun l x => least x l) D r).
  { clear - Hr. induction Hr as [|l x D r Hx _ IH]; constructor; [|exact IH].
    destruct l; [discriminate|]. injection Hx as <-. apply fold_min_least. }
  destruct r as [|x0 r0]; [inversion Hr; subst; now destruct Hne|].
  cbn [allreduce_min]. destruct (fold_min_least r0 x0) as [Hin Hle]. split.
  - revert Hin. generalize (fold_left Rmin r0 x0). intros m Hin. clear - Hcol Hin.
    induction Hcol as [|l y D r Hy _ IH]; [destruct Hin|].
    cbn. apply in_or_app. destruct Hin as [<-|H]; [left; apply Hy|right; apply IH, H].
  - intros z Hz. revert Hle. generalize (fold_left Rmin r0 x0). intros m Hle. clear - Hcol Hz Hle.
    induction Hcol as [|l y D r Hy _ IH]; [destruct Hz|].
    cbn in Hz. apply in_app_or in Hz as [Hz|Hz].
    + apply Rle_trans with y; [apply Hle; now left|now apply Hy].
    + apply IH; [exact Hz|]. intros w Hw. apply Hle. now right.
Qed.

Lemma global_max_raises D : (forall l, In l D -> l <> []) -> global_max D = Err NameError.
Proof.
  intros Hl. unfold global_max. destruct (on_ranks_total np_min D) as [r ->]; [|reflexivity].
  intros l Hin. destruct l; [now destruct (Hl [] Hin)|]. now eexists.
Qed.

Lemma rsum_fold l : rsum l = fold_right Rplus 0 l.
Proof. induction l; cbn; congruence. Qed.

Lemma global_mean_spec D n : D <> [] -> (0 < n)%nat -> (forall l, In l D -> length l = n) ->
  exists m, global_mean D = Ok m /\ average m (everything D).
Proof.
  intros Hne Hn Hl. unfold global_mean.
  destruct (on_ranks_total np_mean D) as [r Hr].
  { intros l Hin. destruct l; [specialize (Hl [] Hin); cbn in Hl; lia|]. now eexists. }
  rewrite Hr. cbn. eexists; split; [reflexivity|].
  apply on_ranks_ok in Hr. unfold everything.
  assert (Hsum : rsum r * INR n = fold_right Rplus 0 (concat D)).
  { clear Hne. revert Hl. induction Hr as [|l x D r Hx _ IH]; intros Hl; cbn; [ring|].
    rewrite fold_right_app. 
    assert (Hshift : forall l a, fold_right Rplus a l = rsum l + a).
    { clear. induction l; intros; cbn; [ring|rewrite IHl; ring]. }
    rewrite Hshift, <- IH by (intros; apply Hl; now right).
    pose proof (Hl l (or_introl eq_refl)) as Hn'. destruct l as [|a l]; [discriminate|].
    unfold np_mean in Hx. rewrite Hn' in Hx. injection Hx as <-.
    assert (INR n <> 0) by (apply not_0_INR; lia). cbn [rsum]. field. assumption. }
  assert (Hlen : length (concat D) = (length D * n)%nat).
  { clear - Hl. induction D as [|l D IH]; [reflexivity|]. cbn. rewrite app_length, IH by (intros; apply Hl; now right).
    rewrite (Hl l (or_introl eq_refl)). reflexivity. }
  split.
  - rewrite Hlen, mult_INR, <- Hsum. unfold allreduce_sum. 
    assert (INR (length D) <> 0) by (apply not_0_INR; destruct D; [now destruct Hne|cbn; lia]).
    field. assumption.
  - intros H. rewrite H in Hlen. cbn in Hlen. destruct D; [now destruct Hne|]. cbn in Hlen. lia.
Qed.

Lemma global_mean_wrong : exists D m m', D <> [] /\ (forall l, In l D -> l <> []) /\
  global_mean D = Ok m /\ average m' (everything D) /\ m <> m'.
Proof.
  exists [[0]; [1; 1]], (1/2), (2/3). split; [discriminate|]. split.
  { intros l [<-|[<-|[]]]; discriminate. }
  split; [unfold global_mean, np_mean; cbn; f_equal; lra|].
  split; [split; [cbn; lra|discriminate]|lra].
Qed.

Lemma empty_rank_raises D : In [] D -> global_min D = Err ValueError.
Proof.
  unfold global_min. intros Hin.
  assert (H : on_ranks np_min D = Err ValueError).
  { induction D as [|l D IH]; [destruct Hin|]. cbn [on_ranks]. destruct l as [|x l]; [reflexivity|].
    destruct Hin as [H|H]; [discriminate|]. cbn. now rewrite IH. }
  now rewrite H.
Qed.
