(** Interpolation on integer tables. *)
From Coq Require Import ZArith Reals Lra Lia Bool.
From Verif Require Import Base.Prelude Base.ZSum Model.Af Spec.Interp.
Local Open Scope R_scope.

Lemma Int_part_unique x z : IZR z <= x < IZR z + 1 -> Int_part x = z.
Proof.
  intros (A&B). destruct (base_Int_part x) as (C&D).
  assert (IZR (Int_part x) < IZR z + 1) by lra. assert (IZR z < IZR (Int_part x) + 1) by lra.
  rewrite <- plus_IZR in *. apply lt_IZR in H, H0. lia.
Qed.
Lemma Int_part_bounds x : IZR (Int_part x) <= x < IZR (Int_part x) + 1.
Proof. destruct (base_Int_part x). lra. Qed.
Lemma Int_part_shift x z : Int_part (x + IZR z) = (Int_part x + z)%Z.
Proof. apply Int_part_unique. rewrite plus_IZR. pose proof (Int_part_bounds x). lra. Qed.
Lemma frac_part_shift x z : frac_part (x + IZR z) = frac_part x.
Proof. unfold frac_part. rewrite Int_part_shift, plus_IZR. lra. Qed.
Lemma Int_part_Z z : Int_part (IZR z) = z.
Proof. apply Int_part_unique. lra. Qed.
Lemma frac_part_Z z : frac_part (IZR z) = 0.
Proof. unfold frac_part. rewrite Int_part_Z. lra. Qed.
Lemma frac_0 x : frac_part x = 0 -> x = IZR (Int_part x).
Proof. unfold frac_part. lra. Qed.

Lemma interp2_shift w u X Y m n :
  interp2 w u (X + IZR m) (Y + IZR n) = interp2 w (fun a b => u (a + m) (b + n))%Z X Y.
Proof.
  unfold interp2. rewrite !Int_part_shift, !frac_part_shift.
  apply zsum_ext; intros a Ha. apply zsum_ext; intros b Hb. do 2 f_equal; lia.
Qed.

(** Only nodes inside the table count. *)
Lemma fits_weight w n X a : nodal w -> fits n X -> (0 <= a < 4)%Z ->
  w (frac_part X) (a - 1)%Z = 0 \/ inb n (Int_part X + (a - 1)).
Proof.
  intros N [(A&B)|(E&B)] Ha.
  - right. unfold inb. lia.
  - rewrite E, N. destruct (Z.eqb_spec (a - 1) 0); [right; unfold inb; lia|auto].
Qed.
Lemma interp2_ext w u v n m X Y : nodal w -> fits n X -> fits m Y ->
  (forall a b, inb n a -> inb m b -> u a b = v a b) -> interp2 w u X Y = interp2 w v X Y.
Proof.
  intros N FX FY E. unfold interp2. apply zsum_ext; intros a Ha. apply zsum_ext; intros b Hb.
  destruct (fits_weight w n X a N FX Ha) as [->|IA]; [ring|].
  destruct (fits_weight w m Y b N FY Hb) as [->|IB]; [ring|]. rewrite E by auto. reflexivity.
Qed.

Lemma zsum4 (g : Z -> R) : zsum 4 g = g 0%Z + g 1%Z + g 2%Z + g 3%Z.
Proof. unfold zsum. change (Z.to_nat 4) with 4%nat. cbn [nsum Z.of_nat Pos.of_succ_nat Pos.succ]. ring. Qed.

Lemma interp2_node w u m n : nodal w -> interp2 w u (IZR m) (IZR n) = u m n.
Proof.
  intros N. unfold interp2. rewrite !Int_part_Z, !frac_part_Z.
  rewrite !zsum4. rewrite !N. cbn [Z.eqb Z.sub Z.add Z.opp Z.pos_sub Pos.pred_double].
  rewrite !Z.add_0_r. ring.
Qed.
Lemma interp2_const w k X Y : normalised w -> interp2 w (fun _ _ => k) X Y = k.
Proof.
  intros N. unfold interp2.
  rewrite (zsum_ext 4 _ (fun a => w (frac_part X) (a - 1)%Z * k)).
  - rewrite zsum_scal_r, N. ring.
  - intros a Ha. rewrite (zsum_ext 4 _ (fun b => w (frac_part Y) (b - 1)%Z * (w (frac_part X) (a - 1)%Z * k))).
    + rewrite zsum_scal_r, N. ring.
    + intros; ring.
Qed.
