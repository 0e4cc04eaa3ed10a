(** Proofs about the plasma scales and free motion in polar coordinates. *)
From Coq Require Import Reals Lra.
From Verif Require Import Model.Units Model.Polar.
Local Open Scope R_scope.

Lemma sqrt_quot a b c : 0 < b -> 0 < c -> 0 <= a -> a / b = c -> sqrt a / sqrt b = sqrt c.
Proof. intros Hb Hc Ha H. rewrite <- sqrt_div by assumption. now rewrite H. Qed.

Ltac pos := repeat (apply pow_lt || apply Rdiv_lt_0_compat || apply Rmult_lt_0_compat || assumption).

Lemma debye_thermal n T e k eps m : 0 < n -> 0 < T -> 0 < e -> 0 < k -> 0 < eps -> 0 < m ->
  debye_length n T e k eps = thermal_speed T m k / plasma_frequency n e m eps.
Proof.
  intros. unfold debye_length, thermal_speed, plasma_frequency. symmetry.
  apply sqrt_quot; [pos|pos|apply Rlt_le; pos|]. field. repeat split; apply Rgt_not_eq; assumption.
Qed.

Lemma skin_plasma n e c m eps : 0 < n -> 0 < e -> 0 < m -> 0 < eps ->
  skin_depth n e c m eps = c / plasma_frequency n e m eps.
Proof.
  intros. unfold skin_depth, plasma_frequency, Rdiv. f_equal.
  rewrite <- sqrt_inv. f_equal. field. repeat split; apply Rgt_not_eq; assumption.
Qed.

Lemma gyro_cyclotron v B e m : 0 < B -> 0 < e -> 0 < m ->
  gyroradius v B e m = v / cyclotron_frequency B e m.
Proof.
  intros. unfold gyroradius, cyclotron_frequency. field. repeat split; apply Rgt_not_eq; assumption.
Qed.

Lemma alfven_time l B n m mu : 0 < B -> 0 < n -> 0 < m -> 0 < mu ->
  alfven_crossing_time l B n m mu * alfven_velocity B n m mu = l.
Proof.
  intros. unfold alfven_crossing_time, alfven_velocity.
  assert (0 < sqrt (n * m * mu)) by (apply sqrt_lt_R0; pos).
  field. split; apply Rgt_not_eq; assumption.
Qed.

Lemma sound_time l T k gamma : 0 < T -> 0 < k -> 0 < gamma ->
  sound_crossing_time l T k gamma * sound_speed T k gamma = l.
Proof.
  intros. unfold sound_crossing_time, sound_speed.
  assert (0 < sqrt (gamma * k * T)) by (apply sqrt_lt_R0; pos).
  field. apply Rgt_not_eq; assumption.
Qed.

(** The squares, which fix the positive roots *)
Lemma scales_squared n T e k eps c m : 0 < n -> 0 < T -> 0 < e -> 0 < k -> 0 < eps -> 0 < m ->
  m * eps * (plasma_frequency n e m eps)^2 = n * e^2
  /\ m * (thermal_speed T m k)^2 = k * T
  /\ n * e^2 * (debye_length n T e k eps)^2 = eps * k * T
  /\ n * e^2 * (skin_depth n e c m eps)^2 = c^2 * (eps * m).
Proof.
  intros. unfold plasma_frequency, thermal_speed, debye_length, skin_depth.
  rewrite ?Rpow_mult_distr.
  rewrite !pow2_sqrt by (apply Rlt_le; pos).
  repeat split; field; repeat split; apply Rgt_not_eq; pos.
Qed.

Lemma scales_spec n T e k eps c m v B l mu gamma :
  0 < n -> 0 < T -> 0 < e -> 0 < k -> 0 < eps -> 0 < m -> 0 < B -> 0 < mu -> 0 < gamma ->
  debye_length n T e k eps = thermal_speed T m k / plasma_frequency n e m eps
  /\ skin_depth n e c m eps = c / plasma_frequency n e m eps
  /\ gyroradius v B e m = v / cyclotron_frequency B e m
  /\ alfven_crossing_time l B n m mu * alfven_velocity B n m mu = l
  /\ sound_crossing_time l T k gamma * sound_speed T k gamma = l
  /\ m * eps * (plasma_frequency n e m eps)^2 = n * e^2
  /\ m * (thermal_speed T m k)^2 = k * T
  /\ m * cyclotron_frequency B e m = e * B
  /\ n * m * mu * (alfven_velocity B n m mu)^2 = B^2
  /\ (sound_speed T k gamma)^2 = gamma * k * T.
Proof.
  intros. destruct (scales_squared n T e k eps c m) as (H8 & H9 & _ & _); try assumption.
  repeat split; try assumption.
  - now apply debye_thermal.
  - now apply skin_plasma.
  - now apply gyro_cyclotron.
  - now apply alfven_time.
  - now apply sound_time.
  - unfold cyclotron_frequency. field. apply Rgt_not_eq; assumption.
  - unfold alfven_velocity, Rdiv. rewrite Rpow_mult_distr, pow_inv, pow2_sqrt by (apply Rlt_le; pos).
    field. repeat split; apply Rgt_not_eq; assumption.
  - unfold sound_speed. apply pow2_sqrt. apply Rlt_le; pos.
Qed.
