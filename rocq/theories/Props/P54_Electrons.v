(** C54-C57, C71, C72: small matrices, electronic collisions, unit helpers,
    reductions over ranks, polar coordinates. *)
From Coq Require Import ZArith Reals String List Lra Lia.
From Verif Require Import Base.Prelude Base.ZSum Model.Electronic Model.Units Model.Reductions Model.Polar
  Spec.Electrons Spec.Ranks Spec.Motion
  Proofs.MatrixLemmas Proofs.ElectronLemmas Proofs.ElectronProps Proofs.ReductionLemmas
  Proofs.UnitLemmas Proofs.PolarLemmas.
Import ListNotations.
Local Open Scope R_scope.

(** ** C54 *)
Theorem C54_inverse_3x3 : forall A, det 3 A <> 0 -> inverse_of 3 A (inverse_3x3_matrix A).
Proof. exact inverse3_spec. Qed.
Print Assumptions C54_inverse_3x3.

Theorem C54_inverse_4x4 : forall A, det 4 A <> 0 -> inverse_of 4 A (inverse_4x4_matrix A).
Proof. exact inverse4_spec. Qed.
Print Assumptions C54_inverse_4x4.

Example C54_example :
  det 3 (of_rows [[2; 1; 0]; [0; 1; 5]; [1; 0; 3]]) = 11
  /\ det 4 (of_rows [[2; 1; 0; 0]; [0; 1; 5; 0]; [1; 0; 3; 0]; [7; 0; 0; 2]]) = 22.
Proof. split; cbn; unfold minor, of_rows; cbn; lra. Qed.

(** ** C55.  In each solver the next guess is the one Newton's method prescribes, and no other. *)
Theorem C55_f0_ee : forall k N E px py f s e', 0 < k -> 0 < T_ee s -> independent N [one; E; px; py] ->
  newton k N E px py f [one; E; px; py] (eqm s) e' <-> e' = eqm (ee_step N k E px py f s).
Proof. exact ee_step_newton. Qed.
Print Assumptions C55_f0_ee.

Theorem C55_f0_ee_constant_T : forall k N E px py f s e', 0 < k -> 0 < T_ee s -> independent N [one; px; py] ->
  (newton k N E px py f [one; px; py] (eqm s) e' /\ temp e' = temp (eqm s))
  <-> e' = eqm (ee_step_T N k E px py f s).
Proof. exact ee_step_T_newton. Qed.
Print Assumptions C55_f0_ee_constant_T.

Theorem C55_f0_defect : forall k N E px py f s e', 0 < k -> 0 < snd s -> independent N [one; E] ->
  (newton k N E px py f [one; E] (at_rest s) e' /\ drift_x e' = 0 /\ drift_y e' = 0)
  <-> e' = at_rest (defect_step N k E f s).
Proof. exact defect_step_newton. Qed.
Print Assumptions C55_f0_defect.

Theorem C55_f0_defect_constant_T : forall k N E px py f m T e', 0 < k -> 0 < T -> (0 < N)%Z ->
  (newton k N E px py f [one] (at_rest (m, T)) e' /\ temp e' = T /\ drift_x e' = 0 /\ drift_y e' = 0)
  <-> e' = at_rest (defect_mu_step N k E f T m, T).
Proof. exact defect_mu_newton. Qed.
Print Assumptions C55_f0_defect_constant_T.

(** What the four functions return and leave in params *)
Theorem C55_run_ee : forall k N E px py f iters s s' g, 0 < k -> independent N [one; E; px; py] ->
  f0_ee N k E px py f iters s = Ok (s', g) ->
  (0 < iters)%nat
  /\ steps (fun e e' => 0 < temp e -> newton k N E px py f [one; E; px; py] e e') iters (eqm s) (eqm s')
  /\ forall x, g x = occupation k E px py (eqm s') x.
Proof. exact f0_ee_run. Qed.
Print Assumptions C55_run_ee.

Theorem C55_run_ee_constant_T : forall k N E px py f iters s s' g, 0 < k -> independent N [one; px; py] ->
  f0_ee_constant_T N k E px py f iters s = Ok (s', g) ->
  (0 < iters)%nat
  /\ steps (fun e e' => temp e' = temp e /\ (0 < temp e -> newton k N E px py f [one; px; py] e e'))
       iters (eqm s) (eqm s')
  /\ forall x, g x = occupation k E px py (eqm s') x.
Proof. exact f0_ee_T_run. Qed.
Print Assumptions C55_run_ee_constant_T.

Theorem C55_run_defect : forall k N E px py f iters s s' g, 0 < k -> independent N [one; E] ->
  f0_defect N k E f iters s = Ok (s', g) ->
  (0 < iters)%nat
  /\ steps (fun e e' => 0 < temp e -> newton k N E px py f [one; E] e e') iters (at_rest s) (at_rest s')
  /\ forall x, g x = occupation k E px py (at_rest s') x.
Proof. exact f0_defect_run. Qed.
Print Assumptions C55_run_defect.

Theorem C55_run_defect_constant_T : forall k N E px py f iters T m m' g, 0 < k -> 0 < T -> (0 < N)%Z ->
  f0_defect_constant_T N k E f iters T m = Ok (m', g) ->
  (0 < iters)%nat
  /\ steps (newton k N E px py f [one]) iters (at_rest (m, T)) (at_rest (m', T))
  /\ forall x, g x = occupation k E px py (at_rest (m', T)) x.
Proof. exact f0_defect_T_run. Qed.
Print Assumptions C55_run_defect_constant_T.

(** The iteration rests exactly where the moments agree *)
Theorem C55_fixed_points : forall k N E px py f s m T,
  0 < k -> 0 < T_ee s -> 0 < T -> independent N [one; E; px; py] -> independent N [one; px; py] ->
  independent N [one; E] -> (0 < N)%Z ->
  (ee_step N k E px py f s = s <-> matches k N E px py f [one; E; px; py] (eqm s))
  /\ (ee_step_T N k E px py f s = s <-> matches k N E px py f [one; px; py] (eqm s))
  /\ (defect_step N k E f (m, T) = (m, T) <-> matches k N E px py f [one; E] (at_rest (m, T)))
  /\ (defect_mu_step N k E f T m = m <-> matches k N E px py f [one] (at_rest (m, T))).
Proof.
  exact (fun k N E px py f s m T Hk Hs HT H4 H3 H2 HN =>
    conj (ee_fixed k N E px py f s Hk Hs H4) (conj (ee_T_fixed k N E px py f s Hk Hs H3)
      (conj (defect_fixed k N E px py f (m, T) Hk HT H2) (defect_mu_fixed k N E px py f m T Hk HT HN)))).
Qed.
Print Assumptions C55_fixed_points.

Theorem C55_mu_unique : forall k N E px py f m m' T, 0 < k -> 0 < T -> (0 < N)%Z ->
  matches k N E px py f [one] (at_rest (m, T)) -> matches k N E px py f [one] (at_rest (m', T)) -> m = m'.
Proof. exact mu_unique. Qed.
Print Assumptions C55_mu_unique.

(** Four momenta on which the weights are independent *)
Definition ex_px (x : Z) : R := if Z.eqb x 1 then 1 else if Z.eqb x 3 then -1 else 0.
Definition ex_py (x : Z) : R := if Z.eqb x 2 then 1 else 0.
Definition ex_E (x : Z) : R := ex_px x ^ 2 + ex_py x ^ 2.

Lemma ex_independent4 : independent 4 [one; ex_E; ex_px; ex_py].
Proof.
  intros cs Hlen H. destruct cs as [|a [|b [|c [|d [|? ?]]]]]; try discriminate Hlen.
  pose proof (H 0%Z ltac:(lia)). pose proof (H 1%Z ltac:(lia)). pose proof (H 2%Z ltac:(lia)). pose proof (H 3%Z ltac:(lia)).
  unfold ex_E, ex_px, ex_py, one in *. cbn in *. repeat constructor; lra.
Qed.
Lemma ex_independent3 : independent 4 [one; ex_px; ex_py].
Proof.
  intros cs Hlen H. destruct cs as [|a [|b [|c [|? ?]]]]; try discriminate Hlen.
  pose proof (H 0%Z ltac:(lia)). pose proof (H 1%Z ltac:(lia)). pose proof (H 2%Z ltac:(lia)). pose proof (H 3%Z ltac:(lia)).
  unfold ex_E, ex_px, ex_py, one in *. cbn in *. repeat constructor; lra.
Qed.
Lemma ex_independent2 : independent 4 [one; ex_E].
Proof.
  intros cs Hlen H. destruct cs as [|a [|b [|? ?]]]; try discriminate Hlen.
  pose proof (H 0%Z ltac:(lia)). pose proof (H 1%Z ltac:(lia)).
  unfold ex_E, ex_px, ex_py, one in *. cbn in *. repeat constructor; lra.
Qed.

Example C55_example :
  independent 4 [one; ex_E; ex_px; ex_py] /\ independent 4 [one; ex_px; ex_py] /\ independent 4 [one; ex_E]
  /\ exists s' g, f0_ee 4 1 ex_E ex_px ex_py (fun _ => 1/3) 5 (Drifting 0 1 0 0) = Ok (s', g).
Proof.
  repeat split; [exact ex_independent4|exact ex_independent3|exact ex_independent2|]. now eexists _, _.
Qed.

(** ** C71 *)
Theorem C71_balance : forall N k iters grid p_dim E p1 p2 px py f,
  in_plane grid p1 p2 = Ok (px, py) ->
  forall flag td te ed ee ed' ee' C w, td <> 0 -> te <> 0 ->
  RTA N k iters grid p_dim false false flag (fun _ => td) (fun _ => te) E p1 p2 f ed ee = Ok (ed', ee', C) ->
  zsum N (fun x => w x * C x)
  = - excess k N E px py f w (at_rest ed') / td - excess k N E px py f w (eqm ee') / te.
Proof. exact rta_balance. Qed.
Print Assumptions C71_balance.

Theorem C71_conservation : forall N k iters grid p_dim E p1 p2 px py f,
  in_plane grid p1 p2 = Ok (px, py) ->
  forall flag td te ed ee ed' ee' C w, td <> 0 -> te <> 0 ->
  RTA N k iters grid p_dim false false flag (fun _ => td) (fun _ => te) E p1 p2 f ed ee = Ok (ed', ee', C) ->
  excess k N E px py f w (at_rest ed') = 0 -> excess k N E px py f w (eqm ee') = 0 ->
  zsum N (fun x => w x * C x) = 0.
Proof. exact rta_conservation. Qed.
Print Assumptions C71_conservation.

Theorem C71_equilibrium : forall N k iters grid p_dim E p1 p2 px py f,
  in_plane grid p1 p2 = Ok (px, py) ->
  forall flag td te m T, 0 < k -> 0 < T -> (0 < iters)%nat -> (p_dim = 1 \/ p_dim = 2)%Z ->
  independent N [one; E] -> independent N [one; px; py] ->
  (forall x, f x = occupation k E px py (Equilibrium m T 0 0) x) ->
  exists C, RTA N k iters grid p_dim false false flag td te E p1 p2 f (m, T) (Drifting m T 0 0)
            = Ok ((m, T), Drifting m T 0 0, C) /\ forall x, C x = 0.
Proof. exact rta_equilibrium. Qed.
Print Assumptions C71_equilibrium.

(** The branches without collisions, with instantaneous collisions and with errors *)
Theorem C71_branches : forall N k iters grid p_dim td te E p1 p2 f ed ee,
  (grid <> "cartesian"%string -> grid <> "polar2D"%string -> forall dis anyz flag,
     RTA N k iters grid p_dim dis anyz flag td te E p1 p2 f ed ee = Err NotImplementedError)
  /\ (In grid ["cartesian"; "polar2D"]%string ->
      (forall flag, RTA N k 0 grid p_dim false false flag td te E p1 p2 f ed ee = Err UnboundLocalError)
      /\ (forall flag, p_dim <> 1%Z -> p_dim <> 2%Z ->
          RTA N k iters grid p_dim false false flag td te E p1 p2 f ed ee = Err UnboundLocalError)
      /\ (forall anyz, exists C, RTA N k iters grid p_dim true anyz false td te E p1 p2 f ed ee = Ok (ed, ee, C)
            /\ forall x, C x = 0)
      /\ (forall dis, (0 < iters)%nat -> exists px py m C,
            in_plane grid p1 p2 = Ok (px, py)
            /\ RTA N k iters grid p_dim dis true true td te E p1 p2 f ed ee = Ok ((m, snd ed), ee, C)
            /\ forall x, C x = occupation k E px py (Equilibrium m (snd ed) 0 0) x)).
Proof. exact rta_branches. Qed.
Print Assumptions C71_branches.

Example C71_example : forall f, exists ed ee C,
  RTA 4 1 3 "polar2D" 2 false false false (fun _ => 2) (fun _ => 5) ex_E
    (fun x => if Z.eqb x 0 then 0 else 1) (fun x => if Z.eqb x 3 then PI else if Z.eqb x 2 then PI/2 else 0)
    f (0, 1) (Drifting 0 1 0 0) = Ok (ed, ee, C).
Proof. intros f. cbn. now eexists _, _, _. Qed.

Example C71_example_rest : exists C,
  RTA 4 1 3 "cartesian" 2 false false false (fun _ => 2) (fun _ => 5) ex_E ex_px ex_py
    (occupation 1 ex_E ex_px ex_py (Equilibrium (1/2) 3 0 0)) (1/2, 3) (Drifting (1/2) 3 0 0)
  = Ok ((1/2, 3), Drifting (1/2) 3 0 0, C) /\ forall x, C x = 0.
Proof.
  apply (C71_equilibrium 4 1 3 "cartesian" 2 ex_E ex_px ex_py ex_px ex_py);
    [reflexivity|lra|lra|lia|now right|exact ex_independent2|exact ex_independent3|reflexivity].
Qed.

(** ** C56 *)
Theorem C56_scales : forall n T e k eps c m v B l mu gamma,
  0 < n -> 0 < T -> 0 < e -> 0 < k -> 0 < eps -> 0 < m -> 0 < B -> 0 < mu -> 0 < gamma ->
  debye_length n T e k eps = thermal_speed T m k / plasma_frequency n e m eps
  /\ skin_depth n e c m eps = c / plasma_frequency n e m eps
  /\ gyroradius v B e m = v / cyclotron_frequency B e m
  /\ alfven_crossing_time l B n m mu * alfven_velocity B n m mu = l
  /\ sound_crossing_time l T k gamma * sound_speed T k gamma = l
  /\ m * eps * (plasma_frequency n e m eps)^2 = n * e^2
  /\ m * (thermal_speed T m k)^2 = k * T
  /\ m * cyclotron_frequency B e m = e * B
  /\ n * m * mu * (alfven_velocity B n m mu)^2 = B^2
  /\ (sound_speed T k gamma)^2 = gamma * k * T.
Proof. exact scales_spec. Qed.
Print Assumptions C56_scales.

Example C56_example : plasma_frequency 4 1 1 1 = 2 /\ debye_length 4 1 1 1 1 = 1/2.
Proof.
  unfold plasma_frequency, debye_length. split.
  - replace (4 * 1 ^ 2 / (1 * 1)) with (2 * 2) by field. apply sqrt_square. lra.
  - replace (1 * 1 * 1 / (4 * 1 ^ 2)) with (1/2 * (1/2)) by field. apply sqrt_square. lra.
Qed.

(** ** C57 *)
Theorem C57_min : forall D, D <> [] -> (forall l, In l D -> l <> []) ->
  exists m, global_min D = Ok m /\ least m (everything D).
Proof. exact global_min_spec. Qed.
Print Assumptions C57_min.

Theorem C57_max_refuted : forall D, (forall l, In l D -> l <> []) ->
  global_max D = Err NameError.
Proof. exact global_max_raises. Qed.
Print Assumptions C57_max_refuted.

(** Only if all ranks hold equally many elements *)
Theorem C57_mean_partial : forall D n, D <> [] -> (0 < n)%nat -> (forall l, In l D -> length l = n) ->
  exists m, global_mean D = Ok m /\ average m (everything D).
Proof. exact global_mean_spec. Qed.
Print Assumptions C57_mean_partial.

Theorem C57_mean_refuted : exists D m m', D <> [] /\ (forall l, In l D -> l <> []) /\
  global_mean D = Ok m /\ average m' (everything D) /\ m <> m'.
Proof. exact global_mean_wrong. Qed.
Print Assumptions C57_mean_refuted.

Example C57_example : exists m, global_mean [[1; 2]; [3; 6]] = Ok m /\ average m [1; 2; 3; 6].
Proof.
  apply (C57_mean_partial [[1; 2]; [3; 6]] 2); [discriminate|lia|]. intros l [<-|[<-|[]]]; reflexivity.
Qed.

(** ** C72 *)
Theorem C72_free_motion : forall r th rd td rdd tdd phid,
  has_derivative r rd -> has_derivative th td -> has_derivative rd rdd -> has_derivative td tdd ->
  (forall t, 0 < r t) ->
  (uniform (fun t => r t * cos (th t)) /\ uniform (fun t => r t * sin (th t)))
  <-> (forall t, polar_A_q (r t) (th t) (rd t) (td t) (phid t) = (rd t, td t)
              /\ polar_A_p (r t) (th t) (rd t) (td t) (phid t) = (rdd t, tdd t, 0)).
Proof. exact polar_characteristics. Qed.
Print Assumptions C72_free_motion.

Theorem C72_source : forall f r th rd td phid fr fth frd ftd D1 D2 D3 D4, r <> 0 ->
  derivable_pt_lim (fun u => f u th rd td) r fr ->
  derivable_pt_lim (fun u => f r u rd td) th fth ->
  derivable_pt_lim (fun u => f r th u td) rd frd ->
  derivable_pt_lim (fun u => f r th rd u) td ftd ->
  derivable_pt_lim (fun u => fst (polar_C_q u th rd td phid) * f u th rd td) r D1 ->
  derivable_pt_lim (fun u => snd (polar_C_q r u rd td phid) * f r u rd td) th D2 ->
  derivable_pt_lim (fun u => fst (fst (polar_C_p r th u td phid)) * f r th u td) rd D3 ->
  derivable_pt_lim (fun u => snd (fst (polar_C_p r th rd u phid)) * f r th rd u) td D4 ->
  polar_source (f r th rd td) r th rd td phid - (D1 + D2 + D3 + D4)
  = - (fst (polar_A_q r th rd td phid) * fr + snd (polar_A_q r th rd td phid) * fth
       + fst (fst (polar_A_p r th rd td phid)) * frd + snd (fst (polar_A_p r th rd td phid)) * ftd).
Proof. exact polar_source_balances. Qed.
Print Assumptions C72_source.

(** The motion along the line x = 1 with unit speed *)
Example C72_example :
  has_derivative (fun t => sqrt (1 + t * t)) (fun t => t / sqrt (1 + t * t))
  /\ has_derivative atan (fun t => / (1 + t * t))
  /\ has_derivative (fun t => t / sqrt (1 + t * t)) (fun t => sqrt (1 + t * t) * (/ (1 + t * t)) ^ 2)
  /\ has_derivative (fun t => / (1 + t * t)) (fun t => - 2 * t / (1 + t * t) ^ 2)
  /\ (forall t, 0 < sqrt (1 + t * t))
  /\ uniform (fun t => sqrt (1 + t * t) * cos (atan t))
  /\ uniform (fun t => sqrt (1 + t * t) * sin (atan t)).
Proof. exact polar_line. Qed.
