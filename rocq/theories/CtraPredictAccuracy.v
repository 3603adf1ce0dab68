(** Accuracy of the prediction of CTRA states with their covariances, in the number types
    of the code; as PredictAccuracy.v for CTRV. *)
From Coq Require Import ZArith Reals Lra Lia Bool List Arith Permutation Psatz.
From mathcomp Require ssreflect ssrbool ssrnat seq matrix.
From Flocq Require Import Core IEEE754.BinarySingleNaN.
From Verif Require Import Float FloatProofs Motion RealArith DoubleArith DoubleThms SumSquares64 PiDouble TrigSpec AngleAccuracy MotionAccuracy
  FloatDistance FloatDistanceThms FloatWeight FloatWeightThms FloatUnscented FloatUnscentedThms FloatCovariance FloatCovarianceThms
  FloatLlt FloatLltThms FloatHeading FloatHeadingThms FloatPredict SigmaAccuracy Properties_FloatUnscented
  Properties_FloatCovariance Properties_FloatLlt FloatPredictThms Displacement PredictSpec CtraPredictSpec CtraSigma Unscented PredictBridge
  PredictAccuracy CtraBridge.
Import ListNotations.
Local Open Scope R_scope.

Lemma yaw_range6 (e : ctra_state reals) (t : R) : 0 <= get_angle (a_yaw (ctra_next e t)) < 2 * PI.
Proof. rewrite (proj1 (next_yaw6 e t)). apply get_angle_spec. Qed.

Section Ctra.
Variables (sine cosine : f64 -> f64) (phase : f64 -> f64 -> f64).
Hypothesis ACC : accurate sine cosine phase.
Notation D := (doubles sine cosine phase).
Notation ST := (ctra64 sine cosine phase).
Variables (M c r : nat -> R).
Hypothesis FR : frame6 M c r.

(** An entry of a predicted point as it enters the transform *)
Definition entry6 (s : ctra_state D) (j : nat) : f32 :=
  if (j =? 3)%nat then wrap32 (ctra_to32 sine cosine phase s j) else ctra_to32 sine cosine phase s j.

Lemma size_pos6 j : (j < 6)%nat -> 0 < M j /\ bpow radix2 (-40) <= M j <= bpow radix2 40.
Proof.
  intros H. destruct (f6_size _ _ _ FR j H) as [A B]. split; [|split].
  - eapply Rlt_le_trans; [apply (bpow_gt_0 radix2 (-39))|exact A].
  - eapply Rle_trans; [|exact A]. apply bpow_le. lia.
  - eapply Rle_trans; [exact B|]. apply bpow_le. lia.
Qed.
Lemma calm6_size t e j : calm6 M c r t e -> (j < 6)%nat -> Rabs (component6 (ctra_next e t) j) <= M j.
Proof.
  intros C H. pose proof (calm6_near _ _ _ _ _ C j H) as N. destruct (f6_near _ _ _ FR j H) as [_ B].
  replace (component6 (ctra_next e t) j) with (c j + (component6 (ctra_next e t) j - c j)) by ring.
  eapply Rle_trans; [apply Rabs_triang|]. lra.
Qed.

Lemma point_near6 (s : ctra_state D) e (dt : f64) j : near_ctra sine cosine phase s e -> is_finite dt = true ->
  Rabs (B2R dt) <= bpow radix2 30 -> calm6 M c r (B2R dt) e -> (j < 6)%nat ->
  is_finite (entry6 (ctra_next s dt) j) = true /\
  Rabs (B2R (entry6 (ctra_next s dt) j) - component6 (ctra_next e (B2R dt)) j) <= 2 * u32 * M j.
Proof.
  intros N Fd Bd C Hj. destruct (next_same6 e (B2R dt)) as (VE & WE & AE).
  assert (U : u32 = / 16777216) by reflexivity.
  pose proof C as [Cx Cy Cv Ct Cr Cs Cn].
  destruct (size_pos6 0 ltac:(lia)) as [M0 [M0a M0b]]. destruct (size_pos6 1 ltac:(lia)) as [M1 [M1a M1b]].
  destruct (size_pos6 2 ltac:(lia)) as [M2 [M2a M2b]]. destruct (size_pos6 4 ltac:(lia)) as [M4 [M4a M4b]].
  destruct (size_pos6 5 ltac:(lia)) as [M5 [M5a M5b]].
  pose proof (calm6_size _ _ 2%nat C ltac:(lia)) as S2. cbn [component6] in S2.
  pose proof (calm6_size _ _ 4%nat C ltac:(lia)) as S4. cbn [component6] in S4. rewrite WE in S4.
  pose proof (calm6_size _ _ 5%nat C ltac:(lia)) as S5. cbn [component6] in S5. rewrite AE in S5.
  pose proof (calm6_size _ _ 0%nat C ltac:(lia)) as S0. pose proof (calm6_size _ _ 1%nat C ltac:(lia)) as S1.
  cbn [component6] in S0, S1.
  assert (Q0 : 0 <= way6 e (B2R dt)).
  { unfold way6. pose proof (Rabs_pos (a_vel e)) as Pv. pose proof (Rabs_pos (a_acc e)) as Pa. pose proof (Rabs_pos (B2R dt)) as Pt.
    assert (0 <= Rabs (a_acc e) * Rabs (B2R dt)) by (apply Rmult_le_pos; assumption).
    destruct (Rlt_dec _ _) as [L|L].
    - assert (0 <= Rabs (a_vel e) * Rabs (B2R dt)) by (apply Rmult_le_pos; assumption).
      assert (0 <= Rabs (a_acc e) * Rabs (B2R dt) * Rabs (B2R dt)) by (apply Rmult_le_pos; assumption). lra.
    - pose proof (bpow_gt_0 radix2 (-1022)) as Pm. assert (W : 0 < Rabs (a_rate e)) by lra.
      apply Rplus_le_le_0_compat; apply Rmult_le_pos; try assumption; try lra; left; apply Rinv_0_lt_compat; [assumption|].
      now apply Rmult_lt_0_compat. }
  pose proof (Rabs_pos (a_x e : R)) as X0. pose proof (Rabs_pos (a_y e : R)) as Y0.
  assert (B59 : bpow radix2 18 * bpow radix2 40 <= bpow radix2 59) by (rewrite <- bpow_plus; apply bpow_le; lia).
  assert (P18 := bpow_gt_0 radix2 18).
  assert (H0 : bpow radix2 18 * M 0%nat <= bpow radix2 18 * bpow radix2 40) by (apply Rmult_le_compat_l; lra).
  assert (H1 : bpow radix2 18 * M 1%nat <= bpow radix2 18 * bpow radix2 40) by (apply Rmult_le_compat_l; lra).
  assert (H2 : bpow radix2 18 * M 2%nat <= bpow radix2 18 * bpow radix2 40) by (apply Rmult_le_compat_l; lra).
  assert (B40 : bpow radix2 40 <= bpow radix2 59) by (apply bpow_le; lia).
  assert (V0 : 0 <= Rabs (a_acc e) * Rabs (B2R dt)) by (apply Rmult_le_pos; apply Rabs_pos).
  destruct (near_next6 sine cosine phase ACC s e dt N Fd Bd) as (Fx & Fy & Fv & Ax & Ay & Av & Rw & Ra & Ry); try lra; try assumption.
  set (q := way6 e (B2R dt)) in *.
  assert (Small : forall m a, bpow radix2 (-40) <= m -> a <= bpow radix2 18 * m ->
    bpow radix2 (-44) * a + bpow radix2 (-500) <= u32 / 2 * m).
  { intros m a Hm Ha. assert (m0 : 0 < m) by (eapply Rlt_le_trans; [apply (bpow_gt_0 radix2 (-40))|exact Hm]).
    assert (bpow radix2 (-44) * a <= bpow radix2 (-26) * m).
    { replace (bpow radix2 (-26)) with (bpow radix2 (-44) * bpow radix2 18) by (rewrite <- bpow_plus; reflexivity).
      rewrite Rmult_assoc. apply Rmult_le_compat_l; [apply bpow_ge_0|exact Ha]. }
    assert (bpow radix2 (-500) <= bpow radix2 (-30) * m).
    { apply Rle_trans with (bpow radix2 (-30) * bpow radix2 (-40)); [rewrite <- bpow_plus; apply bpow_le; lia|].
      apply Rmult_le_compat_l; [apply bpow_ge_0|exact Hm]. }
    assert (bpow radix2 (-26) + bpow radix2 (-30) <= u32 / 2) by (rewrite U; cbn; lra). nra. }
  assert (Rel : forall (x : f64) v m, rel64 x v -> Rabs v <= m -> Rabs (B2R x - v) <= u32 / 2 * m).
  { intros x v m H Hm. eapply Rle_trans; [exact (rel64_near _ _ H)|].
    apply Rmult_le_compat; [apply bpow_ge_0|apply Rabs_pos| |exact Hm].
    rewrite U. unfold u64. cbn. lra. }
  destruct j as [|[|[|[|[|[|j]]]]]]; [| | | | | |lia]; cbn [entry6 ctra_to32 component6 Nat.eqb].
  + apply float_near; [exact Fx|split; assumption|exact S0|]. eapply Rle_trans; [exact Ax|]. now apply Small.
  + apply float_near; [exact Fy|split; assumption|exact S1|]. eapply Rle_trans; [exact Ay|]. now apply Small.
  + apply float_near; [exact Fv|split; assumption|exact S2|]. eapply Rle_trans; [exact Av|].
    eapply Rle_trans; [|apply (Small _ _ M2a Cv)]. apply Rplus_le_compat_r, Rmult_le_compat_r; [pose proof (Rabs_pos (a_vel e)); lra|]. apply bpow_le. lia.
  + destruct Ry as [[Fa Ba] Ta].
    destruct (heading_near _ _ Fa Ba (yaw_range6 e (B2R dt)) Ta Cs) as [F E]. unfold fusion_heading in F, E.
    split; [exact F|]. unfold signed. eapply Rle_trans; [exact E|]. pose proof (f6_yaw _ _ _ FR).
    rewrite U. change (bpow radix2 (-21)) with (/ 2097152). lra.
  + apply float_near; [apply Rw|split; assumption|rewrite WE; exact S4|]. apply Rel; [exact Rw|rewrite WE; exact S4].
  + apply float_near; [apply Ra|split; assumption|rewrite AE; exact S5|]. apply Rel; [exact Ra|rewrite AE; exact S5].
Qed.

(** ** All points *)
Variables (o : summation) (s : ctra_state D) (cov : nat -> nat -> f32) (dt : f64).
Hypothesis OL : orders 6 (order_L o).
Hypothesis Ox : forall j, (j < 6)%nat -> order_of 13 (order_x o j).
Hypothesis OP : forall j k, (j < 6)%nat -> (k < 6)%nat -> order_of 13 (order_P o j k).
Hypothesis V : forall i, (i < 6)%nat -> bpow radix2 (-80) <= B2R (cov i i) <= bpow radix2 80.
Hypothesis Ok : snd (llt32 6 (order_L o) cov) = true.
Hypothesis Fin : finite_lower 6 (llt_matrixL32 6 (order_L o) cov).
Hypothesis Os : ordinary_ctra sine cosine phase s.
Hypothesis Fd : is_finite dt = true.
Hypothesis Bd : Rabs (B2R dt) <= bpow radix2 30.
Notation L := (llt_matrixL32 6 (order_L o) cov).
Notation d := (displacement32 ST L (f32_of_Z 2)).
Notation exact := (exact_ctra sine cosine phase s).
Definition states6 : list (ctra_state D) := s :: generate_sigma_points32 ST o s cov (f32_of_Z 2).
Definition exact_states6 : list (ctra_state reals) := exact :: @displaced 5 ctra_type exact d.
Hypothesis Calm : Forall (calm6 M c r (B2R dt)) exact_states6.

Lemma exact_calm6 : calm6 M c r (B2R dt) exact.
Proof. exact (Forall_inv Calm). Qed.
Lemma d_bound6 i k : (i < 6)%nat -> (k < 6)%nat -> is_finite (d k i) = true /\ Rabs (B2R (d k i)) <= bpow radix2 60.
Proof.
  intros Hi Hk. destruct (disp_value 6 (order_L o) cov ltac:(now right) OL V Ok Fin i k Hi Hk) as [F _]. split; [exact F|].
  pose proof (disp_size 6 (order_L o) cov ltac:(now right) OL V Ok Fin i k Hi Hk) as B.
  pose proof (deviation_small 6 cov V i Hi) as [_ S]. pose proof (root_bounds 6 ltac:(now right)) as RB.
  eapply Rle_trans; [exact B|]. apply Rle_trans with (4 * bpow radix2 40).
  - apply Rmult_le_compat; [lra|apply sqrt_pos|lra|exact S].
  - replace 4 with (bpow radix2 2) by reflexivity. rewrite <- bpow_plus. apply bpow_le. lia.
Qed.
Lemma states_near6 : Forall2 (near_ctra sine cosine phase) states6 exact_states6.
Proof.
  unfold states6, exact_states6. constructor; [now apply exact_near6|].
  rewrite displaced_ctra. unfold generate_sigma_points32. change (s_dim ST) with 6%nat.
  assert (G : forall k, (k < 6)%nat ->
    near_ctra sine cosine phase (ctra_add s (ctra_from32 sine cosine phase (d k))) (ctra_add exact (exact_from6 (d k))) /\
    near_ctra sine cosine phase (ctra_sub s (ctra_from32 sine cosine phase (d k))) (ctra_sub exact (exact_from6 (d k)))).
  { intros k Hk. apply (sigma_near6 sine cosine phase ACC s (d k) Os). intros i Hi. now apply d_bound6. }
  cbn [flat_map seq app sigma_pair32].
  destruct (G 0%nat ltac:(lia)), (G 1%nat ltac:(lia)), (G 2%nat ltac:(lia)), (G 3%nat ltac:(lia)), (G 4%nat ltac:(lia)), (G 5%nat ltac:(lia)).
  repeat (constructor; [assumption|]). constructor.
Qed.
Notation rows := (@rows 5 ctra_type exact d (B2R dt)).
Lemma row_value6 i j : (j < 6)%nat -> rows i j = component6 (ctra_next (nth i exact_states6 exact) (B2R dt)) j.
Proof.
  intros Hj. unfold PredictBridge.rows. rewrite cell_ctra by (destruct j as [|[|[|[|[|[|j]]]]]]; [reflexivity..|lia]). now rewrite seq_nth.
Qed.
Lemma exact_states_length : length exact_states6 = 13%nat.
Proof. unfold exact_states6. rewrite displaced_ctra. reflexivity. Qed.
Lemma nth_calm6 i : calm6 M c r (B2R dt) (nth i exact_states6 exact).
Proof.
  destruct (nth_in_or_default i exact_states6 exact) as [H| ->]; [|exact exact_calm6].
  rewrite Forall_forall in Calm. now apply Calm.
Qed.
Lemma point_value6 i j : predicted_points32 ST o s cov dt (f32_of_Z 2) i j = entry6 (ctra_next (nth i states6 s) dt) j.
Proof.
  unfold predicted_points32, wrap_rows32, mean_and_sigma_points_to_matrix_xf32, entry6.
  set (g := fun sigma_point => s_next ST sigma_point dt).
  change (s_next ST s dt :: map g (generate_sigma_points32 ST o s cov (f32_of_Z 2))) with (map g states6).
  change (s_next ST s dt) with (g s). rewrite map_nth. reflexivity.
Qed.

Lemma transform_accurate6 j k : (j < 6)%nat -> (k < 6)%nat ->
  let '(Wm, Wc) := weights 6 (f32_of_Z 1) (f32_of_Z 1) (f32_of_Z 2) in
  let '(x, P) := compute_unscented_transform32 (order_x o) (order_P o) (predicted_points32 ST o s cov dt (f32_of_Z 2)) Wm Wc in
  (is_finite (x j) = true /\ Rabs (B2R (x j) - exact_mean 6 rows j) <= 18 * u32 * M j) /\
  (is_finite (P j k) = true /\
   Rabs (B2R (P j k) - exact_covariance 6 rows j k) <= 220 * u32 * (M j * r k + M k * r j) + 2000 * u32 * u32 * (M j * M k)).
Proof.
  intros Hj Hk.
  replace (220 * u32 * (M j * r k + M k * r j)) with (110 * u32 * (M j * (2 * r k) + M k * (2 * r j))) by ring.
  assert (Near : forall l i, (l < 6)%nat -> (i < points 6)%nat ->
    is_finite (predicted_points32 ST o s cov dt (f32_of_Z 2) i l) = true /\
    Rabs (B2R (predicted_points32 ST o s cov dt (f32_of_Z 2) i l) - rows i l) <= 2 * u32 * M l).
  { intros l i Hl _. rewrite point_value6, row_value6 by exact Hl. apply point_near6; try assumption; [|apply nth_calm6].
    apply forall2_nth; [exact states_near6|]. now apply exact_near6. }
  assert (Size : forall l i, (l < 6)%nat -> (i < points 6)%nat ->
    Rabs (rows i l) <= M l /\ Rabs (rows i l - exact_mean 6 rows l) <= 2 * r l).
  { intros l i Hl _. rewrite row_value6 by exact Hl. split; [apply calm6_size; [apply nth_calm6|exact Hl]|].
    assert (Mn : Rabs (exact_mean 6 rows l - c l) <= r l).
    { assert (E : exact_mean 6 (fun _ _ => c l) l = c l).
      { unfold exact_mean. rewrite total_const, seq_length. rewrite INR_IZR_INZ. change (Z.of_nat (Z.to_nat (2 * 6))) with 12%Z. field. }
      rewrite <- E at 1. apply (mean_perturbed 6 (or_intror eq_refl)). intros i' _. rewrite row_value6 by exact Hl.
      now apply (calm6_near _ _ _ _ _ (nth_calm6 i')). }
    pose proof (calm6_near _ _ _ _ _ (nth_calm6 i) l Hl) as A. apply Rabs_le_inv in A, Mn. apply Rabs_le. lra. }
  destruct (f6_near _ _ _ FR j Hj) as [rj Bj]. destruct (f6_near _ _ _ FR k Hk) as [rk Bk].
  pose proof (Rabs_pos (c j)). pose proof (Rabs_pos (c k)).
  apply (transform_near 6 (or_intror eq_refl)); auto using (f6_size _ _ _ FR); try lra.
Qed.
End Ctra.
