(** Accuracy of the prediction of CTRV states with their covariances, in the number types
    of the code. *)
From Coq Require Import ZArith Reals Lra Lia Bool List Arith Permutation Psatz.
From mathcomp Require ssreflect ssrbool ssrnat seq matrix.
From Flocq Require Import Core IEEE754.BinarySingleNaN.
From Verif Require Import Float FloatProofs Motion RealArith DoubleArith DoubleThms SumSquares64 PiDouble TrigSpec AngleAccuracy MotionAccuracy
  FloatDistance FloatDistanceThms FloatWeight FloatWeightThms FloatUnscented FloatUnscentedThms FloatCovariance FloatCovarianceThms
  FloatLlt FloatLltThms FloatHeading FloatHeadingThms FloatPredict SigmaAccuracy Properties_FloatUnscented
  Properties_FloatCovariance Properties_FloatLlt FloatPredictThms Displacement PredictSpec Unscented PredictBridge.
Import ListNotations.
Local Open Scope R_scope.

Lemma yaw_range (e : ctrv_state reals) (t : R) : 0 <= get_angle (v_yaw (ctrv_next e t)) < 2 * PI.
Proof.
  assert (E : v_yaw (ctrv_next e t) = angle_add (v_yaw e) (angleR ((v_rate e : R) * t))).
  { unfold ctrv_next. cbn [nnear0 reals]. destruct (Rlt_dec _ _); reflexivity. }
  rewrite E. apply get_angle_spec.
Qed.
Lemma next_same (e : ctrv_state reals) (t : R) : v_vel (ctrv_next e t) = v_vel e /\ v_rate (ctrv_next e t) = v_rate e.
Proof. unfold ctrv_next. destruct (nnear0 reals (v_rate e)); split; reflexivity. Qed.

Section Ctrv.
Variables (sine cosine : f64 -> f64) (phase : f64 -> f64 -> f64).
Hypothesis ACC : accurate sine cosine phase.
Notation D := (doubles sine cosine phase).
Notation ST := (ctrv64 sine cosine phase).
Variables (M c r : nat -> R).
Hypothesis FR : frame M c r.

(** An entry of a predicted point as it enters the transform *)
Definition entry (s : ctrv_state D) (j : nat) : f32 :=
  if (j =? 3)%nat then wrap32 (ctrv_to32 sine cosine phase s j) else ctrv_to32 sine cosine phase s j.

Lemma size_pos j : (j < 5)%nat -> 0 < M j /\ bpow radix2 (-40) <= M j <= bpow radix2 40.
Proof.
  intros H. destruct (f_size _ _ _ FR j H) as [A B]. split; [|split].
  - eapply Rlt_le_trans; [apply (bpow_gt_0 radix2 (-39))|exact A].
  - eapply Rle_trans; [|exact A]. apply bpow_le. lia.
  - eapply Rle_trans; [exact B|]. apply bpow_le. lia.
Qed.
Lemma calm_size t e j : calm M c r t e -> (j < 5)%nat -> Rabs (component (ctrv_next e t) j) <= M j.
Proof.
  intros C H. pose proof (calm_near _ _ _ _ _ C j H) as N. destruct (f_near _ _ _ FR j H) as [_ B].
  replace (component (ctrv_next e t) j) with (c j + (component (ctrv_next e t) j - c j)) by ring.
  eapply Rle_trans; [apply Rabs_triang|]. lra.
Qed.

Lemma point_near (s : ctrv_state D) e (dt : f64) j : near_ctrv sine cosine phase s e -> is_finite dt = true ->
  Rabs (B2R dt) <= bpow radix2 30 -> calm M c r (B2R dt) e -> (j < 5)%nat ->
  is_finite (entry (ctrv_next s dt) j) = true /\
  Rabs (B2R (entry (ctrv_next s dt) j) - component (ctrv_next e (B2R dt)) j) <= 2 * u32 * M j.
Proof.
  intros N Fd Bd C Hj. destruct (next_same e (B2R dt)) as [VE WE].
  assert (U : u32 = / 16777216) by reflexivity.
  pose proof C as [Cx Cy Ct Cs Cn].
  destruct (size_pos 0 ltac:(lia)) as [M0 [M0a M0b]]. destruct (size_pos 1 ltac:(lia)) as [M1 [M1a M1b]].
  destruct (size_pos 2 ltac:(lia)) as [M2 [M2a M2b]]. destruct (size_pos 4 ltac:(lia)) as [M4 [M4a M4b]].
  pose proof (calm_size _ _ 2%nat C ltac:(lia)) as S2. cbn [component] in S2. rewrite VE in S2.
  pose proof (calm_size _ _ 4%nat C ltac:(lia)) as S4. cbn [component] in S4. rewrite WE in S4.
  pose proof (calm_size _ _ 0%nat C ltac:(lia)) as S0. pose proof (calm_size _ _ 1%nat C ltac:(lia)) as S1.
  cbn [component] in S0, S1.
  set (q := way e (B2R dt)) in *.
  assert (Q0 : 0 <= q) by (unfold q, way; destruct (Rlt_dec _ _); apply Rabs_pos).
  pose proof (Rabs_pos (v_x e : R)) as X0. pose proof (Rabs_pos (v_y e : R)) as Y0.
  assert (B59 : bpow radix2 18 * bpow radix2 40 <= bpow radix2 59) by (rewrite <- bpow_plus; apply bpow_le; lia).
  assert (P18 := bpow_gt_0 radix2 18).
  assert (H0 : bpow radix2 18 * M 0%nat <= bpow radix2 18 * bpow radix2 40) by (apply Rmult_le_compat_l; lra).
  assert (H1 : bpow radix2 18 * M 1%nat <= bpow radix2 18 * bpow radix2 40) by (apply Rmult_le_compat_l; lra).
  assert (B40 : bpow radix2 40 <= bpow radix2 59) by (apply bpow_le; lia).
  destruct (near_next sine cosine phase ACC s e dt N Fd Bd) as (Fx & Fy & Ax & Ay & Rv & Rw & Ry).
  - lra.
  - lra.
  - lra.
  - exact Ct.
  - rewrite dbl_min_bpow. change (q <= bpow radix2 59). lra.
  - rewrite dbl_min_bpow in Ax, Ay. change (if Rlt_dec _ _ then _ else _) with q in Ax, Ay.
    assert (Small : forall m a, bpow radix2 (-40) <= m -> a <= bpow radix2 18 * m ->
      bpow radix2 (-44) * a + bpow radix2 (-1000) <= u32 / 2 * m).
    { intros m a Hm Ha. assert (m0 : 0 < m) by (eapply Rlt_le_trans; [apply (bpow_gt_0 radix2 (-40))|exact Hm]).
      assert (bpow radix2 (-44) * a <= bpow radix2 (-26) * m).
      { replace (bpow radix2 (-26)) with (bpow radix2 (-44) * bpow radix2 18) by (rewrite <- bpow_plus; reflexivity).
        rewrite Rmult_assoc. apply Rmult_le_compat_l; [apply bpow_ge_0|exact Ha]. }
      assert (bpow radix2 (-1000) <= bpow radix2 (-30) * m).
      { apply Rle_trans with (bpow radix2 (-30) * bpow radix2 (-40)); [rewrite <- bpow_plus; apply bpow_le; lia|].
        apply Rmult_le_compat_l; [apply bpow_ge_0|exact Hm]. }
      assert (bpow radix2 (-26) + bpow radix2 (-30) <= u32 / 2) by (rewrite U; cbn; lra). nra. }
    assert (Rel : forall (x : f64) v m, rel64 x v -> Rabs v <= m -> Rabs (B2R x - v) <= u32 / 2 * m).
    { intros x v m H Hm. eapply Rle_trans; [exact (rel64_near _ _ H)|].
      apply Rmult_le_compat; [apply bpow_ge_0|apply Rabs_pos| |exact Hm].
      rewrite U. unfold u64. cbn. lra. }
    destruct j as [|[|[|[|[|j]]]]]; [| | | | |lia]; cbn [entry ctrv_to32 component Nat.eqb].
    + apply float_near; [exact Fx|split; assumption|exact S0|]. eapply Rle_trans; [exact Ax|]. now apply Small.
    + apply float_near; [exact Fy|split; assumption|exact S1|]. eapply Rle_trans; [exact Ay|]. now apply Small.
    + apply float_near; [apply Rv|split; assumption|rewrite VE; exact S2|]. apply Rel; [exact Rv|rewrite VE; exact S2].
    + destruct Ry as [[Fa Ba] Ta].
      destruct (heading_near _ _ Fa Ba (yaw_range e (B2R dt)) Ta Cs) as [F E]. unfold fusion_heading in F, E.
      split; [exact F|]. unfold signed. eapply Rle_trans; [exact E|]. pose proof (f_yaw _ _ _ FR).
      rewrite U. change (bpow radix2 (-21)) with (/ 2097152). lra.
    + apply float_near; [apply Rw|split; assumption|rewrite WE; exact S4|]. apply Rel; [exact Rw|rewrite WE; exact S4].
Qed.

(** ** All points *)
Lemma nth_map_default (A B : Type) (f : A -> B) l d i : nth i (map f l) (f d) = f (nth i l d).
Proof. apply map_nth. Qed.
Lemma forall2_nth (A B : Type) (R : A -> B -> Prop) l m a b i : Forall2 R l m -> R a b -> R (nth i l a) (nth i m b).
Proof. intros H Hd. revert i. induction H; intros [|i]; cbn; auto. Qed.
Lemma seq_nth (A : Type) (d : A) l i : seq.nth d l i = nth i l d.
Proof. revert i. induction l as [|x l IH]; intros [|i]; cbn; auto. Qed.
Lemma seq_size (A : Type) (l : list A) : seq.size l = length l.
Proof. reflexivity. Qed.

Variables (o : summation) (s : ctrv_state D) (cov : nat -> nat -> f32) (dt : f64).
Hypothesis OL : orders 5 (order_L o).
Hypothesis Ox : forall j, (j < 5)%nat -> order_of 11 (order_x o j).
Hypothesis OP : forall j k, (j < 5)%nat -> (k < 5)%nat -> order_of 11 (order_P o j k).
Hypothesis V : forall i, (i < 5)%nat -> bpow radix2 (-80) <= B2R (cov i i) <= bpow radix2 80.
Hypothesis Ok : snd (llt32 5 (order_L o) cov) = true.
Hypothesis Fin : finite_lower 5 (llt_matrixL32 5 (order_L o) cov).
Hypothesis Os : ordinary_ctrv sine cosine phase s.
Hypothesis Fd : is_finite dt = true.
Hypothesis Bd : Rabs (B2R dt) <= bpow radix2 30.
Notation L := (llt_matrixL32 5 (order_L o) cov).
Notation d := (displacement32 ST L (f32_of_Z 2)).
Notation exact := (exact_ctrv sine cosine phase s).
Definition states : list (ctrv_state D) := s :: generate_sigma_points32 ST o s cov (f32_of_Z 2).
Definition exact_states : list (ctrv_state reals) := exact :: @displaced 4 ctrv_type exact d.
Hypothesis Calm : Forall (calm M c r (B2R dt)) exact_states.

Lemma exact_calm : calm M c r (B2R dt) exact.
Proof. exact (Forall_inv Calm). Qed.
Lemma d_bound i k : (i < 5)%nat -> (k < 5)%nat -> is_finite (d k i) = true /\ Rabs (B2R (d k i)) <= bpow radix2 60.
Proof.
  intros Hi Hk. destruct (disp_value 5 (order_L o) cov ltac:(now left) OL V Ok Fin i k Hi Hk) as [F _]. split; [exact F|].
  pose proof (disp_size 5 (order_L o) cov ltac:(now left) OL V Ok Fin i k Hi Hk) as B.
  pose proof (deviation_small 5 cov V i Hi) as [_ S]. pose proof (root_bounds 5 ltac:(now left)) as RB.
  eapply Rle_trans; [exact B|]. apply Rle_trans with (4 * bpow radix2 40).
  - apply Rmult_le_compat; [lra|apply sqrt_pos|lra|exact S].
  - replace 4 with (bpow radix2 2) by reflexivity. rewrite <- bpow_plus. apply bpow_le. lia.
Qed.
Lemma states_near : Forall2 (near_ctrv sine cosine phase) states exact_states.
Proof.
  assert (Bv : Rabs (B2R (v_vel s : f64)) <= bpow radix2 60 /\ Rabs (B2R (v_rate s : f64)) <= bpow radix2 60).
  { pose proof (calm_size _ _ 2%nat exact_calm ltac:(lia)) as S2. pose proof (calm_size _ _ 4%nat exact_calm ltac:(lia)) as S4.
    cbn [component] in S2, S4. destruct (next_same exact (B2R dt)) as [VE WE]. rewrite VE in S2. rewrite WE in S4.
    cbn [exact_ctrv v_vel v_rate] in S2, S4.
    destruct (size_pos 2 ltac:(lia)) as [_ [_ M2]]. destruct (size_pos 4 ltac:(lia)) as [_ [_ M4]].
    assert (bpow radix2 40 <= bpow radix2 60) by (apply bpow_le; lia). split; lra. }
  destruct Bv as [Bv Bw]. unfold states, exact_states. constructor; [now apply exact_near|].
  rewrite displaced_ctrv. unfold generate_sigma_points32. change (s_dim ST) with 5%nat.
  assert (G : forall k, (k < 5)%nat ->
    near_ctrv sine cosine phase (ctrv_add s (ctrv_from32 sine cosine phase (d k))) (ctrv_add exact (exact_from (d k))) /\
    near_ctrv sine cosine phase (ctrv_sub s (ctrv_from32 sine cosine phase (d k))) (ctrv_sub exact (exact_from (d k)))).
  { intros k Hk. apply (sigma_near sine cosine phase ACC s (d k) Os Bv Bw). intros i Hi. now apply d_bound. }
  cbn [flat_map seq app sigma_pair32].
  destruct (G 0%nat ltac:(lia)), (G 1%nat ltac:(lia)), (G 2%nat ltac:(lia)), (G 3%nat ltac:(lia)), (G 4%nat ltac:(lia)).
  repeat (constructor; [assumption|]). constructor.
Qed.
Notation rows := (@rows 4 ctrv_type exact d (B2R dt)).
Lemma row_value i j : (j < 5)%nat -> rows i j = component (ctrv_next (nth i exact_states exact) (B2R dt)) j.
Proof.
  intros Hj. unfold PredictBridge.rows. rewrite cell_ctrv by (destruct j as [|[|[|[|[|j]]]]]; [reflexivity..|lia]). now rewrite seq_nth.
Qed.
Lemma exact_states_length : length exact_states = 11%nat.
Proof. unfold exact_states. rewrite displaced_ctrv. reflexivity. Qed.
Lemma nth_calm i : calm M c r (B2R dt) (nth i exact_states exact).
Proof.
  destruct (nth_in_or_default i exact_states exact) as [H| ->]; [|exact exact_calm].
  rewrite Forall_forall in Calm. now apply Calm.
Qed.
Lemma point_value i j : predicted_points32 ST o s cov dt (f32_of_Z 2) i j = entry (ctrv_next (nth i states s) dt) j.
Proof.
  unfold predicted_points32, wrap_rows32, mean_and_sigma_points_to_matrix_xf32, entry.
  set (g := fun sigma_point => s_next ST sigma_point dt).
  change (s_next ST s dt :: map g (generate_sigma_points32 ST o s cov (f32_of_Z 2))) with (map g states).
  change (s_next ST s dt) with (g s). rewrite map_nth. reflexivity.
Qed.

Lemma transform_accurate j k : (j < 5)%nat -> (k < 5)%nat ->
  let '(Wm, Wc) := weights 5 (f32_of_Z 1) (f32_of_Z 1) (f32_of_Z 2) in
  let '(x, P) := compute_unscented_transform32 (order_x o) (order_P o) (predicted_points32 ST o s cov dt (f32_of_Z 2)) Wm Wc in
  (is_finite (x j) = true /\ Rabs (B2R (x j) - exact_mean 5 rows j) <= 18 * u32 * M j) /\
  (is_finite (P j k) = true /\
   Rabs (B2R (P j k) - exact_covariance 5 rows j k) <= 220 * u32 * (M j * r k + M k * r j) + 2000 * u32 * u32 * (M j * M k)).
Proof.
  intros Hj Hk.
  replace (220 * u32 * (M j * r k + M k * r j)) with (110 * u32 * (M j * (2 * r k) + M k * (2 * r j))) by ring.
  assert (Near : forall l i, (l < 5)%nat -> (i < points 5)%nat ->
    is_finite (predicted_points32 ST o s cov dt (f32_of_Z 2) i l) = true /\
    Rabs (B2R (predicted_points32 ST o s cov dt (f32_of_Z 2) i l) - rows i l) <= 2 * u32 * M l).
  { intros l i Hl _. rewrite point_value, row_value by exact Hl. apply point_near; try assumption; [|apply nth_calm].
    apply forall2_nth; [exact states_near|]. now apply exact_near. }
  assert (Size : forall l i, (l < 5)%nat -> (i < points 5)%nat ->
    Rabs (rows i l) <= M l /\ Rabs (rows i l - exact_mean 5 rows l) <= 2 * r l).
  { intros l i Hl _. rewrite row_value by exact Hl. split; [apply calm_size; [apply nth_calm|exact Hl]|].
    assert (Mn : Rabs (exact_mean 5 rows l - c l) <= r l).
    { assert (E : exact_mean 5 (fun _ _ => c l) l = c l).
      { unfold exact_mean. rewrite total_const, seq_length. rewrite INR_IZR_INZ. change (Z.of_nat (Z.to_nat (2 * 5))) with 10%Z. field. }
      rewrite <- E at 1. apply (mean_perturbed 5 (or_introl eq_refl)). intros i' _. rewrite row_value by exact Hl.
      now apply (calm_near _ _ _ _ _ (nth_calm i')). }
    pose proof (calm_near _ _ _ _ _ (nth_calm i) l Hl) as A. apply Rabs_le_inv in A, Mn. apply Rabs_le. lra. }
  destruct (f_near _ _ _ FR j Hj) as [rj Bj]. destruct (f_near _ _ _ FR k Hk) as [rk Bk].
  pose proof (Rabs_pos (c j)). pose proof (Rabs_pos (c k)).
  apply (transform_near 5 (or_introl eq_refl)); auto using (f_size _ _ _ FR); try lra.
Qed.
End Ctrv.
