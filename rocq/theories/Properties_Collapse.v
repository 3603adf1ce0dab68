(** Predictions far from the origin in the number types of the code: property C115.  The
    sigma points are kept as doubles but enter the transform as floats, whose distance is
    half a metre at 5000 km. *)
From Coq Require Import ZArith Reals Lra Lia List Arith FunctionalExtensionality.
From mathcomp Require ssreflect ssrbool ssrnat fintype seq matrix.
From Flocq Require Import Core IEEE754.BinarySingleNaN.
From Verif Require Import Float FloatProofs Motion RealArith DoubleArith DoubleThms SumSquares64 PiDouble TrigSpec AngleAccuracy
  MotionAccuracy FloatDistance FloatDistanceThms FloatWeight FloatUnscented FloatUnscentedThms FloatCovariance FloatLlt FloatLltThms
  FloatHeading FloatPredict SigmaAccuracy Properties_FloatUnscented Properties_FloatCovariance Properties_FloatLlt FloatPredictThms
  Displacement PredictSpec RealField PosDef StateVec Unscented PredictBridge PredictAccuracy PredictInput Properties_Accuracy
  Properties_FloatPredict.
Import ListNotations.
Open Scope R_scope.

(** The coordinates of a position *)
Definition place {A : arith} (s : ctrv_state A) (j : nat) : num A := match j with O => v_x s | _ => v_y s end.
(** All places a vehicle can be at after the prediction are nearer to the float
    m 2^k than to any other. *)
Definition settled (e : ctrv_state reals) (t : R) (dev : nat -> R) (w0 : R) (j : nat) (m k : Z) : Prop :=
  Rabs (place e j - IZR m * bpow radix2 k) + spread e t dev j
    + bpow radix2 (-44) * (Rabs (place e j) + spread e t dev j + radius e dev w0) + bpow radix2 (-1000) < / 2 * bpow radix2 k.

Section Collapse.
Variables (sine cosine : f64 -> f64) (phase : f64 -> f64 -> f64).
Notation ST := (ctrv64 sine cosine phase).
Notation exact := (exact_ctrv sine cosine phase).

Lemma float_unique (x y : f32) (r : R) : is_finite x = true -> is_finite y = true -> B2R x = r -> B2R y = r -> r <> 0 -> x = y.
Proof.
  intros Fx Fy Ex Ey N. apply B2R_inj; [| |congruence].
  - destruct x as [?|?| |? ? ? ?]; try discriminate; [cbn in Ex; lra|reflexivity].
  - destruct y as [?|?| |? ? ? ?]; try discriminate; [cbn in Ey; lra|reflexivity].
Qed.

Lemma points_settled o s cov dt h w0 j m k : accurate sine cosine phase -> fits sine cosine phase o s cov dt ->
  steady (exact s) (B2R dt) h (deviations cov) w0 -> rates (exact s) cov w0 -> (j < 2)%nat -> (2 ^ 23 < m < 2 ^ 24)%Z -> (-149 <= k <= 20)%Z ->
  settled (exact s) (B2R dt) (deviations cov) w0 j m k ->
  forall i, let p := predicted_points32 ST o s cov dt (f32_of_Z 2) i j in is_finite p = true /\ B2R p = IZR m * bpow radix2 k.
Proof.
  intros ACC Fit TU Ra Hj Hm Hk Set_ i. pose proof Fit as [OL Ox OP Os [Fd Bd] V [Ok Fin]].
  set (dev := deviations cov) in *. assert (Dev := deviations_pos cov). fold dev in Dev.
  pose proof (about_calm sine cosine phase o s cov dt h w0 Fit TU Ra) as Calm.
  pose proof (displaced_rates sine cosine phase o s cov dt w0 Fit Ra) as Rt. pose proof (displaced_about sine cosine phase o s cov dt Fit) as Ab.
  set (M := extent (exact s) (B2R dt) h dev) in *. set (c := center (exact s) h) in *. set (r := spread (exact s) (B2R dt) dev) in *.
  assert (FR : frame M c r) by (apply (steady_frame (exact s) (B2R dt) h dev w0); auto using Dev).
  set (p := predicted_points32 _ _ _ _ _ _ _ _). cbv zeta.
  pose proof (states_near sine cosine phase ACC M c r FR o s cov dt OL V Ok Fin Os Fd Calm) as SN.
  assert (E0 : p = entry sine cosine phase (ctrv_next (nth i (states sine cosine phase o s cov) s) dt) j).
  { apply point_value. }
  set (z := nth i _ s) in E0.
  set (e := nth i (exact_states sine cosine phase o s cov) (exact s)).
  assert (N : near_ctrv sine cosine phase z e) by (apply forall2_nth; [exact SN|now apply exact_near]).
  assert (In_e : In e (exact_states sine cosine phase o s cov)).
  { destruct (nth_in_or_default i (exact_states sine cosine phase o s cov) (exact s)) as [H|H]; [exact H|].
    unfold e. rewrite H. left. reflexivity. }
  assert (C : calm M c r (B2R dt) e) by (rewrite Forall_forall in Calm; now apply Calm).
  assert (A : about dev (exact s) e) by (rewrite Forall_forall in Ab; now apply Ab).
  destruct A as (Ax & Ay & Av & Aw & _).
  assert (St : straight_or_turning w0 e) by (rewrite Forall_forall in Rt; now apply Rt).
  assert (W : way e (B2R dt) <= reach (exact s) (B2R dt) dev + radius (exact s) dev w0)
    by (eapply (steady_way (exact s) (B2R dt) h dev w0); eauto using Dev).
  clearbody z e. clear SN Ab Rt Calm In_e.
  pose proof C as [Cx Cy Ct Cs Cn]. pose proof (calm_size M c r FR _ _ 2%nat C ltac:(lia)) as S2. cbn [component] in S2.
  destruct (next_same e (B2R dt)) as [VE _]. rewrite VE in S2.
  destruct (size_pos M c r FR 0 ltac:(lia)) as [M0 [M0a M0b]]. destruct (size_pos M c r FR 1 ltac:(lia)) as [M1 [M1a M1b]].
  destruct (size_pos M c r FR 2 ltac:(lia)) as [M2 [M2a M2b]].
  assert (Q0 : 0 <= way e (B2R dt)) by (unfold way; destruct (Rlt_dec _ _); apply Rabs_pos).
  pose proof (Rabs_pos (v_x e : R)) as X0. pose proof (Rabs_pos (v_y e : R)) as Y0.
  assert (B59 : bpow radix2 18 * bpow radix2 40 <= bpow radix2 59) by (rewrite <- bpow_plus; apply bpow_le; lia).
  assert (P18 := bpow_gt_0 radix2 18).
  assert (H0 : bpow radix2 18 * M 0%nat <= bpow radix2 18 * bpow radix2 40) by (apply Rmult_le_compat_l; lra).
  assert (H1 : bpow radix2 18 * M 1%nat <= bpow radix2 18 * bpow radix2 40) by (apply Rmult_le_compat_l; lra).
  assert (B40 : bpow radix2 40 <= bpow radix2 59) by (apply bpow_le; lia).
  destruct (near_next sine cosine phase ACC z e dt N Fd Bd) as (Fx & Fy & Bx & By & _).
  - lra.
  - lra.
  - lra.
  - exact Ct.
  - rewrite dbl_min_bpow. change (way e (B2R dt) <= bpow radix2 59). lra.
  - rewrite dbl_min_bpow in Bx, By. change (if Rlt_dec _ _ then _ else _) with (way e (B2R dt)) in Bx, By.
    assert (F : exists y : f64, p = f32_of_f64 y /\ is_finite y = true /\
      Rabs (B2R y - IZR m * bpow radix2 k) < / 2 * bpow radix2 k).
    { assert (Tri : forall a b d : R, Rabs (a - b) <= d -> Rabs a <= Rabs b + d).
      { intros a b d H. unfold Rabs in *. destruct (Rcase_abs (a - b)), (Rcase_abs a), (Rcase_abs b); lra. }
      apply Tri in Ax, Ay. unfold settled in Set_.
      assert (Chain : forall y y1 y0 ye w rr d : R, Rabs (y - y1) <= bpow radix2 (-44) * (Rabs ye + w) + bpow radix2 (-1000) ->
        Rabs (y1 - y0) <= rr -> Rabs ye <= Rabs y0 + d -> w <= reach (exact s) (B2R dt) dev + radius (exact s) dev w0 -> rr = d + reach (exact s) (B2R dt) dev ->
        Rabs (y0 - IZR m * bpow radix2 k) + rr + bpow radix2 (-44) * (Rabs y0 + rr + radius (exact s) dev w0) + bpow radix2 (-1000)
          < / 2 * bpow radix2 k -> Rabs (y - IZR m * bpow radix2 k) < / 2 * bpow radix2 k).
      { intros y y1 y0 ye w rr d G1 G2 G3 G4 Grr G5.
        assert (bpow radix2 (-44) * (Rabs ye + w) <= bpow radix2 (-44) * (Rabs y0 + rr + radius (exact s) dev w0))
          by (apply Rmult_le_compat_l; [apply bpow_ge_0|lra]).
        replace (y - IZR m * bpow radix2 k) with ((y - y1) + ((y1 - y0) + (y0 - IZR m * bpow radix2 k))) by ring.
        eapply Rle_lt_trans; [apply Rabs_triang|]. eapply Rle_lt_trans; [apply Rplus_le_compat_l, Rabs_triang|]. lra. }
      destruct j as [|[|j]]; [| |lia].
      - exists (v_x (ctrv_next z dt)). split; [exact E0|]. split; [exact Fx|].
        exact (Chain _ _ _ _ _ _ _ Bx (Cn 0%nat ltac:(lia)) Ax W eq_refl Set_).
      - exists (v_y (ctrv_next z dt)). split; [exact E0|]. split; [exact Fy|].
        exact (Chain _ _ _ _ _ _ _ By (Cn 1%nat ltac:(lia)) Ay W eq_refl Set_). }
    destruct F as (y & -> & Fin_y & G).
    assert (M24 : IZR m < 16777216) by (apply IZR_lt; lia). assert (Mp : 0 < IZR m) by (apply IZR_lt; lia).
    pose proof (bpow_gt_0 radix2 k) as Pk.
    destruct (conv32_value y (k + 25) ltac:(lia) Fin_y) as [E F].
    { rewrite bpow_plus. change (bpow radix2 25) with 33554432. apply Rabs_lt_inv in G. apply Rabs_le. nra. }
    split; [exact F|]. rewrite E. apply snap; [exact Hm|lia|exact G].
Qed.

(** C115: then the predicted coordinate and its variance do not depend on anything: for
    other states, covariances and durations of which the same holds, both are the same. *)
Theorem C115_blind o j m k s cov dt h w0 s' cov' dt' h' w0' : accurate sine cosine phase ->
  fits sine cosine phase o s cov dt -> fits sine cosine phase o s' cov' dt' ->
  steady (exact s) (B2R dt) h (deviations cov) w0 -> rates (exact s) cov w0 ->
  steady (exact s') (B2R dt') h' (deviations cov') w0' -> rates (exact s') cov' w0' ->
  (j < 2)%nat -> (2 ^ 23 < m < 2 ^ 24)%Z -> (-149 <= k <= 20)%Z ->
  settled (exact s) (B2R dt) (deviations cov) w0 j m k -> settled (exact s') (B2R dt') (deviations cov') w0' j m k ->
  let (x, P) := default_unscented_transform32 ST o s cov dt in
  let (x', P') := default_unscented_transform32 ST o s' cov' dt' in
  place x j = place x' j /\ P j j = P' j j.
Proof.
  intros ACC Fit Fit' TU Ra TU' Ra' Hj Hm Hk Se Se'.
  pose proof (points_settled o s cov dt h w0 j m k ACC Fit TU Ra Hj Hm Hk Se) as Pt.
  pose proof (points_settled o s' cov' dt' h' w0' j m k ACC Fit' TU' Ra' Hj Hm Hk Se') as Pt'.
  assert (Same : forall i, predicted_points32 ST o s cov dt (f32_of_Z 2) i j = predicted_points32 ST o s' cov' dt' (f32_of_Z 2) i j).
  { intros i. destruct (Pt i) as [F E]. destruct (Pt' i) as [F' E']. apply (float_unique _ _ (IZR m * bpow radix2 k)); try assumption.
    assert (0 < IZR m) by (apply IZR_lt; lia). pose proof (bpow_gt_0 radix2 k). nra. }
  unfold default_unscented_transform32, unscented_transform32, unscented_kalman_filter_predict32.
  change (Z.of_nat (s_dim ST)) with 5%Z. rewrite default_lambda by now left.
  destruct (generate_weights32 5 (f32_of_Z 1) (f32_of_Z 1) (f32_of_Z 2)) as [Wm Wc].
  unfold compute_unscented_transform32.
  assert (X : mean32 (order_x o j) Wm (fun i => predicted_points32 ST o s cov dt (f32_of_Z 2) i j) =
    mean32 (order_x o j) Wm (fun i => predicted_points32 ST o s' cov' dt' (f32_of_Z 2) i j)).
  { f_equal. extensionality i. apply Same. }
  split.
  - destruct j as [|[|j]]; [| |lia]; cbn [place s_from ctrv64 ctrv_from32 v_x v_y]; now rewrite X.
  - f_equal. extensionality i. now rewrite X, Same.
Qed.
End Collapse.
Print Assumptions C115_blind.

(** 5000 km from the origin (a northing of a map projection, say): whatever the covariance
    of a vehicle that is known to a few centimetres, a prediction that adds up from left to
    right makes its variance almost 2 square metres; in exact arithmetic it is below 1/2. *)
Lemma covariance_small (f : nat -> nat -> R) (c r : R) j : (forall i, Rabs (f i j - c) <= r) ->
  exact_covariance 5 f j j <= 8 * (r * r).
Proof.
  intros H. assert (r0 : 0 <= r) by (eapply Rle_trans; [apply Rabs_pos|apply (H 0%nat)]).
  assert (Mn : Rabs (exact_mean 5 f j - c) <= r).
  { assert (E : exact_mean 5 (fun _ _ => c) j = c).
    { unfold exact_mean. rewrite total_const, seq_length. rewrite INR_IZR_INZ. change (Z.of_nat (Z.to_nat (2 * 5))) with 10%Z. field. }
    rewrite <- E at 1. apply (mean_perturbed 5 (or_introl eq_refl)). intros i' _. apply H. }
  assert (Sq : forall i, 0 <= (f i j - exact_mean 5 f j) * (f i j - exact_mean 5 f j) <= 4 * (r * r)).
  { intros i. pose proof (H i) as Hi. apply Rabs_le_inv in Hi, Mn. split; [apply Rle_0_sqr|]. nra. }
  unfold exact_covariance. change (seq 1 (Z.to_nat (2 * 5))) with (seq 1 10). cbn [seq total].
  pose proof (Sq 0%nat). pose proof (Sq 1%nat). pose proof (Sq 2%nat). pose proof (Sq 3%nat). pose proof (Sq 4%nat). pose proof (Sq 5%nat).
  pose proof (Sq 6%nat). pose proof (Sq 7%nat). pose proof (Sq 8%nat). pose proof (Sq 9%nat). pose proof (Sq 10%nat). lra.
Qed.
Lemma equal_points : let (Wm, Wc) := generate_weights32 5 (f32_of_Z 1) (f32_of_Z 1) (f32_of_Z 2) in
  1.99 <= B2R (snd (compute_unscented_transform32 (order_x left_to_right) (order_P left_to_right)
    (fun _ _ => f32_of_Z 5000000) Wm Wc) 1%nat 1%nat).
Proof.
  destruct (generate_weights32 5 (f32_of_Z 1) (f32_of_Z 1) (f32_of_Z 2)) as [Wm Wc] eqn:EW.
  injection EW as <- <-. rewrite <- SF2R_B2SF.
  match goal with |- _ <= SF2R _ ?b => set (a := b); vm_compute in a end. unfold a, SF2R, F2R. cbn. lra.
Qed.
Theorem C115_variance sine cosine phase (s : ctrv_state (doubles sine cosine phase)) cov dt h w0 :
  accurate sine cosine phase -> fits sine cosine phase left_to_right s cov dt ->
  let e := exact_ctrv sine cosine phase s in let dev := deviations cov in let t := B2R dt in
  steady e t h dev w0 -> rates e cov w0 ->
  Rabs (v_y e - 5000000) + spread e t dev 1 <= 0.249 -> radius e dev w0 <= 1000000 ->
  let Q := matrix5 (effective 5 (displacements sine cosine phase left_to_right cov)) in
  1.99 <= B2R (snd (default_unscented_transform32 (ctrv64 sine cosine phase) left_to_right s cov dt) 1%nat 1%nat) /\
  cell_of (snd (default_unscented_transform (ST := ctrv_type) e Q t)) 1 1 <= 0.5.
Proof.
  intros ACC Fit e dev t TU Ra Near Rad Q. assert (Dev := deviations_pos cov). fold dev in Dev.
  assert (R0 : 0 <= reach e t dev).
  { unfold reach. apply Rmult_le_pos; [|apply Rabs_pos]. pose proof (Rabs_pos (v_vel e : R)). pose proof (Dev 2%nat). lra. }
  pose proof (Dev 1%nat) as D1.
  assert (Sp : spread e t dev 1 = dev 1%nat + reach e t dev) by reflexivity.
  pose proof (Rabs_pos (v_y e - 5000000)) as A0.
  assert (Se : settled e t dev w0 1 10000000 (-1)).
  { unfold settled. cbn [place]. change (bpow radix2 (-1)) with (/ 2). replace (10000000 * / 2) with 5000000 by field.
    assert (Y : Rabs (v_y e : R) <= 5000001).
    { assert (G : Rabs (v_y e - 5000000) <= 1) by lra. apply Rabs_le_inv in G. apply Rabs_le. lra. }
    assert (Rabs (v_y e : R) + spread e t dev 1 + radius e dev w0 <= 8388608) by lra.
    assert (bpow radix2 (-44) * (Rabs (v_y e : R) + spread e t dev 1 + radius e dev w0) <= bpow radix2 (-44) * bpow radix2 23)
      by (apply Rmult_le_compat_l; [apply bpow_ge_0|exact H]).
    rewrite <- bpow_plus in H0. change (bpow radix2 (-44 + 23)) with (/ 2097152) in H0.
    assert (bpow radix2 (-1000) <= bpow radix2 (-21)) by (apply bpow_le; lia). change (bpow radix2 (-21)) with (/ 2097152) in H1. lra. }
  pose proof (points_settled sine cosine phase left_to_right s cov dt h w0 1 10000000 (-1) ACC Fit TU Ra ltac:(lia) ltac:(lia) ltac:(lia) Se) as Pt.
  split.
  - assert (Same : forall i, predicted_points32 (ctrv64 sine cosine phase) left_to_right s cov dt (f32_of_Z 2) i 1 = f32_of_Z 5000000).
    { intros i. destruct (Pt i) as [F E]. destruct (int32_value 5000000) as [E' F']; [reflexivity|].
      apply (float_unique _ _ 5000000); try assumption; [|lra]. rewrite E. change (bpow radix2 (-1)) with (/ 2). field. }
    unfold default_unscented_transform32, unscented_transform32, unscented_kalman_filter_predict32.
    change (Z.of_nat (s_dim (ctrv64 sine cosine phase))) with 5%Z. rewrite default_lambda by now left.
    set (points := predicted_points32 _ _ _ _ _ _) in *.
    assert (E : forall Wm Wc : nat -> f32, snd (compute_unscented_transform32 (order_x left_to_right) (order_P left_to_right) points Wm Wc) 1%nat 1%nat =
      snd (compute_unscented_transform32 (order_x left_to_right) (order_P left_to_right) (fun _ _ => f32_of_Z 5000000) Wm Wc) 1%nat 1%nat).
    { intros Wm Wc. unfold compute_unscented_transform32. cbn [snd].
      assert (X : (fun i => points i 1%nat) = (fun _ => f32_of_Z 5000000)) by (extensionality i; apply Same). rewrite X.
      f_equal. extensionality i. now rewrite Same. }
    pose proof equal_points as EP.
    destruct (generate_weights32 5 (f32_of_Z 1) (f32_of_Z 1) (f32_of_Z 2)) as [Wm Wc].
    specialize (E Wm Wc). destruct (compute_unscented_transform32 _ _ points Wm Wc) as [x P].
    change (snd (x, P)) with P in E. rewrite <- E in EP. exact EP.
  - pose proof Fit as [OL Ox OP Os [Fd Bd] V [Ok Fin]].
    assert (Up : forall i c, is_true (ssrnat.leq (S i) c) -> B2R (displacements sine cosine phase left_to_right cov c i) = 0).
    { intros i k H. apply (disp_upper 5 (order_L left_to_right) cov (or_introl eq_refl) OL V Ok Fin). now apply (ssrbool.elimT (@ssrnat.leP _ _)). }
    assert (Dia : forall i, is_true (ssrnat.leq (S i) 5) -> 0 < B2R (displacements sine cosine phase left_to_right cov i i)).
    { intros i H. apply (disp_diagonal 5 (order_L left_to_right) cov (or_introl eq_refl) OL V Ok Fin).
      now apply (ssrbool.elimT (@ssrnat.leP _ _)). }
    assert (EP : default_unscented_transform (ST := ctrv_type) e Q t = _)
      by exact (@predict_exact 4 ctrv_type e (displacements sine cosine phase left_to_right cov) t Up Dia).
    rewrite EP. cbn [snd]. unfold cell_of.
    rewrite matrix.mxE, !fintype.inordK by (apply (ssrbool.introT (@ssrnat.leP _ _)); lia). change (Z.of_nat 5) with 5%Z.
    assert (B : exact_covariance 5 (@PredictBridge.rows 4 ctrv_type e (displacements sine cosine phase left_to_right cov) t) 1 1
      <= 8 * (0.249 * 0.249)).
    { apply covariance_small with (c := v_y e). intros i.
      pose proof (about_calm sine cosine phase left_to_right s cov dt h w0 Fit TU Ra) as Calm. fold e dev t in Calm.
      pose proof (nth_calm sine cosine phase _ _ _ left_to_right s cov dt Calm i) as C.
      assert (RV := fun G => row_value sine cosine phase left_to_right s cov dt G).
      specialize (RV Ok Fd i 1%nat ltac:(lia)). fold e t in RV.
      change (displacements sine cosine phase left_to_right cov) with
        (displacement32 (ctrv64 sine cosine phase) (llt_matrixL32 5 (order_L left_to_right) cov) (f32_of_Z 2)). rewrite RV.
      eapply Rle_trans; [exact (calm_near _ _ _ _ _ C 1%nat ltac:(lia))|]. lra. }
    eapply Rle_trans; [exact B|]. lra.
Qed.
Print Assumptions C115_variance.

(** A case: a robot at (500 km, 5000 km) with 1 m/s, moving straight on or turning by 1 rad/s,
    predicted by 1/16 s; its standard deviations are 1/32 or 1/64.  The predicted northing and its variance are the
    same, and the variance is almost 2. *)
Definition robot (rate : Z) : ctrv_state (doubles sin64 cos64 arg64) :=
  CtrvState (A := doubles sin64 cos64 arg64) (f64_of_Z 500000) (f64_of_Z 5000000) (f64_of_Z 1)
    (angle_of (A := doubles sin64 cos64 arg64) (f64_of_Z 1)) (f64_of_Z rate).
Definition equal_variances (q : Z) (i j : nat) : f32 := if (i =? j)%nat then ratio 1 q else f32_of_Z 0.
Definition sixteenth : f64 := Bdiv mode_NE (f64_of_Z 1) (f64_of_Z 16).
Lemma sixteenth_value : B2R sixteenth = / 16 /\ is_finite sixteenth = true.
Proof.
  split; [|vm_compute; reflexivity]. rewrite <- SF2R_B2SF.
  match goal with |- SF2R _ ?a = _ => let v := eval vm_compute in a in change a with v end.
  unfold SF2R, F2R; cbn; lra.
Qed.
Lemma ratio_1024 : B2R (ratio 1 1024) = / 1024. Proof. val. Qed.
Lemma ratio_4096 : B2R (ratio 1 4096) = / 4096. Proof. val. Qed.
Lemma robot_case rate q : rate = 0%Z \/ rate = 1%Z -> q = 1024%Z \/ q = 4096%Z ->
  fits sin64 cos64 arg64 left_to_right (robot rate) (equal_variances q) sixteenth /\
  let e := exact_ctrv sin64 cos64 arg64 (robot rate) in let dev := deviations (equal_variances q) in
  (exists h, steady e (B2R sixteenth) h dev 0.04) /\ rates e (equal_variances q) 0.04 /\
  Rabs (v_y e - 5000000) + spread e (B2R sixteenth) dev 1 <= 0.249 /\ radius e dev 0.04 <= 1000000 /\
  settled e (B2R sixteenth) dev 0.04 1 10000000 (-1).
Proof.
  intros Hr Hq. destruct sixteenth_value as [E16 F16].
  assert (E : forall k, (0 <= k <= 5000000)%Z -> B2R (f64_of_Z k) = IZR k /\ is_finite (f64_of_Z k) = true).
  { intros k Hk. apply int64_value. lia. }
  assert (Val : B2R (ratio 1 q) = / IZR q /\ is_finite (ratio 1 q) = true).
  { destruct Hq as [-> | ->]; (split; [apply ratio_1024 || apply ratio_4096|vm_compute; reflexivity]). }
  destruct Val as [Vq Fq].
  assert (Bq : / 4096 <= / IZR q <= / 1024) by (destruct Hq as [-> | ->]; lra).
  split.
  - apply fits_definite.
    + intros i j _. apply chain_order.
    + intros j _. apply (chain_order 10).
    + intros j k _ _. apply (chain_order 10).
    + assert (L : 5000000 <= bpow radix2 60) by (apply Rle_trans with (bpow radix2 23); [change (bpow radix2 23) with 8388608; lra|apply bpow_le; lia]).
      constructor; cbn [robot v_x v_y v_vel v_rate v_yaw].
      * apply E; lia.
      * destruct (E 500000%Z ltac:(lia)) as [-> _]. rewrite Rabs_pos_eq; lra.
      * apply E; lia.
      * destruct (E 5000000%Z ltac:(lia)) as [-> _]. rewrite Rabs_pos_eq; lra.
      * apply E; lia.
      * apply E; lia.
      * apply C99_roundtrip; [exact C99_satisfiable|]. apply E; lia.
    + split; [exact F16|]. rewrite E16. change (bpow radix2 30) with 1073741824. rewrite Rabs_pos_eq; lra.
    + intros i Hi. unfold equal_variances. rewrite Nat.eqb_refl, Vq.
      assert (A : bpow radix2 (-80) <= bpow radix2 (-12)) by (apply bpow_le; lia).
      assert (B : bpow radix2 0 <= bpow radix2 80) by (apply bpow_le; lia).
      change (bpow radix2 (-12)) with (/ 4096) in A. change (bpow radix2 0) with 1 in B. lra.
    + intros i j _. unfold equal_variances. destruct (i =? j)%nat; [exact Fq|reflexivity].
    + intros x. cbn [seq total]. unfold matrix_of. cbn [Nat.leb equal_variances Nat.eqb]. unfold equal_variances. cbn [Nat.eqb].
      rewrite v0, Vq. assert (Q : forall a, 0 <= a * a) by (intros; apply Rle_0_sqr).
      pose proof (Q (x 0%nat)). pose proof (Q (x 1%nat)). pose proof (Q (x 2%nat)). pose proof (Q (x 3%nat)). pose proof (Q (x 4%nat)).
      cbn [pow]. nra.
  - cbv zeta. set (e := exact_ctrv sin64 cos64 arg64 (robot rate)). rewrite E16.
    destruct (E 1%Z ltac:(lia)) as [E1 F1].
    assert (R1 : v_rate e = IZR rate) by (apply E; lia).
    assert (AR : Rabs (IZR rate) = IZR rate /\ (IZR rate = 0 \/ IZR rate = 1)) by (destruct Hr as [-> | ->]; rewrite ?Rabs_R0, ?Rabs_R1; lra).
    destruct AR as [AR VR]. assert (V : v_vel e = 1) by exact E1.
    assert (X : v_x e = 500000) by exact (proj1 (E 500000%Z ltac:(lia))).
    assert (Y : v_y e = 5000000) by exact (proj1 (E 5000000%Z ltac:(lia))).
    assert (HD : forall i, 0.04 <= deviations (equal_variances q) i <= 0.09).
    { intros i. unfold deviations, equal_variances. rewrite Nat.eqb_refl, Vq.
      assert (Q1 : sqrt (/ IZR q) <= / 32).
      { rewrite <- (sqrt_square (/ 32)) by lra. apply sqrt_le_1_alt. lra. }
      assert (Q2 : / 64 <= sqrt (/ IZR q)).
      { rewrite <- (sqrt_square (/ 64)) by lra. apply sqrt_le_1_alt. lra. }
      lra. }
    set (dev := deviations (equal_variances q)) in *.
    pose proof (HD 0%nat) as D0. pose proof (HD 1%nat) as D1. pose proof (HD 2%nat) as D2. pose proof (HD 3%nat) as D3. pose proof (HD 4%nat) as D4.
    assert (A16 : Rabs (/ 16) = / 16) by (apply Rabs_pos_eq; lra).
    assert (L18 : bpow radix2 18 = 262144) by reflexivity. assert (Lm : bpow radix2 (-1022) <= / 1024).
    { change (/ 1024) with (bpow radix2 (-10)). apply bpow_le; lia. }
    assert (Lr : reach e (/ 16) dev = (1 + dev 2%nat) * / 16) by (unfold reach; rewrite V, A16, Rabs_R1; lra).
    assert (Rad : 0 <= radius e dev 0.04 <= 30) by (unfold radius; rewrite V, Rabs_R1; lra).
    split; [|split; [|split; [|split]]].
    + destruct (angle_roundtrip _ _ _ C99_satisfiable _ F1) as (_ & _ & [k T]). rewrite E1 in T.
      set (a := B2R (get_angle (angle_of (A := doubles sin64 cos64 arg64) (f64_of_Z 1)) : f64)) in T.
      assert (S : same_turn (get_angle (v_yaw e)) a) by apply get_angle_spec. destruct S as [j S].
      exists (a - IZR k * (2 * PI) + IZR rate * / 16). constructor.
      * lra.
      * rewrite R1, AR, A16. destruct VR; lra.
      * exists (- k - j)%Z. rewrite S, R1, minus_IZR, opp_IZR. ring.
      * change (bpow radix2 (-18)) with (/ 262144). rewrite A16. rewrite u52_value in T.
        assert (T' : Rabs (a - IZR k * (2 * PI) - 1) <= 8.1 * / 4503599627370496).
        { replace (a - IZR k * (2 * PI) - 1) with (a - (1 + IZR k * (2 * PI))) by ring. exact T. }
        apply Rabs_le_inv in T'. rewrite Rabs_pos_eq; destruct VR; lra.
      * change (bpow radix2 17) with 131072. unfold extent. cbn [center spread]. rewrite X, Lr. rewrite Rabs_pos_eq by lra. lra.
      * change (bpow radix2 17) with 131072. unfold extent. cbn [center spread]. rewrite Y, Lr. rewrite Rabs_pos_eq by lra. lra.
      * intros i Hi. change (bpow radix2 39) with 549755813888. change (bpow radix2 (-39)) with (/ 549755813888).
        destruct i as [|[|[|[|[|]]]]]; [| | | | |lia]; unfold extent; cbn [center spread];
          rewrite ?X, ?Y, ?V, ?R1, ?Lr, ?Rabs_R0, ?AR, ?Rabs_R1; rewrite ?(Rabs_pos_eq 500000), ?(Rabs_pos_eq 5000000) by lra; lra.
    + unfold rates. rewrite R1, AR. change (equal_variances q 4%nat 4%nat) with (ratio 1 q).
      change (dev 4%nat) with (2.7 * sqrt (B2R (ratio 1 q))) in D4.
      assert (Q2 : / 64 <= sqrt (B2R (ratio 1 q))).
      { rewrite <- (sqrt_square (/ 64)) by lra. apply sqrt_le_1_alt. lra. }
      destruct VR as [Z0 | One]; [right|left; lra]. split; [|split; [|lra]].
      * intros [|[|[|[|j']]]] Hj; try lia; apply v0.
      * left. rewrite R1, AR, Z0. apply bpow_gt_0.
    + cbn [spread]. rewrite Y, Lr. unfold Rminus at 1. rewrite Rplus_opp_r, Rabs_R0. lra.
    + lra.
    + unfold settled. cbn [place spread]. rewrite Y, Lr. change (bpow radix2 (-1)) with (/ 2). replace (10000000 * / 2) with 5000000 by field.
      unfold Rminus. rewrite Rplus_opp_r, Rabs_R0, Rabs_pos_eq by lra. change (bpow radix2 (-44)) with (/ 17592186044416).
      assert (bpow radix2 (-1000) <= bpow radix2 (-21)) by (apply bpow_le; lia). change (bpow radix2 (-21)) with (/ 2097152) in H. lra.
Qed.
Example C115_case rate : rate = 0%Z \/ rate = 1%Z ->
  let predicted q := default_unscented_transform32 (ctrv64 sin64 cos64 arg64) left_to_right (robot rate) (equal_variances q) sixteenth in
  v_y (fst (predicted 1024%Z)) = v_y (fst (predicted 4096%Z)) /\ snd (predicted 1024%Z) 1%nat 1%nat = snd (predicted 4096%Z) 1%nat 1%nat /\
  1.99 <= B2R (snd (predicted 4096%Z) 1%nat 1%nat).
Proof.
  intros Hr. destruct (robot_case rate 1024 Hr (or_introl eq_refl)) as (Fit & [h TU] & Ra & _ & _ & Se).
  destruct (robot_case rate 4096 Hr (or_intror eq_refl)) as (Fit' & [h' TU'] & Ra' & Near & Rad & Se'). cbv zeta.
  pose proof (C115_blind sin64 cos64 arg64 left_to_right 1 10000000 (-1) (robot rate) _ sixteenth h 0.04 (robot rate) _ sixteenth h' 0.04
    C99_satisfiable Fit Fit' TU Ra TU' Ra' ltac:(lia) ltac:(lia) ltac:(lia) Se Se') as B.
  pose proof (C115_variance sin64 cos64 arg64 (robot rate) _ sixteenth h' 0.04 C99_satisfiable Fit' TU' Ra' Near Rad) as [C _].
  destruct (default_unscented_transform32 (ctrv64 sin64 cos64 arg64) _ (robot rate) (equal_variances 1024) sixteenth) as [x P].
  destruct (default_unscented_transform32 (ctrv64 sin64 cos64 arg64) _ (robot rate) (equal_variances 4096) sixteenth) as [x' P'].
  destruct B as [B1 B2]. cbn [fst snd] in *. cbn [place] in B1. repeat split; assumption.
Qed.
