(** Predictions with process noise in double precision, when sine, cosine and
    phase are accurate (TrigSpec.v): property C105. *)
From Coq Require Import ZArith Reals Lra Lia Bool Psatz.
From Flocq Require Import Core IEEE754.BinarySingleNaN.
From Verif Require Import Float FloatProofs Motion RealArith DoubleArith DoubleThms MotionThms SumSquares64 PiDouble TrigSpec
  AngleAccuracy TrigExists MotionAccuracy MotionMany CtraAccuracy NoiseAccuracy Properties_Accuracy Properties_CtraAccuracy.
Local Open Scope R_scope.

(** C105: a CTRV prediction with noise (linear acceleration la, angular acceleration aa)
    is as far from the exact one as that without noise, up to
    2^-49 (|x'| + |la| dt^2 / 2) + 2^-700, where x' is the position predicted without noise;
    velocity, rate and heading are changed by la dt, aa dt and aa dt^2 / 2 up to rounding. *)
Theorem C105_ctrv sine cosine phase (s : ctrv_state (doubles sine cosine phase)) (la aa dt : f64) :
  accurate sine cosine phase -> ordinary_ctrv _ _ _ s ->
  Rabs (B2R (v_vel s : f64)) <= bpow radix2 100 -> Rabs (B2R (v_rate s : f64)) <= bpow radix2 100 ->
  is_finite dt = true -> Rabs (B2R dt) <= bpow radix2 30 -> Rabs (B2R (v_rate s : f64) * B2R dt) < 8 ->
  is_finite la = true -> Rabs (B2R la) <= bpow radix2 60 -> is_finite aa = true -> Rabs (B2R aa) <= bpow radix2 60 ->
  Rabs (B2R aa) * B2R dt ^ 2 <= 16 ->
  let t := B2R dt in
  let without := ctrv_next s dt in let without_exact := ctrv_next (exact_ctrv _ _ _ s) t in
  is_finite (v_x without : f64) = true -> Rabs (B2R (v_x without : f64)) <= bpow radix2 100 ->
  is_finite (v_y without : f64) = true -> Rabs (B2R (v_y without : f64)) <= bpow radix2 100 ->
  let s' := ctrv_next_noise s dt (Noise (A := doubles sine cosine phase) la aa) in
  let e := ctrv_next_noise (exact_ctrv _ _ _ s) t (Noise (A := reals) (B2R la) (B2R aa)) in
  is_finite (v_x s' : f64) = true /\ is_finite (v_y s' : f64) = true /\
  is_finite (v_vel s' : f64) = true /\ is_finite (v_rate s' : f64) = true /\
  Rabs (B2R (v_x s' : f64) - v_x e) <= Rabs (B2R (v_x without : f64) - v_x without_exact) +
    (bpow radix2 (-49) * (Rabs (B2R (v_x without : f64)) + Rabs (B2R la) * t ^ 2 / 2) + bpow radix2 (-700)) /\
  Rabs (B2R (v_y s' : f64) - v_y e) <= Rabs (B2R (v_y without : f64) - v_y without_exact) +
    (bpow radix2 (-49) * (Rabs (B2R (v_y without : f64)) + Rabs (B2R la) * t ^ 2 / 2) + bpow radix2 (-700)) /\
  Rabs (B2R (v_vel s' : f64) - (B2R (v_vel s : f64) + B2R la * t)) <=
    bpow radix2 (-51) * (Rabs (B2R (v_vel s : f64)) + Rabs (B2R la * t)) + bpow radix2 (-1000) /\
  Rabs (B2R (v_rate s' : f64) - (B2R (v_rate s : f64) + B2R aa * t)) <=
    bpow radix2 (-51) * (Rabs (B2R (v_rate s : f64)) + Rabs (B2R aa * t)) + bpow radix2 (-1000) /\
  proper _ _ _ (v_yaw s') /\ turn_close (bpow radix2 (-45)) (B2R (get_angle (v_yaw s') : f64)) (get_angle (v_yaw e)).
Proof.
  intros ACC O Bv Bw Fd Bd B8 Fl Bl Fa Ba B16 t p ep Fx Bx Fy By s' e.
  exact (ctrv_noise_accurate _ _ _ ACC s la aa dt O Fd Bd B8 Fl Bl Fa Ba B16 Bv Bw Fx Bx Fy By).
Qed.
(** The same for CTRA, whose acceleration is changed by la as well. *)
Theorem C105_ctra sine cosine phase (s : ctra_state (doubles sine cosine phase)) (la aa dt : f64) :
  accurate sine cosine phase -> ordinary_ctra _ _ _ s ->
  is_finite dt = true -> Rabs (B2R dt) <= bpow radix2 30 -> Rabs (B2R (a_rate s : f64) * B2R dt) < 8 ->
  is_finite la = true -> Rabs (B2R la) <= bpow radix2 60 -> is_finite aa = true -> Rabs (B2R aa) <= bpow radix2 60 ->
  Rabs (B2R aa) * B2R dt ^ 2 <= 16 ->
  let t := B2R dt in
  let without := ctra_next s dt in let without_exact := ctra_next (exact_ctra _ _ _ s) t in
  is_finite (a_x without : f64) = true -> Rabs (B2R (a_x without : f64)) <= bpow radix2 100 ->
  is_finite (a_y without : f64) = true -> Rabs (B2R (a_y without : f64)) <= bpow radix2 100 ->
  let s' := ctra_next_noise s dt (Noise (A := doubles sine cosine phase) la aa) in
  let e := ctra_next_noise (exact_ctra _ _ _ s) t (Noise (A := reals) (B2R la) (B2R aa)) in
  is_finite (a_x s' : f64) = true /\ is_finite (a_y s' : f64) = true /\
  is_finite (a_vel s' : f64) = true /\ is_finite (a_rate s' : f64) = true /\ is_finite (a_acc s' : f64) = true /\
  Rabs (B2R (a_x s' : f64) - a_x e) <= Rabs (B2R (a_x without : f64) - a_x without_exact) +
    (bpow radix2 (-49) * (Rabs (B2R (a_x without : f64)) + Rabs (B2R la) * t ^ 2 / 2) + bpow radix2 (-700)) /\
  Rabs (B2R (a_y s' : f64) - a_y e) <= Rabs (B2R (a_y without : f64) - a_y without_exact) +
    (bpow radix2 (-49) * (Rabs (B2R (a_y without : f64)) + Rabs (B2R la) * t ^ 2 / 2) + bpow radix2 (-700)) /\
  Rabs (B2R (a_vel s' : f64) - (B2R (a_vel s : f64) + (B2R (a_acc s : f64) + B2R la) * t)) <=
    bpow radix2 (-50) * (Rabs (B2R (a_vel s : f64)) + Rabs (B2R (a_acc s : f64) * t) + Rabs (B2R la * t)) + bpow radix2 (-900) /\
  Rabs (B2R (a_rate s' : f64) - (B2R (a_rate s : f64) + B2R aa * t)) <=
    bpow radix2 (-51) * (Rabs (B2R (a_rate s : f64)) + Rabs (B2R aa * t)) + bpow radix2 (-1000) /\
  Rabs (B2R (a_acc s' : f64) - (B2R (a_acc s : f64) + B2R la)) <=
    bpow radix2 (-51) * (Rabs (B2R (a_acc s : f64)) + Rabs (B2R la)) + bpow radix2 (-1000) /\
  proper _ _ _ (a_yaw s') /\ turn_close (bpow radix2 (-45)) (B2R (get_angle (a_yaw s') : f64)) (get_angle (a_yaw e)).
Proof.
  intros ACC O Fd Bd B8 Fl Bl Fa Ba B16 t p ep Fx Bx Fy By s' e.
  exact (ctra_noise_accurate _ _ _ ACC s la aa dt O Fd Bd B8 Fl Bl Fa Ba B16 Fx Bx Fy By).
Qed.
(** All together for an object that turns: the predicted position is within
    2^-46 (|x| + |v / w| + |la| dt^2 / 2) + 2^-600 of the exact one. *)
Theorem C105_ctrv_turn sine cosine phase (s : ctrv_state (doubles sine cosine phase)) (la aa dt : f64) :
  accurate sine cosine phase -> ordinary_ctrv _ _ _ s ->
  let w := B2R (v_rate s : f64) in let v := B2R (v_vel s : f64) in let t := B2R dt in
  Rabs v <= bpow radix2 100 -> bpow radix2 (-1022) <= Rabs w <= bpow radix2 100 ->
  Rabs (v / w) <= bpow radix2 60 ->
  is_finite dt = true -> Rabs t <= bpow radix2 30 -> Rabs (w * t) < 8 ->
  is_finite la = true -> Rabs (B2R la) <= bpow radix2 60 -> is_finite aa = true -> Rabs (B2R aa) <= bpow radix2 60 ->
  Rabs (B2R aa) * t ^ 2 <= 16 ->
  let q := Rabs (v / w) + Rabs (B2R la) * t ^ 2 / 2 in
  let s' := ctrv_next_noise s dt (Noise (A := doubles sine cosine phase) la aa) in
  let psi := B2R (get_angle (v_yaw s) : f64) in
  Rabs (B2R (v_x s' : f64) - (B2R (v_x s : f64) + v / w * (sin (psi + w * t) - sin psi) + B2R la * t ^ 2 / 2 * cos psi)) <=
    bpow radix2 (-46) * (Rabs (B2R (v_x s : f64)) + q) + bpow radix2 (-600) /\
  Rabs (B2R (v_y s' : f64) - (B2R (v_y s : f64) - v / w * (cos (psi + w * t) - cos psi) + B2R la * t ^ 2 / 2 * sin psi)) <=
    bpow radix2 (-46) * (Rabs (B2R (v_y s : f64)) + q) + bpow radix2 (-600).
Proof.
  intros ACC O w v t Bv [W1 W2] Hq Fd Bd B8 Fl Bl Fa Ba B16 q s' psi.
  destruct (C100_turn _ _ _ s dt ACC O Fd W1 Hq B8) as (Fx & Fy & Ex & Ey & _).
  assert (N0 : nnear0 reals w = false).
  { cbn [nnear0 reals]. destruct (Rlt_dec (Rabs w) dbl_min) as [H|H]; [|reflexivity]. rewrite dbl_min_bpow in H. lra. }
  pose proof (ctrv_next_turn (exact_ctrv _ _ _ s) t N0) as T.
  pose proof (noise_ctrv (exact_ctrv _ _ _ s) t (Noise (A := reals) (B2R la) (B2R aa))) as (NX & NY & _).
  cbn [n_lin] in NX, NY. fold t in Ex, Ey. rewrite T in NX, NY, Ex, Ey. clear T.
  cbn [exact_ctrv v_x v_y v_vel v_yaw v_rate] in NX, NY, Ex, Ey.
  pose proof (exact_heading psi (w * t)) as H1. pose proof (exact_heading psi 0) as H2. rewrite !Rplus_0_r in H2.
  fold psi w v in NX, NY, Ex, Ey, Hq.
  rewrite (same_turn_sin _ _ H1), (same_turn_sin _ _ H2) in NX, Ex. rewrite (same_turn_cos _ _ H2) in NX.
  rewrite (same_turn_cos _ _ H1), (same_turn_cos _ _ H2) in NY, Ey. rewrite (same_turn_sin _ _ H2) in NY. rewrite Rmult_1_r in NX, NY, Ex, Ey.
  set (p := ctrv_next s dt) in *. set (x := B2R (v_x s : f64)) in *. set (y := B2R (v_y s : f64)) in *.
  set (dx := v / w * (sin (psi + w * t) - sin psi)) in *. set (dy := v / w * (cos (psi + w * t) - cos psi)) in *.
  set (r := Rabs (v / w)) in *. pose proof (Rabs_pos (v / w)) as R0. fold r in R0.
  assert (Q0 : 0 <= Rabs (B2R la) * t ^ 2 / 2).
  { pose proof (Rmult_le_pos _ _ (Rabs_pos (B2R la)) (pow2_ge_0 t)). lra. }
  assert (DX : Rabs dx <= 2 * r).
  { unfold dx. rewrite Rabs_mult. fold r. rewrite Rmult_comm. apply Rmult_le_compat_r; [exact R0|].
    pose proof (SIN_bound (psi + w * t)). pose proof (SIN_bound psi). apply Rabs_le. lra. }
  assert (DY : Rabs dy <= 2 * r).
  { unfold dy. rewrite Rabs_mult. fold r. rewrite Rmult_comm. apply Rmult_le_compat_r; [exact R0|].
    pose proof (COS_bound (psi + w * t)). pose proof (COS_bound psi). apply Rabs_le. lra. }
  assert (T1 : bpow radix2 (-1000) <= bpow radix2 (-700)) by (apply bpow_le; lia).
  assert (T2 : 4 * bpow radix2 (-700) <= bpow radix2 (-600)).
  { change 4 with (bpow radix2 2). rewrite <- bpow_plus. apply bpow_le. lia. }
  assert (T3 : bpow radix2 (-700) <= 1) by (change 1 with (bpow radix2 0); apply bpow_le; lia).
  assert (T4 : 8 * bpow radix2 60 <= bpow radix2 100).
  { change 8 with (bpow radix2 3). rewrite <- bpow_plus. apply bpow_le. lia. }
  assert (T5 : 1 <= bpow radix2 60) by (change 1 with (bpow radix2 0); apply bpow_le; lia).
  assert (PX : forall z d p', Rabs d <= 2 * r -> Rabs (p' - (z + d)) <= bpow radix2 (-48) * (Rabs z + r) + bpow radix2 (-1000) ->
    Rabs p' <= 1.1 * Rabs z + 2.1 * r + bpow radix2 (-700)).
  { intros z d p' Hd H. replace p' with ((p' - (z + d)) + (z + d)) by ring. eapply Rle_trans; [apply Rabs_triang|].
    pose proof (Rabs_triang z d). pose proof (Rabs_pos z). change (bpow radix2 (-48)) with (/ 281474976710656) in H. lra. }
  assert (Px : Rabs (B2R (v_x p : f64)) <= 1.1 * Rabs x + 2.1 * r + bpow radix2 (-700)) by (apply (PX x dx); [exact DX|exact Ex]).
  assert (Ey' : Rabs (B2R (v_y p : f64) - (y + - dy)) <= bpow radix2 (-48) * (Rabs y + r) + bpow radix2 (-1000)) by exact Ey.
  assert (Py : Rabs (B2R (v_y p : f64)) <= 1.1 * Rabs y + 2.1 * r + bpow radix2 (-700)).
  { apply (PX y (- dy)); [rewrite Rabs_Ropp; exact DY|exact Ey']. }
  pose proof (oc_x _ _ _ _ O) as OX. pose proof (oc_y _ _ _ _ O) as OY. fold x in OX. fold y in OY.
  destruct (C105_ctrv _ _ _ s la aa dt ACC O Bv W2 Fd Bd B8 Fl Bl Fa Ba B16 Fx ltac:(fold p; lra) Fy ltac:(fold p; lra))
    as (_ & _ & _ & _ & RX & RY & _).
  fold t p s' in RX, RY. rewrite NX in RX. rewrite NY in RY.
  pose proof (ctrv_next_turn (exact_ctrv _ _ _ s) t N0) as T. rewrite T in RX, RY. clear T.
  cbn [exact_ctrv v_x v_y v_vel v_yaw v_rate] in RX, RY. fold psi w v x y in RX, RY.
  rewrite (same_turn_sin _ _ H1), (same_turn_sin _ _ H2), Rmult_1_r in RX. rewrite (same_turn_cos _ _ H1), (same_turn_cos _ _ H2), Rmult_1_r in RY.
  fold dx in RX. fold dy in RY. unfold q.
  pose proof (Rabs_pos x). pose proof (Rabs_pos y). pose proof (bpow_gt_0 radix2 (-700)) as T0.
  change (bpow radix2 (-46)) with (/ 70368744177664). change (bpow radix2 (-48)) with (/ 281474976710656) in *.
  change (bpow radix2 (-49)) with (/ 562949953421312) in RX, RY.
  split; (eapply Rle_trans; [eassumption|]); lra.
Qed.
Print Assumptions C105_ctrv.
Print Assumptions C105_ctra.
Print Assumptions C105_ctrv_turn.

(** Cases: the car and the lorry of Properties_Accuracy.v and Properties_CtraAccuracy.v, one second ahead
    with noise of 2 m/s^2 and 3 rad/s^2. *)
Example C105_case_ctrv :
  let psi := B2R (get_angle (v_yaw car) : f64) in
  let s' := ctrv_next_noise car (f64_of_Z 1) (Noise (A := doubles sin64 cos64 arg64) (f64_of_Z 2) (f64_of_Z 3)) in
  Rabs (B2R (v_x s' : f64) - (100 + 20 * (sin (psi + 1) - sin psi) + cos psi)) <= / 100000000000.
Proof.
  destruct (int64_value 1 ltac:(lia)) as [E1 F1]. destruct (int64_value 20 ltac:(lia)) as [E20 _]. destruct (int64_value 100 ltac:(lia)) as [E100 _].
  destruct (int64_value 2 ltac:(lia)) as [E2 F2]. destruct (int64_value 3 ltac:(lia)) as [E3 F3].
  assert (W : B2R (v_rate car : f64) = 1) by exact E1. assert (V : B2R (v_vel car : f64) = 20) by exact E20.
  assert (X : B2R (v_x car : f64) = 100) by exact E100.
  assert (L : forall k n, (0 <= n)%Z -> 0 <= k <= 32 -> k <= bpow radix2 (5 + n)).
  { intros k n Hn Hk. apply Rle_trans with (bpow radix2 5); [change (bpow radix2 5) with 32; lra|apply bpow_le; lia]. }
  destruct (C105_ctrv_turn sin64 cos64 arg64 car (f64_of_Z 2) (f64_of_Z 3) (f64_of_Z 1) C99_satisfiable car_ordinary) as [H _];
    rewrite ?W, ?V, ?E1, ?E2, ?E3; try assumption.
  - rewrite Rabs_pos_eq by lra. apply (L _ 95%Z); [lia|lra].
  - rewrite Rabs_R1. split; [change 1 with (bpow radix2 0); apply bpow_le; lia|apply (L _ 95%Z); [lia|lra]].
  - rewrite Rabs_pos_eq by lra. apply (L _ 55%Z); [lia|lra].
  - rewrite Rabs_R1. apply (L _ 25%Z); [lia|lra].
  - rewrite Rmult_1_l, Rabs_R1. lra.
  - rewrite Rabs_pos_eq by lra. apply (L _ 55%Z); [lia|lra].
  - rewrite Rabs_pos_eq by lra. apply (L _ 55%Z); [lia|lra].
  - rewrite Rabs_pos_eq; lra.
  - rewrite W, V, X, E1, E2 in H. intros psi s'. fold psi s' in H.
    replace (100 + 20 * (sin (psi + 1) - sin psi) + cos psi) with
      (100 + 20 / 1 * (sin (psi + 1 * 1) - sin psi) + 2 * 1 ^ 2 / 2 * cos psi) by (rewrite Rmult_1_l; field).
    eapply Rle_trans; [exact H|]. rewrite !Rabs_pos_eq by lra.
    assert (T : bpow radix2 (-600) <= bpow radix2 (-46)) by (apply bpow_le; lia).
    change (bpow radix2 (-46)) with (/ 70368744177664) in *. lra.
Qed.
Example C105_case_ctra :
  let s := lorry (f64_of_Z 0) in
  let s' := ctra_next_noise s (f64_of_Z 1) (Noise (A := doubles sin64 cos64 arg64) (f64_of_Z 2) (f64_of_Z 3)) in
  Rabs (B2R (a_vel s' : f64) - 23) <= / 10000000000000 /\ Rabs (B2R (a_rate s' : f64) - 3) <= / 10000000000000 /\
  Rabs (B2R (a_acc s' : f64) - 3) <= / 10000000000000.
Proof.
  intros s s'.
  destruct (int64_value 1 ltac:(lia)) as [E1 F1]. destruct (int64_value 20 ltac:(lia)) as [E20 _]. destruct (int64_value 100 ltac:(lia)) as [E100 _].
  destruct (int64_value 2 ltac:(lia)) as [E2 F2]. destruct (int64_value 3 ltac:(lia)) as [E3 F3]. destruct (int64_value 0 ltac:(lia)) as [E0 F0].
  assert (W : B2R (a_rate s : f64) = 0) by exact E0. assert (V : B2R (a_vel s : f64) = 20) by exact E20.
  assert (A : B2R (a_acc s : f64) = 1) by exact E1. assert (X : B2R (a_x s : f64) = 100) by exact E100. assert (Y : B2R (a_y s : f64) = 0) by exact E0.
  assert (O : ordinary_ctra _ _ _ s) by (apply lorry_ordinary; [exact F0|rewrite E0, Rabs_R0; lra]).
  assert (L : forall k n, (0 <= n)%Z -> 0 <= k <= 32 -> k <= bpow radix2 (5 + n)).
  { intros k n Hn Hk. apply Rle_trans with (bpow radix2 5); [change (bpow radix2 5) with 32; lra|apply bpow_le; lia]. }
  assert (B1 : Rabs (B2R (f64_of_Z 1)) <= bpow radix2 30) by (rewrite E1, Rabs_R1; apply (L _ 25%Z); [lia|lra]).
  assert (W0 : Rabs (B2R (a_rate s : f64)) < bpow radix2 (-1022)) by (rewrite W, Rabs_R0; apply bpow_gt_0).
  destruct (C101_straight sin64 cos64 arg64 s (f64_of_Z 1) C99_satisfiable O F1 B1 W0) as (Fx & Fy & _ & Ex & Ey & _).
  assert (N0 : nnear0 reals (a_rate (exact_ctra _ _ _ s)) = true).
  { cbn [exact_ctra a_rate nnear0 reals]. rewrite W, Rabs_R0. destruct (Rlt_dec _ _) as [H|H]; [reflexivity|].
    rewrite dbl_min_bpow in H. pose proof (bpow_gt_0 radix2 (-1022)). lra. }
  destruct (ctra_next_straight (exact_ctra _ _ _ s) (B2R (f64_of_Z 1)) N0) as [Tx Ty]. rewrite Tx in Ex. rewrite Ty in Ey.
  cbn [exact_ctra a_x a_y a_vel a_acc a_yaw] in Ex, Ey. rewrite V, A, X, E1 in Ex. rewrite V, A, Y, E1 in Ey. rewrite !Rabs_R1 in Ex, Ey. rewrite Rabs_R0 in Ey.
  rewrite (Rabs_pos_eq 100), (Rabs_pos_eq 20) in Ex by lra. rewrite (Rabs_pos_eq 20) in Ey by lra.
  assert (T : bpow radix2 (-500) <= bpow radix2 (-45)) by (apply bpow_le; lia). change (bpow radix2 (-45)) with (/ 35184372088832) in *.
  set (c := cos _) in Ex. set (z := sin _) in Ey.
  assert (Hc : -1 <= c <= 1) by apply COS_bound. assert (Hz : -1 <= z <= 1) by apply SIN_bound.
  apply Rabs_le_inv in Ex, Ey.
  assert (G : 1024 <= bpow radix2 100) by (change 1024 with (bpow radix2 10); apply bpow_le; lia).
  assert (Bx : Rabs (B2R (a_x (ctra_next s (f64_of_Z 1)) : f64)) <= bpow radix2 100) by (apply Rabs_le; lra).
  assert (By : Rabs (B2R (a_y (ctra_next s (f64_of_Z 1)) : f64)) <= bpow radix2 100) by (apply Rabs_le; lra).
  destruct (C105_ctra sin64 cos64 arg64 s (f64_of_Z 2) (f64_of_Z 3) (f64_of_Z 1) C99_satisfiable O F1 B1) as (_ & _ & _ & _ & _ & _ & _ & H1 & H2 & H3 & _);
    try assumption.
  - rewrite W, Rmult_0_l, Rabs_R0. lra.
  - rewrite E2, Rabs_pos_eq by lra. apply (L _ 55%Z); [lia|lra].
  - rewrite E3, Rabs_pos_eq by lra. apply (L _ 55%Z); [lia|lra].
  - rewrite E3, E1, Rabs_pos_eq; lra.
  - fold s' in H1, H2, H3. rewrite V, A, E1, E2 in H1. rewrite W, E1, E3 in H2. rewrite A, E2 in H3.
    replace (20 + (1 + 2) * 1) with 23 in H1 by ring. replace (0 + 3 * 1) with 3 in H2 by ring. replace (1 + 2) with 3 in H3 by ring.
    assert (T9 : bpow radix2 (-900) <= bpow radix2 (-50)) by (apply bpow_le; lia).
    assert (T10 : bpow radix2 (-1000) <= bpow radix2 (-50)) by (apply bpow_le; lia).
    replace (1 * 1) with 1 in H1 by ring. replace (2 * 1) with 2 in H1 by ring. replace (3 * 1) with 3 in H2 by ring.
    assert (A0 : Rabs 0 = 0) by apply Rabs_R0. assert (A1 : Rabs 1 = 1) by apply Rabs_R1. assert (A2 : Rabs 2 = 2) by (apply Rabs_pos_eq; lra).
    assert (A3 : Rabs 3 = 3) by (apply Rabs_pos_eq; lra). assert (A20 : Rabs 20 = 20) by (apply Rabs_pos_eq; lra).
    rewrite A20, A1, A2 in H1. rewrite A0, A3 in H2. rewrite A1, A2 in H3.
    change (bpow radix2 (-50)) with (/ 1125899906842624) in *. change (bpow radix2 (-51)) with (/ 2251799813685248) in *.
    split; [|split]; (eapply Rle_trans; [eassumption|]); lra.
Qed.
