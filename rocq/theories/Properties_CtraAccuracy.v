(** CTRA predictions in double precision, when sine, cosine and phase are accurate
    (TrigSpec.v): property C101. *)
From Coq Require Import ZArith Reals Lra Lia Bool Psatz.
From Flocq Require Import Core IEEE754.BinarySingleNaN.
From Verif Require Import Float FloatProofs Motion RealArith DoubleArith DoubleThms SumSquares64 PiDouble TrigSpec
  AngleAccuracy TrigExists MotionAccuracy MotionMany CtraAccuracy CtraTiny Properties_Accuracy.
Local Open Scope R_scope.

(** C101: one CTRA prediction of an object that turns at 2^-100 rad/s or more is
    within 2^-45 (|x| + (|v| + |a dt|) / |w| + |a| / w^2) + 2^-500 of the exact one,
    for x and for y ... *)
Theorem C101_turn sine cosine phase (s : ctra_state (doubles sine cosine phase)) (dt : f64) :
  accurate sine cosine phase -> ordinary_ctra _ _ _ s -> is_finite dt = true -> Rabs (B2R dt) <= bpow radix2 30 ->
  let v := B2R (a_vel s : f64) in let a := B2R (a_acc s : f64) in let w := B2R (a_rate s : f64) in let t := B2R dt in
  bpow radix2 (-100) <= Rabs w -> Rabs (w * t) < 8 ->
  let q := (Rabs v + Rabs a * Rabs t) / Rabs w + Rabs a / (w * w) in
  let s' := ctra_next s dt in let e := ctra_next (exact_ctra _ _ _ s) t in
  is_finite (a_x s' : f64) = true /\ is_finite (a_y s' : f64) = true /\ is_finite (a_vel s' : f64) = true /\
  Rabs (B2R (a_x s' : f64) - a_x e) <= bpow radix2 (-45) * (Rabs (B2R (a_x s : f64)) + q) + bpow radix2 (-500) /\
  Rabs (B2R (a_y s' : f64) - a_y e) <= bpow radix2 (-45) * (Rabs (B2R (a_y s : f64)) + q) + bpow radix2 (-500) /\
  Rabs (B2R (a_vel s' : f64) - (v + a * t)) <= bpow radix2 (-51) * (Rabs v + Rabs a * Rabs t) + bpow radix2 (-1000) /\
  turn_close (bpow radix2 (-47)) (B2R (get_angle (a_yaw s') : f64)) (get_angle (a_yaw e)) /\
  a_rate s' = a_rate s /\ a_acc s' = a_acc s.
Proof.
  intros ACC O Fd Bd v a w t W B q s' e.
  destruct (ctra_turn_accurate _ _ _ ACC s dt O Fd Bd W B) as (F1 & F2 & E1 & E2).
  destruct (ctra_rest_accurate _ _ _ ACC s dt O Fd Bd B) as (F3 & E3 & _ & E4 & E5 & E6).
  rewrite (ctra_exact_velocity (exact_ctra _ _ _ s) (B2R dt)) in E3. auto 12.
Qed.
(** ... that of an object moving straight on is within
    2^-45 (|x| + |v| |dt| + |a| dt^2 / 2) + 2^-500 ... *)
Theorem C101_straight sine cosine phase (s : ctra_state (doubles sine cosine phase)) (dt : f64) :
  accurate sine cosine phase -> ordinary_ctra _ _ _ s -> is_finite dt = true -> Rabs (B2R dt) <= bpow radix2 30 ->
  let v := B2R (a_vel s : f64) in let a := B2R (a_acc s : f64) in let w := B2R (a_rate s : f64) in let t := B2R dt in
  Rabs w < bpow radix2 (-1022) ->
  let q := Rabs v * Rabs t + Rabs a * Rabs t * Rabs t / 2 in
  let s' := ctra_next s dt in let e := ctra_next (exact_ctra _ _ _ s) t in
  is_finite (a_x s' : f64) = true /\ is_finite (a_y s' : f64) = true /\ is_finite (a_vel s' : f64) = true /\
  Rabs (B2R (a_x s' : f64) - a_x e) <= bpow radix2 (-45) * (Rabs (B2R (a_x s : f64)) + q) + bpow radix2 (-500) /\
  Rabs (B2R (a_y s' : f64) - a_y e) <= bpow radix2 (-45) * (Rabs (B2R (a_y s : f64)) + q) + bpow radix2 (-500) /\
  Rabs (B2R (a_vel s' : f64) - (v + a * t)) <= bpow radix2 (-51) * (Rabs v + Rabs a * Rabs t) + bpow radix2 (-1000) /\
  turn_close (bpow radix2 (-47)) (B2R (get_angle (a_yaw s') : f64)) (get_angle (a_yaw e)) /\
  a_rate s' = a_rate s /\ a_acc s' = a_acc s.
Proof.
  intros ACC O Fd Bd v a w t W q s' e.
  destruct (ctra_straight_accurate _ _ _ ACC s dt O Fd Bd W) as (F1 & F2 & E1 & E2).
  assert (B : Rabs (B2R (a_rate s : f64) * B2R dt) < 8).
  { rewrite Rabs_mult. apply Rle_lt_trans with (bpow radix2 (-1022) * bpow radix2 30).
    - apply Rmult_le_compat; auto using Rabs_pos. apply Rlt_le, W.
    - rewrite <- bpow_plus. change 8 with (bpow radix2 3). apply bpow_lt. lia. }
  destruct (ctra_rest_accurate _ _ _ ACC s dt O Fd Bd B) as (F3 & E3 & _ & E4 & E5 & E6).
  rewrite (ctra_exact_velocity (exact_ctra _ _ _ s) (B2R dt)) in E3. auto 12.
Qed.
(** ... but with a turn rate from the smallest normal double 2^-1022 to 2^-538 no
    predicted position is a number, whatever sine, cosine and phase are ... *)
Theorem C101_not_finite sine cosine phase (s : ctra_state (doubles sine cosine phase)) (dt : f64) :
  is_finite (a_rate s : f64) = true -> bpow radix2 (-1022) <= Rabs (B2R (a_rate s : f64)) <= bpow radix2 (-538) ->
  is_finite (a_x (ctra_next s dt) : f64) = false /\ is_finite (a_y (ctra_next s dt) : f64) = false.
Proof. exact (ctra_not_finite sine cosine phase s dt). Qed.
(** ... and with one from 2^-500 to 2^-100 an accelerating object with a
    heading from 0 to 0.9 rad is predicted either not to move along x at all or to be
    2^136 m away, where it moves forward by v dt / 3 at least and (v + a dt) dt at most. *)
Theorem C101_slow sine cosine phase (s : ctra_state (doubles sine cosine phase)) (dt : f64) :
  accurate sine cosine phase -> ordinary_ctra _ _ _ s -> is_finite dt = true ->
  let v := B2R (a_vel s : f64) in let a := B2R (a_acc s : f64) in let w := B2R (a_rate s : f64) in let t := B2R dt in
  0 < t <= bpow radix2 10 -> 0 <= v <= bpow radix2 10 -> bpow radix2 (-10) <= a <= bpow radix2 10 ->
  bpow radix2 (-500) <= Rabs w <= bpow radix2 (-100) -> B2R (get_angle (a_yaw s) : f64) <= 0.9 ->
  let s' := ctra_next s dt in let e := ctra_next (exact_ctra _ _ _ s) t in
  (B2R (a_x s' : f64) = B2R (a_x s : f64) \/ bpow radix2 136 <= Rabs (B2R (a_x s' : f64))) /\
  v * t / 3 <= a_x e - B2R (a_x s : f64) <= (v + a * t) * t.
Proof. exact (ctra_slow sine cosine phase s dt). Qed.
Print Assumptions C101_turn.
Print Assumptions C101_straight.
Print Assumptions C101_not_finite.
Print Assumptions C101_slow.

(** Cases: an object at (100, 0) that moves with 20 m/s at a heading of 0.5 rad and accelerates by 1 m/s^2,
    predicted for one second, with turn rates of 1, 2^-200 and 2^-600 rad/s. *)
Definition small_rate (k : Z) : f64 := binary_normalize 53 1024 _ _ mode_NE 1 k false.
Definition lorry (w : f64) : ctra_state (doubles sin64 cos64 arg64) :=
  CtraState (A := doubles sin64 cos64 arg64) (f64_of_Z 100) (f64_of_Z 0) (f64_of_Z 20)
    (angle_of (A := doubles sin64 cos64 arg64) (small_rate (-1))) w (f64_of_Z 1).
Lemma small_rate_value k : (-1074 <= k <= 0)%Z -> B2R (small_rate k) = bpow radix2 k /\ is_finite (small_rate k) = true.
Proof.
  intros H. unfold small_rate. pose proof (binary_normalize_correct 53 1024 _ _ mode_NE 1 k false) as C.
  cbn [Fnum Fexp] in C. unfold F2R in C. cbn [Fnum Fexp round_mode] in C. rewrite Rmult_1_l in C.
  rewrite round_generic in C; [|typeclasses eauto|apply fmt64_bpow; lia].
  rewrite Rlt_bool_true in C; [tauto|]. rewrite Rabs_pos_eq by apply bpow_ge_0. apply bpow_lt. lia.
Qed.
Lemma lorry_ordinary w : is_finite w = true -> Rabs (B2R w) <= 1 -> ordinary_ctra _ _ _ (lorry w).
Proof.
  intros Fw Bw.
  assert (E : forall k, (0 <= k <= 100)%Z -> B2R (f64_of_Z k) = IZR k /\ is_finite (f64_of_Z k) = true).
  { intros k Hk. apply int64_value. lia. }
  assert (L : 100 <= bpow radix2 60) by (apply Rle_trans with (bpow radix2 7); [change (bpow radix2 7) with 128; lra|apply bpow_le; lia]).
  constructor; cbn [lorry a_x a_y a_vel a_rate a_acc a_yaw].
  - apply E; lia.
  - destruct (E 100%Z ltac:(lia)) as [-> _]. rewrite Rabs_pos_eq; lra.
  - apply E; lia.
  - destruct (E 0%Z ltac:(lia)) as [-> _]. rewrite Rabs_R0. lra.
  - apply E; lia.
  - destruct (E 20%Z ltac:(lia)) as [-> _]. rewrite Rabs_pos_eq; lra.
  - exact Fw.
  - lra.
  - apply E; lia.
  - destruct (E 1%Z ltac:(lia)) as [-> _]. rewrite Rabs_pos_eq; lra.
  - apply C99_roundtrip; [exact C99_satisfiable|]. apply small_rate_value; lia.
Qed.
Lemma lorry_heading w : B2R (get_angle (a_yaw (lorry w)) : f64) <= 0.9.
Proof.
  destruct (small_rate_value (-1) ltac:(lia)) as [E F].
  destruct (C99_roundtrip sin64 cos64 arg64 (small_rate (-1)) C99_satisfiable F) as [[_ R] [k H]]. rewrite E in H.
  change (get_angle (a_yaw (lorry w))) with (get_angle (angle_of (A := doubles sin64 cos64 arg64) (small_rate (-1)))).
  change (bpow radix2 (-1)) with (/ 2) in H. change (bpow radix2 (-48)) with (/ 281474976710656) in H.
  set (h := B2R (get_angle (angle_of (A := doubles sin64 cos64 arg64) (small_rate (-1))) : f64)) in *. apply Rabs_le_inv in H.
  pose proof pi_real_close as P. pose proof pi_eighteen. rewrite (proj1 pi64_value) in R. change (bpow radix2 (-52)) with (/ 4503599627370496) in P.
  destruct (Z_lt_le_dec k 0) as [L|L]; [|destruct (Z_lt_le_dec 0 k) as [G|G]].
  - apply Zlt_le_succ in L. assert (IZR k <= -1) by (apply IZR_le; lia). nra.
  - assert (1 <= IZR k) by (apply IZR_le; lia). nra.
  - replace k with 0%Z in H by lia. lra.
Qed.
Example C101_case_turn :
  Rabs (B2R (a_x (ctra_next (lorry (f64_of_Z 1)) (f64_of_Z 1)) : f64) - a_x (ctra_next (exact_ctra _ _ _ (lorry (f64_of_Z 1))) 1))
  <= / 100000000000.
Proof.
  destruct (int64_value 1 ltac:(lia)) as [E1 F1]. destruct (int64_value 20 ltac:(lia)) as [E20 _]. destruct (int64_value 100 ltac:(lia)) as [E100 _].
  destruct (C101_turn sin64 cos64 arg64 (lorry (f64_of_Z 1)) (f64_of_Z 1) C99_satisfiable) as (_ & _ & _ & H & _);
    cbn [lorry a_x a_y a_vel a_rate a_acc]; rewrite ?E1, ?Rabs_R1.
  - apply lorry_ordinary; [exact F1|]. rewrite E1, Rabs_R1. lra.
  - exact F1.
  - change 1 with (bpow radix2 0). apply bpow_le. lia.
  - change 1 with (bpow radix2 0). apply bpow_le. lia.
  - rewrite Rmult_1_r, Rabs_R1. lra.
  - cbn [lorry a_x a_y a_vel a_rate a_acc] in H. rewrite ?E1, ?E20, ?E100 in H.
    eapply Rle_trans; [exact H|]. rewrite !Rabs_pos_eq by lra.
    assert (T : bpow radix2 (-500) <= bpow radix2 (-45)) by (apply bpow_le; lia).
    change (bpow radix2 (-45)) with (/ 35184372088832) in *. lra.
Qed.
Example C101_case_slow :
  let s' := ctra_next (lorry (small_rate (-200))) (f64_of_Z 1) in
  let e := ctra_next (exact_ctra _ _ _ (lorry (small_rate (-200)))) 1 in
  (B2R (a_x s' : f64) = 100 \/ bpow radix2 136 <= Rabs (B2R (a_x s' : f64))) /\ 106 < a_x e <= 121.
Proof.
  destruct (int64_value 1 ltac:(lia)) as [E1 F1]. destruct (int64_value 20 ltac:(lia)) as [E20 _]. destruct (int64_value 100 ltac:(lia)) as [E100 _].
  destruct (int64_value 0 ltac:(lia)) as [E0 F0]. destruct (small_rate_value (-200) ltac:(lia)) as [EW FW]. pose proof (bpow_ge_0 radix2 (-200)) as PW.
  assert (LW : Rabs (B2R (small_rate (-200))) = bpow radix2 (-200)) by (rewrite EW; apply Rabs_pos_eq, PW).
  assert (H : let s := lorry (small_rate (-200)) in let s' := ctra_next s (f64_of_Z 1) in let e := ctra_next (exact_ctra _ _ _ s) (B2R (f64_of_Z 1)) in
    (B2R (a_x s' : f64) = B2R (a_x s : f64) \/ bpow radix2 136 <= Rabs (B2R (a_x s' : f64))) /\
    B2R (a_vel s : f64) * B2R (f64_of_Z 1) / 3 <= a_x e - B2R (a_x s : f64) <=
      (B2R (a_vel s : f64) + B2R (a_acc s : f64) * B2R (f64_of_Z 1)) * B2R (f64_of_Z 1)).
  { apply C101_slow; try exact F1; cbn [lorry a_x a_y a_vel a_rate a_acc a_yaw]; rewrite ?E1, ?E20, ?LW.
    - exact C99_satisfiable.
    - apply lorry_ordinary; [exact FW|]. rewrite LW. change 1 with (bpow radix2 0). apply bpow_le. lia.
    - change (bpow radix2 10) with 1024. lra.
    - change (bpow radix2 10) with 1024. lra.
    - change (bpow radix2 10) with 1024. change (bpow radix2 (-10)) with (/ 1024). lra.
    - split; apply bpow_le; lia.
    - exact (lorry_heading (small_rate (-200))). }
  cbv zeta in H. cbn [lorry a_x a_y a_vel a_rate a_acc] in H. fold (lorry (small_rate (-200))) in H. rewrite E1, E20, E100 in H.
  intros s' e. destruct H as [H1 H2]. split; [exact H1|]. unfold e. lra.
Qed.
Example C101_case_not_finite : is_finite (a_x (ctra_next (lorry (small_rate (-600))) (f64_of_Z 1)) : f64) = false.
Proof.
  destruct (small_rate_value (-600) ltac:(lia)) as [EW FW].
  apply (C101_not_finite sin64 cos64 arg64 (lorry (small_rate (-600))) (f64_of_Z 1)); cbn [lorry a_rate]; [exact FW|].
  rewrite EW, Rabs_pos_eq by apply bpow_ge_0. split; apply bpow_le; lia.
Qed.
