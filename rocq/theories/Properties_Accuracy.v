(** Accuracy of headings and of CTRV predictions in double precision, when sine,
    cosine and phase are accurate (TrigSpec.v): properties C99 and C100. *)
From Coq Require Import ZArith Reals Lra Lia Bool Psatz.
From Flocq Require Import Core IEEE754.BinarySingleNaN.
From Verif Require Import Float FloatProofs Motion RealArith DoubleArith DoubleThms SumSquares64 PiDouble TrigSpec
  AngleAccuracy TrigExists MotionAccuracy MotionMany.
Local Open Scope R_scope.

(** C99: an angle object gives back the angle it was made from, up to whole turns ... *)
Theorem C99_roundtrip sine cosine phase (a : f64) : accurate sine cosine phase -> is_finite a = true ->
  proper sine cosine phase (angle_of (A := doubles sine cosine phase) a) /\
  turn_close (bpow radix2 (-48)) (B2R (get_angle (angle_of (A := doubles sine cosine phase) a) : f64)) (B2R a).
Proof.
  intros ACC F. split; [exact (angle_of_proper _ _ _ ACC a F)|]. destruct (angle_roundtrip _ _ _ ACC a F) as (_ & _ & H).
  eapply turn_close_le; [|exact H]. rewrite u52_value. change (bpow radix2 (-48)) with (/ 281474976710656). lra.
Qed.
(** ... sums and differences are sums and differences up to whole turns ... *)
Theorem C99_add sine cosine phase (x y : angle (doubles sine cosine phase)) : accurate sine cosine phase ->
  proper _ _ _ x -> proper _ _ _ y ->
  proper _ _ _ (angle_add x y) /\
  turn_close (bpow radix2 (-48)) (B2R (get_angle (angle_add x y) : f64)) (B2R (get_angle x : f64) + B2R (get_angle y : f64)).
Proof.
  intros ACC Px Py. destruct (angle_add_accurate _ _ _ ACC x y Px Py) as [P H]. split; [exact P|].
  eapply turn_close_le; [|exact H]. rewrite u52_value. change (bpow radix2 (-48)) with (/ 281474976710656). lra.
Qed.
Theorem C99_sub sine cosine phase (x y : angle (doubles sine cosine phase)) : accurate sine cosine phase ->
  proper _ _ _ x -> proper _ _ _ y ->
  proper _ _ _ (angle_sub x y) /\
  turn_close (bpow radix2 (-48)) (B2R (get_angle (angle_sub x y) : f64)) (B2R (get_angle x : f64) - B2R (get_angle y : f64)).
Proof.
  intros ACC Px Py. destruct (angle_sub_accurate _ _ _ ACC x y Px Py) as [P H]. split; [exact P|].
  eapply turn_close_le; [|exact H]. rewrite u52_value. change (bpow radix2 (-48)) with (/ 281474976710656). lra.
Qed.
(** ... and after any number of predictions the heading has turned at its rate,
    with an error that grows by at most 2^-47 per prediction. *)
Theorem C99_predictions sine cosine phase (s : ctrv_state (doubles sine cosine phase)) (dt : f64) (n : nat) :
  accurate sine cosine phase -> proper _ _ _ (v_yaw s) -> is_finite (v_rate s : f64) = true -> is_finite dt = true ->
  Rabs (B2R (v_rate s : f64) * B2R dt) < 8 ->
  let s' := steps _ _ _ n dt s in
  v_vel s' = v_vel s /\ v_rate s' = v_rate s /\ proper _ _ _ (v_yaw s') /\
  turn_close (INR n * bpow radix2 (-47)) (B2R (get_angle (v_yaw s') : f64))
    (B2R (get_angle (v_yaw s) : f64) + INR n * (B2R (v_rate s : f64) * B2R dt)).
Proof.
  intros ACC P Fw Fd B s'. unfold s'. destruct (steps_heading sine cosine phase n dt s) as (-> & -> & ->).
  split; [reflexivity|]. split; [reflexivity|]. exact (turn_many _ _ _ ACC (v_rate s) dt (v_yaw s) n P Fw Fd B).
Qed.
(** The functions that round the exact sine, cosine and phase are accurate. *)
Theorem C99_satisfiable :
  accurate (fun x => near64 (sin (B2R x))) (fun x => near64 (cos (B2R x))) (fun x y => near64 (argR (B2R x) (B2R y))).
Proof. exact accurate_exists. Qed.
Print Assumptions C99_roundtrip.
Print Assumptions C99_add.
Print Assumptions C99_sub.
Print Assumptions C99_predictions.
Print Assumptions C99_satisfiable.

(** C100: one CTRV prediction of a turning object is within
    2^-48 (|x| + |v / w|) + 2^-1000 of the exact one, for x and for y ... *)
Theorem C100_turn sine cosine phase (s : ctrv_state (doubles sine cosine phase)) (dt : f64) :
  accurate sine cosine phase -> ordinary_ctrv _ _ _ s -> is_finite dt = true ->
  bpow radix2 (-1022) <= Rabs (B2R (v_rate s : f64)) ->
  let q := Rabs (B2R (v_vel s : f64) / B2R (v_rate s : f64)) in
  q <= bpow radix2 60 -> Rabs (B2R (v_rate s : f64) * B2R dt) < 8 ->
  let s' := ctrv_next s dt in let e := ctrv_next (exact_ctrv _ _ _ s) (B2R dt) in
  is_finite (v_x s' : f64) = true /\ is_finite (v_y s' : f64) = true /\
  Rabs (B2R (v_x s' : f64) - v_x e) <= bpow radix2 (-48) * (Rabs (B2R (v_x s : f64)) + q) + bpow radix2 (-1000) /\
  Rabs (B2R (v_y s' : f64) - v_y e) <= bpow radix2 (-48) * (Rabs (B2R (v_y s : f64)) + q) + bpow radix2 (-1000) /\
  v_vel s' = v_vel s /\ v_rate s' = v_rate s /\
  turn_close (bpow radix2 (-47)) (B2R (get_angle (v_yaw s') : f64)) (get_angle (v_yaw e)).
Proof.
  intros ACC O Fd W q Hq B s' e.
  destruct (ctrv_turn_accurate _ _ _ ACC s dt O Fd) as (F1 & F2 & E1 & E2); try assumption.
  { rewrite (near0_double _ _ _ _ (oc_fw _ _ _ _ O)). rewrite dbl_min_bpow. destruct (Rlt_dec _ _); [lra|reflexivity]. }
  destruct (ctrv_heading_accurate _ _ _ ACC s dt O Fd B) as (E3 & E4 & _ & E5).
  repeat (split; [assumption|]). exact E5.
Qed.
(** ... that of an object moving straight on is within
    2^-48 (|x| + |v dt|) + 2^-1000 ... *)
Theorem C100_straight sine cosine phase (s : ctrv_state (doubles sine cosine phase)) (dt : f64) :
  accurate sine cosine phase -> ordinary_ctrv _ _ _ s -> is_finite dt = true ->
  Rabs (B2R (v_rate s : f64)) < bpow radix2 (-1022) ->
  let q := Rabs (B2R (v_vel s : f64) * B2R dt) in
  q <= bpow radix2 60 -> Rabs (B2R (v_vel s : f64)) <= bpow radix2 60 -> Rabs (B2R dt) <= bpow radix2 30 ->
  let s' := ctrv_next s dt in let e := ctrv_next (exact_ctrv _ _ _ s) (B2R dt) in
  is_finite (v_x s' : f64) = true /\ is_finite (v_y s' : f64) = true /\
  Rabs (B2R (v_x s' : f64) - v_x e) <= bpow radix2 (-48) * (Rabs (B2R (v_x s : f64)) + q) + bpow radix2 (-1000) /\
  Rabs (B2R (v_y s' : f64) - v_y e) <= bpow radix2 (-48) * (Rabs (B2R (v_y s : f64)) + q) + bpow radix2 (-1000) /\
  v_vel s' = v_vel s /\ v_rate s' = v_rate s /\
  turn_close (bpow radix2 (-47)) (B2R (get_angle (v_yaw s') : f64)) (get_angle (v_yaw e)).
Proof.
  intros ACC O Fd W q Hq Bv Bd s' e.
  destruct (ctrv_straight_accurate _ _ _ ACC s dt O Fd) as (F1 & F2 & E1 & E2); try assumption.
  { rewrite (near0_double _ _ _ _ (oc_fw _ _ _ _ O)). rewrite dbl_min_bpow. destruct (Rlt_dec _ _); [reflexivity|lra]. }
  destruct (ctrv_heading_accurate _ _ _ ACC s dt O Fd) as (E3 & E4 & _ & E5).
  { rewrite Rabs_mult. apply Rle_lt_trans with (bpow radix2 (-1022) * bpow radix2 30).
    - apply Rmult_le_compat; auto using Rabs_pos. lra.
    - rewrite <- bpow_plus. change 8 with (bpow radix2 3). apply bpow_lt. lia. }
  repeat (split; [assumption|]). exact E5.
Qed.
(** ... and n predictions one after the other, for n up to 2^20, are within
    n 2^-47 (|x| + (n + 4) q) + n 2^-990 of one exact prediction over the whole
    time: turning ... *)
Theorem C100_many_turn sine cosine phase (s : ctrv_state (doubles sine cosine phase)) (dt : f64) (n : nat) :
  accurate sine cosine phase -> ordinary_ctrv _ _ _ s -> is_finite dt = true ->
  bpow radix2 (-1022) <= Rabs (B2R (v_rate s : f64)) ->
  let q := Rabs (B2R (v_vel s : f64) / B2R (v_rate s : f64)) in
  q <= bpow radix2 30 -> Rabs (B2R (v_rate s : f64) * B2R dt) < 8 ->
  Rabs (B2R (v_x s : f64)) <= bpow radix2 50 -> Rabs (B2R (v_y s : f64)) <= bpow radix2 50 -> (n <= 2 ^ 20)%nat ->
  let s' := steps _ _ _ n dt s in let e := ctrv_next (exact_ctrv _ _ _ s) (INR n * B2R dt) in
  ordinary_ctrv _ _ _ s' /\
  Rabs (B2R (v_x s' : f64) - v_x e) <=
    INR n * bpow radix2 (-47) * (Rabs (B2R (v_x s : f64)) + (INR n + 4) * q) + INR n * bpow radix2 (-990) /\
  Rabs (B2R (v_y s' : f64) - v_y e) <=
    INR n * bpow radix2 (-47) * (Rabs (B2R (v_y s : f64)) + (INR n + 4) * q) + INR n * bpow radix2 (-990).
Proof.
  intros ACC O Fd W q Hq B BX BY Hn. apply (ctrv_many_turn _ _ _ ACC); try assumption.
  rewrite (near0_double _ _ _ _ (oc_fw _ _ _ _ O)). rewrite dbl_min_bpow. destruct (Rlt_dec _ _); [lra|reflexivity].
Qed.
(** ... and straight on. *)
Theorem C100_many_straight sine cosine phase (s : ctrv_state (doubles sine cosine phase)) (dt : f64) (n : nat) :
  accurate sine cosine phase -> ordinary_ctrv _ _ _ s -> is_finite dt = true ->
  Rabs (B2R (v_rate s : f64)) < bpow radix2 (-1022) ->
  let q := Rabs (B2R (v_vel s : f64) * B2R dt) in
  q <= bpow radix2 30 -> Rabs (B2R (v_vel s : f64)) <= bpow radix2 60 -> Rabs (B2R dt) <= bpow radix2 30 ->
  Rabs (B2R (v_x s : f64)) <= bpow radix2 50 -> Rabs (B2R (v_y s : f64)) <= bpow radix2 50 -> (n <= 2 ^ 20)%nat ->
  let s' := steps _ _ _ n dt s in let e := ctrv_next (exact_ctrv _ _ _ s) (INR n * B2R dt) in
  ordinary_ctrv _ _ _ s' /\
  Rabs (B2R (v_x s' : f64) - v_x e) <=
    INR n * bpow radix2 (-47) * (Rabs (B2R (v_x s : f64)) + (INR n + 4) * q) + INR n * bpow radix2 (-990) /\
  Rabs (B2R (v_y s' : f64) - v_y e) <=
    INR n * bpow radix2 (-47) * (Rabs (B2R (v_y s : f64)) + (INR n + 4) * q) + INR n * bpow radix2 (-990).
Proof.
  intros ACC O Fd W q Hq Bv Bd BX BY Hn. apply (ctrv_many_straight _ _ _ ACC); try assumption.
  rewrite (near0_double _ _ _ _ (oc_fw _ _ _ _ O)). rewrite dbl_min_bpow. destruct (Rlt_dec _ _); [reflexivity|lra].
Qed.
Print Assumptions C100_turn.
Print Assumptions C100_straight.
Print Assumptions C100_many_turn.
Print Assumptions C100_many_straight.

(** A case: ten predictions of one second of an object 100 m to the right that
    moves with 20 m/s and turns by 1 rad/s; the error is below 1e-9 m. *)
Definition sin64 (x : f64) : f64 := near64 (sin (B2R x)).
Definition cos64 (x : f64) : f64 := near64 (cos (B2R x)).
Definition arg64 (x y : f64) : f64 := near64 (argR (B2R x) (B2R y)).
Definition car : ctrv_state (doubles sin64 cos64 arg64) :=
  CtrvState (A := doubles sin64 cos64 arg64) (f64_of_Z 100) (f64_of_Z 0) (f64_of_Z 20)
    (angle_of (A := doubles sin64 cos64 arg64) (f64_of_Z 1)) (f64_of_Z 1).
Lemma car_ordinary : ordinary_ctrv _ _ _ car.
Proof.
  assert (E : forall k, (0 <= k <= 100)%Z -> B2R (f64_of_Z k) = IZR k /\ is_finite (f64_of_Z k) = true).
  { intros k Hk. apply int64_value. lia. }
  assert (L : 100 <= bpow radix2 60) by (apply Rle_trans with (bpow radix2 7); [change (bpow radix2 7) with 128; lra|apply bpow_le; lia]).
  constructor; cbn [car v_x v_y v_vel v_rate v_yaw].
  - apply E; lia.
  - destruct (E 100%Z ltac:(lia)) as [-> _]. rewrite Rabs_pos_eq; lra.
  - apply E; lia.
  - destruct (E 0%Z ltac:(lia)) as [-> _]. rewrite Rabs_R0. lra.
  - apply E; lia.
  - apply E; lia.
  - apply C99_roundtrip; [exact C99_satisfiable|]. apply E; lia.
Qed.
Example C99_case : proper _ _ _ (v_yaw car).
Proof. exact (oc_yaw _ _ _ _ car_ordinary). Qed.
Example C100_case :
  let e := ctrv_next (exact_ctrv _ _ _ car) (INR 10 * 1) in
  Rabs (B2R (v_x (steps _ _ _ 10 (f64_of_Z 1) car) : f64) - v_x e) <= / 1000000000.
Proof.
  assert (E : forall k, (0 <= k <= 100)%Z -> B2R (f64_of_Z k) = IZR k /\ is_finite (f64_of_Z k) = true).
  { intros k Hk. apply int64_value. lia. }
  destruct (E 1%Z ltac:(lia)) as [E1 F1]. destruct (E 20%Z ltac:(lia)) as [E20 _]. destruct (E 100%Z ltac:(lia)) as [E100 _].
  destruct (E 0%Z ltac:(lia)) as [E0 _].
  assert (R1 : B2R (v_rate car : f64) = 1) by exact E1. assert (V : B2R (v_vel car : f64) = 20) by exact E20.
  assert (X : B2R (v_x car : f64) = 100) by exact E100. assert (Y : B2R (v_y car : f64) = 0) by exact E0.
  destruct (C100_many_turn sin64 cos64 arg64 car (f64_of_Z 1) 10 C99_satisfiable car_ordinary F1) as (_ & H & _).
  - rewrite R1, Rabs_R1. change 1 with (bpow radix2 0). apply bpow_le. lia.
  - rewrite R1, V. change (bpow radix2 30) with 1073741824. rewrite Rabs_pos_eq; lra.
  - rewrite R1, E1. rewrite Rabs_pos_eq; lra.
  - rewrite X. change (bpow radix2 50) with 1125899906842624. rewrite Rabs_pos_eq; lra.
  - rewrite Y, Rabs_R0. apply bpow_ge_0.
  - apply Nat.le_trans with (2 ^ 4)%nat; [cbn; lia|]. apply Nat.pow_le_mono_r; lia.
  - rewrite E1 in H. intros e. eapply Rle_trans; [exact H|]. rewrite R1, V, X. change (bpow radix2 (-47)) with (/ 140737488355328).
    assert (T : bpow radix2 (-990) <= / 140737488355328) by (change (/ 140737488355328) with (bpow radix2 (-47)); apply bpow_le; lia).
    replace (INR 10) with 10 by (cbn; lra). rewrite !Rabs_pos_eq; lra.
Qed.
