(** Predictions along a sequence of times in double precision: property C108. *)
From Coq Require Import ZArith Reals Lra Lia Bool Psatz List.
From Flocq Require Import Core IEEE754.BinarySingleNaN.
From Verif Require Import Base Uuid DynObj Propagation Float FloatProofs Motion RealArith DoubleArith DoubleThms SumSquares64 PiDouble TrigSpec
  AngleAccuracy TrigExists MotionAccuracy MotionMany TimesSpec MotionTimes Properties_Accuracy.
Import ListNotations.
Local Open Scope R_scope.

(** C108: an object is propagated to ascending times, each difference of times
    being rounded; [p] is any propagator that moves the state by get_next_state.  A
    turning object arrives where the exact motion takes it in the time from the
    first to the last stamp ... *)
Theorem C108_turn sine cosine phase {C} (p : ctrv_state (doubles sine cosine phase) -> C -> f64 -> ctrv_state (doubles sine cosine phase) * C)
    (o : dyn_obj f64 (ctrv_state (doubles sine cosine phase)) C) (ts : list f64) :
  accurate sine cosine phase -> (forall s c d, fst (p s c d) = ctrv_next s d) ->
  let s := o_state o in let t0 := o_timestamp o in let T := B2R (last ts t0) - B2R t0 in
  let v := Rabs (B2R (v_vel s : f64)) in let w := Rabs (B2R (v_rate s : f64)) in let n := INR (length ts) in
  ordinary_ctrv _ _ _ s -> bpow radix2 (-1022) <= w -> v / w <= bpow radix2 30 ->
  Rabs (B2R (v_x s : f64)) <= bpow radix2 50 -> Rabs (B2R (v_y s : f64)) <= bpow radix2 50 -> (length ts <= 2 ^ 20)%nat ->
  (forall t, In t (t0 :: ts) -> is_finite t = true /\ Rabs (B2R t) <= bpow radix2 1000) ->
  (forall a b, successive a b (t0 :: ts) -> B2R a <= B2R b /\ w * (B2R b - B2R a) <= 4) ->
  let o' := fold_left (propagate_to_time (Bminus mode_NE) p) ts o in
  let s' := o_state o' in let e := ctrv_next (exact_ctrv _ _ _ s) T in
  o_timestamp o' = last ts t0 /\ ordinary_ctrv _ _ _ s' /\
  Rabs (B2R (v_x s' : f64) - v_x e) <=
    n * bpow radix2 (-47) * (Rabs (B2R (v_x s : f64)) + (n + 4) * (v / w)) + n * bpow radix2 (-990) + bpow radix2 (-53) * v * T /\
  Rabs (B2R (v_y s' : f64) - v_y e) <=
    n * bpow radix2 (-47) * (Rabs (B2R (v_y s : f64)) + (n + 4) * (v / w)) + n * bpow radix2 (-990) + bpow radix2 (-53) * v * T /\
  turn_close (n * bpow radix2 (-47) + bpow radix2 (-53) * w * T)
    (B2R (get_angle (v_yaw s') : f64)) (B2R (get_angle (v_yaw s) : f64) + B2R (v_rate s : f64) * T).
Proof.
  intros ACC Hp s t0 T v w n O W Q BX BY Hn HF HS o' s' e.
  assert (EQ : Rabs (B2R (v_vel s : f64) / B2R (v_rate s : f64)) = v / w) by (unfold v, w, Rdiv; now rewrite Rabs_mult, Rabs_inv).
  assert (N : nnear0 (doubles sine cosine phase) (v_rate s) = false).
  { rewrite (near0_double _ _ _ _ (oc_fw _ _ _ _ O)), dbl_min_bpow. fold w. destruct (Rlt_dec _ _); [lra|reflexivity]. }
  destruct (visit_along _ _ _ p o ts Hp) as (_ & E & _). split; [exact E|].
  pose proof (times_turn sine cosine phase ACC p o ts Hp O N) as H. fold s in H. cbv zeta in H. rewrite EQ in H.
  exact (H Q BX BY Hn HF HS).
Qed.
(** ... and so does an object that moves straight on. *)
Theorem C108_straight sine cosine phase {C} (p : ctrv_state (doubles sine cosine phase) -> C -> f64 -> ctrv_state (doubles sine cosine phase) * C)
    (o : dyn_obj f64 (ctrv_state (doubles sine cosine phase)) C) (ts : list f64) (q : R) :
  accurate sine cosine phase -> (forall s c d, fst (p s c d) = ctrv_next s d) ->
  let s := o_state o in let t0 := o_timestamp o in let T := B2R (last ts t0) - B2R t0 in
  let v := Rabs (B2R (v_vel s : f64)) in let w := Rabs (B2R (v_rate s : f64)) in let n := INR (length ts) in
  ordinary_ctrv _ _ _ s -> w < bpow radix2 (-1022) -> 0 <= q <= bpow radix2 29 -> v <= bpow radix2 60 ->
  Rabs (B2R (v_x s : f64)) <= bpow radix2 50 -> Rabs (B2R (v_y s : f64)) <= bpow radix2 50 -> (length ts <= 2 ^ 20)%nat ->
  (forall t, In t (t0 :: ts) -> is_finite t = true /\ Rabs (B2R t) <= bpow radix2 1000) ->
  (forall a b, successive a b (t0 :: ts) -> 0 <= B2R b - B2R a <= bpow radix2 29 /\ v * (B2R b - B2R a) <= q) ->
  let o' := fold_left (propagate_to_time (Bminus mode_NE) p) ts o in
  let s' := o_state o' in let e := ctrv_next (exact_ctrv _ _ _ s) T in
  o_timestamp o' = last ts t0 /\ ordinary_ctrv _ _ _ s' /\
  Rabs (B2R (v_x s' : f64) - v_x e) <=
    n * bpow radix2 (-47) * (Rabs (B2R (v_x s : f64)) + (n + 4) * (2 * q)) + n * bpow radix2 (-990) + bpow radix2 (-53) * v * T /\
  Rabs (B2R (v_y s' : f64) - v_y e) <=
    n * bpow radix2 (-47) * (Rabs (B2R (v_y s : f64)) + (n + 4) * (2 * q)) + n * bpow radix2 (-990) + bpow radix2 (-53) * v * T.
Proof.
  intros ACC Hp s t0 T v w n O W Q BV BX BY Hn HF HS o' s' e.
  assert (N : nnear0 (doubles sine cosine phase) (v_rate s) = true).
  { rewrite (near0_double _ _ _ _ (oc_fw _ _ _ _ O)), dbl_min_bpow. fold w. destruct (Rlt_dec _ _); [reflexivity|lra]. }
  destruct (visit_along _ _ _ p o ts Hp) as (_ & E & _). split; [exact E|].
  exact (times_straight sine cosine phase ACC p o ts q Hp O N Q BV BX BY Hn HF HS).
Qed.
(** A difference of two times within a factor of two is exact. *)
Theorem C108_difference (a b : f64) : is_finite a = true -> is_finite b = true -> B2R a / 2 <= B2R b <= 2 * B2R a ->
  B2R (Bminus mode_NE b a) = B2R b - B2R a /\ is_finite (Bminus mode_NE b a) = true.
Proof. exact (gap_exact a b). Qed.
Print Assumptions C108_turn.
Print Assumptions C108_straight.
Print Assumptions C108_difference.

(** A case: the turning car (C100), stamped 1700000000 s after the epoch, propagated
    to one and three seconds later. *)
Definition stamped : dyn_obj f64 (ctrv_state (doubles sin64 cos64 arg64)) unit :=
  DynObj (f64_of_Z 1700000000) car tt String.EmptyString kUnknown.
Definition move (s : ctrv_state (doubles sin64 cos64 arg64)) (c : unit) (d : f64) := (ctrv_next s d, c).
Lemma successive_three {T} (x y z a b : T) : successive a b [x; y; z] -> (a = x /\ b = y) \/ (a = y /\ b = z).
Proof.
  intros ([|u [|v [|k l1]]] & l2 & H); inversion H; subst; auto.
  match goal with K : [] = ?l ++ _ |- _ => now destruct l end.
Qed.
Example C108_case : let ts := [f64_of_Z 1700000001; f64_of_Z 1700000003] in
  let o' := fold_left (propagate_to_time (Bminus mode_NE) move) ts stamped in
  Rabs (B2R (v_x (o_state o') : f64) - v_x (ctrv_next (exact_ctrv _ _ _ car) 3)) <= / 1000000000.
Proof.
  intros ts o'.
  assert (E : forall k, (0 <= k <= 1700000003)%Z -> B2R (f64_of_Z k) = IZR k /\ is_finite (f64_of_Z k) = true).
  { intros k Hk. apply int64_value. lia. }
  destruct (E 1%Z ltac:(lia)) as [E1 F1]. destruct (E 20%Z ltac:(lia)) as [E20 _]. destruct (E 100%Z ltac:(lia)) as [E100 _].
  destruct (E 0%Z ltac:(lia)) as [E0 _].
  destruct (E 1700000000%Z ltac:(lia)) as [T0 G0]. destruct (E 1700000001%Z ltac:(lia)) as [T1 G1]. destruct (E 1700000003%Z ltac:(lia)) as [T3 G3].
  assert (R1 : B2R (v_rate car : f64) = 1) by exact E1. assert (V : B2R (v_vel car : f64) = 20) by exact E20.
  assert (X : B2R (v_x car : f64) = 100) by exact E100. assert (Y : B2R (v_y car : f64) = 0) by exact E0.
  assert (B31 : bpow radix2 31 <= bpow radix2 1000) by (apply bpow_le; lia). change (bpow radix2 31) with 2147483648 in B31.
  destruct (C108_turn sin64 cos64 arg64 move stamped ts C99_satisfiable) as (_ & _ & H & _).
  - reflexivity.
  - exact car_ordinary.
  - cbn [stamped o_state]. rewrite R1, Rabs_R1. change 1 with (bpow radix2 0). apply bpow_le. lia.
  - cbn [stamped o_state]. rewrite R1, V, Rabs_R1, Rabs_pos_eq by lra. change (bpow radix2 30) with 1073741824. lra.
  - cbn [stamped o_state]. rewrite X. change (bpow radix2 50) with 1125899906842624. rewrite Rabs_pos_eq; lra.
  - cbn [stamped o_state]. rewrite Y, Rabs_R0. apply bpow_ge_0.
  - apply Nat.le_trans with (2 ^ 4)%nat; [cbn; lia|]. apply Nat.pow_le_mono_r; lia.
  - intros t [<-|[<-|[<-|[]]]]; cbn [stamped o_timestamp]; (split; [assumption|]); rewrite ?T0, ?T1, ?T3; rewrite Rabs_pos_eq; lra.
  - cbn [stamped o_state o_timestamp]. rewrite R1, Rabs_R1.
    intros a b [[-> ->]|[-> ->]]%successive_three; rewrite ?T0, ?T1, ?T3; lra.
  - cbn [stamped o_state o_timestamp ts last length] in H. rewrite T0, T3, R1, V, X in H.
    replace (1700000003 - 1700000000) with 3 in H by lra. eapply Rle_trans; [exact H|].
    assert (T : bpow radix2 (-990) <= / 140737488355328) by (change (/ 140737488355328) with (bpow radix2 (-47)); apply bpow_le; lia).
    change (bpow radix2 (-47)) with (/ 140737488355328). change (bpow radix2 (-53)) with (/ 9007199254740992).
    cbn [INR]. rewrite Rabs_R1, !Rabs_pos_eq by lra. lra.
Qed.
