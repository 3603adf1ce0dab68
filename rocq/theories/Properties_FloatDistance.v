(** The Euclidean distance in float: properties C83 and C84 of properties.jsonl. *)
From Coq Require Import ZArith Reals Lra Lia List Permutation String.
From Flocq Require Import Core IEEE754.BinarySingleNaN.
From Verif Require Import Base Uuid OrdMap DynObj Float Motion DoubleArith DoubleThms Scoring Matching MatchingSpec
  MatchingThms FloatDistance FloatDistanceThms.
Import ListNotations.
Open Scope R_scope.
Open Scope list_scope.

(** [ctrv_euclidean32 s t d]: with some order of summation, euclidean_distance
    returns the float [d] for the states [s] and [t] of doubles. *)

(** ** C83: with all coordinates and headings at most 2^e, the result is a finite
    float within 2^(e-23) + d * 2^-21 of the exact distance d of the two poses. *)
Theorem C83_ctrv_accuracy : forall sine cosine phase (s t : ctrv_state (doubles sine cosine phase)) e d,
  (3 <= e <= 60)%Z ->
  Forall (fun v : f64 => is_finite v = true /\ Rabs (B2R v) <= bpow radix2 e)
    [v_x s : f64; v_y s : f64; get_angle (v_yaw s) : f64; v_x t : f64; v_y t : f64; get_angle (v_yaw t) : f64] ->
  ctrv_euclidean32 sine cosine phase s t d ->
  let exact := sqrt ((B2R (v_x s : f64) - B2R (v_x t : f64)) ^ 2 + (B2R (v_y s : f64) - B2R (v_y t : f64)) ^ 2 +
                     (B2R (get_angle (v_yaw s) : f64) - B2R (get_angle (v_yaw t) : f64)) ^ 2) in
  is_finite d = true /\ Rabs (B2R d - exact) <= bpow radix2 (e - 23) + bpow radix2 (-21) * exact.
Proof. intros sine cosine phase s t e d He H HD. exact (distance_accuracy _ _ _ _ _ _ e d He H HD). Qed.
Theorem C83_ctra_accuracy : forall sine cosine phase (s t : ctra_state (doubles sine cosine phase)) e d,
  (3 <= e <= 60)%Z ->
  Forall (fun v : f64 => is_finite v = true /\ Rabs (B2R v) <= bpow radix2 e)
    [a_x s : f64; a_y s : f64; get_angle (a_yaw s) : f64; a_x t : f64; a_y t : f64; get_angle (a_yaw t) : f64] ->
  ctra_euclidean32 sine cosine phase s t d ->
  let exact := sqrt ((B2R (a_x s : f64) - B2R (a_x t : f64)) ^ 2 + (B2R (a_y s : f64) - B2R (a_y t : f64)) ^ 2 +
                     (B2R (get_angle (a_yaw s) : f64) - B2R (get_angle (a_yaw t) : f64)) ^ 2) in
  is_finite d = true /\ Rabs (B2R d - exact) <= bpow radix2 (e - 23) + bpow radix2 (-21) * exact.
Proof. intros sine cosine phase s t e d He H HD. exact (distance_accuracy _ _ _ _ _ _ e d He H HD). Qed.
(** Positions (3, 0) and (0, 4), headings 0: the bound is 2^-20 + 5 * 2^-21. *)
Example C83_case :
  Forall (fun v : f64 => is_finite v = true /\ Rabs (B2R v) <= bpow radix2 3)
    [f64_of_Z 3; f64_of_Z 0; f64_of_Z 0; f64_of_Z 0; f64_of_Z 4; f64_of_Z 0] /\
  exists d, pose_distance32 (f64_of_Z 3, f64_of_Z 0, f64_of_Z 0) (f64_of_Z 0, f64_of_Z 4, f64_of_Z 0) d.
Proof.
  split.
  - assert (K : forall z, (0 <= z <= 4)%Z -> is_finite (f64_of_Z z) = true /\ Rabs (B2R (f64_of_Z z)) <= bpow radix2 3).
    { intros z Hz. destruct (int64_value z) as [E F]; [cbn; lia|]. split; [exact F|]. rewrite E.
      change (bpow radix2 3) with 8. assert (0 <= IZR z <= 4) by (split; apply IZR_le; lia).
      rewrite Rabs_pos_eq; lra. }
    repeat (constructor; [apply K; lia|]). constructor.
  - eexists. eexists. split; [apply Permutation_refl|reflexivity].
Qed.

(** ** C84: far from the origin different positions have distance exactly zero:
    all positions closer than half a unit in the last place to the same float are
    one point for the distance. *)
Theorem C84_collapse : forall (x x' y h : f64) m k d,
  (2 ^ 23 < m < 2 ^ 24)%Z -> (-149 <= k <= 36)%Z ->
  is_finite x = true -> is_finite x' = true -> is_finite y = true -> is_finite h = true ->
  Rabs (B2R x - IZR m * bpow radix2 k) < / 2 * bpow radix2 k ->
  Rabs (B2R x' - IZR m * bpow radix2 k) < / 2 * bpow radix2 k ->
  Rabs (B2R y) <= bpow radix2 60 -> Rabs (B2R h) <= bpow radix2 60 ->
  pose_distance32 (x, y, h) (x', y, h) d \/ pose_distance32 (y, x, h) (y, x', h) d ->
  is_finite d = true /\ B2R d = 0.
Proof. exact distance_collapse. Qed.
(** Positions differing by half a metre at a distance of 8389 km (a northing, in
    map coordinates) have distance zero, and then matching a single track with a
    single detection is undefined (C31). *)
Theorem C84_positive_distance_refuted :
  exists x x' : f64, is_finite x = true /\ is_finite x' = true /\
    B2R x' - B2R x = / 2 /\ 0 < B2R x < 10000000 /\
    forall (y h : f64) d, is_finite y = true -> is_finite h = true ->
      Rabs (B2R y) <= bpow radix2 60 -> Rabs (B2R h) <= bpow radix2 60 ->
      pose_distance32 (y, x, h) (y, x', h) d ->
      B2R d = 0 /\ forall solve track detection, gnn_associator solve [((track, detection), d)] = UB.
Proof.
  destruct (value_of_normal 33554435 (-2)) as [E F]; try (cbn; lia).
  destruct (value_of_normal 33554437 (-2)) as [E' F']; try (cbn; lia).
  set (x := binary_normalize 53 1024 _ _ mode_NE 33554435 (-2) false) in *.
  set (x' := binary_normalize 53 1024 _ _ mode_NE 33554437 (-2) false) in *.
  assert (V : bpow radix2 (-2) = / 4) by (cbn; lra). rewrite V in E, E'.
  exists x, x'. split; [exact F|]. split; [exact F'|]. rewrite E, E'.
  split; [lra|]. split; [lra|]. intros y h d Fy Fh Hy Hh HD.
  destruct (C84_collapse x x' y h 8388609 0 d) as [Fd Ed]; try assumption; try lia.
  - change (bpow radix2 0) with 1. rewrite E. apply Rabs_lt. lra.
  - change (bpow radix2 0) with 1. rewrite E'. apply Rabs_lt. lra.
  - now right.
  - split; [exact Ed|]. intros solve track detection. apply gnn_zero_ub.
    + repeat split.
    + discriminate.
    + intros t0 d0 [<-|[]] [<-|[]]. eexists. left. reflexivity.
    + intros k v [H|[]]. apply pair_equal_spec in H as [_ <-]. split; assumption.
Qed.

Print Assumptions C83_ctrv_accuracy.
Print Assumptions C83_ctra_accuracy.
Print Assumptions C84_collapse.
Print Assumptions C84_positive_distance_refuted.
