(** The two distances used for scoring: properties C23 to C25. *)
From Coq Require Import Reals Lra ZArith.
From mathcomp Require Import all_ssreflect all_algebra.
From Verif Require Import RealField PosDef Correlated Motion RealArith MotionThms StateVec Distance DistanceThms.
Local Open Scope R_scope.

(** C23: the Euclidean score is a metric on poses, and looks at nothing else. *)
Theorem C23_ctrv_formula (s t : ctrv_state reals) :
  ctrv_euclidean s t = sqrt ((v_x s - v_x t) ^ 2 + (v_y s - v_y t) ^ 2 +
                             (get_angle (v_yaw s) - get_angle (v_yaw t)) ^ 2).
Proof. exact (ctrv_euclidean_formula s t). Qed.
Theorem C23_ctra_formula (s t : ctra_state reals) :
  ctra_euclidean s t = sqrt ((a_x s - a_x t) ^ 2 + (a_y s - a_y t) ^ 2 +
                             (get_angle (a_yaw s) - get_angle (a_yaw t)) ^ 2).
Proof. exact (ctra_euclidean_formula s t). Qed.
Theorem C23_ctrv_metric (s t u : ctrv_state reals) :
  0 <= ctrv_euclidean s t /\ ctrv_euclidean s t = ctrv_euclidean t s /\
  ctrv_euclidean s u <= ctrv_euclidean s t + ctrv_euclidean t u /\
  (ctrv_euclidean s t = 0 <->
   v_x s = v_x t /\ v_y s = v_y t /\ get_angle (v_yaw s) = get_angle (v_yaw t)).
Proof.
split; [exact: sqrt_pos|split; [exact: pose_distance_sym|split; [exact: pose_distance_triangle|]]].
by rewrite -ctrv_pose_eq; apply: pose_distance_eq0.
Qed.
Theorem C23_ctra_metric (s t u : ctra_state reals) :
  0 <= ctra_euclidean s t /\ ctra_euclidean s t = ctra_euclidean t s /\
  ctra_euclidean s u <= ctra_euclidean s t + ctra_euclidean t u /\
  (ctra_euclidean s t = 0 <->
   a_x s = a_x t /\ a_y s = a_y t /\ get_angle (a_yaw s) = get_angle (a_yaw t)).
Proof.
split; [exact: sqrt_pos|split; [exact: pose_distance_sym|split; [exact: pose_distance_triangle|]]].
by rewrite -ctra_pose_eq; apply: pose_distance_eq0.
Qed.
Print Assumptions C23_ctrv_metric.
Print Assumptions C23_ctra_metric.
(** A 3-4-5 triangle; the velocities differ. *)
Example C23_case :
  ctrv_euclidean (CtrvState (A := reals) 3 1 7 (angleR 1) 2) (CtrvState (A := reals) 0 5 8 (angleR 1) 9) = 5.
Proof.
rewrite C23_ctrv_formula; cbn [v_x v_y v_yaw].
have -> : (3 - 0) ^ 2 + (1 - 5) ^ 2 + (get_angle (angleR 1) - get_angle (angleR 1)) ^ 2 = 5 * 5.
  by set a := get_angle _; change ((3 - 0) ^ 2 + (1 - 5) ^ 2 + ((a : R) - a) ^ 2 = 5 * 5); ring.
by apply: sqrt_square; lra.
Qed.

(** C24: poses at one position with headings as close as one likes as rotations,
    but far apart for the score. *)
Theorem C24_seam_refuted (eps : R) : 0 < eps -> exists s t : ctrv_state reals,
  v_x s = v_x t /\ v_y s = v_y t /\
  (exists k : Z, Rabs (get_angle (v_yaw s) - get_angle (v_yaw t) + IZR k * (2 * PI)) < eps) /\
  6 < ctrv_euclidean s t.
Proof. exact: seam. Qed.
Theorem C24_seam_ctra_refuted (eps : R) : 0 < eps -> exists s t : ctra_state reals,
  a_x s = a_x t /\ a_y s = a_y t /\
  (exists k : Z, Rabs (get_angle (a_yaw s) - get_angle (a_yaw t) + IZR k * (2 * PI)) < eps) /\
  6 < ctra_euclidean s t.
Proof. exact: seam_ctra. Qed.
Print Assumptions C24_seam_refuted.
(** The hypothesis is met by every positive number, such as a millionth. *)
Example C24_case : 0 < / 10 ^ 6.
Proof. lra. Qed.

(** C25: the Mahalanobis score.  [pose_block] are the rows and columns of x, y and
    heading. *)
Theorem C25_ctrv (m p q : ctrv_state reals) (C : 'M[R]_5) : spd (pose_block C) ->
  0 <= ctrv_mahalanobis m C p /\ ctrv_mahalanobis m C p = ctrv_mahalanobis p C m /\
  ctrv_mahalanobis m C q <= ctrv_mahalanobis m C p + ctrv_mahalanobis p C q /\
  (ctrv_mahalanobis m C p = 0 <->
   v_x m = v_x p /\ v_y m = v_y p /\ get_angle (v_yaw m) = get_angle (v_yaw p)).
Proof.
move=> sC; split; [exact: sqrt_pos|split; [exact: mahalanobis_sym|split; [exact: mahalanobis_triangle|]]].
by rewrite -ctrv_pose_eq; apply: mahalanobis_eq0.
Qed.
Theorem C25_ctra (m p q : ctra_state reals) (C : 'M[R]_6) : spd (pose_block C) ->
  0 <= ctra_mahalanobis m C p /\ ctra_mahalanobis m C p = ctra_mahalanobis p C m /\
  ctra_mahalanobis m C q <= ctra_mahalanobis m C p + ctra_mahalanobis p C q /\
  (ctra_mahalanobis m C p = 0 <->
   a_x m = a_x p /\ a_y m = a_y p /\ get_angle (a_yaw m) = get_angle (a_yaw p)).
Proof.
move=> sC; split; [exact: sqrt_pos|split; [exact: mahalanobis_sym|split; [exact: mahalanobis_triangle|]]].
by rewrite -ctra_pose_eq; apply: mahalanobis_eq0.
Qed.
Theorem C25_identity (m p : ctrv_state reals) (C : 'M[R]_5) (m' p' : ctra_state reals) (C' : 'M[R]_6) :
  pose_block C = (1%:M)%R -> pose_block C' = (1%:M)%R ->
  ctrv_mahalanobis m C p = ctrv_euclidean m p /\ ctra_mahalanobis m' C' p' = ctra_euclidean m' p'.
Proof. by move=> E E'; split; apply: mahalanobis_id. Qed.
(** In general its square is the scalar product of the difference of the poses (x, y
    and heading, entries 0, 1 and 3 of a state) with the solution of the linear
    system given by their covariance. *)
Theorem C25_ctrv_formula (m p : ctrv_state reals) (C : 'M[R]_5) (x y z : R) : spd C ->
  let c i j := C (inord i) (inord j) in
  let dx := v_x m - v_x p in let dy := v_y m - v_y p in
  let dh := get_angle (v_yaw m) - get_angle (v_yaw p) in
  c 0%N 0%N * x + c 0%N 1%N * y + c 0%N 3%N * z = dx ->
  c 1%N 0%N * x + c 1%N 1%N * y + c 1%N 3%N * z = dy ->
  c 3%N 0%N * x + c 3%N 1%N * y + c 3%N 3%N * z = dh ->
  ctrv_mahalanobis m C p = sqrt (dx * x + dy * y + dh * z).
Proof.
move=> sC; have U : (pose_block C \in unitmx)%R by apply: spd_unit; apply: pose_block_spd.
exact: (@mahalanobis_entries 4 [:: v_x m; v_y m; get_angle (v_yaw m)] [:: v_x p; v_y p; get_angle (v_yaw p)] C x y z U).
Qed.
Theorem C25_ctra_formula (m p : ctra_state reals) (C : 'M[R]_6) (x y z : R) : spd C ->
  let c i j := C (inord i) (inord j) in
  let dx := a_x m - a_x p in let dy := a_y m - a_y p in
  let dh := get_angle (a_yaw m) - get_angle (a_yaw p) in
  c 0%N 0%N * x + c 0%N 1%N * y + c 0%N 3%N * z = dx ->
  c 1%N 0%N * x + c 1%N 1%N * y + c 1%N 3%N * z = dy ->
  c 3%N 0%N * x + c 3%N 1%N * y + c 3%N 3%N * z = dh ->
  ctra_mahalanobis m C p = sqrt (dx * x + dy * y + dh * z).
Proof.
move=> sC; have U : (pose_block C \in unitmx)%R by apply: spd_unit; apply: pose_block_spd.
exact: (@mahalanobis_entries 5 [:: a_x m; a_y m; get_angle (a_yaw m)] [:: a_x p; a_y p; get_angle (a_yaw p)] C x y z U).
Qed.
(** With independent errors it is the distance in standard deviations. *)
Theorem C25_diagonal (m p : ctrv_state reals) (C : 'M[R]_5) (sx sy sa : R) :
  0 < sx -> 0 < sy -> 0 < sa ->
  pose_block C = diag_mx (\row_(i < 3) nth 0 [:: sx ^ 2; sy ^ 2; sa ^ 2] i) ->
  ctrv_mahalanobis m C p =
    sqrt (((v_x m - v_x p) / sx) ^ 2 + ((v_y m - v_y p) / sy) ^ 2 +
          ((get_angle (v_yaw m) - get_angle (v_yaw p)) / sa) ^ 2).
Proof. exact: mahalanobis_diagonal. Qed.
(** The pose block of a positive definite covariance is positive definite. *)
Theorem C25_block (C : 'M[R]_5) (C' : 'M[R]_6) :
  (spd C -> spd (pose_block C)) /\ (spd C' -> spd (pose_block C')).
Proof. by split; apply: pose_block_spd. Qed.
Print Assumptions C25_ctra.
Print Assumptions C25_ctrv_formula.
Print Assumptions C25_ctra_formula.
Print Assumptions C25_diagonal.
Example C25_case : spd (pose_block (4%:R *: 1%:M : 'M[R]_5)%R).
Proof. by apply: pose_block_spd; apply: spd_scale; [rewrite Num.Theory.ltr0n|apply: spd_id]. Qed.
(** Correlated errors: variances 2 and covariances 1; the poses differ by 4 along
    x only, which is sqrt 12 and not 4 / sqrt 2 deviations. *)
Example C25_correlated_case :
  let m := CtrvState (A := reals) 4 1 7 (angleR 0) 2 in let p := CtrvState (A := reals) 0 1 8 (angleR 0) 9 in
  ctrv_mahalanobis m (correlated 5) p = sqrt 12.
Proof.
move=> m p; have c i j : (i < 5)%N -> (j < 5)%N ->
    (correlated 5 : 'M[R]_5) (inord i) (inord j) = if i == j then 2 else 1.
  by move=> hi hj; rewrite correlatedE -val_eqE /= !inordK //; case: eqP.
have Z : get_angle (v_yaw m) = 0 /\ get_angle (v_yaw p) = 0 by split; exact: heading_zero.
have H := @C25_ctrv_formula m p _ 3 (-1) (-1) (correlated_spd _ 5).
cbv zeta in H; rewrite !c // (proj1 Z) ?(proj2 Z) /= in H; rewrite H; [f_equal|..]; lra.
Qed.
(** Standard deviations 1, 2 and 1/2, and a covariance with the identity as pose
    block although velocity and yaw rate are very uncertain. *)
Example C25_diagonal_cases :
  let D (x y v a r : R) : 'M[R]_5 := diag_mx (\row_(i < 5) nth 0 [:: x; y; v; a; r] i) in
  pose_block (D (1 ^ 2) (2 ^ 2) 9 ((1 / 2) ^ 2) 9) =
    diag_mx (\row_(i < 3) nth 0 [:: 1 ^ 2; 2 ^ 2; (1 / 2) ^ 2] i) /\
  pose_block (D 1 1 100 1 100) = (1%:M)%R.
Proof.
move=> D; split; apply/matrixP => i j; rewrite !mxE.
- by case: i j => [[|[|[|i]]] hi] [[|[|[|j]]] hj] //=; rewrite -!val_eqE /= ?inordK.
- by case: i j => [[|[|[|i]]] hi] [[|[|[|j]]] hj] //=; rewrite -!val_eqE /= ?inordK.
Qed.
