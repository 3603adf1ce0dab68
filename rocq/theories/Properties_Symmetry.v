(** Symmetries of prediction: property C90, over exact arithmetic. *)
From Coq Require Import ZArith Reals Lra Lia.
From mathcomp Require Import all_ssreflect all_algebra.
From Verif Require Import RealField PosDef Motion RealArith MotionThms StateVec StateVecThms Unscented UnscentedSeam PredictionThms
  CovInt CovIntThms FusionThms StateArithThms SymmetryThms.
Local Open Scope R_scope.

(** States with heading [p], in any representation modulo full turns *)
Notation ctrv x y v p w := (CtrvState (A := reals) x y v (angleR p) w).
Notation ctra x y v p w a := (CtraState (A := reals) x y v (angleR p) w a).
Notation noise la aa := (Noise (A := reals) la aa).

(** C90: whatever the models predict for a state, they predict the rotated and
    shifted state for the rotated and shifted one ... *)
Theorem C90_ctrv_moved (x y v p w t la aa : R) : exists x' y' v' p' w' : R,
  ctrv_next_noise (ctrv x y v p w) t (noise la aa) = ctrv x' y' v' p' w' /\
  forall phi dx dy : R,
    ctrv_next_noise (ctrv (cos phi * x - sin phi * y + dx) (sin phi * x + cos phi * y + dy) v (p + phi) w) t (noise la aa) =
    ctrv (cos phi * x' - sin phi * y' + dx) (sin phi * x' + cos phi * y' + dy) v' (p' + phi) w'.
Proof. exact (ctrv_moved x y v p w t la aa). Qed.
Theorem C90_ctra_moved (x y v p w a t la aa : R) : exists x' y' v' p' w' a' : R,
  ctra_next_noise (ctra x y v p w a) t (noise la aa) = ctra x' y' v' p' w' a' /\
  forall phi dx dy : R,
    ctra_next_noise (ctra (cos phi * x - sin phi * y + dx) (sin phi * x + cos phi * y + dy) v (p + phi) w a) t (noise la aa) =
    ctra (cos phi * x' - sin phi * y' + dx) (sin phi * x' + cos phi * y' + dy) v' (p' + phi) w' a'.
Proof. exact (ctra_moved x y v p w a t la aa). Qed.
(** ... left and right are treated alike ... *)
Theorem C90_ctrv_mirror (x y v p w t la aa : R) : exists x' y' v' p' w' : R,
  ctrv_next_noise (ctrv x y v p w) t (noise la aa) = ctrv x' y' v' p' w' /\
  ctrv_next_noise (ctrv x (- y) v (- p) (- w)) t (noise la (- aa)) = ctrv x' (- y') v' (- p') (- w').
Proof. exact (ctrv_mirrored x y v p w t la aa). Qed.
Theorem C90_ctra_mirror (x y v p w a t la aa : R) : exists x' y' v' p' w' a' : R,
  ctra_next_noise (ctra x y v p w a) t (noise la aa) = ctra x' y' v' p' w' a' /\
  ctra_next_noise (ctra x (- y) v (- p) (- w) a) t (noise la (- aa)) = ctra x' (- y') v' (- p') (- w') a'.
Proof. exact (ctra_mirrored x y v p w a t la aa). Qed.
(** ... and the unit of length is arbitrary; for k = -1, a vehicle driving
    backwards moves like one facing the other way. *)
Theorem C90_ctrv_scale (k x y v p w t la aa : R) : exists x' y' v' p' w' : R,
  ctrv_next_noise (ctrv x y v p w) t (noise la aa) = ctrv x' y' v' p' w' /\
  ctrv_next_noise (ctrv (k * x) (k * y) (k * v) p w) t (noise (k * la) aa) = ctrv (k * x') (k * y') (k * v') p' w'.
Proof. exact (ctrv_rescaled k x y v p w t la aa). Qed.
Theorem C90_ctra_scale (k x y v p w a t la aa : R) : exists x' y' v' p' w' a' : R,
  ctra_next_noise (ctra x y v p w a) t (noise la aa) = ctra x' y' v' p' w' a' /\
  ctra_next_noise (ctra (k * x) (k * y) (k * v) p w (k * a)) t (noise (k * la) aa) =
    ctra (k * x') (k * y') (k * v') p' w' (k * a').
Proof. exact (ctra_rescaled k x y v p w a t la aa). Qed.
(** The same without noise, by C57. *)
Theorem C90_no_noise (x y v p w a t : R) :
  ctrv_next (ctrv x y v p w) t = ctrv_next_noise (ctrv x y v p w) t (noise 0 0) /\
  ctra_next (ctra x y v p w a) t = ctra_next_noise (ctra x y v p w a) t (noise 0 0).
Proof. split; symmetry; [apply no_noise_ctrv|apply no_noise_ctra]. Qed.
Print Assumptions C90_ctrv_moved.
Print Assumptions C90_ctra_moved.
Print Assumptions C90_ctrv_mirror.
Print Assumptions C90_ctra_mirror.
Print Assumptions C90_ctrv_scale.
Print Assumptions C90_ctra_scale.
Print Assumptions C90_no_noise.

(** The unscented prediction built on them is not invariant under rotations: with a
    multiple of the identity as covariance, which no rotation changes, a rotation
    by some angle changes the predicted heading by something else. *)
Theorem C90_prediction_refuted : exists (s : ctrv_state reals) (P phi : R),
  on_circle (v_yaw s) /\ 0 < P /\
  let turned := ctrv (cos phi * v_x s - sin phi * v_y s) (sin phi * v_x s + cos phi * v_y s) (v_vel s)
                     (get_angle (v_yaw s) + phi) (v_rate s) in
  let predict s := v_yaw (@default_unscented_transform 5 ctrv_type s (P : R_rcfType)%:M%R 0).1 in
  predict turned <> angleR (get_angle (predict s) + phi).
Proof. 
have [s [P [C [P01 J]]]] := @zero_time_jump (1 / 100) ltac:(lra).
pose h := get_angle (v_yaw s); exists s, P, (1 - h); split=> //; split; first lra.
move=> turned predict.
have E1 : get_angle (angleR 1) = 1 by apply: get_angle_canonical; have := PI2_1; lra.
have Et : v_yaw turned = angleR 1 by rewrite /turned /=; congr angle_of; rewrite /h /=; ring.
have Ct : on_circle (v_yaw turned) by rewrite Et; exact: circle_of.
have sp : spd ((P : R_rcfType)%:M%R : 'M[R_rcfType]_5).
  by apply: spd_scalar; apply/RltP; change (0 < P); lra.
have Ep : predict turned = angleR 1.
  rewrite /predict /default_unscented_transform /unscented_transform.
  have -> := @ctrv_still turned (P : R_rcfType)%:M%R 1 1 2 (1 / 2) sp Ct; first by rewrite /= -Et.
  - lra.
  - rewrite mxE eqxx GRing.mulr1n; lra.
  - lra.
  - rewrite Et E1; lra.
  - rewrite Et E1; lra.
rewrite Ep => /angle_of_iff [k Hk].
have := J k; rewrite -/(predict s) -/h.
have -> : get_angle (predict s) - h + IZR k * (2 * PI) = 0 by move: Hk; rewrite /h; lra.
by rewrite Rabs_R0; lra.
Qed.
Print Assumptions C90_prediction_refuted.
(** A quarter of a circle starting northwards; see C54_case for eastwards. *)
Example C90_case : ctrv_next (ctrv 0 0 1 (PI / 2) 1) (PI / 2) = ctrv (-1) 1 1 PI 1.
Proof. exact quarter_north. Qed.
