(** Model of generate_sigma_points (unscented_transform.hpp) and of
    unscented_kalman_filter_predict (unscented_kalman_filter.hpp) in the number types of
    the code: states are doubles, covariances, sigma points as matrices and weights are floats. *)
From Coq Require Import ZArith List Arith.
From Flocq Require Import IEEE754.BinarySingleNaN.
From Verif Require Import Float FloatDistance FloatWeight FloatUnscented FloatCovariance FloatLlt FloatHeading Motion DoubleArith.
Import ListNotations.

(** What the templates need from StateType, as in Unscented.v.  Simplified: vectors are
    functions of the index, not limited to the dimension. *)
Record state_type64 := StateType64 {
  s_dim : nat;                                 (* StateType::kNumVars *)
  s_car : Type;
  s_from : (nat -> f32) -> s_car;              (* StateType::from_eigen_vector *)
  s_to : s_car -> nat -> f32;                  (* StateType::to_eigen_vector *)
  s_add : s_car -> s_car -> s_car;             (* operator+ *)
  s_sub : s_car -> s_car -> s_car;             (* operator- *)
  s_next : s_car -> f64 -> s_car               (* get_next_state *)
}.

Section States.
Context (sine cosine : f64 -> f64) (phase : f64 -> f64 -> f64).
Notation D := (doubles sine cosine phase).
(** CtrvState::from_eigen_vector, ctrv_model.hpp:59-68: the floats become doubles. *)
Definition ctrv_from32 (vec : nat -> f32) : ctrv_state D :=
  CtrvState (A := D) (f64_of_f32 (vec 0)) (f64_of_f32 (vec 1)) (f64_of_f32 (vec 2))
    (angle_of (A := D) (f64_of_f32 (vec 3))) (f64_of_f32 (vec 4)).
(** CtrvState::to_eigen_vector, ctrv_model.hpp:76-86: unit_cast<float>. *)
Definition ctrv_to32 (s : ctrv_state D) (i : nat) : f32 :=
  match i with
  | 0 => f32_of_f64 (v_x s) | 1 => f32_of_f64 (v_y s) | 2 => f32_of_f64 (v_vel s)
  | 3 => f32_of_f64 (get_angle (v_yaw s)) | _ => f32_of_f64 (v_rate s)
  end.
(** CtraState::from_eigen_vector, ctra_model.hpp:61-71 *)
Definition ctra_from32 (vec : nat -> f32) : ctra_state D :=
  CtraState (A := D) (f64_of_f32 (vec 0)) (f64_of_f32 (vec 1)) (f64_of_f32 (vec 2))
    (angle_of (A := D) (f64_of_f32 (vec 3))) (f64_of_f32 (vec 4)) (f64_of_f32 (vec 5)).
(** CtraState::to_eigen_vector, ctra_model.hpp:80-91 *)
Definition ctra_to32 (s : ctra_state D) (i : nat) : f32 :=
  match i with
  | 0 => f32_of_f64 (a_x s) | 1 => f32_of_f64 (a_y s) | 2 => f32_of_f64 (a_vel s)
  | 3 => f32_of_f64 (get_angle (a_yaw s)) | 4 => f32_of_f64 (a_rate s) | _ => f32_of_f64 (a_acc s)
  end.
Definition ctrv64 : state_type64 := StateType64 5 (ctrv_state D) ctrv_from32 ctrv_to32 (ctrv_add (A := D)) (ctrv_sub (A := D)) (ctrv_next (A := D)).
Definition ctra64 : state_type64 := StateType64 6 (ctra_state D) ctra_from32 ctra_to32 (ctra_add (A := D)) (ctra_sub (A := D)) (ctra_next (A := D)).
End States.

(** The orders in which Eigen adds up, for the entries of the factor of the covariance, of
    the mean and of the covariance *)
Record summation := Summation { order_L : nat -> nat -> tree; order_x : nat -> tree; order_P : nat -> nat -> tree }.

Section Filter.
Variables (ST : state_type64) (o : summation).
Notation S := (s_car ST).
Notation n := (s_dim ST).

(** generate_sigma_points, unscented_transform.hpp:78-101: std::sqrt(covariance.rows() +
    lambda) is a float, its product with a column a vector of floats, the sums doubles. *)
Definition displacement32 (covariance_sqrt : nat -> nat -> f32) (lambda : f32) (column i : nat) : f32 :=
  f32_mul (f32_sqrt (f32_add (f32_of_Z (Z.of_nat n)) lambda)) (covariance_sqrt i column).
Definition sigma_pair32 (state : S) (covariance_sqrt : nat -> nat -> f32) (lambda : f32) (column : nat) : list S :=
  let result_state := s_from ST (displacement32 covariance_sqrt lambda column) in
  [s_add ST state result_state; s_sub ST state result_state].
Definition generate_sigma_points32 (state : S) (covariance : nat -> nat -> f32) (lambda : f32) : list S :=
  let covariance_sqrt := llt_matrixL32 n (order_L o) covariance in
  flat_map (sigma_pair32 state covariance_sqrt lambda) (seq 0 n).

(** mean_and_sigma_points_to_matrix_xf, unscented_transform.hpp:140-150 *)
Definition mean_and_sigma_points_to_matrix_xf32 (mean : S) (sigma_points : list S) (i j : nat) : f32 :=
  s_to ST (nth i (mean :: sigma_points) mean) j.

(** The loop over the rows, unscented_kalman_filter.hpp:85-89; [wrap32] is in
    FloatHeading.v, the constants are the same. *)
Definition wrap_rows32 (sigma_points : nat -> nat -> f32) (i j : nat) : f32 :=
  if j =? 3 then wrap32 (sigma_points i j) else sigma_points i j.

(** unscented_kalman_filter_predict, unscented_kalman_filter.hpp:60-98, with
    generate_sigma_points_and_weights, unscented_transform.hpp:189-198; first the matrix
    of the points that enters compute_unscented_transform. *)
Definition predicted_points32 (state : S) (covariance : nat -> nat -> f32) (time_step : f64) (lambda : f32) : nat -> nat -> f32 :=
  let sigma_points := generate_sigma_points32 state covariance lambda in
  let predicted_mean := s_next ST state time_step in
  let predicted_sigma_points := map (fun sigma_point => s_next ST sigma_point time_step) sigma_points in
  wrap_rows32 (mean_and_sigma_points_to_matrix_xf32 predicted_mean predicted_sigma_points).
Definition unscented_kalman_filter_predict32 (state : S) (covariance : nat -> nat -> f32) (time_step : f64)
    (alpha beta kappa : f32) : S * (nat -> nat -> f32) :=
  let lambda := generate_lambda32 (Z.of_nat n) alpha kappa in
  let '(Wm, Wc) := generate_weights32 (Z.of_nat n) alpha beta lambda in
  let m_sigma_points := predicted_points32 state covariance time_step lambda in
  let '(result_state_vector, result_covariance_matrix) :=
    compute_unscented_transform32 (order_x o) (order_P o) m_sigma_points Wm Wc in
  (s_from ST result_state_vector, result_covariance_matrix).

(** UnscentedTransform::operator(), temporal_alignment.hpp:54-62, and
    default_unscented_transform, temporal_alignment.hpp:65 *)
Definition unscented_transform32 (alpha beta kappa : f32) (state : S) (covariance : nat -> nat -> f32) (duration : f64)
    : S * (nat -> nat -> f32) :=
  unscented_kalman_filter_predict32 state covariance duration alpha kappa beta.
Definition default_unscented_transform32 : S -> (nat -> nat -> f32) -> f64 -> S * (nat -> nat -> f32) :=
  unscented_transform32 (f32_of_Z 1) (f32_of_Z 2) (f32_of_Z 1).
End Filter.
