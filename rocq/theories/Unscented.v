(** Model of include/multiple_object_tracking/unscented_transform.hpp and
    unscented_kalman_filter.hpp, with exact reals in place of float.  Rounding
    and overflow are not modelled.  Eigen's LLT is, in EigenLlt.v, also for
    matrices that are not positive definite. *)
From Coq Require Import Reals.
From mathcomp Require Import all_ssreflect all_algebra.
From Verif Require Import Base Uuid DynObj RealField PosDef EigenLlt Motion RealArith StateVec CovInt.
Set Implicit Arguments.
Unset Strict Implicit.
Unset Printing Implicit Defensive.
Import Order.Theory GRing.Theory Num.Theory.
Local Open Scope ring_scope.

(** What the templates need from StateType, for dimension [n]. *)
Record state_type (n : nat) := StateType {
  st_car : Type;
  st_from : 'cV[R]_n -> st_car;             (* StateType::from_eigen_vector *)
  st_to : st_car -> 'cV[R]_n;               (* StateType::to_eigen_vector *)
  st_add : st_car -> st_car -> st_car;      (* operator+ *)
  st_sub : st_car -> st_car -> st_car;      (* operator- *)
  st_next : st_car -> R -> st_car           (* get_next_state *)
}.
Arguments st_car {n}. Arguments st_from {n}. Arguments st_to {n}.
Arguments st_add {n}. Arguments st_sub {n}. Arguments st_next {n}.
Definition ctrv_type : state_type 5 :=
  {| st_car := ctrvR; st_from := ctrv_from_vec; st_to := ctrv_to_vec;
     st_add := @ctrv_add reals; st_sub := @ctrv_sub reals; st_next := @ctrv_next reals |}.
Definition ctra_type : state_type 6 :=
  {| st_car := ctraR; st_from := ctra_from_vec; st_to := ctra_to_vec;
     st_add := @ctra_add reals; st_sub := @ctra_sub reals; st_next := @ctra_next reals |}.

Section Weights.
Variable F : realFieldType.
(** generate_lambda, unscented_transform.hpp:37-40 *)
Definition generate_lambda (n : nat) (alpha kappa : F) : F :=
  alpha * alpha * (n%:R + kappa) - n%:R.
(** generate_weights, unscented_transform.hpp:51-64 *)
Definition generate_weights (n : nat) (alpha beta lambda : F) : 'cV[F]_(2 * n).+1 * 'cV[F]_(2 * n).+1 :=
  let wm_0 := lambda / (n%:R + lambda) in
  let wc_0 := lambda / (n%:R + lambda) + (1 - alpha * alpha + beta) in
  let wm_i := 2%:R^-1 * (1 / (n%:R + lambda)) in
  (\col_i (if (i : nat) == 0%N then wm_0 else wm_i), \col_i (if (i : nat) == 0%N then wc_0 else wm_i)).

(** stack_vector_into_matrix, unscented_transform.hpp:109-117.  (The column vector
    assigned to a row is transposed by Eigen.) *)
Definition stack_vector_into_matrix n (v : 'cV[F]_n) (num_rows : nat) : 'M[F]_(num_rows, n) :=
  \matrix_(i, j) v j 0.
(** vector_to_vector_xf, unscented_transform.hpp:124-131 *)
Definition vector_to_vector_xf (l : seq F) : 'cV[F]_(size l) := \col_i nth 0 l i.
(** compute_unscented_transform, unscented_transform.hpp:160-168.  (The row vector
    Wm' * sigma_points is assigned to a column vector, which transposes it.) *)
Definition compute_unscented_transform m n (sigma_points : 'M[F]_(m, n)) (Wm Wc : 'cV[F]_m)
    : 'cV[F]_n * 'M[F]_n :=
  let x := (Wm^T *m sigma_points)^T in
  let y := sigma_points - stack_vector_into_matrix x m in
  let P := y^T *m (diag_mx Wc^T *m y) in
  (x, P).
End Weights.

Section Filter.
Variables (n : nat) (ST : state_type n).
Notation S := (st_car ST).

(** generate_sigma_points, unscented_transform.hpp:78-101.  For a negative
    n + lambda std::sqrt is not a number, [sqrt] is 0. *)
Definition sigma_pair (state : S) (covariance_sqrt : 'M[R]_n) (lambda : R) (column : 'I_n) : seq S :=
  let result := (sqrt (n%:R + lambda) : R) *: col column covariance_sqrt in
  let result_state := st_from ST result in
  [:: st_add ST state result_state; st_sub ST state result_state].
Definition generate_sigma_points (state : S) (covariance : 'M[R]_n) (lambda : R) : seq S :=
  let covariance_sqrt := llt_matrixL (covariance : 'M[R_rcfType]_n) in
  flatten [seq sigma_pair state covariance_sqrt lambda column | column <- enum 'I_n].

(** mean_and_sigma_points_to_matrix_xf, unscented_transform.hpp:140-150.  The
    number of rows in the code is the number of sigma points plus one; here it is
    [m.+1], used with m = 2 * n only. *)
Definition mean_and_sigma_points_to_matrix_xf (m : nat) (mean : S) (sigma_points : seq S) : 'M[R]_(m.+1, n) :=
  \matrix_(i, j) st_to ST (nth mean (mean :: sigma_points) i) j 0.

(** generate_sigma_points_and_weights, unscented_transform.hpp:189-198 *)
Definition generate_sigma_points_and_weights (state : S) (covariance : 'M[R]_n) (alpha beta kappa : R)
    : seq S * ('cV[R]_(2 * n).+1 * 'cV[R]_(2 * n).+1) :=
  let lambda := generate_lambda n (alpha : R_realFieldType) kappa in
  let sigma_points := generate_sigma_points state covariance lambda in
  (sigma_points, generate_weights n (alpha : R_realFieldType) beta lambda).

(** The loop over the rows, unscented_kalman_filter.hpp:85-89; [wrap] is in
    CovInt.v, with the same constant. *)
Definition wrap_rows m (sigma_points : 'M[R]_(m, n)) : 'M[R]_(m, n) :=
  \matrix_(i, j) if (j : nat) == 3%N then wrap (sigma_points i j : R_realFieldType) else sigma_points i j.

(** unscented_kalman_filter_predict, unscented_kalman_filter.hpp:60-98 *)
Definition unscented_kalman_filter_predict (state : S) (covariance : 'M[R]_n) (time_step : R)
    (alpha beta kappa : R) : S * 'M[R]_n :=
  let '(sigma_points, (Wm, Wc)) :=
    generate_sigma_points_and_weights state covariance alpha beta kappa in
  let predicted_mean := st_next ST state time_step in
  let predicted_sigma_points := [seq st_next ST sigma_point time_step | sigma_point <- sigma_points] in
  let m_sigma_points :=
    wrap_rows (mean_and_sigma_points_to_matrix_xf (2 * n) predicted_mean predicted_sigma_points) in
  let '(result_state_vector, result_covariance_matrix) :=
    compute_unscented_transform (m_sigma_points : 'M[R_realFieldType]_(_, _)) Wm Wc in
  (st_from ST result_state_vector, result_covariance_matrix).

(** UkfPredictionVisitor::operator(), unscented_kalman_filter.hpp:133-141 *)
Definition ukf_prediction_visitor (alpha_ beta_ kappa_ : R) (object : dyn_obj R S 'M[R]_n) (time : R)
    : dyn_obj R S 'M[R]_n :=
  let '(state, covariance) := unscented_kalman_filter_predict
    (o_state object) (o_cov object) (time - o_timestamp object)%coqR alpha_ kappa_ beta_ in
  DynObj time state covariance (o_uuid object) (o_class object).

(** UnscentedTransform::operator(), temporal_alignment.hpp:54-62 *)
Definition unscented_transform (alpha beta kappa : R) (state : S) (covariance : 'M[R]_n) (duration : R)
    : S * 'M[R]_n :=
  unscented_kalman_filter_predict state covariance duration alpha kappa beta.
(** default_unscented_transform, temporal_alignment.hpp:65 *)
Definition default_unscented_transform : S -> 'M[R]_n -> R -> S * 'M[R]_n :=
  unscented_transform 1%coqR 2%coqR 1%coqR.
End Filter.
