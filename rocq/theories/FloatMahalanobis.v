(** Model of mahalanobis_distance in the number types of the code: the states hold
    doubles, covariance and distance are in float. *)
From Coq Require Import ZArith List Arith.
From Flocq Require Import IEEE754.BinarySingleNaN.
From Verif Require Import Float Motion DoubleArith FloatDistance FloatWeight FloatUnscented.
Import ListNotations.

(** pose_cov: rows and columns 0, 1 and 3 of the covariance, ctrv_model.hpp:374-376,
    ctra_model.hpp:341-343. *)
Definition pose_index (i : nat) : nat := match i with 0 => 0 | 1 => 1 | _ => 3 end.
Definition pose_cov32 (covariance : nat -> nat -> f32) (i j : nat) : f32 := covariance (pose_index i) (pose_index j).

(** pose_cov.inverse() for an Eigen::Matrix3f: cofactor_3x3 and compute_inverse for size 3
    (Eigen, src/LU/InverseImpl.h).  Matrices are given by their entries. *)
Definition cofactor32 (m : nat -> nat -> f32) (i j : nat) : f32 :=
  let i1 := (i + 1) mod 3 in let i2 := (i + 2) mod 3 in let j1 := (j + 1) mod 3 in let j2 := (j + 2) mod 3 in
  f32_sub (f32_mul (m i1 j1) (m i2 j2)) (f32_mul (m i1 j2) (m i2 j1)).
(** (cofactors_col0.cwiseProduct(matrix.col(0))).sum(), the terms added up as in [t] *)
Definition det3_32 (t : tree) (m : nat -> nat -> f32) : f32 := sum32 t (fun k => f32_mul (cofactor32 m k 0) (m k 0)).
Definition inverse3_32 (t : tree) (m : nat -> nat -> f32) (i j : nat) : f32 :=
  f32_mul (cofactor32 m j i) (f32_div (f32_of_Z 1) (det3_32 t m)).

(** The orders in which Eigen adds up: the determinant, the entries of
    diff.transpose() * pose_cov.inverse(), and the last product *)
Record pose_orders := { order_det : tree; order_row : nat -> tree; order_dot : tree }.

(** std::sqrt(diff.transpose() * pose_cov.inverse() * diff), ctrv_model.hpp:378,
    ctra_model.hpp:345.  Simplified: every operation is rounded to float (no fused
    multiply-add). *)
Definition pose_mahalanobis32 (o : pose_orders) (diff : nat -> f32) (covariance : nat -> nat -> f32) : f32 :=
  let inverse := inverse3_32 (order_det o) (pose_cov32 covariance) in
  f32_sqrt (sum32 (order_dot o) (fun j =>
    f32_mul (sum32 (order_row o j) (fun i => f32_mul (diff i) (inverse i j))) (diff j))).

(** mahalanobis_distance(mean, covariance, point), ctrv_model.hpp:363-379 and
    ctra_model.hpp:329-346 *)
Definition difference32 (mean point : pose64) (i : nat) : f32 := nth i (differences mean point) (f32_of_Z 0).
Section States.
Context (sine cosine : f64 -> f64) (phase : f64 -> f64 -> f64).
Notation D := (doubles sine cosine phase).
Definition ctrv_mahalanobis32 (o : pose_orders) (mean : ctrv_state D) (covariance : nat -> nat -> f32) (point : ctrv_state D) : f32 :=
  pose_mahalanobis32 o (difference32 (ctrv_pose64 _ _ _ mean) (ctrv_pose64 _ _ _ point)) covariance.
Definition ctra_mahalanobis32 (o : pose_orders) (mean : ctra_state D) (covariance : nat -> nat -> f32) (point : ctra_state D) : f32 :=
  pose_mahalanobis32 o (difference32 (ctra_pose64 _ _ _ mean) (ctra_pose64 _ _ _ point)) covariance.
End States.
