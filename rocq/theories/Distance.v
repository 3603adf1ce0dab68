(** Model of euclidean_distance and mahalanobis_distance, with exact reals in
    place of float. *)
From Coq Require Import Reals.
From mathcomp Require Import all_ssreflect all_algebra.
From Verif Require Import RealField Motion RealArith StateVec.
Set Implicit Arguments.
Unset Strict Implicit.
Unset Printing Implicit Defensive.
Import GRing.Theory.
Local Open Scope ring_scope.

(** The pose vectors, ctrv_model.hpp:351-356 and 366-371, ctra_model.hpp:317-322
    and 332-337: position and heading. *)
Definition ctrv_pose (s : ctrvR) : 'cV[R]_3 := vec_of 3 [:: v_x s; v_y s; get_angle (v_yaw s)].
Definition ctra_pose (s : ctraR) : 'cV[R]_3 := vec_of 3 [:: a_x s; a_y s; get_angle (a_yaw s)].

(** The body both overloads share, ctrv_model.hpp:358-360, ctra_model.hpp:324-326 *)
Definition pose_distance (lhs_pose rhs_pose : 'cV[R]_3) : R :=
  let diff := lhs_pose - rhs_pose in sqrt ((diff^T *m diff) 0 0).
(** euclidean_distance, ctrv_model.hpp:349-361 and ctra_model.hpp:315-327 *)
Definition ctrv_euclidean (lhs rhs : ctrvR) : R := pose_distance (ctrv_pose lhs) (ctrv_pose rhs).
Definition ctra_euclidean (lhs rhs : ctraR) : R := pose_distance (ctra_pose lhs) (ctra_pose rhs).

(** Rows and columns 0, 1 and 3 of a covariance, ctrv_model.hpp:374-376,
    ctra_model.hpp:341-343 *)
Definition pose_block n (covariance : 'M[R]_n.+1) : 'M[R]_3 :=
  let k (i : 'I_3) : 'I_n.+1 := inord (nth 0%N [:: 0; 1; 3]%N i) in
  \matrix_(i, j) covariance (k i) (k j).
(** ctrv_model.hpp:372-378, ctra_model.hpp:339-345 *)
Definition pose_mahalanobis n (mean_pose : 'cV[R]_3) (covariance : 'M[R]_n.+1) (point_pose : 'cV[R]_3) : R :=
  let diff := mean_pose - point_pose in
  sqrt ((diff^T *m invmx (pose_block covariance) *m diff) 0 0).
(** mahalanobis_distance, ctrv_model.hpp:363-379 and ctra_model.hpp:329-346 *)
Definition ctrv_mahalanobis (mean : ctrvR) (covariance : 'M[R]_5) (point : ctrvR) : R :=
  pose_mahalanobis (ctrv_pose mean) covariance (ctrv_pose point).
Definition ctra_mahalanobis (mean : ctraR) (covariance : 'M[R]_6) (point : ctraR) : R :=
  pose_mahalanobis (ctra_pose mean) covariance (ctra_pose point).
