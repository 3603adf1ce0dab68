(** Model of covariance_intersection_visitor, fusing.hpp:115-136, over exact reals. *)
From Coq Require Import Reals.
From mathcomp Require Import all_ssreflect all_algebra.
From Verif Require Import Base Uuid DynObj RealField Motion RealArith StateVec CovInt.
Set Implicit Arguments.
Unset Strict Implicit.
Unset Printing Implicit Defensive.
Local Open Scope ring_scope.

(** Objects of the library over exact reals; [R] are also the time stamps. *)
Notation ctrv_obj := (dyn_obj R ctrvR 'M[R]_5).
Notation ctra_obj := (dyn_obj R ctraR 'M[R]_6).
Notation obj := (var2 ctrv_obj ctra_obj).

(** The generic lambda for a track and a detection of one motion model;
    [to] and [from] are to_eigen_vector and from_eigen_vector of its state. *)
Definition ci_fuse n (S : Type) (to : S -> 'cV[R]_n) (from : 'cV[R]_n -> S)
    (track detection : dyn_obj R S 'M[R]_n) : dyn_obj R S 'M[R]_n :=
  let track_inverse_covariance := invmx (o_cov track) in
  let detection_inverse_covariance := invmx (o_cov detection) in
  let weight := generate_weight track_inverse_covariance detection_inverse_covariance in
  let '(fused_state, fused_covariance) := compute_covariance_intersection
    (to (o_state track)) track_inverse_covariance
    (to (o_state detection)) detection_inverse_covariance weight in
  set_state_covariance
    (set_state (set_timestamp track (o_timestamp detection)) (from fused_state)) fused_covariance.

Definition ctrv_fuse : ctrv_obj -> ctrv_obj -> ctrv_obj := ci_fuse ctrv_to_vec ctrv_from_vec.
Definition ctra_fuse : ctra_obj -> ctra_obj -> ctra_obj := ci_fuse ctra_to_vec ctra_from_vec.

(** std::visit of the visitor.  For different motion models the inverse
    covariances added in generate_weight (fusing.hpp:97) have different sizes;
    Eigen asserts equal sizes and reads out of bounds where assertions are off. *)
Definition covariance_intersection_visitor (track detection : obj) : result obj :=
  match track, detection with
  | Ctrv t, Ctrv d => Ok (Ctrv (ctrv_fuse t d))
  | Ctra t, Ctra d => Ok (Ctra (ctra_fuse t d))
  | _, _ => UB
  end.
