(** Model of euclidean_distance in the number types of the code: the states hold
    doubles, the distance is computed in float. *)
From Coq Require Import ZArith List Permutation.
From Flocq Require Import IEEE754.BinarySingleNaN.
From Verif Require Import Float Motion DoubleArith.
Import ListNotations.

Definition f32_sub (x y : f32) : f32 := Bminus mode_NE x y.
Definition f32_add (x y : f32) : f32 := Bplus mode_NE x y.
(** std::sqrt(float) *)
Definition f32_sqrt (x : f32) : f32 := Bsqrt mode_NE x.

(** Eigen::Vector3f{unit_cast<float>(...), ...}, a pose given by doubles. *)
Definition pose64 : Type := f64 * f64 * f64.
Definition differences (p q : pose64) : list f32 :=
  let '(x, y, h) := p in let '(x', y', h') := q in
  [f32_sub (f32_of_f64 x) (f32_of_f64 x'); f32_sub (f32_of_f64 y) (f32_of_f64 y');
   f32_sub (f32_of_f64 h) (f32_of_f64 h')].

(** The scalar product diff.transpose() * diff of a vector of three floats, with
    the terms taken in some order.  Simplified: every operation is rounded to
    float (no fused multiply-add). *)
Definition dot32 (l : list f32) : f32 :=
  match l with
  | [a; b; c] => f32_add (f32_add (f32_mul a a) (f32_mul b b)) (f32_mul c c)
  | _ => B754_nan
  end.
(** [d] is a value euclidean_distance may return for these poses (Eigen does not
    specify the order of summation), ctrv_model.hpp:349-361, ctra_model.hpp:315-327. *)
Definition pose_distance32 (p q : pose64) (d : f32) : Prop :=
  exists terms, Permutation terms (differences p q) /\ d = f32_sqrt (dot32 terms).

Section States.
Context (sine cosine : f64 -> f64) (phase : f64 -> f64 -> f64).
Notation D := (doubles sine cosine phase).
Definition ctrv_pose64 (s : ctrv_state D) : pose64 := (v_x s : f64, v_y s : f64, get_angle (v_yaw s) : f64).
Definition ctra_pose64 (s : ctra_state D) : pose64 := (a_x s : f64, a_y s : f64, get_angle (a_yaw s) : f64).
Definition ctrv_euclidean32 (s t : ctrv_state D) (d : f32) : Prop := pose_distance32 (ctrv_pose64 s) (ctrv_pose64 t) d.
Definition ctra_euclidean32 (s t : ctra_state D) (d : f32) : Prop := pose_distance32 (ctra_pose64 s) (ctra_pose64 t) d.
End States.
