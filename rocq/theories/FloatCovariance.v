(** Model of compute_unscented_transform (unscented_transform.hpp) in single precision. *)
From Coq Require Import ZArith List.
From Flocq Require Import IEEE754.BinarySingleNaN.
From Verif Require Import Float FloatDistance FloatWeight FloatUnscented.
Import ListNotations.

(** compute_unscented_transform, unscented_transform.hpp:160-168: x, y and P by their
    entries, [sigma_points i j] being component j of point i.  Eigen adds up the
    entries of Wm' * sigma_points and of y' * (diag(Wc) * y) in orders that are
    parameters here, and may differ from entry to entry; every operation is rounded to
    float (no fused multiply-add).  Simplified: functions of the index, not limited to
    the dimensions. *)
Definition compute_unscented_transform32 (order_x : nat -> tree) (order_P : nat -> nat -> tree)
    (sigma_points : nat -> nat -> f32) (Wm Wc : nat -> f32) : (nat -> f32) * (nat -> nat -> f32) :=
  let x := fun j => mean32 (order_x j) Wm (fun i => sigma_points i j) in
  let y := fun i j => f32_sub (sigma_points i j) (x j) in
  let P := fun j k => sum32 (order_P j k) (fun i => f32_mul (y i j) (f32_mul (Wc i) (y i k))) in
  (x, P).
