(** Model of generate_lambda, generate_weights and the mean of
    compute_unscented_transform (unscented_transform.hpp) in single precision. *)
From Coq Require Import ZArith List.
From Flocq Require Import IEEE754.BinarySingleNaN.
From Verif Require Import Float FloatDistance FloatWeight.
Import ListNotations.

(** generate_lambda, unscented_transform.hpp:37-40: the int is converted to float. *)
Definition generate_lambda32 (n : Z) (alpha kappa : f32) : f32 :=
  f32_sub (f32_mul (f32_mul alpha alpha) (f32_add (f32_of_Z n) kappa)) (f32_of_Z n).

(** The double literal 0.5 of unscented_transform.hpp:56 *)
Definition half64 : f64 := binary_normalize 53 1024 _ _ mode_NE 1 (-1) false.

(** wm_0, wc_0 and wm_i of generate_weights, unscented_transform.hpp:54-56; the last
    one is multiplied in double and converted back. *)
Definition wm_0_32 (n : Z) (lambda : f32) : f32 := f32_div lambda (f32_add (f32_of_Z n) lambda).
Definition wc_0_32 (n : Z) (alpha beta lambda : f32) : f32 :=
  f32_add (f32_div lambda (f32_add (f32_of_Z n) lambda))
    (f32_add (f32_sub (f32_of_Z 1) (f32_mul alpha alpha)) beta).
Definition wm_i_32 (n : Z) (lambda : f32) : f32 :=
  f32_of_f64 (Bmult mode_NE half64 (f64_of_f32 (f32_div (f32_of_Z 1) (f32_add (f32_of_Z n) lambda)))).

(** generate_weights, unscented_transform.hpp:51-64: the vectors Wm and Wc by their
    entries 0 ... 2n.  Simplified: functions of the index, not limited to that range. *)
Definition generate_weights32 (n : Z) (alpha beta lambda : f32) : (nat -> f32) * (nat -> f32) :=
  (fun i => match i with O => wm_0_32 n lambda | S _ => wm_i_32 n lambda end,
   fun i => match i with O => wc_0_32 n alpha beta lambda | S _ => wm_i_32 n lambda end).

(** Adding up in the order [t] *)
Fixpoint sum32 (t : tree) (p : nat -> f32) : f32 :=
  match t with Leaf i => p i | Node l r => f32_add (sum32 l p) (sum32 r p) end.

(** One entry of Wm.transpose() * sigma_points, unscented_transform.hpp:164: [column]
    is that component of the points.  The order in which Eigen adds up the products is
    a parameter; every operation is rounded to float (no fused multiply-add). *)
Definition mean32 (t : tree) (Wm column : nat -> f32) : f32 :=
  sum32 t (fun i => f32_mul (Wm i) (column i)).
