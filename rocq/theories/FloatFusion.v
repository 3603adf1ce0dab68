(** Model of the fusion of a track and a detection by covariance_intersection_visitor in the
    number types of the code: the states hold doubles; vectors, covariances and the weight
    are floats. *)
From Coq Require Import ZArith List Arith Bool.
From Flocq Require Import IEEE754.BinarySingleNaN.
From Verif Require Import Float FloatDistance FloatWeight FloatUnscented FloatHeading FloatPredict FloatLu Motion DoubleArith.
Import ListNotations.

(** Every operation is rounded to float (no fused multiply-add). *)
Section Fusion.
Variable n : nat.

(** determinant() of a MatrixXf: partialPivLu().determinant(), which is the sign of the row
    exchanges times diagonal().prod() (Eigen, src/LU/PartialPivLU.h and Determinant.h); the
    diagonal is multiplied up as in [t]. *)
Definition exchange_sign (transpositions : list (nat * nat)) : Z :=
  fold_left (fun sign p => if fst p =? snd p then sign else (- sign)%Z) transpositions 1%Z.
Definition determinant32 (t : tree) (m : nat -> nat -> f32) : f32 :=
  let (lu, transpositions) := partial_lu32 n m in
  f32_mul (f32_of_Z (exchange_sign transpositions)) (prod32 t (fun i => lu i i)).

(** generate_weight, fusing.hpp:92-102 *)
Definition generate_weight32 (t : tree) (inverse_covariance1 inverse_covariance2 : nat -> nat -> f32) : f32 :=
  let det_inverse_covariance1 := determinant32 t inverse_covariance1 in
  let det_inverse_covariance2 := determinant32 t inverse_covariance2 in
  let det_inverse_covariance_sum := determinant32 t (fun i j => f32_add (inverse_covariance1 i j) (inverse_covariance2 i j)) in
  f32_div (f32_add (f32_sub det_inverse_covariance_sum det_inverse_covariance2) det_inverse_covariance1)
    (f32_mul (f32_of_Z 2) det_inverse_covariance_sum).

(** How Eigen evaluates weight * inverse_covariance * mean, and in which orders it adds up
    the entries of the two products: the factor may be applied to the matrix, to the vector
    or to the product. *)
Inductive evaluation := On_matrix (t : nat -> tree) | On_vector (t : nat -> tree) | On_product (t1 t2 : nat -> tree).
(** weight * inverse_covariance1 * mean1_copy + (1 - weight) * inverse_covariance2 * mean2_copy,
    fusing.hpp:77; index j < n stands for term j of the first product, n + j for that of the second *)
Definition information32 (v : evaluation) (weight : f32) (Y1 : nat -> nat -> f32) (mean1 : nat -> f32)
    (Y2 : nat -> nat -> f32) (mean2 : nat -> f32) (i : nat) : f32 :=
  let rest := f32_sub (f32_of_Z 1) weight in
  match v with
  | On_matrix t => sum32 (t i) (fun j =>
      if j <? n then f32_mul (f32_mul weight (Y1 i j)) (mean1 j) else f32_mul (f32_mul rest (Y2 i (j - n))) (mean2 (j - n)))
  | On_vector t => sum32 (t i) (fun j =>
      if j <? n then f32_mul (Y1 i j) (f32_mul weight (mean1 j)) else f32_mul (Y2 i (j - n)) (f32_mul rest (mean2 (j - n))))
  | On_product t1 t2 =>
      f32_add (f32_mul weight (sum32 (t1 i) (fun j => f32_mul (Y1 i j) (mean1 j))))
              (f32_mul rest (sum32 (t2 i) (fun j => f32_mul (Y2 i j) (mean2 j))))
  end.

(** mean_copy: the heading, index 3, is wrapped, fusing.hpp:61-70 *)
Definition mean_copy32 (mean : nat -> f32) (i : nat) : f32 := if i =? 3 then wrap32 (mean i) else mean i.

(** The orders in which Eigen multiplies and adds up *)
Record fusion_orders := { order_diagonal : tree; order_information : evaluation; order_fused : nat -> tree }.
Variable o : fusion_orders.

(** compute_covariance_intersection, fusing.hpp:50-79.  [inverse32] is in FloatLu.v,
    [combined32] in FloatWeight.v. *)
Definition compute_covariance_intersection32 (mean1 : nat -> f32) (inverse_covariance1 : nat -> nat -> f32)
    (mean2 : nat -> f32) (inverse_covariance2 : nat -> nat -> f32) (weight : f32) : (nat -> f32) * (nat -> nat -> f32) :=
  let inverse_covariance_combined := fun i j => combined32 weight (inverse_covariance1 i j) (inverse_covariance2 i j) in
  let covariance_combined := inverse32 n inverse_covariance_combined in
  let information := information32 (order_information o) weight inverse_covariance1 (mean_copy32 mean1) inverse_covariance2 (mean_copy32 mean2) in
  let mean_combined := fun i => sum32 (order_fused o i) (fun k => f32_mul (covariance_combined i k) (information k)) in
  (mean_combined, covariance_combined).
End Fusion.

(** covariance_intersection_visitor for a track and a detection of one motion model,
    fusing.hpp:115-136: the vectors and the weight, and then the fused state and covariance *)
Section Visitor.
Variables (ST : state_type64) (o : fusion_orders).
Notation n := (s_dim ST).
Definition visitor_weight32 (track_covariance detection_covariance : nat -> nat -> f32) : f32 :=
  generate_weight32 n (order_diagonal o) (inverse32 n track_covariance) (inverse32 n detection_covariance).
Definition fused_vector32 (track_state : s_car ST) (track_covariance : nat -> nat -> f32)
    (detection_state : s_car ST) (detection_covariance : nat -> nat -> f32) : (nat -> f32) * (nat -> nat -> f32) :=
  compute_covariance_intersection32 n o (s_to ST track_state) (inverse32 n track_covariance)
    (s_to ST detection_state) (inverse32 n detection_covariance) (visitor_weight32 track_covariance detection_covariance).
Definition fuse32 (track_state : s_car ST) (track_covariance : nat -> nat -> f32)
    (detection_state : s_car ST) (detection_covariance : nat -> nat -> f32) : s_car ST * (nat -> nat -> f32) :=
  let '(fused_state, fused_covariance) := fused_vector32 track_state track_covariance detection_state detection_covariance in
  (s_from ST fused_state, fused_covariance).
End Visitor.
