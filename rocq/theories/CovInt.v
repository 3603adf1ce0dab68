(** Model of the numerical part of include/multiple_object_tracking/fusing.hpp.
    Exact arithmetic in an arbitrary ordered field instead of float: rounding and
    overflow are not modelled. *)
From mathcomp Require Import all_ssreflect all_algebra.
Set Implicit Arguments.
Unset Strict Implicit.
Unset Printing Implicit Defensive.
Import Order.Theory GRing.Theory Num.Theory.
Local Open Scope ring_scope.

Section CovInt.
Variable F : realFieldType.

(** The literal 3.14159265359 of fusing.hpp:64-70 and
    unscented_kalman_filter.hpp:86-87, from its decimal digits. *)
Definition digits (l : seq nat) : F := foldl (fun x d => 10%:R * x + d%:R) 0 l.
Definition pi11 : F := digits [:: 3; 1; 4; 1; 5; 9; 2; 6; 5; 3; 5; 9]%N / 10%:R ^+ 11.

(** One heading value, fusing.hpp:64-66 and 68-70. *)
Definition wrap (x : F) : F := if pi11 < x then x - 2%:R * pi11 else x.
(** Entry 3 of a mean vector, fusing.hpp:61-70.  In the code an access out of
    bounds for vectors with fewer than four entries; those are not used. *)
Definition wrap_heading n (m : 'cV[F]_n) : 'cV[F]_n :=
  \col_i (if (i : nat) == 3%N then wrap (m i 0) else m i 0).

(** compute_covariance_intersection, fusing.hpp:50-79.  [invmx] is the inverse
    where there is one; nothing is claimed about singular matrices (Eigen then
    returns non-finite entries, [invmx] its argument). *)
Definition compute_covariance_intersection n (mean1 : 'cV[F]_n) (inverse_covariance1 : 'M[F]_n)
    (mean2 : 'cV[F]_n) (inverse_covariance2 : 'M[F]_n) (weight : F) : 'cV[F]_n * 'M[F]_n :=
  let mean1_copy := wrap_heading mean1 in
  let mean2_copy := wrap_heading mean2 in
  let inverse_covariance_combined :=
    weight *: inverse_covariance1 + (1 - weight) *: inverse_covariance2 in
  let covariance_combined := invmx inverse_covariance_combined in
  let mean_combined := covariance_combined *m
    (weight *: inverse_covariance1 *m mean1_copy + (1 - weight) *: inverse_covariance2 *m mean2_copy) in
  (mean_combined, covariance_combined).

(** generate_weight, fusing.hpp:92-102 *)
Definition generate_weight n (inverse_covariance1 inverse_covariance2 : 'M[F]_n) : F :=
  let det1 := \det inverse_covariance1 in
  let det2 := \det inverse_covariance2 in
  let det_sum := \det (inverse_covariance1 + inverse_covariance2) in
  (det_sum - det2 + det1) / (2%:R * det_sum).

End CovInt.
