(** Model of the treatment of headings in compute_covariance_intersection in the
    number types of the code: headings are floats, the constants are doubles. *)
From Coq Require Import ZArith.
From Flocq Require Import IEEE754.BinarySingleNaN.
From Verif Require Import Float.

(** The literal 3.14159265359, the double 0x1.921fb54442eeap+1, fusing.hpp:64,65,68,69 *)
Definition literal_pi : f64 := binary_normalize 53 1024 _ _ mode_NE 7074237752028906 (-51) false.
(** if (mean_copy[3] > 3.14159265359) mean_copy[3] -= 2 * 3.14159265359, fusing.hpp:64-66
    and 68-70: the float is compared and subtracted from as a double, the result is
    rounded to float. *)
Definition wrap32 (x : f32) : f32 :=
  if Bltb literal_pi (f64_of_f32 x)
  then f32_of_f64 (f64_sub (f64_of_f32 x) (Bmult mode_NE (f64_of_Z 2) literal_pi))
  else x.
(** The heading of a state (a double, to_eigen_vector casts it to float,
    ctrv_model.hpp and ctra_model.hpp) as it enters the fusion. *)
Definition fusion_heading (h : f64) : f32 := wrap32 (f32_of_f64 h).
