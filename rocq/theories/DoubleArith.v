(** IEEE double as number type of Motion.v, with arbitrary implementations of
    sine, cosine and phase. *)
From Coq Require Import ZArith Bool.
From Flocq Require Import IEEE754.BinarySingleNaN.
From Verif Require Import Float Motion.

(** The double nearest to pi, 0x1.921fb54442d18p+1: boost::math::double_constants::pi. *)
Definition pi64 : f64 := binary_normalize 53 1024 _ _ mode_NE 7074237752028440 (-51) false.
(** DBL_MIN = 2^-1022 *)
Definition dbl_min64 : f64 := binary_normalize 53 1024 _ _ mode_NE 1 (-1022) false.
(** 1.0 / 2.0 *)
Definition half64 : f64 := binary_normalize 53 1024 _ _ mode_NE 1 (-1) false.

Definition doubles (sine cosine : f64 -> f64) (phase : f64 -> f64 -> f64) : arith := {|
  num := f64;
  n0 := f64_of_Z 0; n1 := f64_of_Z 1; n2 := f64_of_Z 2; nhalf := half64; npi := pi64;
  nadd := Bplus mode_NE; nsub := Bminus mode_NE; nmul := Bmult mode_NE; ndiv := Bdiv mode_NE;
  nneg := Bopp; nlt := Bltb;
  nsin := sine; ncos := cosine; narg := phase;
  nnear0 := fun x => Bltb (Babs x) dbl_min64
|}.
