(** IEEE-754 arithmetic used by the cost computation: float is binary32, double
    is binary64, rounding to nearest even (the default environment; FLT_EVAL_METHOD
    is 0).  The arithmetic is Flocq's. *)
From Coq Require Import ZArith Bool.
From Flocq Require Import IEEE754.BinarySingleNaN.
From Verif Require Import Base.

Definition f32 : Type := binary_float 24 128.
Definition f64 : Type := binary_float 53 1024.

#[global] Instance prec32 : FLX.Prec_gt_0 24 := eq_refl.
#[global] Instance prec64 : FLX.Prec_gt_0 53 := eq_refl.
#[global] Instance emax32 : Prec_lt_emax 24 128 := eq_refl.
#[global] Instance emax64 : Prec_lt_emax 53 1024 := eq_refl.

Definition f32_div (x y : f32) : f32 := Bdiv mode_NE x y.
Definition f32_mul (x y : f32) : f32 := Bmult mode_NE x y.
Definition f64_sub (x y : f64) : f64 := Bminus mode_NE x y.
(** x > y; false when one of them is NaN *)
Definition f32_gtb (x y : f32) : bool := Bltb y x.

(** Conversion between floating-point types: rounds, keeps signs, infinities and NaN. *)
Definition convert {p e} (p' e' : Z) `{FLX.Prec_gt_0 p'} `{Prec_lt_emax p' e'}
    (x : binary_float p e) : binary_float p' e' :=
  match x with
  | B754_zero s => B754_zero s
  | B754_infinity s => B754_infinity s
  | B754_nan => B754_nan
  | B754_finite s m ex _ => binary_normalize p' e' _ _ mode_NE (SpecFloat.cond_Zopp s (Zpos m)) ex s
  end.
Definition f64_of_f32 (x : f32) : f64 := convert 53 1024 x.
Definition f32_of_f64 (x : f64) : f32 := convert 24 128 x.

(** Conversion from an integer. *)
Definition f32_of_Z (z : Z) : f32 := binary_normalize 24 128 _ _ mode_NE z 0 false.
Definition f64_of_Z (z : Z) : f64 := binary_normalize 53 1024 _ _ mode_NE z 0 false.

(** std::numeric_limits<float>::max() *)
Definition flt_max : f32 := Bmax_float.

(** static_cast<int>: undefined for NaN, infinities and when the truncated value
    does not fit a 32-bit int. *)
Definition int_of_f32 (x : f32) : result Z :=
  if is_finite x then
    let z := Btrunc x in
    if (-2 ^ 31 <=? z)%Z && (z <? 2 ^ 31)%Z then Ok z else UB
  else UB.
