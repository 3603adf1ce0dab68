(** Model of the equality operators of the angle, state, process noise and
    augmented state classes.

    Lengths, speeds and so on are compared by operator== of the units library
    (external), which compares floating point values with a tolerance: x == y
    when |x - y| < epsilon * |x + y| or |x - y| < min, with epsilon = 2^-52 and
    min = 2^-1022 the constants of std::numeric_limits<double>.  The angles are
    std::complex<double>, compared component by component without tolerance. *)
From Coq Require Import Reals ZArith Bool.
From Flocq Require Import Core.Core IEEE754.BinarySingleNaN.
From Verif Require Import Float Motion RealArith DoubleArith.

(** std::numeric_limits<double>::epsilon() *)
Definition dbl_eps : R := (/ 2 ^ 52)%R.

(** What the equality operators need from the number type. *)
Record equality (A : arith) := Equality {
  neq_units : num A -> num A -> bool;   (* units' operator== *)
  neq_plain : num A -> num A -> bool    (* == on double *)
}.
Arguments neq_units {A}. Arguments neq_plain {A}.

Section Model.
Context {A : arith} (E : equality A).

(** operator== on Angle, angle.hpp:64-67 *)
Definition angle_eqb (x y : angle A) : bool :=
  neq_plain E (re x) (re y) && neq_plain E (im x) (im y).
(** operator== on CtrvState, ctrv_model.hpp:139-143 *)
Definition ctrv_eqb (x y : ctrv_state A) : bool :=
  neq_units E (v_x x) (v_x y) && neq_units E (v_y x) (v_y y) &&
  neq_units E (v_vel x) (v_vel y) && angle_eqb (v_yaw x) (v_yaw y) &&
  neq_units E (v_rate x) (v_rate y).
(** operator== on CtraState, ctra_model.hpp:146-151 *)
Definition ctra_eqb (x y : ctra_state A) : bool :=
  neq_units E (a_x x) (a_x y) && neq_units E (a_y x) (a_y y) &&
  neq_units E (a_vel x) (a_vel y) && angle_eqb (a_yaw x) (a_yaw y) &&
  neq_units E (a_rate x) (a_rate y) && neq_units E (a_acc x) (a_acc y).
(** operator== on CtrvProcessNoise, ctrv_model.hpp:294-298, and on
    CtraProcessNoise, ctra_model.hpp:260-264 *)
Definition noise_eqb (x y : process_noise A) : bool :=
  neq_units E (n_lin x) (n_lin y) && neq_units E (n_ang x) (n_ang y).
End Model.

(** Exact arithmetic. *)
Definition units_eqb (x y : R) : bool :=
  (if Rlt_dec (Rabs (x - y)) (dbl_eps * Rabs (x + y)) then true else false) ||
  (if Rlt_dec (Rabs (x - y)) dbl_min then true else false).
Definition reals_eq : equality reals :=
  @Equality reals units_eqb (fun x y : R => if Req_EM_T x y then true else false).

(** IEEE double. *)
Definition dbl_eps64 : f64 := binary_normalize 53 1024 _ _ mode_NE 1 (-52) false.
Definition units_eqb64 (x y : f64) : bool :=
  Bltb (Babs (Bminus mode_NE x y)) (Bmult mode_NE dbl_eps64 (Babs (Bplus mode_NE x y))) ||
  Bltb (Babs (Bminus mode_NE x y)) dbl_min64.
Definition doubles_eq sine cosine phase : equality (doubles sine cosine phase) :=
  @Equality (doubles sine cosine phase) units_eqb64 (fun x y : f64 => Beqb x y).
