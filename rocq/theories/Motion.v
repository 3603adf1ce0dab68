(** Model of the angle class and of the two motion models, for any arithmetic.

    The code computes in double.  The definitions below are parametrised by the
    arithmetic, and are used with two of them: the real numbers (exact
    arithmetic, RealArith.v) and IEEE double with arbitrary implementations of
    sine, cosine and phase (DoubleArith.v). *)
From Verif Require Import Base.

(** The operations of the number type used by the code. *)
Record arith := Arith {
  num : Type;
  n0 : num;                        (* 0.0 *)
  n1 : num;                        (* 1.0 (also 1_rad) *)
  n2 : num;                        (* 2.0 *)
  nhalf : num;                     (* 1.0 / 2.0 *)
  npi : num;                       (* boost::math::double_constants::pi *)
  nadd : num -> num -> num;
  nsub : num -> num -> num;
  nmul : num -> num -> num;
  ndiv : num -> num -> num;
  nneg : num -> num;
  nlt : num -> num -> bool;
  nsin : num -> num;               (* units::math::sin, i.e. std::sin *)
  ncos : num -> num;               (* units::math::cos, i.e. std::cos *)
  narg : num -> num -> num;        (* std::arg of a std::complex<double>, i.e. std::atan2(im, re) *)
  nnear0 : num -> bool             (* units' operator== with 0: |x| < DBL_MIN *)
}.

Section Model.
Context (A : arith).
Notation num := (num A).
Local Notation "x + y" := (nadd A x y).
Local Notation "x - y" := (nsub A x y).
Local Notation "x * y" := (nmul A x y).
Local Notation "x / y" := (ndiv A x y).
Local Notation "- x" := (nneg A x).

(** class Angle, angle.hpp:38-72: a std::complex<double> *)
Record angle := MkAngle { re : num; im : num }.

(** Angle(radian_t), angle.hpp:44-47, and set_angle, angle.hpp:49-53 *)
Definition angle_of (a : num) : angle := MkAngle (ncos A a) (nsin A a).

(** get_angle, angle.hpp:55-62 *)
Definition get_angle (z : angle) : num :=
  let phase := narg A (re z) (im z) in
  if nlt A phase (n0 A) then phase + n2 A * npi A else phase.

(** operator+= and operator+, angle.hpp:70-75 and 84-88 *)
Definition angle_add (x y : angle) : angle := angle_of (get_angle x + get_angle y).
(** operator-= and operator-, angle.hpp:77-82 and 90-94 *)
Definition angle_sub (x y : angle) : angle := angle_of (get_angle x - get_angle y).
(** operator*= and operator* (either side), angle.hpp:96-112 *)
Definition angle_mul (x : angle) (k : num) : angle := angle_of (k * get_angle x).
(** operator/= and operator/, angle.hpp:114-124 *)
Definition angle_div (x : angle) (k : num) : angle := angle_of (get_angle x / k).

(** struct CtrvState, ctrv_model.hpp:41-47 *)
Record ctrv_state := CtrvState {
  v_x : num; v_y : num; v_vel : num; v_yaw : angle; v_rate : num
}.

(** operator+= and operator+ on CtrvState, ctrv_model.hpp:98-107 and 154-158 *)
Definition ctrv_add (a b : ctrv_state) : ctrv_state :=
  CtrvState (v_x a + v_x b) (v_y a + v_y b) (v_vel a + v_vel b)
    (angle_add (v_yaw a) (v_yaw b)) (v_rate a + v_rate b).
(** operator-= and operator- on CtrvState, ctrv_model.hpp:118-127 and 169-173 *)
Definition ctrv_sub (a b : ctrv_state) : ctrv_state :=
  CtrvState (v_x a - v_x b) (v_y a - v_y b) (v_vel a - v_vel b)
    (angle_sub (v_yaw a) (v_yaw b)) (v_rate a - v_rate b).
(** operator*= and operator* on CtrvState, ctrv_model.hpp:184-193, 204 and 215 *)
Definition ctrv_scale (a : ctrv_state) (k : num) : ctrv_state :=
  CtrvState (v_x a * k) (v_y a * k) (v_vel a * k) (angle_mul (v_yaw a) k) (v_rate a * k).

(** get_next_state(CtrvState), src/ctrv_model.cpp:32-61 *)
Definition ctrv_next (s : ctrv_state) (dt : num) : ctrv_state :=
  let delta_yaw := v_rate s * dt in
  let psi := get_angle (v_yaw s) in
  let yaw' := angle_add (v_yaw s) (angle_of delta_yaw) in
  if nnear0 A (v_rate s) then
    CtrvState (v_x s + v_vel s * ncos A psi * dt) (v_y s + v_vel s * nsin A psi * dt)
      (v_vel s) yaw' (v_rate s)
  else
    let vel_over_yaw_rate := v_vel s / v_rate s in
    CtrvState
      (v_x s + vel_over_yaw_rate * (nsin A (psi + delta_yaw) - nsin A psi) * n1 A)
      (v_y s - vel_over_yaw_rate * (ncos A (psi + delta_yaw) - ncos A psi) * n1 A)
      (v_vel s) yaw' (v_rate s).

(** struct CtrvProcessNoise, ctrv_model.hpp:225-229, and CtraProcessNoise,
    ctra_model.hpp:191-195: the two structs have the same members. *)
Record process_noise := Noise { n_lin : num; n_ang : num }.
(** operator+= and operator+ on noises, ctrv_model.hpp:259-265 and 309-313,
    ctra_model.hpp:225-231 and 275-279 *)
Definition noise_add (a b : process_noise) : process_noise :=
  Noise (n_lin a + n_lin b) (n_ang a + n_ang b).
(** operator-= and operator- on noises, ctrv_model.hpp:276-282 and 324-328,
    ctra_model.hpp:242-248 and 290-294 *)
Definition noise_sub (a b : process_noise) : process_noise :=
  Noise (n_lin a - n_lin b) (n_ang a - n_ang b).

(** get_next_state(CtrvState, noise), src/ctrv_model.cpp:63-81 *)
Definition ctrv_next_noise (s : ctrv_state) (dt : num) (n : process_noise) : ctrv_state :=
  let s' := ctrv_next s dt in
  let psi := get_angle (v_yaw s) in
  let sq := dt * dt in
  CtrvState
    (v_x s' + nhalf A * n_lin n * ncos A psi * sq)
    (v_y s' + nhalf A * n_lin n * nsin A psi * sq)
    (v_vel s' + n_lin n * dt)
    (angle_add (v_yaw s') (angle_of (nhalf A * n_ang n * sq)))
    (v_rate s' + n_ang n * dt).

(** struct CtraState, ctra_model.hpp:41-49 *)
Record ctra_state := CtraState {
  a_x : num; a_y : num; a_vel : num; a_yaw : angle; a_rate : num; a_acc : num
}.

(** operator+= and operator+ on CtraState, ctra_model.hpp:103-113 and 162-166 *)
Definition ctra_add (a b : ctra_state) : ctra_state :=
  CtraState (a_x a + a_x b) (a_y a + a_y b) (a_vel a + a_vel b)
    (angle_add (a_yaw a) (a_yaw b)) (a_rate a + a_rate b) (a_acc a + a_acc b).
(** operator-= and operator- on CtraState, ctra_model.hpp:124-134 and 177-181 *)
Definition ctra_sub (a b : ctra_state) : ctra_state :=
  CtraState (a_x a - a_x b) (a_y a - a_y b) (a_vel a - a_vel b)
    (angle_sub (a_yaw a) (a_yaw b)) (a_rate a - a_rate b) (a_acc a - a_acc b).

(** get_next_state(CtraState), src/ctra_model.cpp:32-70 *)
Definition ctra_next (s : ctra_state) (dt : num) : ctra_state :=
  let velocity_new := a_vel s + a_acc s * dt in
  let yaw_new := angle_add (a_yaw s) (angle_of (a_rate s * dt)) in
  let psi := get_angle (a_yaw s) in
  let psi' := get_angle yaw_new in
  let '(dx, dy) :=
    if nnear0 A (a_rate s) then
      let d := a_vel s * dt + (a_acc s * dt * dt) / n2 A in
      (d * ncos A psi, d * nsin A psi)
    else
      let k := n1 A / (a_rate s * a_rate s) in
      (k * (velocity_new * a_rate s * nsin A psi' + a_acc s * ncos A psi' * n1 A
            - a_vel s * a_rate s * nsin A psi - a_acc s * ncos A psi * n1 A),
       k * ((- velocity_new) * a_rate s * ncos A psi' + a_acc s * nsin A psi' * n1 A
            + a_vel s * a_rate s * ncos A psi - a_acc s * nsin A psi * n1 A)) in
  CtraState (a_x s + dx) (a_y s + dy) velocity_new yaw_new (a_rate s) (a_acc s).

(** get_next_state(CtraState, noise), src/ctra_model.cpp:72-90 *)
Definition ctra_next_noise (s : ctra_state) (dt : num) (n : process_noise) : ctra_state :=
  let s' := ctra_next s dt in
  let psi := get_angle (a_yaw s) in
  let sq := dt * dt in
  CtraState
    (a_x s' + nhalf A * n_lin n * ncos A psi * sq)
    (a_y s' + nhalf A * n_lin n * nsin A psi * sq)
    (a_vel s' + n_lin n * dt)
    (angle_add (a_yaw s') (angle_of (nhalf A * n_ang n * sq)))
    (a_rate s' + n_ang n * dt)
    (a_acc s' + n_lin n).
End Model.
Arguments MkAngle {A}. Arguments re {A}. Arguments im {A}.
Arguments angle_of {A}. Arguments get_angle {A}.
Arguments angle_add {A}. Arguments angle_sub {A}. Arguments angle_mul {A}. Arguments angle_div {A}.
Arguments CtrvState {A}. Arguments v_x {A}. Arguments v_y {A}. Arguments v_vel {A}.
Arguments v_yaw {A}. Arguments v_rate {A}.
Arguments CtraState {A}. Arguments a_x {A}. Arguments a_y {A}. Arguments a_vel {A}.
Arguments a_yaw {A}. Arguments a_rate {A}. Arguments a_acc {A}.
Arguments Noise {A}. Arguments n_lin {A}. Arguments n_ang {A}.
Arguments ctrv_add {A}. Arguments ctrv_sub {A}. Arguments ctrv_scale {A}.
Arguments noise_add {A}. Arguments noise_sub {A}.
Arguments ctra_add {A}. Arguments ctra_sub {A}.
Arguments ctrv_next {A}. Arguments ctrv_next_noise {A}.
Arguments ctra_next {A}. Arguments ctra_next_noise {A}.
