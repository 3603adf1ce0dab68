(** What is assumed of std::sin, std::cos and std::arg where a theorem is about
    the accuracy of results: finite values of the usual range within one or two
    units in the last place of the exact ones (the phase up to whole turns, because
    either sign is allowed on the negative real axis). *)
From Coq Require Import ZArith Reals.
From Flocq Require Import Core IEEE754.BinarySingleNaN.
From Verif Require Import Float Motion RealArith DoubleArith.
Local Open Scope R_scope.

Record accurate (sine cosine : f64 -> f64) (phase : f64 -> f64 -> f64) : Prop := {
  acc_sin : forall x, is_finite x = true -> is_finite (sine x) = true /\
    Rabs (B2R (sine x)) <= 1 /\ Rabs (B2R (sine x) - sin (B2R x)) <= bpow radix2 (-52);
  acc_cos : forall x, is_finite x = true -> is_finite (cosine x) = true /\
    Rabs (B2R (cosine x)) <= 1 /\ Rabs (B2R (cosine x) - cos (B2R x)) <= bpow radix2 (-52);
  acc_phase : forall x y r a, is_finite x = true -> is_finite y = true -> 0 < r ->
    B2R x = r * cos a -> B2R y = r * sin a -> - PI < a <= PI ->
    is_finite (phase x y) = true /\ Rabs (B2R (phase x y)) <= B2R pi64 /\
    exists k : Z, Rabs (B2R (phase x y) - (a + IZR k * (2 * PI))) <= bpow radix2 (-51)
}.

(** Within [d] of each other up to whole turns *)
Definition turn_close (d x y : R) : Prop := exists k : Z, Rabs (x - (y + IZR k * (2 * PI))) <= d.


(** An angle whose value is an ordinary number of the documented range *)
Definition proper sine cosine phase (z : angle (doubles sine cosine phase)) : Prop :=
  is_finite (get_angle z : f64) = true /\ 0 <= B2R (get_angle z : f64) <= 2 * B2R pi64.

(** The same state in exact arithmetic *)
Definition exact_ctrv sine cosine phase (s : ctrv_state (doubles sine cosine phase)) : ctrv_state reals :=
  CtrvState (A := reals) (B2R (v_x s : f64)) (B2R (v_y s : f64)) (B2R (v_vel s : f64))
    (angleR (B2R (get_angle (v_yaw s) : f64))) (B2R (v_rate s : f64)).
(** Finite numbers, with a position of ordinary size *)
Record ordinary_ctrv sine cosine phase (s : ctrv_state (doubles sine cosine phase)) : Prop := {
  oc_fx : is_finite (v_x s : f64) = true; oc_x : Rabs (B2R (v_x s : f64)) <= bpow radix2 60;
  oc_fy : is_finite (v_y s : f64) = true; oc_y : Rabs (B2R (v_y s : f64)) <= bpow radix2 60;
  oc_fv : is_finite (v_vel s : f64) = true; oc_fw : is_finite (v_rate s : f64) = true;
  oc_yaw : proper sine cosine phase (v_yaw s)
}.

(** [n] predictions of the same duration, one after the other *)
Definition steps sine cosine phase (n : nat) (dt : f64) (s : ctrv_state (doubles sine cosine phase)) :
  ctrv_state (doubles sine cosine phase) :=
  Nat.iter n (fun s : ctrv_state (doubles sine cosine phase) => ctrv_next s dt) s.

(** The same for CTRA states *)
Definition exact_ctra sine cosine phase (s : ctra_state (doubles sine cosine phase)) : ctra_state reals :=
  CtraState (A := reals) (B2R (a_x s : f64)) (B2R (a_y s : f64)) (B2R (a_vel s : f64))
    (angleR (B2R (get_angle (a_yaw s) : f64))) (B2R (a_rate s : f64)) (B2R (a_acc s : f64)).
Record ordinary_ctra sine cosine phase (s : ctra_state (doubles sine cosine phase)) : Prop := {
  oa_fx : is_finite (a_x s : f64) = true; oa_x : Rabs (B2R (a_x s : f64)) <= bpow radix2 60;
  oa_fy : is_finite (a_y s : f64) = true; oa_y : Rabs (B2R (a_y s : f64)) <= bpow radix2 60;
  oa_fv : is_finite (a_vel s : f64) = true; oa_v : Rabs (B2R (a_vel s : f64)) <= bpow radix2 60;
  oa_fw : is_finite (a_rate s : f64) = true; oa_w : Rabs (B2R (a_rate s : f64)) <= bpow radix2 60;
  oa_fa : is_finite (a_acc s : f64) = true; oa_a : Rabs (B2R (a_acc s : f64)) <= bpow radix2 60;
  oa_yaw : proper sine cosine phase (a_yaw s)
}.
