(** Model of the rounding helpers, over exact arithmetic.

    Simplification: the code computes in double (std::pow(10.0f, size_t) is a
    double too) and the scalar and matrix helpers return float; here every
    operation is exact. *)
From Coq Require Import Reals Lra Lia ZArith.
From Flocq Require Import Core.Raux.
From Verif Require Import Motion RealArith StateVec.
Local Open Scope R_scope.

(** std::round and units::math::round: nearest integer, halves away from zero *)
Definition c_round (x : R) : R :=
  if Rle_dec 0 x then IZR (Zfloor (x + 1 / 2)) else - IZR (Zfloor (- x + 1 / 2)).

(** round_to_decimal_place(float, size_t), utils.hpp:43-49 *)
Definition round_to (d : nat) (n : R) : R :=
  let multiplier := 10 ^ d in c_round (n * multiplier) / multiplier.

(** round_to_decimal_place(CtrvState), ctrv_model.hpp:412-424 *)
Definition round_ctrv (d : nat) (s : ctrv_state reals) : ctrv_state reals :=
  CtrvState (A := reals) (round_to d (v_x s)) (round_to d (v_y s)) (round_to d (v_vel s))
    (angleR (round_to d (get_angle (v_yaw s)))) (round_to d (v_rate s)).
(** round_to_decimal_place(CtraState), ctra_model.hpp:378-391 *)
Definition round_ctra (d : nat) (s : ctra_state reals) : ctra_state reals :=
  CtraState (A := reals) (round_to d (a_x s)) (round_to d (a_y s)) (round_to d (a_vel s))
    (angleR (round_to d (get_angle (a_yaw s)))) (round_to d (a_rate s)) (round_to d (a_acc s)).
(** round_to_decimal_place(CtrvProcessNoise), ctrv_model.hpp:455-463, and
    (CtraProcessNoise), ctra_model.hpp:400-408 *)
Definition round_noise (d : nat) (n : process_noise reals) : process_noise reals :=
  Noise (A := reals) (round_to d (n_lin n)) (round_to d (n_ang n)).
(** round_to_decimal_place(AugmentedState), augmented_state.hpp:182-190 *)
Definition round_augmented {S} (round_state : nat -> S -> S) (d : nat) (a : augmented S) : augmented S :=
  Augmented (round_state d (g_state a)) (round_noise d (g_noise a)).

(** The matrix versions, utils.hpp:59-69 and ctrv_model.hpp:434-445: two loops
    that fill an output matrix; matrices are lists of rows of equal length. *)
Definition round_matrix (d : nat) (m : list (list R)) : list (list R) := List.map (List.map (round_to d)) m.
