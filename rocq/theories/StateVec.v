(** Model of the conversions between states and Eigen vectors, with exact reals in
    place of float and double. *)
From Coq Require Import Reals.
From mathcomp Require Import all_ssreflect all_algebra.
From Verif Require Import RealField Motion RealArith.
Set Implicit Arguments.
Unset Strict Implicit.
Unset Printing Implicit Defensive.
Import GRing.Theory.
Local Open Scope ring_scope.
Delimit Scope R_scope with coqR.

(** vec(k) for a column vector *)
Definition ent n (v : 'cV[R]_n.+1) (k : nat) : R := v (inord k) 0.
(** Eigen's comma initialisation  vec << x0, x1, ... *)
Definition vec_of n (l : seq R) : 'cV[R]_n := \col_i nth 0 l i.

Notation ctrvR := (ctrv_state reals).
Notation ctraR := (ctra_state reals).
Notation noiseR := (process_noise reals).

(** CtrvState::from_eigen_vector, ctrv_model.hpp:59-68 *)
Definition ctrv_from_vec (v : 'cV[R]_5) : ctrvR :=
  CtrvState (A := reals) (ent v 0) (ent v 1) (ent v 2) (angle_of (A := reals) (ent v 3)) (ent v 4).
(** CtrvState::to_eigen_vector, ctrv_model.hpp:76-86 *)
Definition ctrv_to_vec (s : ctrvR) : 'cV[R]_5 :=
  vec_of 5 [:: v_x s; v_y s; v_vel s; get_angle (v_yaw s); v_rate s].
(** CtraState::from_eigen_vector, ctra_model.hpp:61-71 *)
Definition ctra_from_vec (v : 'cV[R]_6) : ctraR :=
  CtraState (A := reals) (ent v 0) (ent v 1) (ent v 2) (angle_of (A := reals) (ent v 3)) (ent v 4) (ent v 5).
(** CtraState::to_eigen_vector, ctra_model.hpp:80-91 *)
Definition ctra_to_vec (s : ctraR) : 'cV[R]_6 :=
  vec_of 6 [:: a_x s; a_y s; a_vel s; get_angle (a_yaw s); a_rate s; a_acc s].
(** CtrvProcessNoise::from_eigen_vector, ctrv_model.hpp:241-247, and the same for
    CtraProcessNoise, ctra_model.hpp:207-213 *)
Definition noise_from_vec (v : 'cV[R]_2) : noiseR := Noise (A := reals) (ent v 0) (ent v 1).

(** struct AugmentedState, augmented_state.hpp:35-44 *)
Record augmented (S : Type) := Augmented { g_state : S; g_noise : noiseR }.
(** AugmentedState::from_eigen_vector, augmented_state.hpp:52-60.  The process
    noise has two entries in both motion models; [from] is State::from_eigen_vector. *)
Definition augmented_from_vec n (S : Type) (from : 'cV[R]_n -> S) (v : 'cV[R]_(n + 2)) : augmented S :=
  Augmented (from (usubmx v)) (noise_from_vec (dsubmx v)).
(** operator+= and operator-=, augmented_state.hpp:96-104, 139-147 *)
Definition augmented_add (S : Type) (add : S -> S -> S) (x y : augmented S) : augmented S :=
  Augmented (add (g_state x) (g_state y)) (noise_add (g_noise x) (g_noise y)).
Definition augmented_sub (S : Type) (sub : S -> S -> S) (x y : augmented S) : augmented S :=
  Augmented (sub (g_state x) (g_state y)) (noise_sub (g_noise x) (g_noise y)).
