(** Change of coordinates, for C91. *)
From Coq Require Import Reals.
From mathcomp Require Import all_ssreflect all_algebra.
From Verif Require Import Base Uuid DynObj RealField Motion RealArith StateVec.
Set Implicit Arguments.
Unset Strict Implicit.
Unset Printing Implicit Defensive.
Import Order.Theory GRing.Theory Num.Theory.
Local Open Scope ring_scope.

(** An object whose state is changed by [g] and whose covariance [P] becomes
    [T P T^T]. *)
Definition image n (S : Type) (T : 'M[R]_n) (g : S -> S) (o : dyn_obj R S 'M[R]_n) : dyn_obj R S 'M[R]_n :=
  set_state_covariance (set_state o (g (o_state o))) (T *m o_cov o *m T^T).

(** *** Rotations and shifts of the plane *)
(** On vectors: entries 0 and 1 are rotated ... *)
Definition turn_mx n (phi : R) : 'M[R]_n :=
  \matrix_(i, j) match (i : nat), (j : nat) with
    | 0%N, 0%N => cos phi | 0%N, 1%N => - sin phi | 1%N, 0%N => sin phi | 1%N, 1%N => cos phi
    | _, _ => (i == j)%:R end.
(** ... entries 0, 1 and 3 are shifted. *)
Definition turn_shift n (phi dx dy : R) : 'cV[R]_n :=
  \col_i match (i : nat) with 0%N => dx | 1%N => dy | 3%N => phi | _ => 0 end.
(** On states: the position is rotated by [phi] and shifted by [(dx, dy)], the
    heading turned by [phi]. *)
Definition ctrv_turned (phi dx dy : R) (s : ctrvR) : ctrvR :=
  CtrvState (A := reals) (cos phi * v_x s - sin phi * v_y s + dx)%coqR (sin phi * v_x s + cos phi * v_y s + dy)%coqR
    (v_vel s) (angleR (get_angle (v_yaw s) + phi)%coqR) (v_rate s).
Definition ctra_turned (phi dx dy : R) (s : ctraR) : ctraR :=
  CtraState (A := reals) (cos phi * a_x s - sin phi * a_y s + dx)%coqR (sin phi * a_x s + cos phi * a_y s + dy)%coqR
    (a_vel s) (angleR (get_angle (a_yaw s) + phi)%coqR) (a_rate s) (a_acc s).

(** A heading in the range that is left alone by wrapping *)
Definition low_heading (h : R) : Prop := (0 <= h <= 3.14159265359)%coqR.
