(** What is assumed of exact states where a theorem is about the accuracy of the
    prediction of states with their covariances. *)
From Coq Require Import ZArith Reals.
From Flocq Require Import Core.
From Verif Require Import Motion RealArith.
Local Open Scope R_scope.

(** The headings enter the transform between -3.1416 and 3.1416; with the constant of
    unscented_kalman_filter.hpp:85-89 *)
Definition signed (a : R) : R := if Rlt_dec 3.14159265359 a then a - 2 * 3.14159265359 else a.
(** The entries of a state *)
Definition component (e : ctrv_state reals) (j : nat) : R :=
  match j with 0 => v_x e | 1 => v_y e | 2 => v_vel e | 3 => signed (get_angle (v_yaw e)) | _ => v_rate e end%nat.
(** The way of a straight motion, the radius of a turn.  (2^-1022 is the smallest normal
    double; below it the code takes the yaw rate for zero.) *)
Definition way (e : ctrv_state reals) (t : R) : R :=
  if Rlt_dec (Rabs (v_rate e)) (bpow radix2 (-1022)) then Rabs (v_vel e * t) else Rabs (v_vel e / v_rate e).

(** The entries of predicted states are expected within r(j) of c(j), and so within M(j)
    of zero. *)
Record frame (M c r : nat -> R) : Prop := {
  f_size : forall j, (j < 5)%nat -> bpow radix2 (-39) <= M j <= bpow radix2 39;
  f_yaw : 4 <= M 3%nat;
  f_near : forall j, (j < 5)%nat -> 0 <= r j /\ Rabs (c j) + r j <= M j
}.
(** An exact state whose prediction by [t] seconds is as expected, not too curved a path
    from too far away, and whose predicted heading is not just at the constant *)
Record calm (M c r : nat -> R) (t : R) (e : ctrv_state reals) : Prop := {
  calm_x : Rabs (v_x e) + way e t <= bpow radix2 18 * M 0%nat;
  calm_y : Rabs (v_y e) + way e t <= bpow radix2 18 * M 1%nat;
  calm_turn : Rabs (v_rate e * t) <= 7;
  calm_seam : bpow radix2 (-20) <= Rabs (get_angle (v_yaw (ctrv_next e t)) - 3.14159265359);
  calm_near : forall j, (j < 5)%nat -> Rabs (component (ctrv_next e t) j - c j) <= r j
}.

(** It moves straight on, or turns by at least [w0]. *)
Definition straight_or_turning (w0 : R) (e : ctrv_state reals) : Prop :=
  Rabs (v_rate e) < bpow radix2 (-1022) \/ w0 <= Rabs (v_rate e).

(** A vehicle with deviations dev(j) of its entries, predicted by [t] seconds *)
Section Steady.
Variables (e : ctrv_state reals) (t h : R) (dev : nat -> R) (w0 : R).
(** The length of the way and the radius of a turn, at most *)
Definition reach : R := (Rabs (v_vel e) + dev 2%nat) * Rabs t.
Definition radius : R := (Rabs (v_vel e) + dev 2%nat) / w0.
(** Where its entries are after the prediction, [h] being the heading *)
Definition center (j : nat) : R :=
  match j with 0 => v_x e | 1 => v_y e | 2 => v_vel e | 3 => h | _ => v_rate e end%nat.
Definition spread (j : nat) : R :=
  match j with
  | 0%nat => dev 0%nat + reach
  | 1%nat => dev 1%nat + reach
  | 3%nat => dev 3%nat + dev 4%nat * Rabs t + bpow radix2 (-40)
  | _ => dev j
  end.
Definition extent (j : nat) : R := match j with 3%nat => 4 | _ => Rabs (center j) + spread j end.
(** It turns by less than 7 radians; its predicted heading surely is not the constant;
    turns by [w0] are not too wide, and the numbers are of ordinary size. *)
Record steady : Prop := {
  st_rate : bpow radix2 (-1022) <= w0;
  st_turn : (Rabs (v_rate e) + dev 4%nat) * Rabs t <= 7;
  st_heading : same_turn h (get_angle (v_yaw e) + v_rate e * t);
  st_seam : Rabs h + (dev 3%nat + dev 4%nat * Rabs t) + bpow radix2 (-18) <= 3.14159265359;
  st_x : radius <= bpow radix2 17 * extent 0;
  st_y : radius <= bpow radix2 17 * extent 1;
  st_size : forall j, (j < 5)%nat -> bpow radix2 (-39) <= extent j <= bpow radix2 39
}.
End Steady.
