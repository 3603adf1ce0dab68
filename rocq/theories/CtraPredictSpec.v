(** What is assumed of exact CTRA states where a theorem is about the accuracy of the
    prediction of states with their covariances; PredictSpec.v has the same for CTRV. *)
From Coq Require Import ZArith Reals.
From Flocq Require Import Core.
From Verif Require Import Motion RealArith PredictSpec.
Local Open Scope R_scope.

(** The entries of a state *)
Definition component6 (e : ctra_state reals) (j : nat) : R :=
  match j with
  | 0 => a_x e | 1 => a_y e | 2 => a_vel e | 3 => signed (get_angle (a_yaw e)) | 4 => a_rate e | _ => a_acc e
  end%nat.
(** The way of a straight motion; for a turn, the sizes of what the code adds up: the
    radius of the turn and the quotient of the acceleration and the square of the rate *)
Definition way6 (e : ctra_state reals) (t : R) : R :=
  let v := Rabs (a_vel e) in let a := Rabs (a_acc e) in let w := Rabs (a_rate e) in
  if Rlt_dec w (bpow radix2 (-1022)) then v * Rabs t + a * Rabs t * Rabs t / 2
  else (v + a * Rabs t) / w + a / (w * w).
(** It moves straight on, or turns by at least [w0]. *)
Definition straight_or_turning6 (w0 : R) (e : ctra_state reals) : Prop :=
  Rabs (a_rate e) < bpow radix2 (-1022) \/ w0 <= Rabs (a_rate e).

(** The entries of predicted states are expected within r(j) of c(j), and so within M(j)
    of zero. *)
Record frame6 (M c r : nat -> R) : Prop := {
  f6_size : forall j, (j < 6)%nat -> bpow radix2 (-39) <= M j <= bpow radix2 39;
  f6_yaw : 4 <= M 3%nat;
  f6_near : forall j, (j < 6)%nat -> 0 <= r j /\ Rabs (c j) + r j <= M j
}.
(** An exact state whose prediction by [t] seconds is as expected, not too curved a path
    from too far away, whose rate is not one the code cannot work with (C101), and whose
    predicted heading is not just at the constant *)
Record calm6 (M c r : nat -> R) (t : R) (e : ctra_state reals) : Prop := {
  calm6_x : Rabs (a_x e) + way6 e t <= bpow radix2 18 * M 0%nat;
  calm6_y : Rabs (a_y e) + way6 e t <= bpow radix2 18 * M 1%nat;
  calm6_v : Rabs (a_vel e) + Rabs (a_acc e) * Rabs t <= bpow radix2 18 * M 2%nat;
  calm6_turn : Rabs (a_rate e * t) <= 7;
  calm6_rate : straight_or_turning6 (bpow radix2 (-99)) e;
  calm6_seam : bpow radix2 (-20) <= Rabs (get_angle (a_yaw (ctra_next e t)) - 3.14159265359);
  calm6_near : forall j, (j < 6)%nat -> Rabs (component6 (ctra_next e t) j - c j) <= r j
}.

(** A vehicle with deviations dev(j) of its entries, predicted by [t] seconds *)
Section Steady.
Variables (e : ctra_state reals) (t h : R) (dev : nat -> R) (w0 : R).
(** Its speed, the length of its way and [way6] in a turn, at most *)
Definition speed6 : R := Rabs (a_vel e) + dev 2%nat + (Rabs (a_acc e) + dev 5%nat) * Rabs t.
Definition reach6 : R := speed6 * Rabs t.
Definition radius6 : R := speed6 / w0 + (Rabs (a_acc e) + dev 5%nat) / (w0 * w0).
(** Where its entries are after the prediction, [h] being the heading *)
Definition center6 (j : nat) : R :=
  match j with 0 => a_x e | 1 => a_y e | 2 => (a_vel e + a_acc e * t)%R | 3 => h | 4 => a_rate e | _ => a_acc e end%nat.
Definition spread6 (j : nat) : R :=
  match j with
  | 0%nat => dev 0%nat + reach6
  | 1%nat => dev 1%nat + reach6
  | 2%nat => dev 2%nat + dev 5%nat * Rabs t
  | 3%nat => dev 3%nat + dev 4%nat * Rabs t + bpow radix2 (-40)
  | _ => dev j
  end.
Definition extent6 (j : nat) : R := match j with 3%nat => 4 | _ => Rabs (center6 j) + spread6 j end.
(** It turns by less than 7 radians; its predicted heading surely is not the constant;
    turns by [w0] are not too wide, and the numbers are of ordinary size. *)
Record steady6 : Prop := {
  st6_rate : bpow radix2 (-99) <= w0;
  st6_turn : (Rabs (a_rate e) + dev 4%nat) * Rabs t <= 7;
  st6_heading : same_turn h (get_angle (a_yaw e) + a_rate e * t);
  st6_seam : Rabs h + (dev 3%nat + dev 4%nat * Rabs t) + bpow radix2 (-18) <= 3.14159265359;
  st6_x : radius6 <= bpow radix2 17 * extent6 0;
  st6_y : radius6 <= bpow radix2 17 * extent6 1;
  st6_v : speed6 <= bpow radix2 18 * extent6 2;
  st6_size : forall j, (j < 6)%nat -> bpow radix2 (-39) <= extent6 j <= bpow radix2 39
}.
End Steady.
