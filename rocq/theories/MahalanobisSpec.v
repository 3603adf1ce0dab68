(** What the theorems about mahalanobis_distance in single precision say of exact numbers. *)
From Coq Require Import Reals List Arith.
From Flocq Require Import IEEE754.BinarySingleNaN.
From Verif Require Import Float FloatUnscentedThms InverseSpec.
Import ListNotations.
Local Open Scope R_scope.

(** The exact covariance of x, y and heading: rows and columns 0, 1 and 3 *)
Definition pose (covariance : nat -> nat -> f32) (i j : nat) : R := B2R (covariance (nth i [0; 1; 3]%nat 0%nat) (nth j [0; 1; 3]%nat 0%nat)).
Definition det3 (A : nat -> nat -> R) : R :=
  A 0%nat 0%nat * (A 1%nat 1%nat * A 2%nat 2%nat - A 1%nat 2%nat * A 2%nat 1%nat)
  - A 0%nat 1%nat * (A 1%nat 0%nat * A 2%nat 2%nat - A 1%nat 2%nat * A 2%nat 0%nat)
  + A 0%nat 2%nat * (A 1%nat 0%nat * A 2%nat 1%nat - A 1%nat 1%nat * A 2%nat 0%nat).
(** sqrt (z' Y z), Y the inverse of the covariance *)
Definition mahalanobis (Y : nat -> nat -> R) (z : nat -> R) : R := sqrt (total (fun i => z i * apply 3 Y z i) (seq 0 3)).
(** The exact differences of two poses *)
Definition separation (p q : list f64) (i : nat) : R := B2R (nth i p (B754_zero false)) - B2R (nth i q (B754_zero false)).
