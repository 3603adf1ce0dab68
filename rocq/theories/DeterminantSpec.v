(** The determinant of a matrix given by its entries (row, column), by mathcomp. *)
From Coq Require Import Reals.
From mathcomp Require Import all_ssreflect all_algebra.
From Verif Require Import RealField.
Local Open Scope ring_scope.

Definition determinant (n : nat) (A : nat -> nat -> R) : R := \det (\matrix_(i < n, j < n) (A i j : R_realFieldType)).
