(** What the theorems about Eigen's inverse say of exact matrices, given by their entries. *)
From Coq Require Import Reals List Arith.
From Verif Require Import FloatUnscentedThms.
Local Open Scope R_scope.

(** The length of a vector *)
Definition norm (n : nat) (z : nat -> R) : R := sqrt (total (fun i => z i * z i) (seq 0 n)).
(** A z *)
Definition apply (n : nat) (A : nat -> nat -> R) (z : nat -> R) (i : nat) : R := total (fun j => A i j * z j) (seq 0 n).
(** z' A z >= a z' z: if A is symmetric, all eigenvalues are at least a. *)
Definition at_least (a : R) (n : nat) (A : nat -> nat -> R) : Prop :=
  forall z, a * total (fun i => z i * z i) (seq 0 n) <= total (fun i => z i * apply n A z i) (seq 0 n).
(** The unit matrix, and inverses *)
Definition unit_entry (i j : nat) : R := if (i =? j)%nat then 1 else 0.
Definition inverse_of (n : nat) (A Y : nat -> nat -> R) : Prop :=
  forall i j, (i < n)%nat -> (j < n)%nat -> apply n A (fun k => Y k j) i = unit_entry i j.
