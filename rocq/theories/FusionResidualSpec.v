(** Covariance intersection with correlations in real numbers: what the theorems about the
    float version compare with.  [apply n A x] is A x, in InverseSpec.v. *)
From Coq Require Import Reals List.
From Flocq Require Import Core.
From Verif Require Import FloatUnscentedThms InverseSpec DeterminantSpec.
Open Scope R_scope.

(** Entries that differ by at most b *)
Definition within (b : R) (n : nat) (A B : nat -> nat -> R) : Prop :=
  forall i j, (i < n)%nat -> (j < n)%nat -> Rabs (A i j - B i j) <= b.
Definition plus (A B : nat -> nat -> R) (i j : nat) : R := A i j + B i j.
(** The weight for the determinants D1 and D2 of the inverses and S of their sum *)
Definition weight_of (D1 D2 S : R) : R := (S - D2 + D1) / (2 * S).
(** w Y1 + (1 - w) Y2 *)
Definition mixture (w : R) (Y1 Y2 : nat -> nat -> R) (i j : nat) : R := w * Y1 i j + (1 - w) * Y2 i j.
(** w Y1 x1 + (1 - w) Y2 x2, and the sum of the absolute values of all terms in it *)
Definition information (n : nat) (w : R) (Y1 : nat -> nat -> R) (x1 : nat -> R) (Y2 : nat -> nat -> R) (x2 : nat -> R) (i : nat) : R :=
  w * apply n Y1 x1 i + (1 - w) * apply n Y2 x2 i.
Definition information_size (n : nat) (w : R) (Y1 : nat -> nat -> R) (x1 : nat -> R) (Y2 : nat -> nat -> R) (x2 : nat -> R) (i : nat) : R :=
  Rabs w * total (fun j => Rabs (Y1 i j * x1 j)) (seq 0 n) + Rabs (1 - w) * total (fun j => Rabs (Y2 i j * x2 j)) (seq 0 n).
(** Each column of Y solves M y = unit vector, up to b times the sum of its entries. *)
Definition inverts (b : R) (n : nat) (M Y : nat -> nat -> R) : Prop :=
  forall i j, (i < n)%nat -> (j < n)%nat ->
  Rabs (apply n M (fun k => Y k j) i - unit_entry i j) <= b * total (fun k => Rabs (Y k j)) (seq 0 n) + bpow radix2 (-80).
