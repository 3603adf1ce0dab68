(** Covariance intersection of uncorrelated components in real numbers: what the theorems
    about the float version compare with. *)
From Coq Require Import Reals List.
Import ListNotations.
Open Scope R_scope.

Fixpoint product (l : list R) : R := match l with [] => 1 | x :: l => x * product l end.
(** Weight of the first estimate, for variances p1(i) and p2(i), i < n: with the determinants
    D1, D2 and S of the inverses and of their sum, (S - D2 + D1) / (2 S) *)
Definition exact_weight (n : nat) (p1 p2 : nat -> R) : R :=
  let D1 := product (map (fun i => / p1 i) (seq 0 n)) in
  let D2 := product (map (fun i => / p2 i) (seq 0 n)) in
  let S := product (map (fun i => / p1 i + / p2 i) (seq 0 n)) in
  (S - D2 + D1) / (2 * S).
(** One component: information, variance and mean, for the weight [w], the variances p1 and
    p2 and the values x1 and x2 *)
Definition ci_information (w p1 p2 : R) : R := w / p1 + (1 - w) / p2.
Definition ci_variance (w p1 p2 : R) : R := / ci_information w p1 p2.
Definition ci_mean (w p1 x1 p2 x2 : R) : R := (w / p1 * x1 + (1 - w) / p2 * x2) / ci_information w p1 p2.
