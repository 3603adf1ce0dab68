(** Model of generate_weight (fusing.hpp) in single precision, for diagonal matrices. *)
From Coq Require Import ZArith List Permutation.
From Flocq Require Import IEEE754.BinarySingleNaN.
From Verif Require Import Float FloatDistance.
Import ListNotations.

(** An order of multiplication: which products are formed of which entries. *)
Inductive tree : Type := Leaf (i : nat) | Node (l r : tree).
Fixpoint leaves (t : tree) : list nat :=
  match t with Leaf i => [i] | Node l r => leaves l ++ leaves r end.
(** [t] uses each of the entries 0 ... n-1 once. *)
Definition order_of (n : nat) (t : tree) : Prop := Permutation (leaves t) (seq 0 n).
Fixpoint prod32 (t : tree) (d : nat -> f32) : f32 :=
  match t with Leaf i => d i | Node l r => f32_mul (prod32 l d) (prod32 r d) end.

(** The determinant of the matrix with diagonal [d] and zeros elsewhere.  Eigen
    computes it from the LU decomposition with partial pivoting (the matrices have
    dynamic size); of a diagonal matrix with nonzero entries this leaves the
    diagonal as it is, without interchanges, and multiplies it up in an
    order that depends only on the dimension. *)
Definition det32 (t : tree) (d : nat -> f32) : f32 := prod32 t d.

(** generate_weight, fusing.hpp:92-102, with the information matrices given by their
    diagonals.  Simplified: diagonal matrices only; every operation is rounded
    to float (no fused multiply-add). *)
Definition weight32 (t : tree) (inverse_covariance1 inverse_covariance2 : nat -> f32) : f32 :=
  let det1 := det32 t inverse_covariance1 in
  let det2 := det32 t inverse_covariance2 in
  let det_sum := det32 t (fun i => f32_add (inverse_covariance1 i) (inverse_covariance2 i)) in
  f32_div (f32_add (f32_sub det_sum det2) det1) (f32_mul (f32_of_Z 2) det_sum).

(** One entry of weight * inverse_covariance1 + (1 - weight) * inverse_covariance2,
    fusing.hpp:72-73; the entries may be any floats. *)
Definition combined32 (weight a b : f32) : f32 :=
  f32_add (f32_mul weight a) (f32_mul (f32_sub (f32_of_Z 1) weight) b).
