(** Model of Eigen's LLT in single precision, as used by generate_sigma_points
    (unscented_transform.hpp:84).  As EigenLlt.v, but rounded. *)
From Coq Require Import ZArith List Arith.
From Flocq Require Import IEEE754.BinarySingleNaN.
From Verif Require Import Float FloatDistance FloatWeight FloatUnscented.
Import ListNotations.

(** a - (p 0 + p 1 + ...), added up in the order [t]: its leaf 0 is [a], and its leaf
    S l is - p l.  (Negation and rounding to nearest commute, so this covers
    subtracting a sum of products as well as subtracting the products one by one.) *)
Definition minus32 (t : tree) (a : f32) (p : nat -> f32) : f32 :=
  sum32 t (fun i => match i with O => a | S l => Bopp (p l) end).

(** llt_inplace::unblocked (Eigen, src/Cholesky/LLT.h) for the matrix type
    Eigen::MatrixXf that unscented_transform.hpp:84 factors.  The copy is given by its
    entries, [mat i j] being row i, column j.  The order in which Eigen adds up is a
    parameter, and may differ from entry to entry; every operation is rounded to
    float (no fused multiply-add).  Simplified: functions of the index, not limited to
    the dimensions. *)
Section Llt.
Variables (n : nat) (order : nat -> nat -> tree).

(** x = mat(k,k) - A10.squaredNorm() *)
Definition llt_pivot32 (mat : nat -> nat -> f32) (k : nat) : f32 :=
  minus32 (order k k) (mat k k) (fun l => f32_mul (mat k l) (mat k l)).
(** mat(k,k) = x = sqrt(x); A21 -= A20 * A10.adjoint(); A21 /= x *)
Definition llt_column32 (mat : nat -> nat -> f32) (k : nat) : nat -> nat -> f32 :=
  let x := f32_sqrt (llt_pivot32 mat k) in
  fun i j =>
    if j =? k then
      (if i =? k then x
       else if k <? i then f32_div (minus32 (order i k) (mat i k) (fun l => f32_mul (mat i l) (mat k l))) x
       else mat i j)
    else mat i j.
(** The loop over k: it ends when x <= 0, which is false for a NaN. *)
Fixpoint llt_loop32 (ks : list nat) (mat : nat -> nat -> f32) : (nat -> nat -> f32) * bool :=
  match ks with
  | [] => (mat, true)
  | k :: ks' => if Bleb (llt_pivot32 mat k) (B754_zero false) then (mat, false) else llt_loop32 ks' (llt_column32 mat k)
  end.
Definition llt32 (mat : nat -> nat -> f32) : (nat -> nat -> f32) * bool := llt_loop32 (seq 0 n) mat.
(** matrixL(), assigned to a dense matrix *)
Definition llt_matrixL32 (mat : nat -> nat -> f32) (i j : nat) : f32 :=
  if j <=? i then fst (llt32 mat) i j else B754_zero false.
End Llt.
