(** Model of Eigen's inverse of matrices with more than four rows, in single precision, as
    used by covariance_intersection_visitor and compute_covariance_intersection
    (fusing.hpp:74, 118, 119): LU decomposition with row exchanges, and the solution of
    two triangular systems for each column of the unit matrix. *)
From Coq Require Import ZArith List Arith Bool.
From Flocq Require Import IEEE754.BinarySingleNaN.
From Verif Require Import Float FloatDistance.
Import ListNotations.

(** Matrices are given by their entries, [m i j] being row i, column j; vectors likewise.
    Every operation is rounded to float (no fused multiply-add).  Simplified: functions
    of the index, not limited to the dimensions. *)
Section Lu.
Variable n : nat.

(** partial_lu_impl::unblocked_lu (Eigen, src/LU/PartialPivLU.h), one pass of its loop.
    lu.col(k).tail(rows-k).unaryExpr(Scoring()).maxCoeff(&row): the first of the entries
    with the largest absolute value *)
Definition row_of_biggest (lu : nat -> nat -> f32) (k : nat) : nat :=
  fold_left (fun best i => if Bltb (Babs (lu best k)) (Babs (lu i k)) then i else best) (seq (S k) (n - S k)) k.
(** lu.row(a).swap(lu.row(b)) *)
Definition swap_rows {E : Type} (a b : nat) (m : nat -> nat -> E) (i j : nat) : E :=
  m (if i =? a then b else if i =? b then a else i) j.
(** if (biggest != 0) { swap; lu.col(k).tail(rrows) /= lu.coeff(k,k); } *)
Definition lu_scale32 (lu : nat -> nat -> f32) (k row : nat) : nat -> nat -> f32 :=
  if Beqb (Babs (lu row k)) (B754_zero false) then lu
  else
    let swapped := swap_rows k row lu in
    fun i j => if (j =? k) && (k <? i) then f32_div (swapped i j) (swapped k k) else swapped i j.
(** lu.bottomRightCorner(rrows,rcols).noalias() -= lu.col(k).tail(rrows) * lu.row(k).tail(rcols) *)
Definition lu_update32 (lu : nat -> nat -> f32) (k i j : nat) : f32 :=
  if (k <? i) && (k <? j) then f32_sub (lu i j) (f32_mul (lu i k) (lu k j)) else lu i j.
(** The loop; the rows exchanged in each pass are returned, too (row_transpositions). *)
Fixpoint lu_loop32 (ks : list nat) (lu : nat -> nat -> f32) : (nat -> nat -> f32) * list (nat * nat) :=
  match ks with
  | [] => (lu, [])
  | k :: ks' =>
      let row := row_of_biggest lu k in
      let (result, transpositions) := lu_loop32 ks' (lu_update32 (lu_scale32 lu k row) k) in
      (result, (k, row) :: transpositions)
  end.
Definition partial_lu32 (m : nat -> nat -> f32) : (nat -> nat -> f32) * list (nat * nat) := lu_loop32 (seq 0 n) m.

(** permutationP() * rhs, the rows exchanged in the same order *)
Fixpoint permute_rows {E : Type} (transpositions : list (nat * nat)) (m : nat -> nat -> E) : nat -> nat -> E :=
  match transpositions with
  | [] => m
  | (a, b) :: transpositions' => permute_rows transpositions' (swap_rows a b m)
  end.

(** triangular_solve_matrix (Eigen, src/Core/products/TriangularSolverMatrix.h) for one
    column of the right-hand side; the matrix is small enough for a single panel.
    UnitLower: other(i,j) -= b * l(i), for the rows below.  (The multiplication by a = 1
    is left out, it is exact.) *)
Definition lower_step32 (lu : nat -> nat -> f32) (other : nat -> f32) (i r : nat) : f32 :=
  if i <? r then f32_sub (other r) (f32_mul (other i) (lu r i)) else other r.
(** Upper: a = 1 / tri(i,i); b = (other(i,j) *= a); the rows above get -= b * l(i) *)
Definition upper_step32 (lu : nat -> nat -> f32) (other : nat -> f32) (i r : nat) : f32 :=
  let a := f32_div (f32_of_Z 1) (lu i i) in
  let b := f32_mul (other i) a in
  if r =? i then b else if r <? i then f32_sub (other r) (f32_mul b (lu r i)) else other r.
(** PartialPivLU::_solve_impl, after the permutation *)
Definition solve32 (lu : nat -> nat -> f32) (rhs : nat -> f32) : nat -> f32 :=
  fold_left (upper_step32 lu) (rev (seq 0 n)) (fold_left (lower_step32 lu) (seq 0 n) rhs).

(** Identity, and inverse() (compute_inverse: matrix.partialPivLu().inverse(), which is
    solve(Identity)) *)
Definition identity32 (i j : nat) : f32 := if i =? j then f32_of_Z 1 else f32_of_Z 0.
Definition inverse32 (m : nat -> nat -> f32) (i j : nat) : f32 :=
  let (lu, transpositions) := partial_lu32 m in
  solve32 lu (fun r => permute_rows transpositions identity32 r j) i.
End Lu.
