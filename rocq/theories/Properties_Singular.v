(** Property C112: covariances that are not positive definite. *)
From Coq Require Import Reals Lra.
From mathcomp Require Import all_ssreflect all_algebra.
From Verif Require Import Base Uuid DynObj RealField PosDef EigenLlt Motion RealArith MotionThms StateVec StateVecThms
  CovInt CovIntThms PiBounds FusionThms Unscented UnscentedThms UnscentedSeam UnscentedShift Propagation PredictionThms
  UnscentedLoss UnscentedDefinite UnscentedLinear UnscentedSingular.
Import Order.Theory GRing.Theory Num.Theory.
Local Open Scope ring_scope.

(** For a positive definite covariance the matrix that generate_sigma_points takes
    from LLT is its factor ... *)
Theorem C112_definite (F : rcfType) (n : nat) (P : 'M[F]_n) : P^T = P -> (forall v : 'cV[F]_n, v != 0 -> 0 < (v^T *m P *m v) 0 0) ->
  let L := llt_matrixL P in
  (forall i j : 'I_n, (i < j)%N -> L i j = 0) /\ (forall i, 0 < L i i) /\ L *m L^T = P.
Proof. by move=> sy pP; apply: llt_definite. Qed.
(** ... for every other one the work stops at some column: up to there the factor is
    right, from there on it is the covariance itself. *)
Theorem C112_stops (F : rcfType) (n : nat) (P : 'M[F]_n) : P^T = P -> ~ (forall v : 'cV[F]_n, v != 0 -> 0 < (v^T *m P *m v) 0 0) ->
  let L := llt_matrixL P in
  exists k : 'I_n,
    (forall i j : 'I_n, (i < j)%N -> L i j = 0) /\
    (forall j : 'I_n, (j < k)%N -> 0 < L j j) /\
    (forall i j : 'I_n, (j < k)%N -> (j <= i)%N -> (L *m L^T) i j = P i j) /\
    P k k <= \sum_(l < n | (l < k)%N) L k l ^+ 2 /\
    (forall i j : 'I_n, (k <= j)%N -> (j <= i)%N -> L i j = P i j).
Proof. by move=> sy nP; apply: llt_stops => // -[_ pP]; exact: nP. Qed.
(** Where it stops can be seen from any factorisation U D U^T with a unit lower
    triangular U: at the first pivot of D that is not positive. *)
Theorem C112_pivots (F : rcfType) (n : nat) (P U : 'M[F]_n) (D : 'rV[F]_n) (k : 'I_n) :
  (forall i j : 'I_n, (i < j)%N -> U i j = 0) -> (forall i, U i i = 1) -> P = U *m diag_mx D *m U^T ->
  (forall j : 'I_n, (j < k)%N -> 0 < D 0 j) -> D 0 k <= 0 ->
  let L := llt_matrixL P in
  (forall i j : 'I_n, (j < k)%N -> (j <= i)%N -> L i j = U i j * Num.sqrt (D 0 j)) /\
  (forall i j : 'I_n, (k <= j)%N -> (j <= i)%N -> L i j = P i j) /\
  (L *m L^T) k k = P k k - D 0 k + P k k ^+ 2.
Proof.
move=> lU dU EP Dp Dk L; have [H1 H2] := llt_ldl lU dU EP Dp Dk.
by split=> //; split=> //; exact: ldl_variance lU dU EP Dp Dk.
Qed.
(** Entries above the diagonal play no part in a prediction. *)
Theorem C112_upper n (ST : state_type n) (s : st_car ST) (P Q : 'M[R]_n) (dt alpha beta kappa : R) :
  (forall i j : 'I_n, (j <= i)%N -> P i j = Q i j) ->
  unscented_kalman_filter_predict s P dt alpha beta kappa = unscented_kalman_filter_predict s Q dt alpha beta kappa.
Proof. exact: predict_same_lower. Qed.
(** After no time at all a diagonal covariance keeps the entries left of the first
    one that is not positive; the others come back squared. *)
Theorem C112_diagonal_ctrv (s : ctrvR) (d : 'I_5 -> R) (k : 'I_5) (alpha beta kappa r : R) :
  let d' (j : 'I_5) := if (j < k)%N then d j else (d j * d j)%coqR in
  let h := get_angle (v_yaw s) in let q := (alpha * alpha * (5 + kappa))%coqR in
  on_circle (v_yaw s) -> (0 < q)%coqR -> (forall j : 'I_5, (j < k)%N -> (0 < d j)%coqR) -> (d k <= 0)%coqR ->
  (q * d' (inord 3) <= r * r)%coqR -> (0 <= r <= h)%coqR -> (h + r <= 3.14159265359)%coqR ->
  @unscented_kalman_filter_predict 5 ctrv_type s (diag_mx (\row_j d j)) 0%coqR alpha beta kappa =
  (s, diag_mx (\row_j d' j)).
Proof. exact: ctrv_still_diagonal. Qed.
Theorem C112_diagonal_ctra (s : ctraR) (d : 'I_6 -> R) (k : 'I_6) (alpha beta kappa r : R) :
  let d' (j : 'I_6) := if (j < k)%N then d j else (d j * d j)%coqR in
  let h := get_angle (a_yaw s) in let q := (alpha * alpha * (6 + kappa))%coqR in
  on_circle (a_yaw s) -> (0 < q)%coqR -> (forall j : 'I_6, (j < k)%N -> (0 < d j)%coqR) -> (d k <= 0)%coqR ->
  (q * d' (inord 3) <= r * r)%coqR -> (0 <= r <= h)%coqR -> (h + r <= 3.14159265359)%coqR ->
  @unscented_kalman_filter_predict 6 ctra_type s (diag_mx (\row_j d j)) 0%coqR alpha beta kappa =
  (s, diag_mx (\row_j d' j)).
Proof. exact: ctra_still_diagonal. Qed.
(** So "no time, no change" (C64) fails for a positive semidefinite covariance: if the
    first coordinate is known exactly, a variance of 9 in the second one becomes 81,
    and one of 1/100 in the third becomes 1/10000. *)
Theorem C112_semidefinite_refuted : exists (s : ctrvR) (P : 'M[R]_5),
  on_circle (v_yaw s) /\ P^T = P /\ (forall v : 'cV[R_realFieldType]_5, 0 <= (v^T *m (P : 'M[R_realFieldType]_5) *m v) 0 0) /\
  let Q := (@default_unscented_transform 5 ctrv_type s P 0%coqR).2 in
  P (inord 1) (inord 1) = 9%coqR /\ Q (inord 1) (inord 1) = 81%coqR /\
  P (inord 2) (inord 2) = (/ 100)%coqR /\ Q (inord 2) (inord 2) = (/ 10000)%coqR.
Proof. exact: semidefinite_changes. Qed.
(** The covariance of the test CtraPrediction, test_unscented_kalman_filter.cpp:79-84,
    gives the acceleration a variance of -0.8701.  Whatever the state, the time and the
    parameters, the predicted variance is what the test expects: 289.23456. *)
Definition ctra_test_covariance : 'M[R]_6 := square_of 6 (
  [:: [:: 0.0043; -0.0013; 0.0030; -0.0022; -0.0020; 0.5];
      [:: -0.0013; 0.0077; 0.0011; 0.0071; 0.0060; 0.123];
      [:: 0.0030; 0.0011; 0.0054; 0.0007; 0.0008; -0.34];
      [:: -0.0022; 0.0071; 0.0007; 0.0098; 0.0100; 0.009];
      [:: -0.0020; 0.0060; 0.0008; 0.0100; 0.0123; 0.0021];
      [:: 0.5; 0.123; -0.34; 0.009; 0.0021; -0.8701] ])%coqR.
Theorem C112_tested (s : ctraR) (dt alpha beta kappa : R) : (0 < alpha * alpha * (6 + kappa))%coqR ->
  let Q := (@unscented_kalman_filter_predict 6 ctra_type s ctra_test_covariance dt alpha beta kappa).2 in
  (Rabs (Q (inord 5) (inord 5) - 289.23456) < 0.0001)%coqR.
Proof. exact: ctra_tested. Qed.
Print Assumptions C112_pivots.
Print Assumptions C112_tested.
Print Assumptions C112_definite.
Print Assumptions C112_stops.
Print Assumptions C112_upper.
Print Assumptions C112_diagonal_ctrv.
Print Assumptions C112_diagonal_ctra.
Print Assumptions C112_semidefinite_refuted.
(** A negative variance in the third place, heading 1 rad: 1, 2, -3, 1/10, 1 comes back
    as 1, 2, 9, 1/100, 1. *)
Definition C112_entries (j : 'I_5) : R := nth 0%coqR [:: 1; 2; -3; / 10; 1]%coqR j.
Example C112_case : let s : ctrvR := CtrvState (A := reals) 3%coqR 4%coqR 5%coqR (angleR 1%coqR) (0.5)%coqR in
  ((forall j : 'I_5, (j < (inord 2 : 'I_5))%N -> (0 < C112_entries j)%coqR) /\ (C112_entries (inord 2) <= 0)%coqR) /\
  (@unscented_kalman_filter_predict 5 ctrv_type s (diag_mx (\row_j C112_entries j)) 0%coqR 1%coqR 1%coqR 2%coqR).2 =
  diag_mx (\row_(j < 5) nth 0%coqR [:: 1; 2; 9; / 100; 1]%coqR j).
Proof.
have [PB1 PB2] := pi_bounds; move=> s.
have H1 (j : 'I_5) : (j < (inord 2 : 'I_5))%N -> (0 < C112_entries j)%coqR.
  by rewrite inordK // /C112_entries; case: j => -[|[|//]] h /= _; lra.
have H2 : (C112_entries (inord 2) <= 0)%coqR by rewrite /C112_entries inordK //=; lra.
split=> //.
have Eh : get_angle (v_yaw s) = 1%coqR by apply: get_angle_canonical; lra.
rewrite (@C112_diagonal_ctrv s C112_entries (inord 2) 1%coqR 1%coqR 2%coqR 1%coqR) //=.
- congr diag_mx; apply/rowP => j; rewrite !mxE inordK // /C112_entries.
  by case: j => -[|[|[|[|[|//]]]]] h /=; lra.
- exact: circle_of.
- lra.
- by rewrite !inordK // /C112_entries inordK //=; lra.
- by rewrite Eh; lra.
- by rewrite Eh; lra.
Qed.
