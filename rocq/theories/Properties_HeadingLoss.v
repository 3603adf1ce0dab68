(** What prediction does to the uncertainty of the heading: property C96. *)
From Coq Require Import Reals Lra ZArith.
From mathcomp Require Import all_ssreflect all_algebra.
From Verif Require Import Base Uuid DynObj RealField PosDef Motion RealArith MotionThms StateVec StateVecThms
  CovInt CovIntThms PiBounds PiTight FusionThms Unscented UnscentedThms UnscentedShift UnscentedLoss UnscentedDefinite.
Import Order.Theory GRing.Theory Num.Theory.
Local Open Scope ring_scope.

(** C96: whatever the state, the time step and the parameters, there is a positive
    definite covariance with a heading variance of [(2 PI)^2 / q] that prediction
    turns into one in which the heading is known exactly: its row and column are
    zero, so that the result is singular ... *)
Theorem C96_lost_ctrv (s : ctrvR) (dt alpha beta kappa : R) : on_circle (v_yaw s) ->
  let q := (alpha * alpha * (5 + kappa))%coqR in (0 < q)%coqR ->
  exists P : 'M[R]_5, spd (P : 'M[R_rcfType]_5) /\ P (inord 3) (inord 3) = ((2 * PI) ^ 2 / q)%coqR /\
    let out := (@unscented_kalman_filter_predict 5 ctrv_type s P dt alpha beta kappa).2 in
    (forall k, out (inord 3) k = 0%coqR /\ out k (inord 3) = 0%coqR) /\ \det (out : 'M[R_realFieldType]_5) = 0.
Proof.
move=> C q q0; exists (whole_turns 5 q dt); split; first exact: whole_turns_spd.
have L := ctrv_lost dt beta C q0.
split; first by rewrite !mxE eqxx mulr1n inordK.
by split=> // ; apply: (row_zero_det (j := inord 3)) => k; have [] := L k.
Qed.
Theorem C96_lost_ctra (s : ctraR) (dt alpha beta kappa : R) : on_circle (a_yaw s) ->
  let q := (alpha * alpha * (6 + kappa))%coqR in (0 < q)%coqR ->
  exists P : 'M[R]_6, spd (P : 'M[R_rcfType]_6) /\ P (inord 3) (inord 3) = ((2 * PI) ^ 2 / q)%coqR /\
    let out := (@unscented_kalman_filter_predict 6 ctra_type s P dt alpha beta kappa).2 in
    (forall k, out (inord 3) k = 0%coqR /\ out k (inord 3) = 0%coqR) /\ \det (out : 'M[R_realFieldType]_6) = 0.
Proof.
move=> C q q0; exists (whole_turns 6 q dt); split; first exact: whole_turns_spd.
have L := ctra_lost dt beta C q0.
split; first by rewrite !mxE eqxx mulr1n inordK.
by split=> // ; apply: (row_zero_det (j := inord 3)) => k; have [] := L k.
Qed.
(** ... with the parameters of the library the predicted heading variance never
    exceeds 50, however uncertain the heading was ... *)
Theorem C96_bound :
  (forall s P dt, ((@default_unscented_transform 5 ctrv_type s P dt).2 (inord 3) (inord 3) <= 50)%coqR) /\
  (forall s P dt, ((@default_unscented_transform 6 ctra_type s P dt).2 (inord 3) (inord 3) <= 50)%coqR).
Proof. exact: default_bound. Qed.
(** ... and for independent components the loss needs a large variance: while it
    is below [PI^2 / q] the predicted covariance is positive definite ... *)
Theorem C96_kept_ctrv (s : ctrvR) (d : 'rV[R]_5) (dt alpha beta kappa : R) : on_circle (v_yaw s) ->
  let q := (alpha * alpha * (5 + kappa))%coqR in (0 < q)%coqR ->
  (0 <= 2 - 5 / q - alpha * alpha + beta)%coqR ->
  (forall i, (0 < d ord0 i)%coqR) -> (d ord0 (inord 3) < PI * PI / q)%coqR ->
  spd ((@unscented_kalman_filter_predict 5 ctrv_type s (diag_mx d) dt alpha beta kappa).2 : 'M[R_realFieldType]_5).
Proof.
move=> C q q0 w d0 d3; apply: ctrv_definite => //.
have := Rmult_lt_compat_l _ _ _ q0 d3; have -> // : (q * (PI * PI / q) = PI * PI)%coqR.
by field; exact: Rgt_not_eq.
Qed.
Theorem C96_kept_ctra (s : ctraR) (d : 'rV[R]_6) (dt alpha beta kappa : R) : on_circle (a_yaw s) ->
  let q := (alpha * alpha * (6 + kappa))%coqR in (0 < q)%coqR ->
  (0 <= 2 - 6 / q - alpha * alpha + beta)%coqR ->
  (forall i, (0 < d ord0 i)%coqR) -> (d ord0 (inord 3) < PI * PI / q)%coqR ->
  spd ((@unscented_kalman_filter_predict 6 ctra_type s (diag_mx d) dt alpha beta kappa).2 : 'M[R_realFieldType]_6).
Proof.
move=> C q q0 w d0 d3; apply: ctra_definite => //.
have := Rmult_lt_compat_l _ _ _ q0 d3; have -> // : (q * (PI * PI / q) = PI * PI)%coqR.
by field; exact: Rgt_not_eq.
Qed.
(** ... which for the library's parameters is a standard deviation of 63 degrees *)
Theorem C96_kept_default :
  (forall (s : ctrvR) (d : 'rV[R]_5) dt, on_circle (v_yaw s) -> (forall i, (0 < d ord0 i)%coqR) -> (d ord0 (inord 3) <= 1.2)%coqR ->
     spd ((@default_unscented_transform 5 ctrv_type s (diag_mx d) dt).2 : 'M[R_realFieldType]_5)) /\
  (forall (s : ctraR) (d : 'rV[R]_6) dt, on_circle (a_yaw s) -> (forall i, (0 < d ord0 i)%coqR) -> (d ord0 (inord 3) <= 1.2)%coqR ->
     spd ((@default_unscented_transform 6 ctra_type s (diag_mx d) dt).2 : 'M[R_realFieldType]_6)).
Proof.
have pb := pi_tight.
by split=> s d dt C d0 d3; rewrite /default_unscented_transform /unscented_transform;
  [apply: C96_kept_ctrv|apply: C96_kept_ctra] => //; try (simpl; lra); apply: (Rle_lt_trans _ _ _ d3);
  (apply: (Rmult_lt_reg_r 8); [lra|]); rewrite /Rdiv; nra.
Qed.
Print Assumptions C96_lost_ctrv.
Print Assumptions C96_lost_ctra.
Print Assumptions C96_bound.
Print Assumptions C96_kept_ctrv.
Print Assumptions C96_kept_ctra.
Print Assumptions C96_kept_default.
Definition C96_car : ctrvR := CtrvState (A := reals) 3%coqR 4%coqR 10%coqR (angleR 1%coqR) 0.2%coqR.
Example C96_case : on_circle (v_yaw C96_car) /\
  (@default_unscented_transform 5 ctrv_type C96_car (whole_turns 5 7 0.1) 0.1).2 (inord 3) (inord 3) = 0%coqR /\
  spd ((@default_unscented_transform 5 ctrv_type C96_car (diag_mx (const_mx 1%coqR)) 0.1).2 : 'M[R_realFieldType]_5).
Proof.
have C : on_circle (v_yaw C96_car) by exact: circle_of.
split=> //; split.
- have E : (1 * 1 * (5 + 2))%coqR = 7%coqR by lra.
  have q0 : (0 < 1 * 1 * (5 + 2))%coqR by lra.
  by have := ctrv_lost 0.1 1%coqR C q0; rewrite E => /(_ (inord 3)) [].
- by have [K _] := C96_kept_default; apply: K => // [i|]; rewrite !mxE; lra.
Qed.
